(** Trees with levels of fixed width: well-formedness, tiling, the mesh of the leaves. *)
From Coq Require Import List Arith ZArith NArith Lia Bool Permutation Sorted.
From Verif Require Import Base Tree Traversal TreeOfBoxes SpecTob TobFacts TobCoarsen TobThm TobLevels SpecTobLevels TobLevelsFacts.
Import ListNotations.

Section Run.
Variables (w s L : nat) (t : tob).
Hypothesis Hw : L + 3 <= w.
Hypothesis Hs : L < s.
Hypothesis RE : reachable_in w s L t.
Hypothesis FU : fine_unit L t.

Lemma run_facts : wf_tob t /\ (forall b, b < tn t -> tlevel t b <= L) /\
  (forall x, in_box t 0 x -> exists l, (l < tn t /\ leaf t l /\ in_box t l x) /\
     forall l', l' < tn t /\ leaf t l' /\ in_box t l' x -> l' = l) /\
  (forall b x, b < tn t -> in_box t b x -> in_box t 0 x).
Proof.
  destruct (reachable_in_exact w s L t Hw RE) as [t0 [c [R0 [E AG]]]]. revert FU. rewrite E. intros F.
  change (fine_unit L (recenter t0 c)) with (fine_unit L t0) in F.
  destruct (reachable_inv s L t0 Hs R0 F) as [W S].
  pose proof (wl_n _ _ _ _ W) as N.
  split; [apply recenter_wf; auto; eapply inv_wf; eauto|].
  split; [intros b Hb; apply (wl_level _ _ _ _ W b Hb eq_refl)|]. split.
  - intros x Hx. apply recenter_in_box in Hx; auto.
    destruct (tiles s L t0 W x Hx) as [l [[H1 [H2 H3]] U]]. exists l. split.
    + split; [exact H1|]. split; [exact H2|]. apply recenter_in_box; auto.
    + intros l' [G1 [G2 G3]]. apply recenter_in_box in G3; auto.
  - intros b x Hb Hx. apply recenter_in_box in Hx; auto. apply recenter_in_box; auto.
    apply (in_root_of s L t0 W b x); auto.
Qed.

Lemma leaf_boxes_spec b : In b (leaf_boxes t) <-> b < tn t /\ leaf t b.
Proof.
  unfold leaf_boxes, is_leaf. rewrite filter_In, in_seq.
  split.
  - intros [H1 H2]. assert (Hb : b < tn t) by lia. split; auto. apply (wt_flags t (proj1 run_facts) b Hb); auto.
  - intros [H1 H2]. split; [lia|]. apply (wt_flags t (proj1 run_facts) b H1); auto.
Qed.

Lemma filter_seq_sorted p n a : StronglySorted lt (filter p (seq a n)).
Proof.
  revert a. induction n as [|n IH]; intros a; simpl; [constructor|].
  destruct (p a); auto. constructor; auto. apply Forall_forall. intros x Hx.
  apply filter_In in Hx. destruct Hx as [Hx _]. apply in_seq in Hx. lia.
Qed.
Lemma leaf_boxes_sorted : StronglySorted lt (leaf_boxes t).
Proof. apply filter_seq_sorted. Qed.

Variable nodes : list (nat -> Z).
Hypothesis NO : corner_signs (tdim t) nodes.
Let M := fst (mesh_from_leaves w nodes t).
Definition half (b : nat) : Z := (textent t / 2 ^ Z.of_nat (tlevel t b + 1))%Z.

Lemma nodes_len : length nodes = tnch t.
Proof. apply NO. Qed.

Lemma seq_concat k n : concat (map (fun e => seq (e * k) k) (seq 0 n)) = seq 0 (n * k).
Proof.
  induction n as [|n IH]; [reflexivity|]. rewrite seq_S, map_app, concat_app, IH. simpl map. simpl concat.
  rewrite app_nil_r. replace (S n * k) with (n * k + k) by lia. rewrite seq_app. reflexivity.
Qed.
Lemma vertices_len : length (vertices M) = length (leaf_boxes t) * tnch t.
Proof.
  unfold M, mesh_from_leaves. cbn [fst vertices]. induction (leaf_boxes t) as [|b l IH]; [reflexivity|].
  simpl. rewrite app_length, map_length, IH, nodes_len. reflexivity.
Qed.
Lemma indices_concat : concat (vertex_indices M) = seq 0 (length (vertices M)).
Proof. rewrite vertices_len. unfold M, mesh_from_leaves. cbn [fst vertex_indices]. apply seq_concat. Qed.
Lemma indices_len : length (vertex_indices M) = length (leaf_boxes t).
Proof. unfold M, mesh_from_leaves. cbn [fst vertex_indices]. rewrite map_length, seq_length. reflexivity. Qed.

Lemma nth_concat_blocks {A B} (f : B -> list A) k l e j d0 (b0 : B) :
  (forall b, length (f b) = k) -> e < length l -> j < k ->
  nth (e * k + j) (concat (map f l)) d0 = nth j (f (nth e l b0)) d0.
Proof.
  intros Hk. revert e. induction l as [|b l IH]; intros e He Hj; [simpl in He; lia|].
  simpl map. simpl concat. destruct e as [|e].
  - rewrite app_nth1 by (rewrite Hk; lia). reflexivity.
  - rewrite app_nth2 by (rewrite Hk; lia). rewrite Hk. replace (S e * k + j - k) with (e * k + j) by lia.
    simpl nth. apply IH; auto. simpl in He. lia.
Qed.

Lemma nth_map_in {A B} (f : A -> B) l e d0 a0 : e < length l -> nth e (map f l) d0 = f (nth e l a0).
Proof. intros H. rewrite (nth_indep _ d0 (f a0)) by (rewrite map_length; auto). apply map_nth. Qed.

(** the vertices of element e are those of its leaf *)
Lemma element_eq e : e < length (leaf_boxes t) ->
  element M e = map (fun p a => (tcenter t (nth e (leaf_boxes t) 0%nat) a + half (nth e (leaf_boxes t) 0%nat) * p a)%Z) nodes.
Proof.
  intros He. unfold element, M, mesh_from_leaves. cbn [fst vertices vertex_indices].
  rewrite (nth_map_in _ _ _ _ 0) by (rewrite seq_length; auto).
  rewrite seq_nth by auto. simpl (0 + e).
  assert (HR : (textent t / 2 / pow2_in w (tlevel t (nth e (leaf_boxes t) 0%nat)) = half (nth e (leaf_boxes t) 0%nat))%Z).
  { assert (Hl : nth e (leaf_boxes t) 0 < tn t).
    { apply leaf_boxes_spec. apply nth_In; auto. }
    pose proof (proj1 (proj2 run_facts) _ Hl). rewrite pow2_in_small by lia. unfold half.
    pose proof (Z.pow_pos_nonneg 2 (Z.of_nat (tlevel t (nth e (leaf_boxes t) 0))) ltac:(lia) ltac:(lia)).
    rewrite Z.div_div by lia. f_equal. rewrite Nat2Z.inj_add, Z.pow_add_r by lia. lia. }
  rewrite <- HR. clear HR.
  set (F := fun b => map (fun p a => (tcenter t b a + textent t / 2 / pow2_in w (tlevel t b) * p a)%Z) nodes).
  assert (HF : forall b, length (F b) = tnch t) by (intros b; unfold F; rewrite map_length; apply nodes_len).
  change (map (fun v => nth v (concat (map F (leaf_boxes t))) (fun _ => 0%Z)) (seq (e * tnch t) (tnch t)) = F (nth e (leaf_boxes t) 0)).
  apply (nth_ext _ _ (fun _ => 0%Z) (fun _ => 0%Z)); [rewrite map_length, seq_length, HF; reflexivity|].
  intros j Hj. rewrite map_length, seq_length in Hj.
  rewrite (nth_map_in _ _ _ _ 0) by (rewrite seq_length; auto).
  rewrite seq_nth by auto. apply nth_concat_blocks; auto.
Qed.

Lemma half_pos b : b < tn t -> (0 < half b)%Z.
Proof.
  intros Hb. pose proof (proj1 (proj2 run_facts) _ Hb) as Hl. destruct FU as [F1 [k Hk]]. unfold half.
  replace (L + 1) with ((tlevel t b + 1) + (L - tlevel t b)) in Hk by lia.
  rewrite Nat2Z.inj_add, Z.pow_add_r in Hk by lia.
  pose proof (Z.pow_pos_nonneg 2 (Z.of_nat (tlevel t b + 1)) ltac:(lia) ltac:(lia)) as P1.
  pose proof (Z.pow_pos_nonneg 2 (Z.of_nat (L - tlevel t b)) ltac:(lia) ltac:(lia)) as P2.
  rewrite Hk. replace (k * (2 ^ Z.of_nat (tlevel t b + 1) * 2 ^ Z.of_nat (L - tlevel t b)))%Z
    with ((k * 2 ^ Z.of_nat (L - tlevel t b)) * 2 ^ Z.of_nat (tlevel t b + 1))%Z by ring.
  rewrite Z.div_mul by lia. nia.
Qed.

Lemma element_corners e : e < length (leaf_boxes t) ->
  let b := nth e (leaf_boxes t) 0 in
  length (element M e) = 2 ^ tdim t /\
  (forall v, In v (element M e) -> forall a, a < tdim t ->
     v a = (tcenter t b a - half b)%Z \/ v a = (tcenter t b a + half b)%Z) /\
  (forall f : nat -> bool, exists v, In v (element M e) /\ forall a, a < tdim t ->
     v a = if f a then (tcenter t b a + half b)%Z else (tcenter t b a - half b)%Z).
Proof.
  intros He b. rewrite (element_eq e He). fold b. split; [rewrite map_length; apply NO|]. split.
  - intros v Hv a Ha. apply in_map_iff in Hv. destruct Hv as [p [<- Hp]].
    destruct (proj1 (proj2 NO) p Hp a Ha) as [-> | ->]; [right|left]; ring.
  - intros f. destruct (proj2 (proj2 NO) f) as [j [Hj HP]].
    exists ((fun p a => (tcenter t b a + half b * p a)%Z) (nth j nodes (fun _ => 0%Z))). split.
    + apply in_map_iff. eexists. split; [reflexivity|]. apply nth_In. destruct NO as [-> _]. auto.
    + intros a Ha. cbv beta. rewrite (HP a Ha). destruct (f a); ring.
Qed.

Lemma element_spans e x : e < length (leaf_boxes t) ->
  (spanned (tdim t) (element M e) x <-> in_box t (nth e (leaf_boxes t) 0) x).
Proof.
  intros He. destruct (element_corners e He) as [_ [C1 C2]]. set (b := nth e (leaf_boxes t) 0) in *.
  assert (Hb : b < tn t). { apply leaf_boxes_spec. apply nth_In; auto. }
  pose proof (half_pos b Hb) as HP. unfold spanned, in_box. fold (half b). split; intros H a Ha; specialize (H a Ha).
  - destruct H as [[v [Hv H1]] [v' [Hv' H2]]].
    destruct (C1 v Hv a Ha) as [E|E], (C1 v' Hv' a Ha) as [E'|E']; rewrite E in H1; rewrite E' in H2; lia.
  - split.
    + destruct (C2 (fun _ => false)) as [v [Hv E]]. exists v. split; auto. rewrite (E a Ha). lia.
    + destruct (C2 (fun _ => true)) as [v [Hv E]]. exists v. split; auto. rewrite (E a Ha). lia.
Qed.

Lemma mesh_tiles x : in_box t 0 x -> exists e, (e < length (leaf_boxes t) /\ spanned (tdim t) (element M e) x) /\
  forall e', e' < length (leaf_boxes t) /\ spanned (tdim t) (element M e') x -> e' = e.
Proof.
  intros Hx. destruct (proj1 (proj2 (proj2 run_facts)) x Hx) as [l [[H1 [H2 H3]] U]].
  assert (Hin : In l (leaf_boxes t)) by (apply leaf_boxes_spec; auto).
  destruct (In_nth _ _ 0 Hin) as [e [He El]]. exists e. split.
  - split; auto. apply element_spans; auto. rewrite El. auto.
  - intros e' [He' Sp]. apply element_spans in Sp; auto.
    assert (In (nth e' (leaf_boxes t) 0) (leaf_boxes t)) by (apply nth_In; auto).
    apply leaf_boxes_spec in H. specialize (U (nth e' (leaf_boxes t) 0) (conj (proj1 H) (conj (proj2 H) Sp))).
    assert (ND : NoDup (leaf_boxes t)) by (apply NoDup_filter, seq_NoDup).
    apply (proj1 (NoDup_nth (leaf_boxes t) 0) ND e' e); auto. congruence.
Qed.
End Run.
