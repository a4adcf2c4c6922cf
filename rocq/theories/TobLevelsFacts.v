(** Trees of boxes with levels of fixed width against exact ones. *)
From Coq Require Import List Arith ZArith NArith Lia Bool Permutation.
From Verif Require Import Base Tree Traversal TreeOfBoxes SpecTob TobFacts TobCoarsen TobThm TobLevels SpecTobLevels.
Import ListNotations.

Lemma wrap_small w z : 1 <= w -> (- 2 ^ Z.of_nat (w - 1) <= z < 2 ^ Z.of_nat (w - 1))%Z -> wrap w z = z.
Proof.
  intros Hw Hz. unfold wrap. replace (Z.of_nat w) with (Z.of_nat (w - 1) + 1)%Z at 1 by lia.
  rewrite Z.pow_add_r by lia. rewrite Z.mod_small; lia.
Qed.
Lemma pow2_in_small w k : k + 1 < w -> pow2_in w k = (2 ^ Z.of_nat k)%Z.
Proof.
  intros H. unfold pow2_in. apply wrap_small; [lia|].
  pose proof (Z.pow_pos_nonneg 2 (Z.of_nat k) ltac:(lia) ltac:(lia)).
  assert (2 ^ Z.of_nat k < 2 ^ Z.of_nat (w - 1))%Z by (apply Z.pow_lt_mono_r; lia). lia.
Qed.
Lemma pow2_in_top w : 1 <= w -> pow2_in w (w - 1) = (- 2 ^ Z.of_nat (w - 1))%Z.
Proof.
  intros H. unfold pow2_in, wrap. replace (Z.of_nat w) with (Z.of_nat (w - 1) + 1)%Z by lia.
  rewrite Z.pow_add_r by lia.
  replace (2 ^ Z.of_nat (w - 1) + 2 ^ Z.of_nat (w - 1))%Z with (1 * (2 ^ Z.of_nat (w - 1) * 2 ^ 1))%Z by lia.
  rewrite Z.mod_mul; [lia|]. pose proof (Z.pow_pos_nonneg 2 (Z.of_nat (w - 1)) ltac:(lia) ltac:(lia)). lia.
Qed.

Definition recenter (t : tob) (c : nat -> nat -> Z) : tob :=
  mkTob (tdim t) (tn t) (textent t) c (tparent t) (tchild t) (tlevel t) (tflags t) (tlevel_starts t).
Lemma recenter_self t : t = recenter t (tcenter t).
Proof. destruct t; reflexivity. Qed.
Definition agrees (t : tob) (c : nat -> nat -> Z) : Prop := forall b a, b < tn t -> c b a = tcenter t b a.

(** refining *)
Lemma refine_in_ok w L rf t c u : L + 3 <= w -> (forall b, b < tn t -> rf b = true -> tlevel t b < L) ->
  agrees t c -> apply_refine_in w rf (recenter t c) = Ok u ->
  exists t1 c1, apply_refine rf t = Ok t1 /\ u = recenter t1 c1 /\ agrees t1 c1.
Proof.
  intros Hw HL AG. unfold apply_refine_in, apply_refine.
  change (tn (recenter t c)) with (tn t). change (is_leaf (recenter t c)) with (is_leaf t).
  destruct (any _ _); [discriminate|].
  destruct (length (flagged (tn t) rf) =? 0) eqn:E0.
  - intros E; injection E as <-. exists t, c. auto.
  - intros E. injection E as <-.
    eexists. eexists. split; [reflexivity|]. split; [reflexivity|].
    intros b a Hb. cbn [tn tcenter] in Hb |- *. change (tnch (recenter t c)) with (tnch t).
    change (tdim (recenter t c)) with (tdim t). change (textent (recenter t c)) with (textent t).
    change (tlevel (recenter t c)) with (tlevel t). change (tcenter (recenter t c)) with c.
    destruct (b <? tn t) eqn:Eb; [apply AG; apply Nat.ltb_lt; auto|].
    apply Nat.ltb_ge in Eb.
    set (p := nth ((b - tn t) / tnch t) (flagged (tn t) rf) 0).
    assert (Hp : In p (flagged (tn t) rf)).
    { apply nth_In. apply Nat.div_lt_upper_bound; [|lia]. unfold tnch. apply Nat.pow_nonzero; lia. }
    unfold flagged in Hp. apply filter_In in Hp. destruct Hp as [Hp1 Hp2]. apply in_seq in Hp1.
    specialize (HL p ltac:(lia) Hp2). rewrite pow2_in_small by lia. rewrite AG by lia. reflexivity.
Qed.

Lemma coarsen_recenter s cf err t c u : apply_coarsen s cf err (recenter t c) = Ok u ->
  exists t2, apply_coarsen s cf err t = Ok t2 /\ u = recenter t2 c /\ tn t2 = tn t /\ tcenter t2 = tcenter t.
Proof.
  unfold apply_coarsen.
  change (tn (recenter t c)) with (tn t). change (is_leaf (recenter t c)) with (is_leaf t).
  change (tparent (recenter t c)) with (tparent t). change (tnch (recenter t c)) with (tnch t).
  change (tchild (recenter t c)) with (tchild t). change (tdim (recenter t c)) with (tdim t).
  change (textent (recenter t c)) with (textent t). change (tlevel (recenter t c)) with (tlevel t).
  change (tcenter (recenter t c)) with c.
  destruct (any _ _); [discriminate|]. destruct (any _ _); [discriminate|].
  destruct (_ =? 0); [intros E; injection E as <-; exists t; auto|].
  destruct (_ && err); [discriminate|]. intros E; injection E as <-.
  eexists. split; [reflexivity|]. repeat split; reflexivity.
Qed.

Lemma sort_prune_recenter s order t c : Permutation order (seq 0 (tn t)) -> agrees t c ->
  exists c', sort_and_prune s order (recenter t c) = recenter (sort_and_prune s order t) c' /\
             agrees (sort_and_prune s order t) c'.
Proof.
  intros P AG. unfold sort_and_prune, sort_by_level.
  change (tn (recenter t c)) with (tn t). change (tlevel (recenter t c)) with (tlevel t).
  destruct (negb (has_descent (tn t) (tlevel t))).
  - eexists. split; [reflexivity|]. intros b a Hb. cbn [tn tcenter recenter] in *. apply AG. lia.
  - eexists. split; [reflexivity|]. intros b a Hb. cbn [tn tcenter recenter] in *. apply AG.
    assert (In (nth b order 0) order).
    { apply nth_In. rewrite (Permutation_length P), seq_length. lia. }
    apply (Permutation_in _ P), in_seq in H. lia.
Qed.

(** whatever is reachable is, up to centers outside the tree, reachable exactly *)
Lemma reachable_in_exact w s L t : L + 3 <= w -> reachable_in w s L t ->
  exists t0 c, reachable s L t0 /\ t = recenter t0 c /\ agrees t0 c.
Proof.
  intros Hw R. induction R as [d lo hi t Hd E|t t1 t' rf cf err order R IH HL U A OK].
  - exists t, (tcenter t). split; [eapply reach_root; eauto|]. split; [apply recenter_self|]. intros b a _; reflexivity.
  - destruct IH as [t0 [c [R0 [-> AG]]]]. change (tn (recenter t0 c)) with (tn t0) in HL.
    change (tlevel (recenter t0 c)) with (tlevel t0) in HL.
    unfold unsorted_result_in in U. unfold refine_and_coarsen_in in OK.
    change (tn (recenter t0 c)) with (tn t0) in U, OK.
    destruct (any (tn t0) (fun b => rf b && cf b)) eqn:EA; [discriminate|].
    destruct (apply_refine_in w rf (recenter t0 c)) as [v| |] eqn:EV; try discriminate. cbn [bind] in U, OK.
    destruct (refine_in_ok w L rf t0 c v Hw HL AG EV) as [v0 [c1 [EV0 [-> AG1]]]].
    rewrite U in OK. cbn [bind] in OK. injection OK as <-.
    destruct (coarsen_recenter _ _ _ _ _ _ U) as [v2 [EU2 [-> [N2 C2]]]].
    assert (AG2 : agrees v2 c1). { intros b a Hb. rewrite C2. apply AG1. lia. }
    destruct A as [A1 A2]. change (tn (recenter v2 c1)) with (tn v2) in A1, A2.
    change (tlevel (recenter v2 c1)) with (tlevel v2) in A2.
    destruct (sort_prune_recenter s order v2 c1 A1 AG2) as [c3 [E3 AG3]].
    exists (sort_and_prune s order v2), c3. split; [|split; auto].
    eapply (reach_step s L t0 v2 _ rf cf err order); eauto.
    + unfold unsorted_result. rewrite EV0. exact EU2.
    + split; auto.
    + unfold refine_and_coarsen. rewrite EA, EV0. cbn [bind]. rewrite EU2. reflexivity.
Qed.

Lemma recenter_in_box t c b x : agrees t c -> b < tn t -> (in_box (recenter t c) b x <-> in_box t b x).
Proof.
  intros AG Hb. unfold in_box. change (tdim (recenter t c)) with (tdim t).
  change (textent (recenter t c)) with (textent t). change (tlevel (recenter t c)) with (tlevel t).
  change (tcenter (recenter t c)) with c. split; intros H a Ha; specialize (H a Ha).
  - rewrite <- (AG b a) by auto. auto.
  - rewrite (AG b a) by auto. auto.
Qed.
Lemma recenter_wf t c : agrees t c -> wf_tob t -> wf_tob (recenter t c).
Proof.
  intros AG W. constructor.
  - apply (wt_nonempty t W).
  - apply (wt_root t W).
  - intros m b Hb Hm Hc. destruct (wt_child t W m b Hb Hm Hc) as [H1 [H2 [H3 H4]]].
    split; [exact H1|]. split; [exact H2|]. split; [exact H3|]. intros a Ha.
    change (c (tchild t m b) a = (c b a + morton_sign (tdim t) m a * (textent t / 2 ^ Z.of_nat (tlevel t (tchild t m b) + 1)))%Z).
    rewrite (AG _ a H1), (AG b a Hb). apply H4; auto.
  - apply (wt_full t W).
  - apply (wt_inj t W).
  - apply (wt_parent t W).
  - apply (wt_sorted t W).
  - apply (wt_flags t W).
Qed.

(** Refining boxes of level w - 3: children get the center that belongs to the opposite child. *)
Lemma refine_top w rf t u b m a : 3 <= w -> b < tn t -> rf b = true -> tlevel t b = w - 3 -> m < 2 ^ tdim t ->
  a < tdim t -> (2 ^ Z.of_nat (w - 1) | textent t)%Z ->
  apply_refine_in w rf t = Ok u ->
  tchild u m b <> 0 /\ tlevel u (tchild u m b) = w - 2 /\
  tcenter u (tchild u m b) a =
    (tcenter t b a - morton_sign (tdim t) m a * (textent t / 2 ^ Z.of_nat (w - 1)))%Z.
Proof.
  intros Hw Hb Hrf Hl Hm Ha [k Hk]. unfold apply_refine_in. destruct (any _ _); [discriminate|].
  assert (Hin : In b (flagged (tn t) rf)). { apply filter_In. split; auto. apply in_seq; lia. }
  destruct (length (flagged (tn t) rf) =? 0) eqn:E0.
  { apply Nat.eqb_eq, length_zero_iff_nil in E0. rewrite E0 in Hin. destruct Hin. }
  intros E; injection E as <-. cbn [tchild tlevel tcenter].
  destruct (index_of b (flagged (tn t) rf)) as [j|] eqn:EI.
  2:{ exfalso. clear -Hin EI. induction (flagged (tn t) rf) as [|x l IH]; [destruct Hin|].
      simpl in EI. destruct (x =? b) eqn:Ex; [discriminate|]. destruct Hin as [->|Hin]; [rewrite Nat.eqb_refl in Ex; discriminate|].
      destruct (index_of b l); [discriminate|]. auto. }
  assert (EJ : nth j (flagged (tn t) rf) 0 = b).
  { clear -EI. revert j EI. induction (flagged (tn t) rf) as [|x l IH]; intros j EI; [discriminate|].
    simpl in EI. destruct (x =? b) eqn:Ex; [injection EI as <-; apply Nat.eqb_eq; auto|].
    destruct (index_of b l) as [i|]; [|discriminate]. injection EI as <-. simpl. auto. }
  assert (Hn : tnch t <> 0) by (unfold tnch; apply Nat.pow_nonzero; lia).
  assert (D : (tn t + tnch t * j + m - tn t) / tnch t = j).
  { replace (tn t + tnch t * j + m - tn t) with (m + j * tnch t) by lia. rewrite Nat.div_add by auto.
    rewrite Nat.div_small; [lia|auto]. }
  assert (M : (tn t + tnch t * j + m - tn t) mod tnch t = m).
  { replace (tn t + tnch t * j + m - tn t) with (m + j * tnch t) by lia. rewrite Nat.mod_add by auto.
    apply Nat.mod_small; auto. }
  assert (B : (tn t + tnch t * j + m <? tn t) = false) by (apply Nat.ltb_ge; lia).
  rewrite B, D, M, EJ. split; [pose proof Hb; lia|]. split; [lia|].
  replace (S (tlevel t b + 1)) with (w - 1) by lia. rewrite pow2_in_top by lia. rewrite Hk.
  pose proof (Z.pow_pos_nonneg 2 (Z.of_nat (w - 1)) ltac:(lia) ltac:(lia)).
  rewrite Z.div_mul by lia.
  replace (k * 2 ^ Z.of_nat (w - 1) * morton_sign (tdim t) m a)%Z
    with ((- (k * morton_sign (tdim t) m a)) * (- 2 ^ Z.of_nat (w - 1)))%Z by ring.
  rewrite Z.div_mul by lia. ring.
Qed.
