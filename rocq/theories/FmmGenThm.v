(** What every target receives from the FMM driver with an arbitrary expansion wrangler. *)
From Coq Require Import List Arith ZArith NArith Lia Bool Permutation.
From Verif Require Import Base Tree Spec TreeFacts Traversal SpecTraversal TraversalLists Coverage
  CoverageThm ListFacts LevelStarts MergeFacts Fmm SpecFmm FmmFacts FmmThm FmmGen SpecFmmGen FmmGenFacts.
Import ListNotations.

Lemma op_rot {X : cmonoid} (a m b : X) : op (op a m) b = op (op a b) m.
Proof. rewrite <- !op_assoc. f_equal. apply op_comm. Qed.

(** ** Evaluation at a target particle i owned by box T *)
Section At.
Context {Wt : Type} {M L V : cmonoid} (R : routines Wt M L V) (LIN : linear R).
Variable t : tree.
Hypothesis W : wf_tree t.
Variable p : particles.
Variable starts : nat -> nat.
Hypothesis LS : level_sorted t starts.
Variable w : nat -> Wt.
Notation lev := (box_level t).
Variables i T : nat.
Hypothesis owner : forall b, b < nboxes t ->
  (covers (box_target_starts p b) (box_target_counts_nonchild p b) i = true <-> b = T).

Lemma owner_if {A} b (x y : A) : b < nboxes t ->
  (if covers (box_target_starts p b) (box_target_counts_nonchild p b) i then x else y) = if b =? T then x else y.
Proof.
  intros Hb. specialize (owner b Hb). destruct (covers _ _ _), (Nat.eqb_spec b T); auto.
  - exfalso. apply n, owner. auto.
  - exfalso. assert (false = true) by (apply owner; auto). discriminate.
Qed.

Lemma eval_direct_gen_at tb c : (forall b, In b tb -> b < nboxes t) ->
  eval_direct_gen _ _ _ _ R p tb c w i = msum (map (direct_from _ _ _ _ R p w i) (entries tb c T)).
Proof.
  intros Hr. rewrite entries_msum. unfold eval_direct_gen.
  rewrite (fold_out_add _ (fun x => box_target_starts p (nth x tb 0))
     (fun x => box_target_counts_nonchild p (nth x tb 0))). rewrite op_0. apply msum_map_ext.
  intros x Hx. apply in_seq in Hx. rewrite owner_if by (apply Hr, nth_In; lia).
  destruct (_ =? T); auto. rewrite <- (op_0 _ (msum _)), <- fold_op.
  generalize (@e0 V) at 1 2. generalize (csr_get c x). intros l. induction l as [|s l IH]; intros e; simpl; auto.
  rewrite <- IH. f_equal. destruct (Nat.eqb_spec (box_source_counts_nonchild p s) 0) as [E|]; auto.
  unfold direct_from, source_slice. rewrite E. simpl. rewrite op_0_r. auto.
Qed.

Lemma eval_multipoles_gen_at bl mp : (forall lc b, In lc bl -> In b (fst lc) -> b < nboxes t) ->
  eval_multipoles_gen _ _ _ _ R p starts bl mp i =
  msum (map (fun q => msum (map (fun A => m2p R (fst q) A i (view_get starts mp (fst q) A))
                                (entries (fst (snd q)) (snd (snd q)) T)))
            (combine (seq 0 (length bl)) bl)).
Proof.
  intros Hr. unfold eval_multipoles_gen.
  assert (Hc : forall q b, In q (combine (seq 0 (length bl)) bl) -> In b (fst (snd q)) -> b < nboxes t).
  { intros [l lc] b Hq. apply in_combine_r in Hq. simpl. apply Hr. auto. }
  revert Hc. generalize (combine (seq 0 (length bl)) bl). intros ql Hc.
  match goal with |- fold_left ?f ql _ i = ?rhs =>
    assert (G : forall out, fold_left f ql out i = op (out i) rhs); [|rewrite G; apply op_0] end.
  induction ql as [|q ql IH]; intros out; cbn [fold_left map msum fold_right].
  - rewrite op_0_r. auto.
  - rewrite IH by (intros; eapply Hc; simpl; eauto).
    rewrite (fold_out_add _ (fun x => box_target_starts p (nth x (fst (snd q)) 0))
     (fun x => box_target_counts_nonchild p (nth x (fst (snd q)) 0))).
    rewrite <- op_assoc. f_equal. f_equal. rewrite entries_msum. apply msum_map_ext.
    intros x Hx. apply in_seq in Hx. rewrite owner_if by (eapply Hc; [left; eauto|apply nth_In; lia]).
    destruct (_ =? T); auto. rewrite fold_op, op_0. auto.
Qed.

Lemma eval_locals_gen_at ls tb loc : level_delimited t ls tb -> NoDup tb ->
  (forall b, In b tb -> b < nboxes t) -> In T tb ->
  eval_locals_gen _ _ _ _ R t p starts ls tb loc i = l2p R (lev T) T i (at_box t starts loc T).
Proof.
  intros LD ND Hr HT. unfold eval_locals_gen. rewrite fold_nested. fold (by_levels t ls tb).
  rewrite (fold_out_add _ (fun q => box_target_starts p (snd q)) (fun q => box_target_counts_nonchild p (snd q))
    (fun q i => l2p R (fst q) (snd q) i (view_get starts loc (fst q) (snd q)))). rewrite op_0.
  rewrite (msum_map_single _ _ (lev T, T)).
  - cbn [fst snd]. rewrite owner_if, Nat.eqb_refl by auto. reflexivity.
  - apply (NoDup_map_inv snd). apply by_levels_nodup; auto.
  - apply (by_levels_in t W); auto.
  - intros [l b] Hq Hne. apply (by_levels_in t W) in Hq; auto. cbn [fst snd] in *. destruct Hq as [Hq ->].
    rewrite owner_if by auto. destruct (Nat.eqb_spec b T) as [->|]; auto. congruence.
Qed.
End At.

(** ** Regrouping by source box and route *)
(** all routes from S to T found in the lists, with multiplicity *)
Definition routes (t : tree) (tr : traversal) (T S : nat) : list route :=
  repeat Direct (count S (list1_of tr T) + count S (list3_close_of tr T) + count S (list4_close_of tr T))
  ++ concat (map (fun B => concat (map (fun A => repeat (ViaM2L B A) (count A (list2_of tr B)))
                                       (ancestors_or_self t S))) (ancestors_or_self t T))
  ++ concat (map (fun A => repeat (ViaM2P A) (count A (list3_of tr T))) (ancestors_or_self t S))
  ++ concat (map (fun B => repeat (ViaP2L B) (count S (list4_of tr B))) (ancestors_or_self t T)).

Lemma length_concat_map {A B} (f : A -> list B) l : length (concat (map f l)) = nsum (map (fun x => length (f x)) l).
Proof. induction l; simpl; auto. rewrite app_length. lia. Qed.
Lemma routes_length t tr T S : length (routes t tr T S) = coverage t tr T S.
Proof.
  unfold routes, coverage. rewrite !app_length, !length_concat_map, repeat_length.
  rewrite (map_ext (fun B => length (concat (map (fun A => repeat (ViaM2L B A) (count A (list2_of tr B))) (ancestors_or_self t S))))
    (fun B => nsum (map (fun A => count A (list2_of tr B)) (ancestors_or_self t S)))).
  2:{ intros B. rewrite length_concat_map. f_equal. apply map_ext. intros. apply repeat_length. }
  rewrite (map_ext (fun A => length (repeat (ViaM2P A) (count A (list3_of tr T)))) (fun A => count A (list3_of tr T)))
    by (intros; apply repeat_length).
  rewrite (map_ext (fun B => length (repeat (ViaP2L B) (count S (list4_of tr B)))) (fun B => count S (list4_of tr B)))
    by (intros; apply repeat_length).
  lia.
Qed.
Lemma in_repeat {A} (x y : A) n : In x (repeat y n) <-> x = y /\ 0 < n.
Proof.
  split; [intros H; split; [eapply repeat_spec; eauto|destruct n; simpl in *; [tauto|lia]]|].
  intros [-> H]. destruct n; [lia|]. left. auto.
Qed.
Lemma routes_in t tr T S r : In r (routes t tr T S) <-> listed t tr T S r.
Proof.
  unfold routes. rewrite !in_app_iff, in_repeat, !in_concat_map.
  split.
  - intros [[-> H]|[[B [HB H]]|[[A [HA H]]|[B [HB H]]]]]; simpl.
    + rewrite !count_In. lia.
    + apply in_concat_map in H. destruct H as [A [HA H]]. apply in_repeat in H. destruct H as [-> H].
      simpl. rewrite (count_In A (list2_of _ _)). auto.
    + apply in_repeat in H. destruct H as [-> H]. simpl. rewrite (count_In A (list3_of _ _)). auto.
    + apply in_repeat in H. destruct H as [-> H]. simpl. rewrite (count_In S (list4_of _ _)). auto.
  - destruct r; simpl.
    + rewrite !count_In. intros H. left. split; auto. lia.
    + intros [H1 [H2 H3]]. right. left. exists B. split; auto. apply in_concat_map. exists A. split; auto.
      apply in_repeat. split; auto. apply count_In; auto.
    + intros [H1 H2]. right. right. left. exists A. split; auto. apply in_repeat. split; auto. apply count_In; auto.
    + intros [H1 H2]. right. right. right. exists B. split; auto. apply in_repeat. split; auto. apply count_In; auto.
Qed.

Section Regroup.
Context {V : cmonoid}.
Variable t : tree.
Hypothesis W : wf_tree t.
Notation n := (nboxes t).

Lemma sum_routes tr T S (f : route -> V) :
  msum (map f (routes t tr T S)) =
  op (nrep (count S (list1_of tr T) + count S (list3_close_of tr T) + count S (list4_close_of tr T)) (f Direct))
  (op (msum (map (fun B => msum (map (fun A => nrep (count A (list2_of tr B)) (f (ViaM2L B A)))
                                  (ancestors_or_self t S))) (ancestors_or_self t T)))
  (op (msum (map (fun A => nrep (count A (list3_of tr T)) (f (ViaM2P A))) (ancestors_or_self t S)))
      (msum (map (fun B => nrep (count S (list4_of tr B)) (f (ViaP2L B))) (ancestors_or_self t T))))).
Proof.
  assert (MR : forall r k, msum (map f (repeat r k)) = nrep k (f r)).
  { intros r k. unfold nrep. f_equal. induction k; simpl; congruence. }
  unfold routes. rewrite !map_app, !msum_app, MR, !msum_map_concat, !map_map.
  f_equal. f_equal; [|f_equal].
  - apply msum_map_ext. intros B _. rewrite msum_map_concat, map_map. apply msum_map_ext. intros A _. apply MR.
  - apply msum_map_ext. intros A _. apply MR.
  - apply msum_map_ext. intros A _. apply MR.
Qed.

Lemma anc_range s x : s < n -> In x (ancestors_or_self t s) -> x < n.
Proof. intros Hs Hx. apply in_chain in Hx; auto. destruct Hx as [k [_ ->]]. apply anc_lt; auto. Qed.

(** Σ_{A in l} Σ_s [A above s] f s A  =  Σ_s Σ_{A above s} (count A l) f s A *)
Lemma regroup_mp l (f : nat -> nat -> V) : (forall x, In x l -> x < n) ->
  msum (map (fun A => msum (map (fun s => if in_dec Nat.eq_dec A (ancestors_or_self t s) then f s A else e0) (seq 0 n))) l) =
  msum (map (fun s => msum (map (fun A => nrep (count A l) (f s A)) (ancestors_or_self t s))) (seq 0 n)).
Proof.
  intros Hl. rewrite msum_swap. apply msum_map_ext. intros s Hs. apply in_seq in Hs.
  rewrite (msum_by_count (fun A => if in_dec Nat.eq_dec A (ancestors_or_self t s) then f s A else e0) l n) by auto.
  rewrite (msum_by_count (fun A => nrep (count A l) (f s A)) (ancestors_or_self t s) n) by (intros; apply (anc_range s); auto; lia).
  apply msum_map_ext. intros A _. destruct (in_dec _ _ _) as [i|i].
  - rewrite (count_NoDup_In (ancestors_or_self t s)), nrep_1; auto. apply chain_NoDup; auto; lia.
  - rewrite nrep_0. apply count_notIn in i. rewrite i. reflexivity.
Qed.
End Regroup.

Lemma map_nth_seq_gen {A B} (f : A -> B) (l : list A) d :
  map (fun k => f (nth k l d)) (seq 0 (length l)) = map f l.
Proof.
  induction l as [|x l IH]; simpl; auto. f_equal. rewrite <- seq_shift, map_map. auto.
Qed.

Section Total.
Context {Wt : Type} {M L V : cmonoid} (R : routines Wt M L V) (LIN : linear R).
Variable t : tree.
Hypothesis W : wf_tree t.
Variable p : particles.
Variable starts : nat -> nat.
Hypothesis LS : level_sorted t starts.
Variable w : nat -> Wt.
Notation lev := (box_level t).
Variables i T : nat.
Hypothesis owner : forall b, b < nboxes t ->
  (covers (box_target_starts p b) (box_target_counts_nonchild p b) i = true <-> b = T).

Definition box_contribution (s : nat) (r : route) : V :=
  msum (map (fun j => contribution R t T i s j (w j) r) (source_slice p s)).

Lemma raise_own k s : raise R t k s (own R t p w s) =
  msum (map (fun j => raise R t k s (p2m R (lev s) s j (w j))) (source_slice p s)).
Proof.
  unfold own. rewrite (msum_hom (raise R t k s) (raise_0 R LIN t k s) (raise_op R LIN t k s)), map_map. reflexivity.
Qed.

Definition loc_value (B : nat) (l : L) : V := l2p R (lev T) T i (lower R t (lev T - lev B) T l).
Lemma loc_value_0 B : loc_value B e0 = e0.
Proof. unfold loc_value. rewrite lower_0 by auto. apply (l2p_0 R LIN). Qed.
Lemma loc_value_op B x y : loc_value B (op x y) = op (loc_value B x) (loc_value B y).
Proof. unfold loc_value. rewrite lower_op by auto. apply (l2p_op R LIN). Qed.

Record gen_ready (tr : traversal) : Prop := {
  gr_ready : fmm_ready t tr;
  gr_tb_levels : level_delimited t (level_start_target_box_nrs tr) (target_boxes tr);
  gr_nl3 : length (from_sep_smaller_by_level tr) = nlevels t;
  gr_l1 : forall x, In x (list1_of tr T) -> x < nboxes t;
  gr_l3c : forall x, In x (list3_close_of tr T) -> x < nboxes t;
  gr_l4c : forall x, In x (list4_close_of tr T) -> x < nboxes t;
  gr_l4 : forall B x, In B (ancestors_or_self t T) -> In x (list4_of tr B) -> x < nboxes t;
  gr_l2 : forall B x, In B (ancestors_or_self t T) -> In x (list2_of tr B) ->
            x < nboxes t /\ lev x = lev B /\ 2 <= lev x;
  gr_l3 : forall l x, l < nlevels t -> In x (list3_level_of tr l T) -> x < nboxes t /\ lev x = l /\ 2 <= lev x;
  gr_anc : forall B, In B (ancestors_or_self t T) -> In B (target_or_target_parent_boxes tr)
}.

Lemma combine_seq_map {A} (l : list A) (d : A) : combine (seq 0 (length l)) l = map (fun k => (k, nth k l d)) (seq 0 (length l)).
Proof.
  assert (G : forall (l : list A) s, combine (seq s (length l)) l = map (fun k => (k, nth (k - s) l d)) (seq s (length l))).
  { clear. induction l as [|x l IH]; intros s; simpl; auto. rewrite Nat.sub_diag. f_equal. rewrite IH.
    apply map_ext_in. intros k Hk. apply in_seq in Hk. replace (k - s) with (S (k - S s)) by lia. reflexivity. }
  rewrite G. apply map_ext. intros k. rewrite Nat.sub_0_r. auto.
Qed.

(** what box s contributes along a route, if [mown] are the boxes' own multipole expansions *)
Definition part (mown : nat -> M) (s : nat) (r : route) : V :=
  match r with
  | Direct => direct_from _ _ _ _ R p w i s
  | ViaM2L B A => loc_value B (m2l R (lev B) A B (raise R t (lev s - lev A) s (mown s)))
  | ViaM2P A => m2p R (lev A) A i (raise R t (lev s - lev A) s (mown s))
  | ViaP2L B => loc_value B (msum (map (fun j => p2l R (lev B) B j (w j)) (source_slice p s)))
  end.
(** multipole expansions that are used for targets of T *)
Definition uses_multipole (tr : traversal) (x : nat) : Prop :=
  (exists B, In B (ancestors_or_self t T) /\ In x (list2_of tr B)) \/ In x (list3_of tr T).

Theorem potentials_gen_parts tr comm mown :
  gen_ready tr -> In T (target_boxes tr) ->
  (forall x, x < nboxes t -> 2 <= lev x -> uses_multipole tr x ->
     at_box t starts (comm (coarsen_multipoles_gen _ _ _ _ R t starts (level_start_source_parent_box_nrs tr)
       (source_parent_boxes tr) (form_multipoles_gen _ _ _ _ R t p starts (level_start_source_box_nrs tr) (source_boxes tr) w))) x
     = msub R t mown x) ->
  potentials_gen _ _ _ _ R t p starts tr comm w i =
  msum (map (fun s => msum (map (part mown s) (routes t tr T s))) (seq 0 (nboxes t))).
Proof.
  intros G HT HM. unfold potentials_gen. cbv zeta.
  set (mp := comm _) in *.
  destruct G as [[R1 R2 R3 R4 R5 R6 R7 R8] G1 G2 G3 G4 G5 G6 G7 G8 G9].
  set (pot4 := match from_sep_close_bigger tr with Some _ => _ | None => _ end).
  set (loc := refine_locals_gen _ _ _ _ _ _ _ _ _ _).
  unfold out_plus at 1. rewrite (eval_locals_gen_at R t W p starts i T owner) by auto.
  (* direct interactions *)
  assert (ED : forall c, eval_direct_gen _ _ _ _ R p (target_boxes tr) c w i =
    msum (map (fun s => part mown s Direct) (entries (target_boxes tr) c T))).
  { intros c. apply (eval_direct_gen_at R t p w i T owner); auto. }
  assert (EC : forall l, (forall x, In x l -> x < nboxes t) -> msum (map (fun s => part mown s Direct) l) =
    msum (map (fun s => nrep (count s l) (part mown s Direct)) (seq 0 (nboxes t)))).
  { intros l Hl. apply msum_by_count. auto. }
  (* multipoles *)
  assert (E3 : eval_multipoles_gen _ _ _ _ R p starts (from_sep_smaller_by_level tr) mp i =
    msum (map (fun s => msum (map (fun A => nrep (count A (list3_of tr T)) (part mown s (ViaM2P A)))
                                  (ancestors_or_self t s))) (seq 0 (nboxes t)))).
  { rewrite (eval_multipoles_gen_at R t p starts i T owner) by auto.
    rewrite <- regroup_mp; auto.
    2:{ intros x Hx. unfold list3_of in Hx. apply in_concat_map in Hx. destruct Hx as [lc [Hlc Hx]].
        destruct (In_nth _ _ ([], csr_of []) Hlc) as [l [Hl El]]. apply (G8 l); [lia|].
        unfold list3_level_of. rewrite El. auto. }
    unfold list3_of. rewrite msum_map_concat, map_map.
    rewrite (combine_seq_map _ ([], csr_of [])), map_map.
    rewrite <- (map_nth_seq_gen (fun lc => msum (map (fun A => msum (map (fun s => if in_dec Nat.eq_dec A (ancestors_or_self t s)
       then part mown s (ViaM2P A) else e0) (seq 0 (nboxes t)))) (entries (fst lc) (snd lc) T)))
       (from_sep_smaller_by_level tr) ([], csr_of [])).
    apply msum_map_ext. intros l Hl. apply in_seq in Hl. cbn [fst snd].
    apply msum_map_ext. intros A HA.
    destruct (G8 l A) as [HA1 [HA2 HA3]]; [lia|exact HA|].
    assert (U : uses_multipole tr A).
    { right. unfold list3_of. apply in_concat_map. exists (nth l (from_sep_smaller_by_level tr) ([], csr_of [])).
      split; [apply nth_In; lia|exact HA]. }
    assert (HMA := HM A HA1 HA3 U). unfold at_box in HMA. rewrite HA2 in HMA. rewrite HMA.
    unfold msub. rewrite (msum_hom (m2p R l A i) (m2p_0 R LIN _ _ _) (m2p_op R LIN _ _ _)), map_map.
    apply msum_map_ext. intros s _. destruct (in_dec _ _ _); [|apply (m2p_0 R LIN)].
    simpl. rewrite HA2. auto. }
  (* potentials before the locals *)
  assert (E4 : pot4 i = msum (map (fun s => op (nrep (count s (list1_of tr T) + count s (list3_close_of tr T) + count s (list4_close_of tr T)) (part mown s Direct))
     (msum (map (fun A => nrep (count A (list3_of tr T)) (part mown s (ViaM2P A))) (ancestors_or_self t s)))) (seq 0 (nboxes t)))).
  { rewrite msum_map_op, <- E3.
    rewrite (msum_map_ext (fun s => nrep (count s (list1_of tr T) + count s (list3_close_of tr T) + count s (list4_close_of tr T)) (part mown s Direct))
      (fun s => op (op (nrep (count s (list1_of tr T)) (part mown s Direct)) (nrep (count s (list3_close_of tr T)) (part mown s Direct)))
                   (nrep (count s (list4_close_of tr T)) (part mown s Direct)))) by (intros; rewrite !nrep_add; auto).
    rewrite !msum_map_op, <- !EC by auto.
    unfold pot4, list1_of, list3_close_of, list4_close_of.
    set (d1 := msum (map _ (entries _ (neighbor_source_boxes tr) _))).
    set (m3 := eval_multipoles_gen _ _ _ _ _ _ _ _ _ _).
    destruct (from_sep_close_smaller tr) as [c3|], (from_sep_close_bigger tr) as [c4|]; unfold out_plus;
    rewrite !ED; cbn [map]; change (msum (@nil V)) with (@e0 V); rewrite ?op_0_r; fold d1; fold m3; clearbody d1 m3;
    [rewrite (op_rot d1 m3), op_rot|apply op_rot|apply op_rot|]; reflexivity. }
  rewrite E4.
  (* locals *)
  assert (E5 : l2p R (lev T) T i (at_box t starts loc T) =
    msum (map (fun s => op
      (msum (map (fun B => msum (map (fun A => nrep (count A (list2_of tr B)) (part mown s (ViaM2L B A)))
                                  (ancestors_or_self t s))) (ancestors_or_self t T)))
      (msum (map (fun B => nrep (count s (list4_of tr B)) (part mown s (ViaP2L B))) (ancestors_or_self t T))))
      (seq 0 (nboxes t)))).
  { unfold loc. rewrite (refine_locals_gen_at R LIN t W starts LS) by auto.
    rewrite (msum_hom (l2p R (lev T) T i) (l2p_0 R LIN _ _ _) (l2p_op R LIN _ _ _)), map_map.
    rewrite msum_map_op.
    rewrite (msum_swap (fun s B => msum (map (fun A => nrep (count A (list2_of tr B)) (part mown s (ViaM2L B A))) (ancestors_or_self t s)))).
    rewrite (msum_swap (fun s B => nrep (count s (list4_of tr B)) (part mown s (ViaP2L B)))).
    rewrite <- msum_map_op. apply msum_map_ext. intros B HB.
    fold (loc_value B (at_box t starts (storage_plus L
      (multipole_to_local_gen Wt M L V R t starts (level_start_target_or_target_parent_box_nrs tr)
         (target_or_target_parent_boxes tr) (from_sep_siblings tr) mp)
      (form_locals_gen Wt M L V R t p starts (level_start_target_or_target_parent_box_nrs tr)
         (target_or_target_parent_boxes tr) (from_sep_bigger tr) w)) B)).
    assert (HB2 := G9 B HB).
    assert (SP : forall a b, at_box t starts (storage_plus L a b) B = op (at_box t starts a B) (at_box t starts b B)) by reflexivity.
    rewrite SP. clear SP.
    rewrite (m2l_gen_at R t W starts LS) by auto. rewrite (form_locals_gen_at R t W p starts LS) by auto.
    fold (list2_of tr B) (list4_of tr B).
    rewrite loc_value_op. f_equal.
    - rewrite <- regroup_mp; auto. 2:{ intros x Hx. apply (G7 B x HB Hx). }
      rewrite (msum_hom (loc_value B) (loc_value_0 B) (loc_value_op B)), map_map.
      apply msum_map_ext. intros A HA. destruct (G7 B A HB HA) as [HA1 [HA2 HA3]].
      assert (HMA := HM A HA1 HA3 (or_introl (ex_intro _ B (conj HB HA)))). unfold at_box in HMA. rewrite HA2 in HMA. rewrite HMA. unfold msub.
      rewrite (msum_hom (m2l R (lev B) A B) (m2l_0 R LIN _ _ _) (m2l_op R LIN _ _ _)), map_map.
      rewrite (msum_hom (loc_value B) (loc_value_0 B) (loc_value_op B)), map_map.
      apply msum_map_ext. intros s _.
      destruct (in_dec _ _ _); [|rewrite (m2l_0 R LIN); apply loc_value_0]. reflexivity.
    - rewrite (msum_hom (loc_value B) (loc_value_0 B) (loc_value_op B)), map_map.
      rewrite <- (msum_by_count (fun s => part mown s (ViaP2L B)) (list4_of tr B)) by (intros x; apply G6; auto).
      reflexivity. }
  rewrite E5, <- msum_map_op. apply msum_map_ext. intros s _. rewrite sum_routes.
  rewrite <- !op_assoc. f_equal. rewrite !op_assoc. f_equal. apply op_comm.
Qed.

Lemma part_own s r : part (own R t p w) s r = box_contribution s r.
Proof.
  unfold box_contribution. destruct r; cbn [part contribution].
  - reflexivity.
  - rewrite raise_own, (msum_hom (m2l R (lev B) A B) (m2l_0 R LIN _ _ _) (m2l_op R LIN _ _ _)), map_map.
    rewrite (msum_hom (loc_value B) (loc_value_0 B) (loc_value_op B)), map_map. reflexivity.
  - rewrite raise_own, (msum_hom (m2p R (lev A) A i) (m2p_0 R LIN _ _ _) (m2p_op R LIN _ _ _)), map_map. reflexivity.
  - rewrite (msum_hom (loc_value B) (loc_value_0 B) (loc_value_op B)), map_map. reflexivity.
Qed.
Theorem potentials_gen_at tr comm :
  gen_ready tr -> In T (target_boxes tr) ->
  (forall x, x < nboxes t -> 2 <= lev x ->
     at_box t starts (comm (coarsen_multipoles_gen _ _ _ _ R t starts (level_start_source_parent_box_nrs tr)
       (source_parent_boxes tr) (form_multipoles_gen _ _ _ _ R t p starts (level_start_source_box_nrs tr) (source_boxes tr) w))) x
     = msub R t (own R t p w) x) ->
  potentials_gen _ _ _ _ R t p starts tr comm w i =
  msum (map (fun s => msum (map (box_contribution s) (routes t tr T s))) (seq 0 (nboxes t))).
Proof.
  intros G HT HM. rewrite (potentials_gen_parts tr comm (own R t p w)); auto.
  apply msum_map_ext. intros s _. apply msum_map_ext. intros r _. apply part_own.
Qed.
End Total.

(** ** Traversals as built, or with merged close lists *)
Lemma merge_gen_ready t T tr tr' : merge_close_lists tr = Some tr' -> gen_ready t T tr -> gen_ready t T tr'.
Proof.
  intros Mg [R0 G1 G2 G3 G4 G5 G6 G7 G8 G9]. pose proof (merge_ready t _ _ Mg R0) as R1.
  unfold merge_close_lists in Mg. destruct (from_sep_close_smaller tr) as [cs|] eqn:E1; [|discriminate].
  destruct (from_sep_close_bigger tr) as [cb|] eqn:E2; [|discriminate]. injection Mg as <-.
  split; auto; try (intros x []).
  intros x Hx. apply count_In in Hx. unfold list1_of in Hx. cbn [target_boxes neighbor_source_boxes] in Hx.
  rewrite merge_entries_count in Hx. unfold list1_of, list3_close_of, list4_close_of in *. rewrite E1 in G4. rewrite E2 in G5.
  destruct (count x (entries (target_boxes tr) (neighbor_source_boxes tr) T)) eqn:C1; [|apply G3, count_In; lia].
  destruct (count x (entries (target_boxes tr) cs T)) eqn:C2; [|apply G4, count_In; lia].
  apply G5, count_In; lia.
Qed.

Section BuiltGen.
Variable t : tree.
Hypothesis W : wf_tree t.
Hypothesis F : wf_flags t.
Variable P : trav_params.
Hypothesis WP : wf_params t P.
Hypothesis LS : level_sorted t (level_start_box_nrs P).

Lemma built_gen_ready tr T : build_traversal t P = Some tr -> In T (target_boxes tr) -> gen_ready t T tr.
Proof.
  intros H0 HT. split.
  + eapply built_ready; eauto.
  + rewrite (tr_eq t W P WP tr H0). cbn. unfold find_target_boxes, find_source_boxes.
    destruct (sources_are_targets P); apply filter_delimited; auto.
  + rewrite (tr_eq t W P WP tr H0). cbn [from_sep_smaller_by_level the_traversal].
    rewrite map_length, seq_length. auto.
  + intros x Hx. eapply list1_spec in Hx; eauto. tauto.
  + intros x. eapply close3_range; eauto.
  + intros x. eapply close4_range; eauto.
  + intros A x HA Hx. eapply list4_of_in_range; eauto. eapply chain_ttpb; eauto.
  + intros A x HA Hx. assert (HA2 : In A (target_or_target_parent_boxes tr)) by (eapply chain_ttpb; eauto).
    assert (L2 : 2 <= box_level t x) by (eapply list2_level; eauto).
    eapply list2_spec in Hx; eauto. intuition.
  + intros l x Hl Hx. assert (Hr : x < nboxes t) by (eapply list3_level_range; eauto).
    assert (L2 : 2 <= box_level t x) by (eapply list3_level2; eauto).
    split; auto. split; auto. eapply list3_level_in in Hx; eauto. tauto.
  + intros A HA. eapply chain_ttpb; eauto.
Qed.

Variable tr : traversal.
Hypothesis B : built_or_merged t P tr.

Lemma bm_ready T : In T (target_boxes tr) -> gen_ready t T tr.
Proof.
  intros HT. destruct B as [tr0 [H0 [->|Mg]]]; [apply built_gen_ready; auto|].
  eapply merge_gen_ready; eauto. apply built_gen_ready; auto.
  unfold merge_close_lists in Mg. destruct (from_sep_close_smaller tr0); [|discriminate].
  destruct (from_sep_close_bigger tr0); [|discriminate]. injection Mg as <-. auto.
Qed.

Lemma bm_boxes : target_boxes tr = find_target_boxes t P /\ source_boxes tr = find_source_boxes t P /\
  source_parent_boxes tr = find_source_parent_boxes t P /\
  level_start_source_box_nrs tr = extract_level_starts t (level_start_box_nrs P) (find_source_boxes t P) /\
  level_start_source_parent_box_nrs tr = extract_level_starts t (level_start_box_nrs P) (find_source_parent_boxes t P).
Proof.
  destruct B as [tr0 [H0 [->|Mg]]]; [rewrite (tr_eq t W P WP tr0 H0); repeat (split; [reflexivity|]); reflexivity|].
  unfold merge_close_lists in Mg. destruct (from_sep_close_smaller tr0); [|discriminate].
  destruct (from_sep_close_bigger tr0); [|discriminate]. injection Mg as <-.
  cbn. rewrite (tr_eq t W P WP tr0 H0). repeat (split; [reflexivity|]). reflexivity.
Qed.

Hypothesis WE : targets_have_extent (extents P) = true -> wf_extent (extents P).

Lemma bm_coverage T s : In T (target_boxes tr) -> s < nboxes t -> is_source t s = true -> coverage t tr T s = 1.
Proof.
  intros HT Hs Ss. destruct bm_boxes as [E _].
  assert (C0 : forall tr0, build_traversal t P = Some tr0 -> coverage t tr0 T s = 1).
  { intros tr0 H0. rewrite (tr_eq t W P WP tr0 H0). apply coverage_one; auto. rewrite <- E. auto. }
  destruct B as [tr0 [H0 [->|Mg]]]; auto. rewrite (merge_coverage t tr0 tr T s Mg). auto.
Qed.

Lemma one_route T s : In T (target_boxes tr) -> s < nboxes t -> is_source t s = true ->
  exists r, routes t tr T s = [r].
Proof.
  intros HT Hs Ss. pose proof (bm_coverage T s HT Hs Ss) as C. rewrite <- routes_length in C.
  destruct (routes t tr T s) as [|r [|r' l]]; simpl in C; try lia. eauto.
Qed.

Hypothesis M1 : forall b, source_boxes_mask P b = true.
Hypothesis M2 : forall b, source_parent_boxes_mask P b = true.

Lemma multipoles_gen_complete {Wt : Type} {M L V : cmonoid} (R : routines Wt M L V) (LIN : linear R) p w :
  (forall b, b < nboxes t -> 0 < box_source_counts_nonchild p b -> is_source t b = true) ->
  forall x, x < nboxes t -> 2 <= box_level t x ->
  at_box t (level_start_box_nrs P)
    (coarsen_multipoles_gen _ _ _ _ R t (level_start_box_nrs P) (level_start_source_parent_box_nrs tr) (source_parent_boxes tr)
       (form_multipoles_gen _ _ _ _ R t p (level_start_box_nrs P) (level_start_source_box_nrs tr) (source_boxes tr) w)) x
  = msub R t (own R t p w) x.
Proof.
  intros HF x Hx L2. destruct bm_boxes as [_ [E1 [E2 [E3 E4]]]]. rewrite E1, E2, E3, E4.
  assert (HW : forall s, s < nboxes t -> is_source t s = false -> own R t p w s = e0).
  { intros s Hs E. unfold own, source_slice. destruct (box_source_counts_nonchild p s) eqn:C; auto.
    rewrite HF in E by (auto; lia). discriminate. }
  rewrite (coarsen_multipoles_gen_at R LIN t W (level_start_box_nrs P) LS _ _ (own R t p w)); auto.
  - destruct (Nat.leb_spec 2 (box_level t x)); auto. lia.
  - apply NoDup_filter, seq_NoDup.
  - intros y Hy. apply filter_In in Hy. destruct Hy as [Hy _]. apply in_seq in Hy. lia.
  - apply filter_delimited; auto.
  - intros y Hy. rewrite (form_multipoles_gen_at R t W p (level_start_box_nrs P) LS); auto.
    + destruct (in_dec _ _ _) as [i|i]; auto. symmetry. apply HW; auto.
      destruct (is_source t y) eqn:E; auto. exfalso. apply i. apply filter_In. rewrite E, M1. split; auto.
      apply in_seq. lia.
    + apply filter_delimited; auto.
    + apply NoDup_filter, seq_NoDup.
    + intros z Hz. apply filter_In in Hz. destruct Hz as [Hz _]. apply in_seq in Hz. lia.
  - intros y m Hy Ly Hni Hm Hc. apply msum_map_0. intros s Hs. apply in_seq in Hs.
    destruct (in_dec _ _ _) as [i|i]; auto.
    destruct (is_source t s) eqn:E; [|rewrite HW by (auto; lia); apply (raise_0 R LIN)].
    exfalso. apply Hni. apply filter_In. rewrite M2, andb_true_r.
    split; [apply in_seq; lia|].
    apply in_chain in i; auto; [|lia]. destruct i as [k [Hk Ek]].
    destruct (child_facts t W m y Hy Hm Hc) as [Pc [Lc _]].
    assert (Kk : k = S (box_level t y)). { rewrite Ek in Lc. rewrite anc_level in Lc by (auto; lia). auto. }
    rewrite <- Pc, Ek, Kk. rewrite parent_anc by lia. eapply (hsc_anc t W (well_sep_is_n_away P)); eauto; first [apply WP|lia].
Qed.

(** the sum over all sources, one route each *)
Theorem fmm_gen_total {Wt : Type} {M L V : cmonoid} (R : routines Wt M L V) (LIN : linear R) p w
    (source_box : nat -> nat) (route_of : nat -> route) i T :
  owned_once t (box_source_starts p) (box_source_counts_nonchild p) (nsources p) ->
  (forall b, b < nboxes t -> 0 < box_source_counts_nonchild p b -> is_source t b = true) ->
  (forall b, b < nboxes t ->
    (covers (box_target_starts p b) (box_target_counts_nonchild p b) i = true <-> b = T)) ->
  In T (target_boxes tr) ->
  (forall k, k < nsources p -> source_box k < nboxes t /\ In k (source_slice p (source_box k))) ->
  (forall k, k < nsources p -> listed t tr T (source_box k) (route_of k)) ->
  potentials_gen _ _ _ _ R t p (level_start_box_nrs P) tr (fun m => m) w i =
  msum (map (fun k => contribution R t T i (source_box k) k (w k) (route_of k)) (seq 0 (nsources p))).
Proof.
  intros OS HF OW HT SB RO.
  rewrite (potentials_gen_at R LIN t W p (level_start_box_nrs P) LS w i T OW).
  2: apply bm_ready; auto. 2: auto.
  2:{ intros. apply multipoles_gen_complete; auto. }
  rewrite <- (msum_perm _ _ (Permutation_map _ OS)). rewrite msum_map_concat, map_map.
  apply msum_map_ext. intros s Hs. apply in_seq in Hs.
  destruct (Nat.eq_dec (box_source_counts_nonchild p s) 0) as [C0|C0].
  { rewrite C0. simpl. apply msum_map_0. intros r _. unfold box_contribution, source_slice. rewrite C0. reflexivity. }
  assert (Ss : is_source t s = true) by (apply HF; lia).
  destruct (one_route T s HT ltac:(lia) Ss) as [r Er]. rewrite Er. simpl. rewrite op_0_r.
  unfold box_contribution, source_slice. apply msum_map_ext. intros k Hk.
  assert (Hkn : k < nsources p).
  { assert (Hin : In k (seq 0 (nsources p))).
    { eapply Permutation_in; [exact OS|]. apply in_concat_map. exists s. split; [apply in_seq; lia|auto]. }
    apply in_seq in Hin. lia. }
  assert (Es : source_box k = s).
  { destruct (SB k Hkn) as [S1 S2]. unfold source_slice in S2.
    assert (ND : NoDup (concat (map (fun b => seq (box_source_starts p b) (box_source_counts_nonchild p b)) (seq 0 (nboxes t))))).
    { eapply Permutation_NoDup; [symmetry; exact OS|]. apply seq_NoDup. }
    eapply (NoDup_concat_at _ (source_box k) s k ND); rewrite ?map_length, ?seq_length; auto; try lia;
    rewrite nth_map_seq; auto; lia. }
  rewrite Es. pose proof (RO k Hkn) as Hr. rewrite Es in Hr. apply routes_in in Hr. rewrite Er in Hr.
  destruct Hr as [->|[]]. auto.
Qed.
End BuiltGen.
