(** All ranks of a distributed evaluation. *)
From Coq Require Import List Arith ZArith NArith Lia Bool Permutation.
From Verif Require Import Base Tree Spec TreeFacts Traversal SpecTraversal TraversalLists Coverage CoverageThm ListFacts
  LevelStarts MergeFacts Fmm SpecFmm FmmFacts FmmThm Tools ToolsFacts Partition PartitionFacts LocalTree SpecDist LocalFacts
  Distributed DistGeom DistRank PropsPartition PropsTools.
From Verif Require TreeBuild ArrayFacts Comm PropsComm.
Import ListNotations.

(** who uses the multipole expansion of a box *)
Lemma users_spec nb size masks b r : (Z.of_nat size <= 2 ^ 31)%Z -> b < nb ->
  (In r (box_to_user_ranks nb size masks b) <-> r < size /\ masks r b = true).
Proof.
  intros HS Hb. unfold box_to_user_ranks.
  assert (C := C46_lists_of_mask 32 nb size 1 nb (fun i => if masks (i / nb) (i mod nb) then 1%Z else 0%Z) ltac:(lia) HS).
  destruct (compress_matrix _ _ _ _ _ _) as [starts lists]. destruct C as [_ [_ [_ C]]]. destruct (C b Hb) as [_ E]. rewrite E.
  rewrite map_map, (map_ext _ (fun x => x)) by (intros; apply Nat2Z.id). rewrite map_id, filter_In, in_seq.
  replace ((1 * b + nb * r) / nb) with r by (rewrite Nat.mul_1_l, Nat.mul_comm, Nat.div_add, Nat.div_small by lia; lia).
  replace ((1 * b + nb * r) mod nb) with b by (rewrite Nat.mul_1_l, Nat.mul_comm, Nat.mod_add, Nat.mod_small by lia; lia).
  split.
  - intros [H1 H2]. split; [lia|]. destruct (masks r b); [reflexivity|discriminate].
  - intros [H1 H2]. split; [lia|]. rewrite H2. auto.
Qed.

(** gathering: if all values written for an index agree *)
Lemma gather_at {A} size idx pot old i (v : A) :
  (exists r k, r < size /\ k < length (idx r) /\ nth k (idx r) 0 = i) ->
  (forall r k, r < size -> k < length (idx r) -> nth k (idx r) 0 = i -> pot r k = v) ->
  gather_potentials size idx pot old i = v.
Proof.
  intros EX AL. unfold gather_potentials.
  assert (E : forall l g, fold_left (fun g r => TreeBuild.scatter (map (fun k => (nth k (idx r) 0, pot r k)) (seq 0 (length (idx r)))) g) l g =
     TreeBuild.scatter (concat (map (fun r => map (fun k => (nth k (idx r) 0, pot r k)) (seq 0 (length (idx r)))) l)) g).
  { induction l as [|r l IH]; intros g; cbn [fold_left map concat]; [reflexivity|]. rewrite IH, ArrayFacts.scatter_app. reflexivity. }
  rewrite E. apply ArrayFacts.scatter_in_eq.
  - destruct EX as [r [k [R [K I]]]]. apply in_concat_map. exists r. split; [apply in_seq; lia|]. apply in_map_iff. exists k.
    rewrite (AL r k) by auto. rewrite I. split; auto. apply in_seq. lia.
  - intros v' H. apply in_concat_map in H. destruct H as [r [R H]]. apply in_map_iff in H. destruct H as [k [H K]]. injection H as H1 H2.
    apply in_seq in R. apply in_seq in K. rewrite <- H2. apply AL; auto; lia.
Qed.

Section All.
Variable t : tree.
Hypothesis W : wf_tree t.
Hypothesis F : wf_flags t.
Variable p : particles.
Hypothesis HP : wf_particles t p.
Variables source_cumul target_cumul : nat -> nat.
Hypothesis N : nested_ranges t (box_target_starts p) (box_target_counts_nonchild p) target_cumul.
Variable P : trav_params.
Hypothesis WP : wf_params t P.
Hypothesis LS : level_sorted t (level_start_box_nrs P).
Hypothesis LC : PropsComm.levels_cover (nboxes t) (nlevels t) (level_start_box_nrs P).
Hypothesis WE : targets_have_extent (extents P) = true -> wf_extent (extents P).
Hypothesis MIN : targets_have_extent (extents P) = true -> from_sep_smaller_min_nsources_cumul (extents P) = 0.
Hypothesis M1 : forall b, source_boxes_mask P b = true.
Hypothesis M2 : forall b, source_parent_boxes_mask P b = true.
Hypothesis SAT : sources_are_targets P = true -> forall b, b < nboxes t -> is_target t b = true -> 0 < box_target_counts_nonchild p b.
Variable tr : traversal.
Hypothesis Htr : build_traversal t P = Some tr.
Variable size : nat.
Hypothesis SZ : (Z.of_nat size <= 2 ^ 31)%Z.
Variable boxes : nat -> list nat.
Hypothesis ONCE : every_box_once t size boxes.
Variable merge : bool.

Lemma boxes_range r b : r < size -> In b (boxes r) -> b < nboxes t.
Proof.
  intros Hr Hb. assert (X : In b (seq 0 (nboxes t))); [|apply in_seq in X; lia].
  eapply Permutation_in; [exact ONCE|]. apply in_concat_map. exists r. split; auto. apply in_seq. lia.
Qed.
Lemma boxes_owner b : b < nboxes t -> exists r, r < size /\ In b (boxes r) /\ forall r', r' < size -> In b (boxes r') -> r' = r.
Proof.
  intros Hb. assert (X : In b (concat (map boxes (seq 0 size)))).
  { eapply Permutation_in; [symmetry; exact ONCE|]. apply in_seq. lia. }
  apply in_concat_map in X. destruct X as [r [Hr X]]. apply in_seq in Hr. exists r. split; [lia|]. split; auto.
  assert (ND : NoDup (concat (map boxes (seq 0 size)))) by (eapply Permutation_NoDup; [symmetry; exact ONCE|apply seq_NoDup]).
  intros r' Hr' X'. apply (NoDup_concat_at _ r' r b ND); rewrite ?map_length, ?seq_length; try lia; rewrite nth_map_seq; auto; lia.
Qed.

Lemma setup_exists : exists loc trl, local_setup t p source_cumul target_cumul P tr size boxes merge loc trl.
Proof.
  assert (G : forall r, exists lt, r < size ->
     generate_local_tree t p source_cumul target_cumul (targets_have_extent (extents P)) tr (boxes r) = Some (fst lt) /\
     generate_local_travs P (fst lt) merge = Some (snd lt)).
  { intros r. destruct (lt_dec r size) as [Hr|Hr].
    - destruct (C38_masks t tr (targets_have_extent (extents P)) (boxes r) W (fun b => boxes_range r b Hr)) as [m [E _]].
      assert (EG : exists l, generate_local_tree t p source_cumul target_cumul (targets_have_extent (extents P)) tr (boxes r) = Some l).
      { unfold generate_local_tree. rewrite E. eexists. reflexivity. }
      destruct EG as [l EG].
      destruct (rank_parts t p source_cumul target_cumul P tr (boxes r) l EG) as [_ [ET _]].
      assert (B : exists tr0, build_traversal (lt_tree l) (local_params P l) = Some tr0 /\
         (targets_have_extent (extents P) = true -> exists tr1, merge_close_lists tr0 = Some tr1)).
      { rewrite ET. eexists. split; [apply build_traversal_eq; [apply same_wf; auto|apply WP]|].
        intros HE. unfold merge_close_lists. cbn [from_sep_close_smaller from_sep_close_bigger the_traversal].
        change (targets_have_extent (extents (local_params P l))) with (targets_have_extent (extents P)). rewrite HE. eexists. reflexivity. }
      destruct B as [tr0 [B BM]].
      assert (X : exists trl, generate_local_travs P l merge = Some trl).
      { unfold generate_local_travs. rewrite B. destruct merge; cbn [andb]; [|eauto]. destruct (targets_have_extent (extents P)); eauto. }
      destruct X as [trl X]. exists (l, trl). intros _. auto.
    - destruct (C38_masks t tr (targets_have_extent (extents P)) [] W ltac:(intros b [])) as [m [E _]].
      assert (EG : exists l, generate_local_tree t p source_cumul target_cumul (targets_have_extent (extents P)) tr [] = Some l).
      { unfold generate_local_tree. rewrite E. eexists. reflexivity. }
      destruct EG as [l EG]. exists (l, tr). lia. }
  (* finitely many ranks: choose for each of them *)
  assert (H : forall n, exists f : nat -> local_tree * traversal, forall r, r < n -> r < size ->
     generate_local_tree t p source_cumul target_cumul (targets_have_extent (extents P)) tr (boxes r) = Some (fst (f r)) /\
     generate_local_travs P (fst (f r)) merge = Some (snd (f r))).
  { induction n as [|n [f IH]].
    - destruct (G 0) as [lt _]. exists (fun _ => lt). lia.
    - destruct (G n) as [lt H]. exists (fun r => if r =? n then lt else f r). intros r R1 R2.
      destruct (Nat.eqb_spec r n) as [->|]; auto. apply IH; auto. lia. }
  destruct (H size) as [f HF]. exists (fun r => fst (f r)), (fun r => snd (f r)). intros r Hr. auto.
Qed.

Variable loc : nat -> local_tree.
Variable trl : nat -> traversal.
Hypothesis SET : local_setup t p source_cumul target_cumul P tr size boxes merge loc trl.
Variable w : array.
Let Wb := source_slice_sum p w.

Lemma ranks_sum x : x < nboxes t -> 2 <= box_level t x ->
  zsum (map (fun q => rank_multipoles (loc q) (trl q) w x) (seq 0 size)) = subtree_sum t Wb x.
Proof.
  intros Hx L2. rewrite (zsum_map_ext _ (fun q => subtree_sum t (own p (loc q) w) x)).
  2:{ intros q Hq. apply in_seq in Hq. destruct (SET q ltac:(lia)) as [HG HT].
      rewrite (rank_upward t W F p HP source_cumul target_cumul P WP LS MIN M1 SAT tr (boxes q) (fun b => boxes_range q b ltac:(lia)) merge (loc q) HG w (trl q) HT x Hx).
      destruct (Nat.leb_spec 2 (box_level t x)); [auto|lia]. }
  unfold subtree_sum. rewrite zsum_swap. apply zsum_map_ext. intros s Hs. apply in_seq in Hs. rewrite zsum_map_mul. f_equal.
  destruct (boxes_owner s ltac:(lia)) as [r [Hr [B U]]].
  assert (MR : forall q, q < size -> (bm_responsible (lt_masks (loc q)) s = true <-> In s (boxes q))).
  { intros q Hq. destruct (SET q Hq) as [HG _]. apply (masks_facts t W p source_cumul target_cumul P tr (boxes q) (fun b => boxes_range q b Hq) (loc q) HG). }
  rewrite (zsum_map_single _ _ r).
  - unfold own. rewrite (proj2 (MR r Hr) B). reflexivity.
  - apply seq_NoDup.
  - apply in_seq. lia.
  - intros q Hq NE. apply in_seq in Hq. unfold own. destruct (bm_responsible (lt_masks (loc q)) s) eqn:E; auto.
    exfalso. apply NE. apply U; [lia|]. apply MR; [lia|auto].
Qed.

(** the result, if the expansions a rank uses are complete after the exchange *)
Lemma gathered_ok M old weights j :
  w = reorder_sources p weights -> j < ntargets p ->
  (forall r x, r < size -> x < nboxes t -> 2 <= box_level t x -> bm_multipole_src (lt_masks (loc r)) x = true -> M r x = subtree_sum t Wb x) ->
  gathered_result p size loc trl M old weights j = total_weight p weights.
Proof.
  intros EW Hj HM. unfold gathered_result, reorder_potentials. rewrite <- EW.
  set (i := sorted_target_ids p j). assert (Hi : i < ntargets p) by (apply (wf_sorted_target_ids t p HP); auto).
  assert (TOT : zsum (map Wb (seq 0 (nboxes t))) = total_weight p weights).
  { unfold Wb. rewrite slice_total by apply (wf_sources_owned t p HP). unfold total_weight. rewrite EW. unfold reorder_sources.
    rewrite <- (zsum_perm _ _ (Permutation_map weights (wf_user_source_ids t p HP))), map_map. reflexivity. }
  rewrite <- TOT.
  assert (PT : forall r, r < size -> forall k, k < length (lt_tgt_idx (loc r)) ->
     rank_potentials (loc r) (trl r) (M r) w k = zsum (map Wb (seq 0 (nboxes t)))).
  { intros r Hr k Hk. destruct (SET r Hr) as [HG HT].
    apply (rank_potential t W F p HP source_cumul target_cumul N P WP LS WE MIN M1 SAT tr Htr (boxes r) (fun b => boxes_range r b Hr) merge (loc r) HG w (trl r) HT); auto. }
  apply gather_at.
  - destruct (owner_exists t _ _ _ i (wf_targets_owned t p HP) Hi) as [T [HT [_ HO]]].
    destruct (boxes_owner T HT) as [r [Hr [B _]]]. destruct (SET r Hr) as [HG _].
    destruct (rank_parts t p source_cumul target_cumul P tr (boxes r) (loc r) HG) as [_ [_ [_ [_ [_ EI]]]]].
    destruct (masks_facts t W p source_cumul target_cumul P tr (boxes r) (fun b => boxes_range r b Hr) (loc r) HG) as [MR _].
    assert (II : In i (lt_tgt_idx (loc r))).
    { rewrite EI. apply (idx_spec t (ntargets p) _ _ _ _ (wf_targets_owned t p HP)). exists T. split; auto. split; [apply MR; auto|].
      apply covers_in. apply HO; auto. }
    destruct (In_nth _ _ 0 II) as [k [Hk E]]. exists r, k. auto.
  - intros r k Hr Hk _. apply PT; auto.
Qed.
End All.
