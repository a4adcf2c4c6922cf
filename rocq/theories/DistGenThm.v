(** All ranks of a distributed evaluation with an arbitrary expansion wrangler. *)
From Coq Require Import List Arith ZArith NArith Lia Bool Permutation.
From Verif Require Import Base Tree Spec TreeFacts Traversal SpecTraversal TraversalLists Coverage CoverageThm ListFacts
  LevelStarts MergeFacts Fmm SpecFmm FmmFacts FmmThm Tools ToolsFacts Partition PartitionFacts LocalTree SpecDist LocalFacts
  Distributed DistGeom DistThm PropsPartition PropsTools FmmGen SpecFmmGen FmmGenFacts FmmGenThm DistributedGen DistGenRank.
From Verif Require TreeBuild ArrayFacts Comm PropsComm DistRank.
Import ListNotations.

Section All.
Variable t : tree.
Hypothesis W : wf_tree t.
Hypothesis F : wf_flags t.
Variable p : particles.
Hypothesis HP : wf_particles t p.
Variables source_cumul target_cumul : nat -> nat.
Hypothesis N : nested_ranges t (box_target_starts p) (box_target_counts_nonchild p) target_cumul.
Variable P : trav_params.
Hypothesis WP : wf_params t P.
Hypothesis LS : level_sorted t (level_start_box_nrs P).
Hypothesis WE : targets_have_extent (extents P) = true -> wf_extent (extents P).
Hypothesis MIN : targets_have_extent (extents P) = true -> from_sep_smaller_min_nsources_cumul (extents P) = 0.
Hypothesis M1 : forall b, source_boxes_mask P b = true.
Hypothesis M2 : forall b, source_parent_boxes_mask P b = true.
Hypothesis SAT : sources_are_targets P = true -> forall b, b < nboxes t -> is_target t b = true -> 0 < box_target_counts_nonchild p b.
Variable tr : traversal.
Hypothesis Htr : build_traversal t P = Some tr.
Variable size : nat.
Variable boxes : nat -> list nat.
Hypothesis ONCE : every_box_once t size boxes.
Variable merge : bool.
Variable loc : nat -> local_tree.
Variable trl : nat -> traversal.
Hypothesis SET : local_setup t p source_cumul target_cumul P tr size boxes merge loc trl.
Context {Wt : Type} {M L V : cmonoid} (R : routines Wt M L V) (LIN : linear R).
Variable weights : nat -> Wt.
Let w := fun k => weights (user_source_ids p k).
Let starts := level_start_box_nrs P.

Lemma range r b : r < size -> In b (boxes r) -> b < nboxes t.
Proof. exact (boxes_range t P MIN size boxes ONCE r b). Qed.

Lemma initial_eq r x : r < size -> x < nboxes t ->
  initial_multipoles R t p P loc trl weights r x =
  if 2 <=? box_level t x then msub R t (rown t p (loc r) R w) x else rown t p (loc r) R w x.
Proof.
  intros Hr Hx. destruct (SET r Hr) as [HG HT].
  exact (rank_upward_gen t W F p HP source_cumul target_cumul P WP LS MIN M1 SAT tr (boxes r) (fun b => range r b Hr) merge
    (loc r) HG (trl r) HT R LIN w x Hx).
Qed.
Lemma initial_outside r x : r < size -> x < nboxes t -> contributing_boxes (loc r) x = false ->
  initial_multipoles R t p P loc trl weights r x = e0.
Proof.
  intros Hr Hx C. destruct (SET r Hr) as [HG HT].
  exact (rank_outside_gen t W F p HP source_cumul target_cumul P WP LS MIN M1 SAT tr (boxes r) (fun b => range r b Hr) merge
    (loc r) HG (trl r) HT R LIN w x Hx C).
Qed.
Lemma initial_sum x : x < nboxes t -> 2 <= box_level t x ->
  msum (map (fun r => initial_multipoles R t p P loc trl weights r x) (seq 0 size)) = msub R t (own R t p w) x.
Proof.
  intros Hx L2. rewrite (msum_map_ext _ (fun r => msub R t (rown t p (loc r) R w) x)).
  2:{ intros q Hq. apply in_seq in Hq. rewrite initial_eq by (auto; lia). destruct (Nat.leb_spec 2 (box_level t x)); [auto|lia]. }
  unfold msub. rewrite msum_swap. apply msum_map_ext. intros s Hs. apply in_seq in Hs.
  destruct (in_dec _ _ _) as [i|i]; [|apply msum_map_0; auto].
  destruct (boxes_owner t P MIN size boxes ONCE s ltac:(lia)) as [r [Hr [B U]]].
  assert (MR : forall q, q < size -> (bm_responsible (lt_masks (loc q)) s = true <-> In s (boxes q))).
  { intros q Hq. destruct (SET q Hq) as [HG _].
    apply (DistRank.masks_facts t W p source_cumul target_cumul P tr (boxes q) (fun b => range q b Hq) (loc q) HG). }
  rewrite (msum_map_single _ _ r).
  - unfold rown. rewrite (proj2 (MR r Hr) B). reflexivity.
  - apply seq_NoDup.
  - apply in_seq. lia.
  - intros q Hq NE. apply in_seq in Hq. unfold rown. destruct (bm_responsible (lt_masks (loc q)) s) eqn:E; [|apply (raise_0 R LIN)].
    exfalso. apply NE. apply U; [lia|]. apply MR; [lia|auto].
Qed.

(** the result, if the expansions a rank uses are complete after the exchange *)
Lemma gathered_gen_ok mp old tr' j : j < ntargets p -> built_or_merged t P tr' ->
  (forall r x, r < size -> x < nboxes t -> 2 <= box_level t x -> bm_multipole_src (lt_masks (loc r)) x = true ->
     mp r x = msub R t (own R t p w) x) ->
  gathered_result_gen R p P size loc trl mp old weights j = drive_fmm_gen _ _ _ _ R t p starts tr' weights j.
Proof.
  intros Hj BM HM. unfold gathered_result_gen, drive_fmm_gen. cbv zeta. f_equal. fold w starts.
  set (i := sorted_target_ids p j). assert (Hi : i < ntargets p) by (apply (wf_sorted_target_ids t p HP); auto).
  destruct (owner_exists t _ _ _ i (wf_targets_owned t p HP) Hi) as [T [HT [CT HO]]].
  assert (IT : In i (seq (box_target_starts p T) (box_target_counts_nonchild p T))) by (apply covers_in; apply HO; auto).
  rewrite (potentials_gen_at R LIN t W p starts LS w i T HO).
  2:{ apply (bm_ready t W F P WP LS tr' BM). destruct (bm_boxes t W P WP tr' BM) as [-> _].
      apply (nonempty_target t p); auto. }
  2:{ destruct (bm_boxes t W P WP tr' BM) as [-> _]. apply (nonempty_target t p); auto. }
  2:{ intros. apply (multipoles_gen_complete t W F P WP LS tr' BM M1 M2 R LIN); auto. apply (wf_source_flag t p HP). }
  apply gather_at.
  - destruct (boxes_owner t P MIN size boxes ONCE T HT) as [r [Hr [B _]]]. destruct (SET r Hr) as [HG _].
    destruct (DistRank.rank_parts t p source_cumul target_cumul P tr (boxes r) (loc r) HG) as [_ [_ [_ [_ [_ EI]]]]].
    destruct (DistRank.masks_facts t W p source_cumul target_cumul P tr (boxes r) (fun b => range r b Hr) (loc r) HG) as [MR _].
    assert (II : In i (lt_tgt_idx (loc r))).
    { rewrite EI. apply (idx_spec t (ntargets p) _ _ _ _ (wf_targets_owned t p HP)). exists T. split; auto. split; [apply MR; auto|auto]. }
    destruct (In_nth _ _ 0 II) as [k [Hk E]]. exists r, k. auto.
  - intros r k Hr Hk E. destruct (SET r Hr) as [HG HTr].
    rewrite (rank_potential_gen t W F p HP source_cumul target_cumul N P WP LS WE MIN M1 SAT tr Htr (boxes r) (fun b => range r b Hr) merge
      (loc r) HG (trl r) HTr R LIN w (to_storage starts (mp r))) with (T := T) (tr' := tr'); auto.
    + rewrite E. reflexivity.
    + intros x Hx L2 U. rewrite <- HM with (r := r); auto. unfold at_box, view_get, to_storage. f_equal.
      pose proof (start_le t W starts LS x Hx). fold starts. lia.
    + rewrite E. auto.
Qed.
End All.
