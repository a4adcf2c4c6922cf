(** Property C76, from particles to potentials: tree builder, traversal builder and FMM driver
    composed, for an arbitrary expansion wrangler. *)
From Coq Require Import List Arith ZArith Lia Bool Permutation.
From Verif Require Import Base Tree Spec SpecTraversal LevelStarts Fmm SpecFmm FmmGen SpecFmmGen QuadKernel CheckTree ExampleTree PropsTraversal PropsFmm PropsFmmGen Traversal.
From Verif Require Import TreeBuild BuildInv BuildStep BuildLoop BuildDone BuildTerm BuildPrune BuildFull BuildSplit BuildFinish BuildLR BuildSkip
  SpecBuild BuildThm BuildThm2 ExampleBuild PropsBuild.
Import ListNotations.

(** Built trees with a traversal built for them meet the assumptions of C76. *)
Theorem C76_built_trees_qualify : forall inp B P tr,
  valid_input inp -> valid_geometry inp -> not_restricted_with_extents inp -> levels_stay_populated inp ->
  build_tree inp = inl B -> nlevels (b_tree B) <= 30 ->
  1 <= well_sep_is_n_away P -> sources_are_targets P = same inp ->
  (forall b, source_boxes_mask P b = true) -> (forall b, source_parent_boxes_mask P b = true) ->
  (targets_have_extent (Traversal.extents P) = true -> wf_extent (Traversal.extents P)) ->
  (forall l, level_start_box_nrs P l = nth l (b_level_starts B) 0) ->
  (build_traversal (b_tree B) P = Some tr \/
   exists tr0, build_traversal (b_tree B) P = Some tr0 /\ merge_close_lists tr0 = Some tr) ->
  fmm_input (b_tree B) P (b_particles B) tr.
Proof.
  intros inp B P tr V G NR L H D WS ST M1 M2 WE LV TR.
  destruct (built_levels inp B V L H) as [st [pth [_ [F [-> FULL]]]]].
  assert (PE := pe inp NR). split; auto.
  - apply (finish_wf_tree inp V st pth F G D).
  - apply (finish_wf_flags inp V st pth F PE).
  - split; auto. intros S b Hb. rewrite M1, andb_true_r. apply (finish_same_flags inp V st pth F PE); auto. congruence.
  - destruct (finish_levels inp V st pth F FULL) as [_ [_ [_ [_ [_ X]]]]].
    unfold level_sorted in *. intros. rewrite !LV. auto.
  - apply (finish_wf_particles inp V st pth F PE).
Qed.

(** From particles to potentials: with routines that are exact along every route, building the
    tree, building the traversal and driving the FMM gives the direct sum. *)
Theorem C76_build_traverse_evaluate : forall (Wt : Type) (M L V : cmonoid) (R : routines Wt M L V)
    inp B P tr (weights : nat -> Wt) j,
  valid_input inp -> valid_geometry inp -> not_restricted_with_extents inp -> levels_stay_populated inp ->
  build_tree inp = inl B -> nlevels (b_tree B) <= 30 ->
  1 <= well_sep_is_n_away P -> sources_are_targets P = same inp ->
  (forall b, source_boxes_mask P b = true) -> (forall b, source_parent_boxes_mask P b = true) ->
  (targets_have_extent (Traversal.extents P) = true -> wf_extent (Traversal.extents P)) ->
  (forall l, level_start_box_nrs P l = nth l (b_level_starts B) 0) ->
  (build_traversal (b_tree B) P = Some tr \/
   exists tr0, build_traversal (b_tree B) P = Some tr0 /\ merge_close_lists tr0 = Some tr) ->
  let t := b_tree B in let p := b_particles B in
  linear R ->
  (forall T S i k w r, T < nboxes t -> S < nboxes t -> listed t tr T S r ->
     In i (seq (box_target_starts p T) (box_target_counts_nonchild p T)) ->
     In k (seq (box_source_starts p S) (box_source_counts_nonchild p S)) ->
     contribution R t T i S k w r = p2p R i k w) ->
  j < num_targets inp ->
  drive_fmm_gen _ _ _ _ R t p (level_start_box_nrs P) tr weights j =
  finalize R (msum (map (fun k => p2p R (sorted_target_ids p j) k (weights (user_source_ids p k))) (seq 0 (nsrc inp)))).
Proof.
  intros Wt M L V R inp B P tr w j VI G NR LP H D WS ST M1 M2 WE LV TR t p LIN EX Hj.
  pose proof (C76_built_trees_qualify inp B P tr VI G NR LP H D WS ST M1 M2 WE LV TR) as I.
  destruct (built_levels inp B VI LP H) as [st [pth [_ [F [EB _]]]]].
  replace (nsrc inp) with (nsources p) by (unfold p; rewrite EB; reflexivity).
  apply C76_exact_routines_give_direct_sum; auto. unfold p. rewrite EB. exact Hj.
Qed.

(** The same in terms of the caller's particles, for the exact kernel |x - y|^2 of QuadKernel.v
    (two axes): the potential of the caller's target j is the sum over the caller's sources. *)
Theorem C76_particles_to_potentials : forall inp B P tr (weights : nat -> Z) j,
  valid_input inp -> valid_geometry inp -> not_restricted_with_extents inp -> levels_stay_populated inp ->
  build_tree inp = inl B -> nlevels (b_tree B) <= 30 ->
  1 <= well_sep_is_n_away P -> sources_are_targets P = same inp ->
  (forall b, source_boxes_mask P b = true) -> (forall b, source_parent_boxes_mask P b = true) ->
  (targets_have_extent (Traversal.extents P) = true -> wf_extent (Traversal.extents P)) ->
  (forall l, level_start_box_nrs P l = nth l (b_level_starts B) 0) ->
  (build_traversal (b_tree B) P = Some tr \/
   exists tr0, build_traversal (b_tree B) P = Some tr0 /\ merge_close_lists tr0 = Some tr) ->
  let R := quad_routines (fun b => box_center (b_tree B) b 0) (fun b => box_center (b_tree B) b 1)
             (fun k => b_sources B k 0) (fun k => b_sources B k 1) (fun i => b_targets B i 0) (fun i => b_targets B i 1) in
  j < num_targets inp ->
  drive_fmm_gen _ _ _ _ R (b_tree B) (b_particles B) (level_start_box_nrs P) tr weights j =
  zsum (map (fun u => weights u *
     ((coord inp (first_target inp + j) 0 - coord inp u 0) * (coord inp (first_target inp + j) 0 - coord inp u 0) +
      (coord inp (first_target inp + j) 1 - coord inp u 1) * (coord inp (first_target inp + j) 1 - coord inp u 1)))%Z
    (seq 0 (nsrc inp))).
Proof.
  intros inp B P tr w j VI G NR LP H D WS ST M1 M2 WE LV TR R Hj.
  pose proof (C76_built_trees_qualify inp B P tr VI G NR LP H D WS ST M1 M2 WE LV TR) as I.
  destruct (C17_particles_are_permuted inp B VI H) as [N1 [N2 [U [S1 [_ [_ [T1 _]]]]]]].
  unfold R. rewrite (C76_build_traverse_evaluate Z Qm Qm Zm _ inp B P tr w j VI G NR LP H D WS ST M1 M2 WE LV TR); auto.
  - cbn [finalize quad_routines p2p]. rewrite <- N1. rewrite <- N2 in Hj. rewrite <- !(T1 j) by auto.
    etransitivity; [|apply zsum_perm, Permutation_map, U]. rewrite map_map. unfold zsum, msum. f_equal.
    apply map_ext_in. intros k Hk. apply in_seq in Hk. rewrite !S1 by lia. reflexivity.
  - apply quad_linear.
  - intros T S i k w' r HT HS Hr _ _. cbn [p2p quad_routines].
    eapply (fun a b c d e f => quad_exact a b c d e f (b_tree B) (in_tree _ _ _ _ I) tr T i S k w' r HT HS Hr).
Qed.

(** ** Non-vacuity: the inputs of ExampleBuild.v (see [shared_input_ok], [separate_input_ok] and
    [extent_input_ok] in PropsBuild.v) and traversal parameters for their trees meet the hypotheses. *)
Definition built_params (inp : input) (B : built) : trav_params :=
  {| well_sep_is_n_away := 1; sources_are_targets := same inp;
     source_boxes_mask := fun _ => true; source_parent_boxes_mask := fun _ => true;
     Traversal.extents := ex_extent false static_l2 2; level_start_box_nrs := fun l => nth l (b_level_starts B) 0 |}.
Example built_case : forall B, build_tree separate_input = inl B -> nlevels (b_tree B) <= 30 ->
  exists tr, build_traversal (b_tree B) (built_params separate_input B) = Some tr /\
    fmm_input (b_tree B) (built_params separate_input B) (b_particles B) tr /\ 0 < num_targets separate_input.
Proof.
  intros B H D. destruct separate_input_ok as [V [G [NR [L _]]]].
  destruct (C50_traversal_succeeds separate_input B (built_params separate_input B) V G H D (le_n 1)) as [tr T].
  exists tr. split; auto. split; [|vm_compute; lia].
  apply (C76_built_trees_qualify separate_input B (built_params separate_input B) tr V G NR L H D); auto.
  discriminate.
Qed.

Print Assumptions C76_particles_to_potentials.
Print Assumptions C76_built_trees_qualify.
Print Assumptions C76_build_traverse_evaluate.
