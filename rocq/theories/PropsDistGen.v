(** Property C79: distributed evaluation with an arbitrary expansion wrangler. *)
From Coq Require Import List Arith ZArith NArith Lia Bool Permutation.
From Verif Require Import Base Tree Spec TreeFacts Traversal SpecTraversal LevelStarts Fmm SpecFmm FmmFacts FmmThm Partition
  PartitionFacts LocalTree SpecDist LocalFacts Distributed DistGeom DistThm PropsPartition PropsFmm
  CheckTree ExampleTree PropsTraversal PropsDist
  FmmGen SpecFmmGen FmmGenFacts FmmGenThm QuadKernel PropsFmmGen DistributedGen DistGenRank DistGenThm.
From Verif Require TreeBuild Comm PropsComm.
Import ListNotations.

(** ** C79: for every wrangler whose routines are linear, the potentials gathered on the root rank
    are exactly those the shared-memory driver computes with the same wrangler - in every
    execution of the exchange of multipole expansions. *)
Theorem C79_distributed_equals_shared : forall (Wt : Type) (M L V : cmonoid) (R : routines Wt M L V)
    t p source_cumul target_cumul P tr tr' size boxes merge rendezvous (weights : nat -> Wt) result j,
  linear R ->
  distributed_input t p target_cumul P size boxes -> no_source_threshold P -> build_traversal t P = Some tr -> built_or_merged t P tr' ->
  distributed_execution_gen R t p source_cumul target_cumul P tr size boxes merge rendezvous weights result ->
  j < ntargets p ->
  result j = drive_fmm_gen _ _ _ _ R t p (level_start_box_nrs P) tr' weights j.
Proof.
  intros Wt M L V R t p sc tc P tr tr' size boxes merge rdv w result j LIN D MIN Htr Htr' [loc [trl [st [n [old [SET [X [AD ->]]]]]]]] Hj.
  destruct D.
  eapply (gathered_gen_ok t di_tree di_flags p di_particles sc tc di_ranges P di_params di_sorted di_extent MIN di_mask di_parent_mask
    di_same tr Htr size boxes di_once merge loc trl SET R LIN w); auto.
  assert (NO : PropsComm.nothing_outside size (nboxes t) (initial_multipoles R t p P loc trl w) (fun r => contributing_boxes (loc r))).
  { intros r b Hr Hb C.
    eapply (initial_outside t di_tree di_flags p di_particles sc tc P di_params di_sorted MIN di_mask di_same tr
      size boxes di_once merge loc trl SET R LIN); auto. }
  destruct (PropsComm.C35_complete_multipoles _ _ _ _ _ _ _ _ _ _ _ di_levels NO X AD) as [C _].
  intros r x Hr Hx L2 U. rewrite C; auto.
  - eapply (initial_sum t di_tree di_flags p di_particles sc tc P di_params di_sorted MIN di_mask di_same tr
      size boxes di_once merge loc trl SET R LIN); auto.
  - apply users_spec; auto.
Qed.
Theorem C79_allreduce_equals_shared : forall (Wt : Type) (M L V : cmonoid) (R : routines Wt M L V)
    t p source_cumul target_cumul P tr tr' size boxes merge (weights : nat -> Wt) result j,
  linear R ->
  distributed_input t p target_cumul P size boxes -> no_source_threshold P -> build_traversal t P = Some tr -> built_or_merged t P tr' ->
  allreduce_execution_gen R t p source_cumul target_cumul P tr size boxes merge weights result ->
  j < ntargets p ->
  result j = drive_fmm_gen _ _ _ _ R t p (level_start_box_nrs P) tr' weights j.
Proof.
  intros Wt M L V R t p sc tc P tr tr' size boxes merge w result j LIN D MIN Htr Htr' [loc [trl [old [SET ->]]]] Hj.
  destruct D.
  eapply (gathered_gen_ok t di_tree di_flags p di_particles sc tc di_ranges P di_params di_sorted di_extent MIN di_mask di_parent_mask
    di_same tr Htr size boxes di_once merge loc trl SET R LIN w); auto.
  intros r x Hr Hx L2 U.
  eapply (initial_sum t di_tree di_flags p di_particles sc tc P di_params di_sorted MIN di_mask di_same tr
      size boxes di_once merge loc trl SET R LIN); auto.
Qed.
(** Setting up and evaluating succeeds: there is an execution, for any routines. *)
Theorem C79_execution_exists : forall (Wt : Type) (M L V : cmonoid) (R : routines Wt M L V)
    t p source_cumul target_cumul P tr size boxes merge rendezvous (weights : nat -> Wt),
  distributed_input t p target_cumul P size boxes -> no_source_threshold P -> build_traversal t P = Some tr ->
  exists result, distributed_execution_gen R t p source_cumul target_cumul P tr size boxes merge rendezvous weights result.
Proof.
  intros Wt M L V R t p sc tc P tr size boxes merge rdv w D MIN Htr. destruct D.
  destruct (setup_exists t di_tree p sc tc P di_params di_extent MIN tr size boxes di_once merge) as [loc [trl SET]].
  destruct (PropsComm.C35_executions_complete size (nboxes t) (nlevels t) (level_start_box_nrs P)
    (box_to_user_ranks (nboxes t) size (fun r => bm_multipole_src (lt_masks (loc r)))) rdv M
    (initial_multipoles R t p P loc trl w) (fun r => contributing_boxes (loc r)) _ 0 di_levels (Comm.reach_start _ _ _ _ _ _ _))
    as [st [n [_ [X AD]]]].
  eexists. exists loc, trl, st, n, (fun _ => e0). split; [exact SET|]. split; [exact X|]. split; auto.
Qed.

(** ** Consequences that mention no routine of the model: with an exact wrangler the gathered
    potentials are the direct sums over the user's sources. *)
Theorem C79_quadratic_kernel_exact : forall t p source_cumul target_cumul P tr size boxes merge rendezvous
    (src_x src_y tgt_x tgt_y weights : nat -> Z) result j,
  distributed_input t p target_cumul P size boxes -> no_source_threshold P -> build_traversal t P = Some tr ->
  distributed_execution_gen
    (quad_routines (fun b => box_center t b 0) (fun b => box_center t b 1)
       (fun k => src_x (user_source_ids p k)) (fun k => src_y (user_source_ids p k)) tgt_x tgt_y)
    t p source_cumul target_cumul P tr size boxes merge rendezvous weights result ->
  j < ntargets p ->
  let i := sorted_target_ids p j in
  result j =
  zsum (map (fun u => weights u * ((tgt_x i - src_x u) * (tgt_x i - src_x u) + (tgt_y i - src_y u) * (tgt_y i - src_y u)))%Z
         (seq 0 (nsources p))).
Proof.
  intros t p sc tc P tr size boxes merge rdv sx sy tx ty w result j D MIN Htr X Hj i.
  rewrite (C79_distributed_equals_shared _ _ _ _ _ t p sc tc P tr tr size boxes merge rdv w result j (quad_linear _ _ _ _ _ _) D MIN Htr
    (ex_intro _ tr (conj Htr (or_introl eq_refl))) X Hj).
  destruct D. apply C76_quadratic_kernel_exact; auto. split; auto.
Qed.

(** ** Non-vacuity: the example tree on three ranks, quadratic kernel. *)
Definition ex_quad : routines Z _ _ _ :=
  quad_routines (fun b => box_center ex_tree b 0) (fun b => box_center ex_tree b 1)
    (fun k => ex_pos 1 (user_source_ids ex_dfs_particles k)) (fun k => ex_pos 2 (user_source_ids ex_dfs_particles k)) (ex_pos 3) (ex_pos 4).
Example ex_distributed_gen_run : forall rendezvous, exists tr result,
  build_traversal ex_tree (ex_dist_params true static_l2 0) = Some tr /\
  distributed_execution_gen ex_quad ex_tree ex_dfs_particles (table (ex_cumul ex_sc)) (table (ex_cumul ex_tc)) (ex_dist_params true static_l2 0)
    tr 3 ex_boxes true rendezvous (fun i => Z.of_nat (i * i + 1)) result /\
  result 7 = zsum (map (fun u => Z.of_nat (u * u + 1) * ((ex_pos 3 (ex_nt - 8) - ex_pos 1 u) * (ex_pos 3 (ex_nt - 8) - ex_pos 1 u) +
     (ex_pos 4 (ex_nt - 8) - ex_pos 2 u) * (ex_pos 4 (ex_nt - 8) - ex_pos 2 u)))%Z (seq 0 ex_ns)).
Proof.
  intros rdv. destruct (build_traversal ex_tree (ex_dist_params true static_l2 0)) as [tr|] eqn:B.
  2:{ exfalso. assert (X : match build_traversal ex_tree (ex_dist_params true static_l2 0) with Some _ => true | None => false end = true)
        by (vm_compute; reflexivity). rewrite B in X. discriminate. }
  destruct (C79_execution_exists _ _ _ _ ex_quad ex_tree ex_dfs_particles (table (ex_cumul ex_sc)) (table (ex_cumul ex_tc)) _ tr 3 ex_boxes true rdv
    (fun i => Z.of_nat (i * i + 1)) (ex_distributed_input true static_l2 0) (fun _ => eq_refl) B) as [result X].
  exists tr, result. split; auto. split; auto.
  rewrite (C79_quadratic_kernel_exact _ _ _ _ _ tr _ _ _ _ _ _ _ _ _ _ 7 (ex_distributed_input true static_l2 0) (fun _ => eq_refl) B X)
    by (apply Nat.ltb_lt; vm_compute; reflexivity).
  vm_compute. reflexivity.
Qed.

Print Assumptions C79_distributed_equals_shared.
Print Assumptions C79_allreduce_equals_shared.
Print Assumptions C79_execution_exists.
Print Assumptions C79_quadratic_kernel_exact.
