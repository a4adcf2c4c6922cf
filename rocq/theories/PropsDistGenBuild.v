(** Property C79, from particles to potentials: tree builder, traversal builder, partitioning of
    the boxes and distributed evaluation composed, for an arbitrary expansion wrangler. *)
From Coq Require Import List Arith ZArith NArith Lia Bool Permutation.
From Verif Require Import Base Tree Spec TreeFacts Traversal SpecTraversal LevelStarts Fmm SpecFmm FmmFacts FmmThm Partition
  PartitionFacts LocalTree SpecDist Distributed PropsPartition PropsDist PropsTraversal
  FmmGen SpecFmmGen QuadKernel PropsFmmGen DistributedGen PropsDistGen.
From Verif Require Import TreeBuild SpecBuild PropsDistBuild PropsFmmGenBuild.
From Verif Require PropsBuild ExampleBuild.
Import ListNotations.

(** Build a tree, partition its boxes by cost and evaluate on all ranks: the result is that of the
    shared-memory driver, for every linear wrangler and in every execution. *)
Theorem C79_build_partition_evaluate : forall (Wt : Type) (M L V : cmonoid) (R : routines Wt M L V)
    inp B P tr cost size merge rendezvous (weights : nat -> Wt) result j,
  linear R -> distributed_run inp B P tr cost size ->
  distributed_execution_gen R (b_tree B) (b_particles B) (b_source_cumul B) (b_target_cumul B) P tr
    size (assigned (b_tree B) cost size) merge rendezvous weights result ->
  j < num_targets inp ->
  result j = drive_fmm_gen _ _ _ _ R (b_tree B) (b_particles B) (level_start_box_nrs P) tr weights j.
Proof.
  intros Wt M L V R inp B P tr cost size merge rdv w result j LIN D X Hj. assert (DI := run_input _ _ _ _ _ _ D). destruct D.
  destruct (PropsBuild.C17_particles_are_permuted inp B dr_valid dr_built) as [N1 [N2 _]].
  eapply (C79_distributed_equals_shared _ _ _ _ R _ _ _ _ P tr tr _ _ merge rdv w result j LIN DI dr_threshold dr_trav); eauto.
  - exists tr. auto.
  - rewrite N2. auto.
Qed.
(** ... and such an execution exists. *)
Theorem C79_built_execution_exists : forall (Wt : Type) (M L V : cmonoid) (R : routines Wt M L V)
    inp B P tr cost size merge rendezvous (weights : nat -> Wt),
  distributed_run inp B P tr cost size ->
  exists result, distributed_execution_gen R (b_tree B) (b_particles B) (b_source_cumul B) (b_target_cumul B) P tr
    size (assigned (b_tree B) cost size) merge rendezvous weights result.
Proof.
  intros Wt M L V R inp B P tr cost size merge rdv w D. assert (DI := run_input _ _ _ _ _ _ D). destruct D.
  apply C79_execution_exists; auto.
Qed.

(** In terms of the caller's particles, for the exact kernel |x - y|^2 (two axes). *)
Theorem C79_particles_to_potentials : forall inp B P tr cost size merge rendezvous (weights : nat -> Z) result j,
  distributed_run inp B P tr cost size ->
  distributed_execution_gen
    (quad_routines (fun b => box_center (b_tree B) b 0) (fun b => box_center (b_tree B) b 1)
       (fun k => b_sources B k 0) (fun k => b_sources B k 1) (fun i => b_targets B i 0) (fun i => b_targets B i 1))
    (b_tree B) (b_particles B) (b_source_cumul B) (b_target_cumul B) P tr
    size (assigned (b_tree B) cost size) merge rendezvous weights result ->
  j < num_targets inp ->
  result j =
  zsum (map (fun u => weights u *
     ((coord inp (first_target inp + j) 0 - coord inp u 0) * (coord inp (first_target inp + j) 0 - coord inp u 0) +
      (coord inp (first_target inp + j) 1 - coord inp u 1) * (coord inp (first_target inp + j) 1 - coord inp u 1)))%Z
    (seq 0 (nsrc inp))).
Proof.
  intros inp B P tr cost size merge rdv w result j D X Hj.
  rewrite (C79_build_partition_evaluate _ _ _ _ _ inp B P tr cost size merge rdv w result j (quad_linear _ _ _ _ _ _) D X Hj).
  destruct D. apply (C76_particles_to_potentials inp B P tr w j); auto.
Qed.

(** ** Non-vacuity: the runs of PropsDistBuild.v on two and three ranks *)
Example shared_run_gen : exists B tr result,
  distributed_run ExampleBuild.shared_input B (run_params B true) tr (fun b => Z.of_nat (b + 1)) 3 /\
  distributed_execution_gen
    (quad_routines (fun b => box_center (b_tree B) b 0) (fun b => box_center (b_tree B) b 1)
       (fun k => b_sources B k 0) (fun k => b_sources B k 1) (fun i => b_targets B i 0) (fun i => b_targets B i 1))
    (b_tree B) (b_particles B) (b_source_cumul B) (b_target_cumul B) (run_params B true) tr
    3 (assigned (b_tree B) (fun b => Z.of_nat (b + 1)) 3) false true (fun u => Z.of_nat u) result /\
  0 < num_targets ExampleBuild.shared_input.
Proof.
  destruct shared_run as [B [tr D]].
  destruct (C79_built_execution_exists _ _ _ _
    (quad_routines (fun b => box_center (b_tree B) b 0) (fun b => box_center (b_tree B) b 1)
       (fun k => b_sources B k 0) (fun k => b_sources B k 1) (fun i => b_targets B i 0) (fun i => b_targets B i 1))
    _ B _ tr _ 3 false true (fun u => Z.of_nat u) D) as [result X].
  exists B, tr, result. split; auto. split; auto. apply Nat.ltb_lt. vm_compute. reflexivity.
Qed.

Print Assumptions C79_build_partition_evaluate.
Print Assumptions C79_built_execution_exists.
Print Assumptions C79_particles_to_potentials.
