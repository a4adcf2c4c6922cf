(** Property C65: from particles to potentials on several ranks. *)
From Coq Require Import List Arith ZArith NArith Lia Bool Permutation.
From Verif Require Import Base Tree Spec TreeFacts Traversal SpecTraversal LevelStarts Fmm SpecFmm FmmFacts FmmThm Partition
  PartitionFacts LocalTree SpecDist Distributed PropsPartition PropsDist PropsTraversal.
From Verif Require Import TreeBuild SpecBuild.
From Verif Require BuildThm BuildFull PropsBuild PropsComm ExampleBuild ExampleTree.
Import ListNotations.

Lemma nsum_part (f : nat -> nat) n m : m < n -> nsum (map f (seq 0 m)) + f m <= nsum (map f (seq 0 n)).
Proof.
  intros H. replace n with (m + S (n - m - 1)) by lia. rewrite seq_app, map_app, nsum_app. cbn [seq map Nat.add].
  change (nsum (f m :: ?l)) with (f m + nsum l). lia.
Qed.
Lemma built_nested inp B : valid_input inp -> not_restricted_with_extents inp -> build_tree inp = inl B ->
  nested_ranges (b_tree B) (box_target_starts (b_particles B)) (box_target_counts_nonchild (b_particles B))
    (b_target_cumul B).
Proof.
  intros V NR H. split.
  - intros b Hb. destruct (PropsBuild.C19_ranges_partition inp B V NR H b Hb) as [_ [E _]]. lia.
  - intros m b Hb Hm C C0. destruct (PropsBuild.C19_ranges_partition inp B V NR H b Hb) as [_ [E [_ S]]]. rewrite (S m Hm C C0), E.
    assert (X := nsum_part (fun m => if box_child (b_tree B) m b =? 0 then 0 else b_target_cumul B (box_child (b_tree B) m b))
       (nchildren (b_tree B)) m Hm). cbv beta in X.
    destruct (Nat.eqb_spec (box_child (b_tree B) m b) 0); [contradiction|]. lia.
Qed.
Lemma assigned_once t cost size : wf_tree t ->
  (forall r, r < size -> exists l, partition_work t cost size r = Responsible l) -> 1 <= size ->
  every_box_once t size (fun r => boxes_of (partition_work t cost size r)).
Proof.
  intros W AL S1. destruct (le_lt_dec size (nboxes t)) as [S2|S2].
  - destruct (C37_assignment t cost size W S1 S2) as [order [k [EO [_ [E _]]]]]. unfold every_box_once. rewrite E.
    destruct (C36_dfs_order t W) as [o [EO' [P _]]]. rewrite EO in EO'. injection EO' as ->. auto.
  - exfalso. destruct (AL 0 ltac:(lia)) as [l X]. rewrite (proj1 (C37_too_many_ranks t cost size 0 W)) in X by auto. discriminate.
Qed.

(** The way a user gets there: a tree from [build_tree], a traversal with the tree's level starts,
    boxes assigned by [partition_work], no rank left without boxes (C37_all_ranks_served). *)
Record distributed_run (inp : input) (B : built) (P : trav_params) (tr : traversal) (cost : nat -> Z) (size : nat) : Prop := {
  dr_valid : valid_input inp;
  dr_geometry : valid_geometry inp;
  dr_restricted : not_restricted_with_extents inp;
  dr_populated : levels_stay_populated inp;
  dr_built : build_tree inp = inl B;
  dr_levels : nlevels (b_tree B) <= 30;
  dr_sep : 1 <= well_sep_is_n_away P;
  dr_same : sources_are_targets P = same inp;
  dr_mask : forall b, source_boxes_mask P b = true;
  dr_parent_mask : forall b, source_parent_boxes_mask P b = true;
  dr_extent : targets_have_extent (Traversal.extents P) = true -> wf_extent (Traversal.extents P);
  dr_threshold : no_source_threshold P;
  dr_starts : forall l, level_start_box_nrs P l = nth l (b_level_starts B) 0;
  dr_trav : build_traversal (b_tree B) P = Some tr;
  dr_ranks : 1 <= size;
  dr_size : (Z.of_nat size <= 2 ^ 31)%Z;
  dr_served : forall r, r < size -> exists l, partition_work (b_tree B) cost size r = Responsible l
}.
Definition assigned (t : tree) (cost : nat -> Z) (size r : nat) : list nat := boxes_of (partition_work t cost size r).
Lemma run_input inp B P tr cost size : distributed_run inp B P tr cost size ->
  distributed_input (b_tree B) (b_particles B) (b_target_cumul B) P size (assigned (b_tree B) cost size).
Proof.
  intros [V G NR L H D WS ST M1 M2 WE NT LV TR S1 S2 AL].
  destruct (PropsBuild.C21_level_starts inp B V L H) as [_ [L0 [Ln [Lm _]]]].
  assert (FL := fun b Hb => PropsBuild.C22_box_flags inp B b V NR H Hb).
  assert (NEST := built_nested inp B V NR H).
  destruct (PropsBuild.built_levels inp B V L H) as [st [pth [_ [F [E FULL]]]]].
  assert (PE := PropsBuild.pe inp NR).
  assert (W : wf_tree (b_tree B)) by (rewrite E in *; apply (BuildThm.finish_wf_tree inp V st pth F G D)).
  split; auto.
  - rewrite E. apply (BuildThm.finish_wf_flags inp V st pth F PE).
  - rewrite E. apply (BuildThm.finish_wf_particles inp V st pth F PE).
  - split; auto. intros S b Hb. rewrite M1, andb_true_r. rewrite E in *. apply (BuildThm.finish_same_flags inp V st pth F PE); auto. congruence.
  - rewrite E in *. destruct (BuildThm.finish_levels inp V st pth F FULL) as [_ [_ [_ [_ [_ Y]]]]]. unfold level_sorted in *. intros. rewrite !LV. auto.
  - split; [rewrite LV; auto|]. split; [rewrite LV; auto|]. intros l Hl. rewrite !LV. specialize (Lm l Hl). lia.
  - intros S b Hb IT. destruct (FL b Hb) as [_ [T _]]. apply T in IT. destruct IT as [k K]. unfold own_targets in K. lia.
  - apply assigned_once; auto.
Qed.

(** ** C65: build a tree, partition its boxes by cost and evaluate on all ranks: every target
    receives the sum of all weights, in every execution. *)
Theorem C65_build_partition_evaluate : forall inp B P tr cost size merge rendezvous weights result j,
  distributed_run inp B P tr cost size ->
  distributed_execution (b_tree B) (b_particles B) (b_source_cumul B) (b_target_cumul B) P tr
    size (assigned (b_tree B) cost size) merge rendezvous weights result ->
  j < num_targets inp ->
  result j = zsum (map weights (seq 0 (nsrc inp))).
Proof.
  intros inp B P tr cost size merge rdv w result j R X Hj. assert (DI := run_input _ _ _ _ _ _ R). destruct R.
  destruct (PropsBuild.C17_particles_are_permuted inp B dr_valid0 dr_built0) as [N1 [N2 _]].
  rewrite <- N1.
  refine (proj2 (C40_distributed_equals_shared _ _ _ _ P tr tr _ _ merge rdv w result j DI dr_threshold0 dr_trav0 _ X _)).
  - exists tr. auto.
  - rewrite N2. auto.
Qed.
(** ... and there is such an execution. *)
Theorem C65_execution_exists : forall inp B P tr cost size merge rendezvous weights,
  distributed_run inp B P tr cost size ->
  exists result, distributed_execution (b_tree B) (b_particles B) (b_source_cumul B) (b_target_cumul B) P tr
    size (assigned (b_tree B) cost size) merge rendezvous weights result.
Proof.
  intros inp B P tr cost size merge rdv w R. assert (DI := run_input _ _ _ _ _ _ R). destruct R. apply C40_execution_exists; auto.
Qed.

(** ** Non-vacuity: two runs on two and three ranks *)
Definition run_params (B : built) (is_same : bool) : trav_params := {|
  well_sep_is_n_away := 1;
  Traversal.extents := ExampleTree.ex_extent false static_linf 0;
  sources_are_targets := is_same;
  source_boxes_mask := fun _ => true; source_parent_boxes_mask := fun _ => true;
  level_start_box_nrs := fun l => nth l (b_level_starts B) 0 |}.
Definition served (t : tree) (cost : nat -> Z) (size : nat) : bool :=
  forallb (fun r => match partition_work t cost size r with Responsible (_ :: _) => true | _ => false end) (seq 0 size).
Lemma served_spec t cost size : served t cost size = true -> forall r, r < size -> exists l, partition_work t cost size r = Responsible l.
Proof.
  unfold served. rewrite forallb_forall. intros H r Hr. specialize (H r ltac:(apply in_seq; lia)).
  destruct (partition_work t cost size r) eqn:E; try discriminate. eauto.
Qed.
Lemma run_meets inp size : valid_input inp -> valid_geometry inp -> not_restricted_with_extents inp -> levels_stay_populated inp ->
  1 <= size -> (Z.of_nat size <= 2 ^ 31)%Z ->
  ExampleBuild.holds inp (fun B => (nlevels (b_tree B) <=? 30) && served (b_tree B) (fun b => Z.of_nat (b + 1)) size) = true ->
  exists B tr, distributed_run inp B (run_params B (same inp)) tr (fun b => Z.of_nat (b + 1)) size.
Proof.
  intros V G NR L S1 S2 H. destruct (ExampleBuild.holds_spec _ _ H) as [B [E C]]. apply andb_true_iff in C. destruct C as [C1 C2].
  apply Nat.leb_le in C1.
  destruct (PropsBuild.C50_traversal_succeeds inp B (run_params B (same inp)) V G E C1 (le_n 1)) as [tr TR].
  exists B, tr. split; auto; try discriminate. apply served_spec. auto.
Qed.
Example shared_run : exists B tr, distributed_run ExampleBuild.shared_input B (run_params B true) tr (fun b => Z.of_nat (b + 1)) 3.
Proof.
  destruct PropsBuild.shared_input_ok as [V [G [NR [L _]]]].
  apply (run_meets ExampleBuild.shared_input 3); [auto|auto|auto|auto|lia|lia|vm_compute; reflexivity].
Qed.
Example separate_run : exists B tr, distributed_run ExampleBuild.separate_input B (run_params B false) tr (fun b => Z.of_nat (b + 1)) 2.
Proof.
  destruct PropsBuild.separate_input_ok as [V [G [NR [L _]]]].
  apply (run_meets ExampleBuild.separate_input 2); [auto|auto|auto|auto|lia|lia|vm_compute; reflexivity].
Qed.

Print Assumptions C65_build_partition_evaluate.
Print Assumptions C65_execution_exists.
