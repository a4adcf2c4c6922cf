(** Properties C39 and C40: local trees and distributed evaluation. *)
From Coq Require Import List Arith ZArith NArith Lia Bool Permutation.
From Verif Require Import Base Tree Spec TreeFacts Traversal SpecTraversal LevelStarts Fmm SpecFmm FmmFacts FmmThm Partition
  PartitionFacts LocalTree SpecDist LocalFacts Distributed DistGeom DistRank DistThm PropsPartition PropsFmm
  CheckTree ExampleTree PropsTraversal.
From Verif Require TreeBuild Comm PropsComm.
Import ListNotations.

(** ** C39: the local tree of a rank has the sources of the boxes it needs sources of and the
    targets of the boxes it is responsible for, in the order of the global tree. *)
Theorem C39_local_particles : forall t p source_cumul target_cumul have_extent tr boxes l,
  wf_particles t p ->
  generate_local_tree t p source_cumul target_cumul have_extent tr boxes = Some l ->
  restricted t (bm_point_src (lt_masks l)) (box_source_starts p) (box_source_counts_nonchild p) (nsources p)
    (lt_src_idx l) (box_source_starts (lt_particles l)) (box_source_counts_nonchild (lt_particles l)) /\
  nsources (lt_particles l) = length (lt_src_idx l) /\
  restricted t (bm_responsible (lt_masks l)) (box_target_starts p) (box_target_counts_nonchild p) (ntargets p)
    (lt_tgt_idx l) (box_target_starts (lt_particles l)) (box_target_counts_nonchild (lt_particles l)) /\
  ntargets (lt_particles l) = length (lt_tgt_idx l).
Proof.
  intros t p sc tc h tr boxes l HP H. unfold generate_local_tree in H. destruct (get_box_masks t tr h boxes) as [bm|]; [|discriminate].
  injection H as <-. cbn [lt_masks lt_src_idx lt_tgt_idx lt_particles box_source_starts box_source_counts_nonchild
    box_target_starts box_target_counts_nonchild nsources ntargets]. destruct HP.
  split; [apply (local_restricted t _ _ _ _ sc); auto|]. split; auto. split; [apply (local_restricted t _ _ _ _ tc); auto|auto].
Qed.
(** The kernel that copies coordinates (or radii) stores, in whatever order the work items run,
    entry [idx[k]] of the global array at [k]. *)
Theorem C39_particles_copied : forall A t n mask starts counts cumul order (particles old : nat -> A) k,
  let idx := ll_idx (local_particle_lists (nboxes t) n mask starts counts cumul) in
  Permutation order (seq 0 n) -> k < length idx ->
  fetch_local (particle_mask (nboxes t) mask starts counts) order particles old k = particles (nth k idx 0).
Proof. intros A t n mask st c cu order x old k idx PM Hk. apply fetch_at; auto. Qed.
(** The boxes are those of the global tree; flags about sources are unchanged; a box is flagged as
    a target box if it is the rank's own and has targets, and as having target children if the
    rank owns targets further down in it. *)
Theorem C39_local_boxes : forall t p source_cumul target_cumul have_extent tr boxes l,
  wf_tree t -> wf_particles t p ->
  nested_ranges t (box_target_starts p) (box_target_counts_nonchild p) target_cumul ->
  (forall b, In b boxes -> b < nboxes t) ->
  generate_local_tree t p source_cumul target_cumul have_extent tr boxes = Some l ->
  let t' := lt_tree l in
  dim t' = dim t /\ nlevels t' = nlevels t /\ nboxes t' = nboxes t /\ root_extent t' = root_extent t /\
  (forall b, box_center t' b = box_center t b /\ box_level t' b = box_level t b /\ box_parent t' b = box_parent t b /\
     forall m, box_child t' m b = box_child t m b) /\
  forall b, b < nboxes t ->
    is_source t' b = is_source t b /\ has_source_child t' b = has_source_child t b /\
    (is_target t' b = true <-> In b boxes /\ 0 < box_target_counts_nonchild p b) /\
    (has_target_child t' b = true <->
       exists i, In i (lt_tgt_idx l) /\ box_target_starts p b + box_target_counts_nonchild p b <= i < box_target_starts p b + target_cumul b) /\
    (* box_source_counts_cumul *)
    lt_source_cumul l b =
      length (filter (fun i => existsb (Nat.eqb i) (lt_src_idx l)) (seq (box_source_starts p b) (source_cumul b))).
Proof.
  intros t p sc tc h tr boxes l W HP N BR H t'.
  destruct (C38_masks t tr h boxes W BR) as [m [EM [MR _]]].
  unfold generate_local_tree in H. rewrite EM in H. injection H as <-.
  unfold t'. cbn [lt_tree dim nlevels nboxes root_extent box_center box_level box_parent box_child lt_tgt_idx lt_source_cumul lt_src_idx].
  split; auto. split; auto. split; auto. split; auto. split; auto. intros b Hb.
  split; [apply modify_source; auto|]. split; [apply modify_source; auto|]. split; [|split].
  - unfold is_target. cbn [box_flags]. rewrite modify_is_target. cbn [local_particle_lists ll_counts].
    rewrite <- MR. destruct (bm_responsible m b); cbn; [|intuition discriminate].
    destruct (box_target_counts_nonchild p b); cbn; [intuition (try discriminate; lia)|intuition lia].
  - unfold has_target_child. cbn [box_flags]. rewrite modify_has_child. rewrite Nat.ltb_lt.
    etransitivity; [exact (has_child_spec t (ntargets p) (bm_responsible m) _ _ _ (wf_targets_owned t p HP) N b Hb)|].
    split; intros [i [H1 H2]]; exists i; split; auto.
    + apply (idx_spec t (ntargets p) _ _ _ tc (wf_targets_owned t p HP)). apply pm_spec in H1. auto.
    + apply (idx_spec t (ntargets p) _ _ _ tc (wf_targets_owned t p HP)) in H1. apply pm_spec. auto.
  - etransitivity; [exact (cumul_spec t (nsources p) (bm_point_src m) _ _ sc b)|]. f_equal. apply filter_ext_in. intros i _. apply eq_true_iff_eq. rewrite existsb_exists, pm_spec.
    rewrite <- (idx_spec t (nsources p) _ _ _ sc (wf_sources_owned t p HP)). split.
    + intros X. exists i. split; auto. apply Nat.eqb_refl.
    + intros [x [X E]]. apply Nat.eqb_eq in E. subst. auto.
Qed.

(** ** C40: the potentials gathered on the root rank are those of the shared-memory evaluation.
    [source_cumul], [target_cumul]: box_source_counts_cumul, box_target_counts_cumul. *)
Record distributed_input (t : tree) (p : particles) (target_cumul : nat -> nat) (P : trav_params) (size : nat) (boxes : nat -> list nat) : Prop := {
  di_tree : wf_tree t;
  di_flags : wf_flags t;
  di_particles : wf_particles t p;
  di_ranges : nested_ranges t (box_target_starts p) (box_target_counts_nonchild p) target_cumul;
  di_params : wf_params t P;
  di_sorted : level_sorted t (level_start_box_nrs P);
  di_levels : PropsComm.levels_cover (nboxes t) (nlevels t) (level_start_box_nrs P);
  di_extent : targets_have_extent (extents P) = true -> wf_extent (extents P);
  di_mask : forall b, source_boxes_mask P b = true;
  di_parent_mask : forall b, source_parent_boxes_mask P b = true;
  (* if sources and targets are the same particles, target boxes are not empty *)
  di_same : sources_are_targets P = true -> forall b, b < nboxes t -> is_target t b = true -> 0 < box_target_counts_nonchild p b;
  di_size : (Z.of_nat size <= 2 ^ 31)%Z;
  di_once : every_box_once t size boxes
}.
(** _from_sep_smaller_min_nsources_cumul has its default value, or is not used *)
Definition no_source_threshold (P : trav_params) : Prop :=
  targets_have_extent (extents P) = true -> from_sep_smaller_min_nsources_cumul (extents P) = 0.

Theorem C40_distributed_equals_shared : forall t p source_cumul target_cumul P tr tr' size boxes merge rendezvous weights result j,
  distributed_input t p target_cumul P size boxes -> no_source_threshold P -> build_traversal t P = Some tr -> built_or_merged t P tr' ->
  distributed_execution t p source_cumul target_cumul P tr size boxes merge rendezvous weights result ->
  j < ntargets p ->
  result j = drive_fmm t p tr' weights j /\ result j = zsum (map weights (seq 0 (nsources p))).
Proof.
  intros t p sc tc P tr tr' size boxes merge rdv w result j D di_min_sources0 Htr Htr' [loc [trl [st [n [old [SET [R [AD ->]]]]]]]] Hj. destruct D.
  rewrite (fmm_total t P p tr' w j); auto. unfold total_weight.
  assert (X : gathered_result p size loc trl (fun r => Comm.pr_mpoles (Comm.procs st r)) old w j = total_weight p w); [|split; auto].
  eapply (gathered_ok t di_tree0 di_flags0 p di_particles0 sc tc di_ranges0 P di_params0 di_sorted0 di_extent0 di_min_sources0 di_mask0 di_same0 tr Htr
    size boxes di_once0 merge loc trl SET (reorder_sources p w)); auto.
  assert (NO : PropsComm.nothing_outside (X := Monoid.Zm) size (nboxes t) (fun r => rank_multipoles (loc r) (trl r) (reorder_sources p w)) (fun r => contributing_boxes (loc r))).
  { intros r b Hr Hb C. destruct (SET r Hr) as [HG HT].
    apply (rank_outside t di_tree0 di_flags0 p di_particles0 sc tc P di_params0 di_sorted0 di_min_sources0 di_mask0 di_same0 tr (boxes r)
      (fun b => boxes_range t P di_min_sources0 size boxes di_once0 r b Hr) merge (loc r) HG _ (trl r) HT); auto. }
  destruct (PropsComm.C35_complete_multipoles _ _ _ _ _ _ _ _ _ _ _ di_levels0 NO R AD) as [C _].
  intros r x Hr Hx L2 U. rewrite C; auto.
  - eapply (ranks_sum t di_tree0 di_flags0 p di_particles0 sc tc P di_params0 di_sorted0 di_min_sources0 di_mask0 di_same0 tr
      size boxes di_once0 merge loc trl SET); auto.
  - apply users_spec; auto.
Qed.
Theorem C40_allreduce_equals_shared : forall t p source_cumul target_cumul P tr tr' size boxes merge weights result j,
  distributed_input t p target_cumul P size boxes -> no_source_threshold P -> build_traversal t P = Some tr -> built_or_merged t P tr' ->
  allreduce_execution t p source_cumul target_cumul P tr size boxes merge weights result ->
  j < ntargets p ->
  result j = drive_fmm t p tr' weights j /\ result j = zsum (map weights (seq 0 (nsources p))).
Proof.
  intros t p sc tc P tr tr' size boxes merge w result j D di_min_sources0 Htr Htr' [loc [trl [old [SET ->]]]] Hj. destruct D.
  rewrite (fmm_total t P p tr' w j); auto. unfold total_weight.
  match goal with |- ?a = _ /\ _ => assert (X : a = total_weight p w); [|split; auto] end.
  eapply (gathered_ok t di_tree0 di_flags0 p di_particles0 sc tc di_ranges0 P di_params0 di_sorted0 di_extent0 di_min_sources0 di_mask0 di_same0 tr Htr
    size boxes di_once0 merge loc trl SET (reorder_sources p w)); auto.
  intros r x Hr Hx L2 U.
  eapply (ranks_sum t di_tree0 di_flags0 p di_particles0 sc tc P di_params0 di_sorted0 di_min_sources0 di_mask0 di_same0 tr
      size boxes di_once0 merge loc trl SET); auto.
Qed.
(** Setting up and evaluating succeeds: there is an execution, and (C35) every incomplete one can
    be continued. *)
Theorem C40_execution_exists : forall t p source_cumul target_cumul P tr size boxes merge rendezvous weights,
  distributed_input t p target_cumul P size boxes -> no_source_threshold P -> build_traversal t P = Some tr ->
  exists result, distributed_execution t p source_cumul target_cumul P tr size boxes merge rendezvous weights result.
Proof.
  intros t p sc tc P tr size boxes merge rdv w D di_min_sources0 Htr. destruct D.
  destruct (setup_exists t di_tree0 p sc tc P di_params0 di_extent0 di_min_sources0 tr size boxes di_once0 merge) as [loc [trl SET]].
  destruct (PropsComm.C35_executions_complete size (nboxes t) (nlevels t) (level_start_box_nrs P)
    (box_to_user_ranks (nboxes t) size (fun r => bm_multipole_src (lt_masks (loc r)))) rdv Monoid.Zm
    (fun r => rank_multipoles (loc r) (trl r) (reorder_sources p w)) (fun r => contributing_boxes (loc r)) _ 0 di_levels0 (Comm.reach_start _ _ _ _ _ _ _))
    as [st [n [_ [R AD]]]].
  eexists. exists loc, trl, st, n, (fun _ => 0%Z). split; [exact SET|]. split; [exact R|]. split; auto.
Qed.

(** ** Non-vacuity: the example tree with its particles in depth-first order, on three ranks. *)
Definition ex_order : list nat := match get_box_ids_dfs_order ex_tree with Some o => o | None => [] end.
Fixpoint position (b : nat) (l : list nat) : nat := match l with [] => 0 | x :: l' => if x =? b then 0 else S (position b l') end.
Definition ex_start (cnt : nat -> nat) (b : nat) : nat := nsum (map cnt (firstn (position b ex_order) ex_order)).
Definition ex_cumul (cnt : nat -> nat) (b : nat) : nat :=
  nsum (map cnt (filter (fun x => existsb (Nat.eqb b) (ancestors_or_self ex_tree x)) (seq 0 (nboxes ex_tree)))).
Definition table (f : nat -> nat) : nat -> nat := let l := map f (seq 0 (nboxes ex_tree)) in fun b => nth b l 0.
Definition ex_dfs_particles : particles := {|
  nsources := ex_ns; ntargets := ex_nt;
  box_source_starts := table (ex_start ex_sc); box_source_counts_nonchild := ex_sc;
  box_target_starts := table (ex_start ex_tc); box_target_counts_nonchild := ex_tc;
  user_source_ids i := ex_ns - 1 - i; sorted_target_ids i := ex_nt - 1 - i |}.
Definition ex_boxes (r : nat) : list nat := boxes_of (partition_work ex_tree ex_cost 3 r).
Definition ex_dist_extent (have : bool) (crit : sep_crit) (minsrc : nat) : extent_info :=
  let e := ex_extent have crit minsrc in
  {| targets_have_extent := have; stick_out_num := stick_out_num e; stick_out_den := stick_out_den e;
     eps_num := eps_num e; eps_den := eps_den e; from_sep_smaller_crit := crit;
     tgt_ext_center2 := tgt_ext_center2 e; tgt_ext_radius2 := tgt_ext_radius2 e;
     box_source_counts_cumul := table (ex_cumul ex_sc); from_sep_smaller_min_nsources_cumul := minsrc |}.
Definition ex_dist_params have crit minsrc := ex_params 1 (ex_dist_extent have crit minsrc).

Lemma nested_check st cnt cumul : 
  forallb (fun b => (cnt b <=? cumul b) &&
    forallb (fun m => let c := box_child ex_tree m b in (c =? 0) || (cumul c =? 0) ||
       ((st b + cnt b <=? st c) && (st c + cumul c <=? st b + cumul b))) (seq 0 (nchildren ex_tree))) (seq 0 (nboxes ex_tree)) = true ->
  nested_ranges ex_tree st cnt cumul.
Proof.
  rewrite forallb_forall. intros H. split.
  - intros b Hb. specialize (H b ltac:(apply in_seq; lia)). rewrite !andb_true_iff, !Nat.leb_le in H. tauto.
  - intros m b Hb Hm C P. specialize (H b ltac:(apply in_seq; lia)). rewrite !andb_true_iff, forallb_forall in H. destruct H as [_ H].
    specialize (H m ltac:(apply in_seq; lia)). cbv zeta in H. rewrite !orb_true_iff, andb_true_iff, !Nat.eqb_eq, !Nat.leb_le in H.
    destruct H as [[H|H]|H]; [tauto|lia|auto].
Qed.
Lemma perm_check (l : list nat) n : length l = n -> forallb (fun i => existsb (Nat.eqb i) l) (seq 0 n) = true -> Permutation l (seq 0 n).
Proof.
  intros L H. rewrite forallb_forall in H. symmetry. apply NoDup_Permutation_bis; [apply seq_NoDup|rewrite seq_length; lia|].
  intros i Hi. specialize (H i Hi). apply existsb_exists in H. destruct H as [x [X E]]. apply Nat.eqb_eq in E. subst. auto.
Qed.

Example ex_distributed_input : forall have crit minsrc,
  distributed_input ex_tree ex_dfs_particles (table (ex_cumul ex_tc)) (ex_dist_params have crit minsrc) 3 ex_boxes.
Proof.
  intros have crit k. destruct ex_tree_wf as [W1 [W2 W3]]. destruct ex_particles_wf as [[P1 P2 _ _ P5 P6] _]. split; auto.
  - split; auto; unfold owned_once; apply perm_check; vm_compute; reflexivity.
  - apply nested_check. vm_compute. reflexivity.
  - split; [cbn; lia|discriminate].
  - split; [reflexivity|]. split; [reflexivity|]. intros l. change (nlevels ex_tree) with 5. intros H.
    do 5 (destruct l as [|l]; [apply Nat.leb_le; vm_compute; reflexivity|]). lia.
  - intros _. apply (ex_params_wf 1 have crit k). lia.
  - discriminate.
  - cbn. lia.
  - unfold every_box_once. apply perm_check; vm_compute; reflexivity.
Qed.
(** all of C40's hypotheses hold for it; an execution exists, and its result at target 7 *)
Example ex_distributed_run : forall rendezvous, exists tr result,
  build_traversal ex_tree (ex_dist_params true static_l2 0) = Some tr /\
  distributed_execution ex_tree ex_dfs_particles (table (ex_cumul ex_sc)) (table (ex_cumul ex_tc)) (ex_dist_params true static_l2 0)
    tr 3 ex_boxes true rendezvous (fun i => Z.of_nat (i * i + 1)) result /\ result 7 = 20580%Z.
Proof.
  intros rdv. destruct (build_traversal ex_tree (ex_dist_params true static_l2 0)) as [tr|] eqn:B.
  2:{ exfalso. assert (X : match build_traversal ex_tree (ex_dist_params true static_l2 0) with Some _ => true | None => false end = true)
        by (vm_compute; reflexivity). rewrite B in X. discriminate. }
  destruct (C40_execution_exists ex_tree ex_dfs_particles (table (ex_cumul ex_sc)) (table (ex_cumul ex_tc)) _ tr 3 ex_boxes true rdv
    (fun i => Z.of_nat (i * i + 1)) (ex_distributed_input true static_l2 0) (fun _ => eq_refl) B) as [result R].
  exists tr, result. split; auto. split; auto.
  destruct (C40_distributed_equals_shared _ _ _ _ _ tr tr _ _ _ _ _ _ 7 (ex_distributed_input true static_l2 0) (fun _ => eq_refl) B
    (ex_intro _ tr (conj B (or_introl eq_refl))) R ltac:(apply Nat.ltb_lt; vm_compute; reflexivity)) as [_ E].
  rewrite E. vm_compute. reflexivity.
Qed.

(** ** C64: with a threshold on the number of sources (a private argument of the traversal builder)
    the distributed evaluation loses source weights. *)
Definition by_rank {A} (a b c : A) (r : nat) : A := match r with 0 => a | 1 => b | _ => c end.
Definition ex_local P tr r : option (local_tree * traversal) :=
  match generate_local_tree ex_tree ex_dfs_particles (table (ex_cumul ex_sc)) (table (ex_cumul ex_tc)) (targets_have_extent (extents P)) tr (ex_boxes r) with
  | None => None
  | Some l => match generate_local_travs P l true with Some trl => Some (l, trl) | None => None end
  end.
Definition ex_run (P : trav_params) (weights : array) (j : nat) : option Z :=
  match build_traversal ex_tree P with
  | None => None
  | Some tr =>
    match ex_local P tr 0, ex_local P tr 1, ex_local P tr 2 with
    | Some (l0, t0), Some (l1, t1), Some (l2, t2) =>
      let loc := by_rank l0 l1 l2 in let trl := by_rank t0 t1 t2 in
      Some (gathered_result ex_dfs_particles 3 loc trl
        (fun _ b => zsum (map (fun r => rank_multipoles (loc r) (trl r) (reorder_sources ex_dfs_particles weights) b) (seq 0 3)))
        (fun _ => 0%Z) weights j)
    | _, _, _ => None
    end
  end.
Lemma ex_run_execution P weights j v : ex_run P weights j = Some v ->
  exists tr result, build_traversal ex_tree P = Some tr /\
    allreduce_execution ex_tree ex_dfs_particles (table (ex_cumul ex_sc)) (table (ex_cumul ex_tc)) P tr 3 ex_boxes true weights result /\ result j = v.
Proof.
  unfold ex_run. destruct (build_traversal ex_tree P) as [tr|]; [|discriminate].
  destruct (ex_local P tr 0) as [[l0 t0]|] eqn:E0; [|discriminate]. destruct (ex_local P tr 1) as [[l1 t1]|] eqn:E1; [|discriminate].
  destruct (ex_local P tr 2) as [[l2 t2]|] eqn:E2; [|discriminate]. intros H. injection H as H. eexists tr, _. split; auto. split; [|exact H].
  exists (by_rank l0 l1 l2), (by_rank t0 t1 t2), (fun _ => 0%Z). split; [|reflexivity].
  assert (G : forall r a, ex_local P tr r = Some a ->
    generate_local_tree ex_tree ex_dfs_particles (table (ex_cumul ex_sc)) (table (ex_cumul ex_tc)) (targets_have_extent (extents P)) tr (ex_boxes r) = Some (fst a) /\
    generate_local_travs P (fst a) true = Some (snd a)).
  { intros r a E. unfold ex_local in E. destruct (generate_local_tree _ _ _ _ _ _ _) as [l|]; [|discriminate].
    destruct (generate_local_travs P l true) as [x|] eqn:T; [|discriminate]. injection E as <-. auto. }
  intros r Hr. destruct r as [|[|[|r]]]; [exact (G 0 _ E0)|exact (G 1 _ E1)|exact (G 2 _ E2)|lia].
Qed.
Theorem C64_source_threshold_refuted :
  ~ (forall t p source_cumul target_cumul P tr size boxes merge weights result j,
       distributed_input t p target_cumul P size boxes -> build_traversal t P = Some tr ->
       allreduce_execution t p source_cumul target_cumul P tr size boxes merge weights result ->
       j < ntargets p -> result j = drive_fmm t p tr weights j).
Proof.
  intros H. set (P := ex_dist_params true static_l2 1).
  assert (R : ex_run P (fun i => Z.of_nat (i * i + 1)) 16 = Some 20320%Z) by (vm_compute; reflexivity).
  destruct (ex_run_execution _ _ _ _ R) as [tr [result [B [X E]]]].
  rewrite (H _ _ _ _ P tr _ _ _ _ _ 16 (ex_distributed_input true static_l2 1) B X) in E by (apply Nat.ltb_lt; vm_compute; reflexivity).
  destruct (ex_distributed_input true static_l2 1).
  rewrite (fmm_total ex_tree P ex_dfs_particles tr) in E; auto.
  - vm_compute in E. discriminate.
  - exists tr. auto.
  - apply Nat.ltb_lt. vm_compute. reflexivity.
Qed.

Print Assumptions C39_local_particles.
Print Assumptions C39_particles_copied.
Print Assumptions C39_local_boxes.
Print Assumptions C40_distributed_equals_shared.
Print Assumptions C40_allreduce_equals_shared.
Print Assumptions C40_execution_exists.
Print Assumptions C64_source_threshold_refuted.
