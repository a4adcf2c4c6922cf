(** Property C83: repeated distributed evaluations, with all messages between the ranks. *)
From Coq Require Import List Arith ZArith NArith Lia Bool Permutation.
From Verif Require Import Base Tree Spec TreeFacts Traversal SpecTraversal Fmm Partition LocalTree Distributed PropsDist
  PropsPartition PropsFmm FmmThm CheckTree ExampleTree PropsTraversal Monoid FmmGen SpecFmmGen QuadKernel PropsFmmGen DistributedGen DistGenThm PropsDistGen DistRun DistRunThm DistRunGen.
From Verif Require Comm PropsComm.
Import ListNotations.

(** ** Whatever the ranks compute: every completed evaluation is one in isolation *)
(** If the root rank has completed [e] evaluations, in whatever order the messages were delivered,
    then what it gathered in each of them is what every rank computes from the weights of that
    evaluation and its expansions after a complete exchange (Comm.v) that starts with the
    expansions of that evaluation: nothing of an earlier or a later evaluation gets in. *)
Theorem C83_evaluations_do_not_mix : forall (X : cmonoid) (W U : Type) size nboxes nlevels level_starts users rendezvous contributing nevals
    (weights_for : nat -> nat -> W) upward (evaluate : nat -> W -> (nat -> X) -> U) left_over st n e got,
  0 < size -> PropsComm.levels_cover nboxes nlevels level_starts ->
  run_reachable size nboxes nlevels level_starts users rendezvous contributing nevals weights_for upward evaluate (run_start left_over) st n ->
  nth_error (results st) e = Some got ->
  e < nevals /\
  exists final k,
    Comm.reachable size nboxes nlevels level_starts users rendezvous (Comm.start size (fun r => upward r (weights_for e r)) contributing) final k /\
    Comm.all_done size final /\
    forall r, r < size -> got r = Some (evaluate r (weights_for e r) (Comm.pr_mpoles (Comm.procs final r))).
Proof.
  intros X W U size nb nl ls users rdv con ne wf up ev lo st n e got S0 LV H G.
  destruct (run_inv size nb nl ls users rdv con ne wf up ev S0 LV lo st n H) as [N [nx [I [RO _]]]].
  assert (LT : e < length (results st)) by (apply nth_error_Some; congruence).
  destruct (i_max _ _ _ _ _ _ _ _ _ _ _ _ _ _ I) as [M _]. split; [unfold epoch in M; lia|].
  destruct (RO e LT) as [Ne [k [A [B C]]]]. exists Ne, k. split; auto. split; auto. intros r R.
  assert (CR := C r R). rewrite (nth_error_nth _ _ _ G) in CR. exact CR.
Qed.
(** No deadlock: unless all ranks are through with all evaluations, some rank can go on, also if
    sends complete only when they are received. *)
Theorem C83_no_deadlock : forall (X : cmonoid) (W U : Type) size nboxes nlevels level_starts users rendezvous contributing nevals
    (weights_for : nat -> nat -> W) upward (evaluate : nat -> W -> (nat -> X) -> U) left_over st n,
  0 < size -> PropsComm.levels_cover nboxes nlevels level_starts ->
  run_reachable size nboxes nlevels level_starts users rendezvous contributing nevals weights_for upward evaluate (run_start left_over) st n ->
  ~ run_over size nevals st ->
  exists st', run_step size nboxes nlevels level_starts users rendezvous contributing nevals weights_for upward evaluate st st'.
Proof.
  intros X W U size nb nl ls users rdv con ne wf up ev lo st n S0 LV H NO.
  destruct (run_inv size nb nl ls users rdv con ne wf up ev S0 LV lo st n H) as [N [nx [I _]]]. eapply run_progress; eauto.
Qed.
(** Every execution is finite. *)
Theorem C83_bounded_executions : forall (X : cmonoid) (W U : Type) size nboxes nlevels level_starts users rendezvous contributing nevals
    (weights_for : nat -> nat -> W) upward (evaluate : nat -> W -> (nat -> X) -> U) left_over st n,
  0 < size -> PropsComm.levels_cover nboxes nlevels level_starts ->
  run_reachable size nboxes nlevels level_starts users rendezvous contributing nevals weights_for upward evaluate (run_start left_over) st n ->
  n <= nevals * (4 * size * (Nat.log2_up size + 1)).
Proof.
  intros X W U size nb nl ls users rdv con ne wf up ev lo st n S0 LV H.
  assert (B := run_bounded size nb nl ls users rdv con ne wf up ev S0 LV lo st n H). unfold exchange_bound in B.
  replace (4 * size * (Nat.log2_up size + 1)) with (4 * size * Nat.log2_up size + 4 * size) by lia. exact B.
Qed.
(** When all ranks are through, the root rank has one result per evaluation and no message is
    left over. *)
Theorem C83_nothing_left_over : forall (X : cmonoid) (W U : Type) size nboxes nlevels level_starts users rendezvous contributing nevals
    (weights_for : nat -> nat -> W) upward (evaluate : nat -> W -> (nat -> X) -> U) left_over st n,
  0 < size -> PropsComm.levels_cover nboxes nlevels level_starts ->
  run_reachable size nboxes nlevels level_starts users rendezvous contributing nevals weights_for upward evaluate (run_start left_over) st n ->
  run_over size nevals st ->
  length (results st) = nevals /\ (forall a b, xchan st a b = []) /\ (forall r, 1 <= r < size -> wchan st r = [] /\ pchan st r = []).
Proof.
  intros X W U size nb nl ls users rdv con ne wf up ev lo st n S0 LV H O.
  destruct (run_final size nb nl ls users rdv con ne wf up ev S0 LV lo st n H O) as [A [_ B]]. split; auto.
Qed.

(** ** With the FMM driver on every rank *)
Lemma gather_ext {A} size tgt (f g : nat -> nat -> A) old : (forall r, r < size -> f r = g r) -> forall i,
  gather_potentials size tgt f old i = gather_potentials size tgt g old i.
Proof.
  intros H i. unfold gather_potentials. assert (G : forall l, (forall r, In r l -> r < size) -> forall o,
    fold_left (fun g0 r => TreeBuild.scatter (map (fun k => (nth k (tgt r) 0, f r k)) (seq 0 (length (tgt r)))) g0) l o =
    fold_left (fun g0 r => TreeBuild.scatter (map (fun k => (nth k (tgt r) 0, g r k)) (seq 0 (length (tgt r)))) g0) l o).
  { induction l as [|r l IH]; intros HL o; auto. cbn [fold_left]. rewrite (H r) by (apply HL; left; auto). apply IH. intros q Q. apply HL. right. auto. }
  rewrite G; auto. intros r Q. apply in_seq in Q. lia.
Qed.
(** Every evaluation the root rank has completed gives the potentials that the shared-memory
    driver computes for the source weights of this evaluation - for every linear wrangler, any
    number of ranks and evaluations, any order of message delivery. *)
Theorem C83_every_evaluation_equals_shared : forall (Wt : Type) (M L V : cmonoid) (R : routines Wt M L V)
    t p source_cumul target_cumul P tr tr' size boxes merge loc trl rendezvous nevals (weights : nat -> nat -> Wt) left_over st n e got empty junk j,
  linear R -> 0 < size ->
  distributed_input t p target_cumul P size boxes -> no_source_threshold P -> build_traversal t P = Some tr -> built_or_merged t P tr' ->
  local_setup t p source_cumul target_cumul P tr size boxes merge loc trl ->
  repeated_execution R t p P size loc trl rendezvous nevals weights left_over st n ->
  nth_error (results st) e = Some got -> j < ntargets p ->
  e < nevals /\ assembled R p size loc empty junk got j = drive_fmm_gen _ _ _ _ R t p (level_start_box_nrs P) tr' (weights e) j.
Proof.
  intros Wt M L V R t p sc tc P tr tr' size boxes merge loc trl rdv ne w lo st n e got empty junk j LIN S0 D MIN Htr Htr' SET H G Hj.
  destruct (C83_evaluations_do_not_mix _ _ _ _ _ _ _ _ _ _ _ _ _ _ _ _ _ _ _ S0 (di_levels _ _ _ _ _ _ D) H G) as [LT [N [k [A [B C]]]]].
  split; auto.
  rewrite <- (C79_distributed_equals_shared _ _ _ _ R t p sc tc P tr tr' size boxes merge rdv (w e)
    (gathered_result_gen R p P size loc trl (fun r => Comm.pr_mpoles (Comm.procs N r)) empty (w e)) j LIN D MIN Htr Htr'); auto.
  - unfold assembled, gathered_result_gen. f_equal. apply gather_ext. intros r Hr. rewrite (C r Hr). reflexivity.
  - exists loc, trl, N, k, empty. split; auto.
Qed.
(** Every execution can be completed, and then there is a result for every evaluation. *)
Theorem C83_executions_complete : forall (Wt : Type) (M L V : cmonoid) (R : routines Wt M L V)
    t p target_cumul P size boxes loc trl rendezvous nevals (weights : nat -> nat -> Wt) left_over st n,
  0 < size -> distributed_input t p target_cumul P size boxes ->
  repeated_execution R t p P size loc trl rendezvous nevals weights left_over st n ->
  exists st' n', n <= n' /\ repeated_execution R t p P size loc trl rendezvous nevals weights left_over st' n' /\
  run_over size nevals st' /\ length (results st') = nevals.
Proof.
  intros Wt M L V R t p tc P size boxes loc trl rdv ne w lo st n S0 D H.
  destruct (run_completes _ _ _ _ _ _ _ _ _ _ _ S0 (di_levels _ _ _ _ _ _ D) lo st n H) as [st' [n' [LE [H' O]]]].
  exists st', n'. split; auto. split; auto. split; auto.
  eapply C83_nothing_left_over; eauto. exact (di_levels _ _ _ _ _ _ D).
Qed.

(** ** Non-vacuity: the example tree on three ranks, quadratic kernel, two weight vectors. *)
Example ex_repeated_run : forall rendezvous, exists tr loc trl st n g0 g1,
  build_traversal ex_tree (ex_dist_params true static_l2 0) = Some tr /\
  local_setup ex_tree ex_dfs_particles (table (ex_cumul ex_sc)) (table (ex_cumul ex_tc)) (ex_dist_params true static_l2 0) tr 3 ex_boxes true loc trl /\
  repeated_execution ex_quad ex_tree ex_dfs_particles (ex_dist_params true static_l2 0) 3 loc trl rendezvous 2
    (fun e i => Z.of_nat (e * i + 1)) (fun r => Comm.mkProc _ (Tools.pat_init r 3) (fun _ => e0) (fun _ => false) None) st n /\
  run_over 3 2 st /\ results st = [g0; g1] /\
  assembled ex_quad ex_dfs_particles 3 loc (fun _ => e0) (fun _ => e0) g0 7 =
    zsum (map (fun u => 1 * ((ex_pos 3 (ex_nt - 8) - ex_pos 1 u) * (ex_pos 3 (ex_nt - 8) - ex_pos 1 u) +
     (ex_pos 4 (ex_nt - 8) - ex_pos 2 u) * (ex_pos 4 (ex_nt - 8) - ex_pos 2 u)))%Z (seq 0 ex_ns)) /\
  assembled ex_quad ex_dfs_particles 3 loc (fun _ => e0) (fun _ => e0) g1 7 =
    zsum (map (fun u => Z.of_nat (u + 1) * ((ex_pos 3 (ex_nt - 8) - ex_pos 1 u) * (ex_pos 3 (ex_nt - 8) - ex_pos 1 u) +
     (ex_pos 4 (ex_nt - 8) - ex_pos 2 u) * (ex_pos 4 (ex_nt - 8) - ex_pos 2 u)))%Z (seq 0 ex_ns)).
Proof.
  intros rdv. destruct (build_traversal ex_tree (ex_dist_params true static_l2 0)) as [tr|] eqn:B.
  2:{ exfalso. assert (X : match build_traversal ex_tree (ex_dist_params true static_l2 0) with Some _ => true | None => false end = true)
        by (vm_compute; reflexivity). rewrite B in X. discriminate. }
  assert (D := ex_distributed_input true static_l2 0).
  destruct (C79_execution_exists _ _ _ _ ex_quad ex_tree ex_dfs_particles (table (ex_cumul ex_sc)) (table (ex_cumul ex_tc)) _ tr 3 ex_boxes true rdv
    (fun i => Z.of_nat (i * i + 1)) D (fun _ => eq_refl) B) as [result [loc [trl [_ [_ [_ [SET _]]]]]]].
  set (lo := fun r => Comm.mkProc _ (Tools.pat_init r 3) (fun _ => e0) (fun _ => false) None).
  destruct (C83_executions_complete _ _ _ _ ex_quad ex_tree ex_dfs_particles (table (ex_cumul ex_tc)) _ 3 ex_boxes loc trl rdv 2
    (fun e i => Z.of_nat (e * i + 1)) lo (run_start lo) 0 ltac:(lia) D (run_reach_start _ _ _ _ _ _ _ _ _ _ _ _)) as [st [n [_ [H [O LEN]]]]].
  destruct (results st) as [|g0 [|g1 [|]]] eqn:RS; try discriminate LEN.
  exists tr, loc, trl, st, n, g0, g1. split; auto. split; auto. split; auto. split; auto. split; auto.
  assert (Hj : 7 < ntargets ex_dfs_particles) by (apply Nat.ltb_lt; vm_compute; reflexivity).
  assert (BM : built_or_merged ex_tree (ex_dist_params true static_l2 0) tr) by (exists tr; auto).
  assert (E : forall e got, nth_error (results st) e = Some got -> assembled ex_quad ex_dfs_particles 3 loc (fun _ => e0) (fun _ => e0) got 7 =
    drive_fmm_gen _ _ _ _ ex_quad ex_tree ex_dfs_particles (level_start_box_nrs (ex_dist_params true static_l2 0)) tr (fun i => Z.of_nat (e * i + 1)) 7).
  { intros e got G. apply (C83_every_evaluation_equals_shared _ _ _ _ ex_quad ex_tree ex_dfs_particles _ _ _ tr tr 3 ex_boxes true loc trl rdv 2
      (fun e i => Z.of_nat (e * i + 1)) lo st n e got _ _ 7 (quad_linear _ _ _ _ _ _) ltac:(lia) D (fun _ => eq_refl) B BM SET H G Hj). }
  rewrite RS in E. assert (E0 := E 0 g0 eq_refl). assert (E1 := E 1 g1 eq_refl). clear E.
  destruct D. rewrite E0, E1. unfold ex_quad.
  split; (rewrite C76_quadratic_kernel_exact; [vm_compute; reflexivity|..]); auto; try (split; auto).
Qed.

Print Assumptions C83_evaluations_do_not_mix.
Print Assumptions C83_no_deadlock.
Print Assumptions C83_bounded_executions.
Print Assumptions C83_nothing_left_over.
Print Assumptions C83_every_evaluation_equals_shared.
Print Assumptions C83_executions_complete.
