(** Properties of the FMM cost model: C41 (what the costs count), C66 (calibration),
    C67 - C69 (documented behaviour that does not hold). *)
From Coq Require Import List Arith ZArith NArith Lia Bool Permutation QArith Qcanon.
From Verif Require Import Base Tree Spec Traversal SpecTraversal LevelStarts Fmm SpecFmm FmmFacts FmmThm
  Cost SpecCost CostFacts CostThm CostCalib CheckTree ExampleTree PropsTraversal PropsFmm.
Import ListNotations.
Local Open Scope Qc_scope.

(** A traversal as returned by the builder, close lists merged or not. *)
Definition fmm_traversal (t : tree) (P : trav_params) (tr : traversal) : Prop :=
  wf_tree t /\ wf_flags t /\ wf_params t P /\ level_sorted t (level_start_box_nrs P) /\
  (targets_have_extent (Traversal.extents P) = true -> wf_extent (Traversal.extents P)) /\
  (build_traversal t P = Some tr \/
   exists tr0, build_traversal t P = Some tr0 /\ merge_close_lists tr0 = Some tr).
(** counts small enough for 32-bit products: the number of sources, and of boxes, times the
    number of targets in a box *)
Definition counts_below_2_31 (t : tree) (p : particles) (tr : traversal) (tcounts : nat -> nat) : Prop :=
  (Z.of_nat (nsources p) < 2 ^ 31)%Z /\
  forall T, In T (target_boxes tr) ->
    (Z.of_nat (nsources p) * Z.of_nat (tcounts T) < 2 ^ 31 /\
     Z.of_nat (nboxes t) * Z.of_nat (tcounts T) < 2 ^ 31)%Z.
Lemma fmm_traversal_bm t P tr : fmm_traversal t P tr -> built_or_merged t P tr.
Proof. intros [_ [_ [_ [_ [_ [B|[tr0 [B M]]]]]]]]; [exists tr|exists tr0]; auto. Qed.
Lemma fmm_traversal_ready t P tr p tc : fmm_traversal t P tr -> wf_particles t p -> counts_below_2_31 t p tr tc ->
  wf_tree t /\ cost_ready t tr /\ fits32 p tr tc.
Proof.
  intros FT HP [C1 C2]. pose proof (fmm_traversal_bm _ _ _ FT) as BM.
  destruct FT as [W [F [WP [LS [WE _]]]]]. split; auto. split.
  - eapply cost_ready_of; eauto.
  - eapply fits32_of_bounds; eauto.
Qed.

(** The FMM run consists of the operations [fmm_ops]: executing them gives the potentials of
    the driver. *)
Theorem C41_operations_are_the_fmm : forall t P tr p weights j,
  fmm_traversal t P tr -> wf_particles t p -> (j < ntargets p)%nat ->
  drive_fmm t p tr weights j =
  pot (run_ops p (fun i => weights (user_source_ids p i)) (fmm_ops t p tr (box_target_counts_nonchild p)))
      (sorted_target_ids p j).
Proof.
  intros t P tr p w j FT HP Hj. pose proof (fmm_traversal_bm _ _ _ FT) as BM.
  destruct FT as [W [F [WP [LS [WE _]]]]]. destruct (cost_ready_of t P tr W F WP LS BM) as [R RF].
  destruct (target_owner t P tr p (sorted_target_ids p j) W WP BM HP) as [T [HT HO]].
  { apply (wf_sorted_target_ids t p HP). auto. }
  symmetry. eapply run_ops_at; eauto.
Qed.

(** The cost of each stage is the sum of the costs of the operations of that stage
    (point-to-local operations are charged at the level of the source box, see C68). *)
Theorem C41_stage_costs_count_operations : forall t P tr p tc F s,
  fmm_traversal t P tr -> wf_particles t p -> counts_below_2_31 t p tr tc ->
  cost_of (cost_per_stage t p tr tc F) s = total_cost t F (fun B A => box_level t B) (stage_ops t p tr tc s).
Proof.
  intros t P tr p tc F s FT HP C. destruct (fmm_traversal_ready t P tr p tc FT HP C) as [W [R FIT]].
  rewrite per_stage_total by auto. destruct s; reflexivity.
Qed.
(** The cost of a box is the sum of the costs of the operations charged to it. *)
Theorem C41_box_costs_count_operations : forall t P tr p tc F b,
  fmm_traversal t P tr -> wf_particles t p -> counts_below_2_31 t p tr tc ->
  cost_per_box t p tr tc F b =
  total_cost t F (fun B A => box_level t B) (filter (is_charged_to b) (fmm_ops t p tr tc)).
Proof.
  intros t P tr p tc F b FT HP C. destruct (fmm_traversal_ready t P tr p tc FT HP C) as [W [R FIT]].
  rewrite per_box_total by auto. reflexivity.
Qed.
(** Summed over all boxes, the box costs are the costs of the stages other than upward and
    downward propagation. *)
Theorem C41_box_costs_sum_to_stage_costs : forall t P tr p tc F,
  fmm_traversal t P tr -> wf_particles t p -> counts_below_2_31 t p tr tc ->
  qsum (map (cost_per_box t p tr tc F) (seq 0 (nboxes t))) =
  qsum (map (cost_of (cost_per_stage t p tr tc F))
    [FormMultipoles; EvalDirect; MultipoleToLocal; EvalMultipoles; FormLocals; EvalLocals]).
Proof.
  intros t P tr p tc F FT HP C. destruct (fmm_traversal_ready t P tr p tc FT HP C) as [W [R FIT]].
  rewrite per_box_sum by auto. cbv zeta. unfold qsum. cbn [map fold_right cost_of]. ring.
Qed.
(** The device kernels and the Python reference agree. *)
Theorem C41_device_equals_reference : forall t P tr p tc F,
  fmm_traversal t P tr -> wf_particles t p -> counts_below_2_31 t p tr tc ->
  cost_per_stage t p tr tc F = py_cost_per_stage t p tr tc F /\
  forall b, cost_per_box t p tr tc F b = py_cost_per_box t p tr tc F b.
Proof.
  intros t P tr p tc F FT HP C. destruct (fmm_traversal_ready t P tr p tc FT HP C) as [W [R FIT]].
  split; [rewrite py_per_stage by auto; auto|]. intros b. rewrite py_per_box by auto. auto.
Qed.

(** ** C66: calibration *)
(** each stage cost is the calibration parameter of that stage times the unit cost *)
Theorem C66_costs_linear : forall t p tr tc x c s,
  cost_of (cost_per_stage t p tr tc (factors_from_model x c)) s =
  cal_of c s * cost_of (cost_per_stage t p tr tc (factors_from_model x unit_calibration)) s.
Proof. intros. rewrite stage_costs_linear. destruct s; cbn; auto; ring. Qed.

Lemma std_params s q : param_of_stage s = Some q -> In (s, q) stage_to_param.
Proof. destruct s; intros H; try discriminate; injection H as <-; unfold stage_to_param; simpl; tauto. Qed.
(** a calibration case: the model result with unit parameters and the timing of the run *)
Definition case := (stage_costs * list (stage * Qc))%type.
Definition models (cases : list case) := map (fun x => with_stage_costs (fst x)) cases.
Definition timings (cases : list case) := map (@snd _ _) cases.

(** the estimate is the least-squares fit of the timings of its stage *)
Theorem C66_least_squares : forall (cases : list case) time s q,
  param_of_stage s = Some q ->
  (forall x, In x cases -> timed_stages (snd x) (time x)) ->
  all_close_zero (map (fun x => cost_of (fst x) s) cases) = false ->
  exists r, estimate stage_to_param (models cases) (timings cases) q = Some (Fin r) /\
    forall k, sq_error r (map (fun x => cost_of (fst x) s) cases) (map (fun x => time x s) cases) <=
              sq_error k (map (fun x => cost_of (fst x) s) cases) (map (fun x => time x s) cases).
Proof.
  intros cases time s q Hs T Z. apply std_params in Hs. pose proof (estimate_eq cases time T s q Hs) as E.
  rewrite (fit_eq _ _ Z) in E. eexists. split; [exact E|]. intros k. apply fit_optimal; auto.
  - rewrite !map_length. auto.
  - apply fit_eq. auto.
Qed.
(** timings exactly proportional to the model give back the factors *)
Theorem C66_exact_recovery : forall (cases : list case) c s q,
  param_of_stage s = Some q ->
  (forall x, In x cases -> timed_stages (snd x) (fun s => cal_of c s * cost_of (fst x) s)) ->
  all_close_zero (map (fun x => cost_of (fst x) s) cases) = false ->
  estimate stage_to_param (models cases) (timings cases) q = Some (Fin (cal_of c s)).
Proof.
  intros cases c s q Hs T Z. apply std_params in Hs. etransitivity.
  - apply (estimate_eq cases (fun x s => cal_of c s * cost_of (fst x) s) T s q Hs).
  - rewrite <- (map_map (fun x : case => cost_of (fst x) s) (fun v => cal_of c s * v)). rewrite fit_exact by auto. auto.
Qed.
(** The model calibrated on such timings predicts the timings of every run, for stages that
    had work in some calibration case. *)
Theorem C66_calibrated_model_predicts : forall x (cases : list case) c c' s q,
  param_of_stage s = Some q ->
  (forall k, In k cases -> timed_stages (snd k) (fun s => cal_of c s * cost_of (fst k) s)) ->
  all_close_zero (map (fun k => cost_of (fst k) s) cases) = false ->
  estimate stage_to_param (models cases) (timings cases) q = Some (Fin (cal_of c' s)) ->
  forall t p tr tc,
    cost_of (cost_per_stage t p tr tc (factors_from_model x c')) s =
    cost_of (cost_per_stage t p tr tc (factors_from_model x c)) s.
Proof.
  intros x cases c c' s q Hs T Z E t p tr tc. rewrite (C66_exact_recovery cases c s q Hs T Z) in E.
  injection E as E. rewrite (C66_costs_linear t p tr tc x c s), (C66_costs_linear t p tr tc x c' s), E. auto.
Qed.

(** ** C67: 32-bit overflow of the direct cost *)
Definition one_box : tree := {|
  dim := 1; nlevels := 1; nboxes := 1; root_extent := 2; box_center := fun _ _ => 0%Z;
  box_level := fun _ => 0%nat; box_parent := fun _ => 0%nat; box_child := fun _ _ => 0%nat;
  box_flags := fun _ => 19%N |}.
Definition one_box_particles (n m : nat) : particles := {|
  nsources := n; ntargets := m;
  box_source_starts := fun _ => 0%nat; box_source_counts_nonchild := fun _ => n;
  box_target_starts := fun _ => 0%nat; box_target_counts_nonchild := fun _ => m;
  user_source_ids := fun i => i; sorted_target_ids := fun i => i |}.
Definition one_box_params : trav_params := {|
  well_sep_is_n_away := 1; Traversal.extents := ex_extent false static_linf 0; sources_are_targets := false;
  source_boxes_mask := fun _ => true; source_parent_boxes_mask := fun _ => true;
  level_start_box_nrs := fun l => Nat.min l 1 |}.
Lemma one_box_ok : wf_tree one_box /\ wf_flags one_box /\ wf_params one_box one_box_params /\
  level_sorted one_box (level_start_box_nrs one_box_params).
Proof.
  split; [apply check_wf_ok; vm_compute; reflexivity|]. split; [apply check_flags_ok; vm_compute; reflexivity|].
  split; [split; [simpl; lia|discriminate]|].
  intros b l Hb Hl. cbn [level_start_box_nrs one_box_params box_level one_box nboxes nlevels] in *. lia.
Qed.
Lemma one_box_particles_ok n m : wf_particles one_box (one_box_particles n m).
Proof.
  split.
  - cbn [user_source_ids one_box_particles nsources]. rewrite map_id. auto.
  - intros j Hj. exact Hj.
  - unfold owned_once. cbn [nboxes one_box seq map concat box_source_starts box_source_counts_nonchild one_box_particles nsources].
    rewrite app_nil_r. auto.
  - unfold owned_once. cbn [nboxes one_box seq map concat box_target_starts box_target_counts_nonchild one_box_particles ntargets].
    rewrite app_nil_r. auto.
  - intros. reflexivity.
  - intros. reflexivity.
Qed.
Definition C67_direct_cost_correct_without_bound : Prop := forall t P tr p F,
  fmm_traversal t P tr -> wf_particles t p ->
  eval_direct_stage (cost_per_stage t p tr (box_target_counts_nonchild p) F) =
  total_cost t F (fun B A => box_level t B) (ops_eval_direct p tr (box_target_counts_nonchild p)).

(** a box with 65536 sources and 32768 targets: the modelled cost is negative *)
Theorem C67_refuted : ~ C67_direct_cost_correct_without_bound /\
  exists P tr p F, fmm_traversal one_box P tr /\ wf_particles one_box p /\ p2p_cost F = 1 /\
    Z.of_nat (nsources p) = 65536%Z /\ Z.of_nat (ntargets p) = 32768%Z /\
    eval_direct_stage (cost_per_stage one_box p tr (box_target_counts_nonchild p) F) = of_Z (- 2 ^ 31) /\
    eval_direct_stage (py_cost_per_stage one_box p tr (box_target_counts_nonchild p) F) = of_Z (2 ^ 31).
Proof.
  assert (E : exists P tr p F, fmm_traversal one_box P tr /\ wf_particles one_box p /\ p2p_cost F = 1 /\
    Z.of_nat (nsources p) = 65536%Z /\ Z.of_nat (ntargets p) = 32768%Z /\
    eval_direct_stage (cost_per_stage one_box p tr (box_target_counts_nonchild p) F) = of_Z (- 2 ^ 31) /\
    eval_direct_stage (py_cost_per_stage one_box p tr (box_target_counts_nonchild p) F) = of_Z (2 ^ 31) /\
    total_cost one_box F (fun B A => box_level one_box B) (ops_eval_direct p tr (box_target_counts_nonchild p)) = of_Z (2 ^ 31)).
  { assert (B : exists tr, build_traversal one_box one_box_params = Some tr /\ target_boxes tr = [0%nat] /\
       neighbor_source_boxes tr = csr_of [[0%nat]] /\ from_sep_close_smaller tr = None /\ from_sep_close_bigger tr = None).
    { eexists. split; [vm_compute; reflexivity|]. repeat split. }
    destruct B as [tr [B [E1 [E2 [E3 E4]]]]].
    set (n := Z.to_nat 65536). set (m := Z.to_nat 32768).
    assert (Hn : Z.of_nat n = 65536%Z) by (unfold n; rewrite Z2Nat.id; lia).
    assert (Hm : Z.of_nat m = 32768%Z) by (unfold m; rewrite Z2Nat.id; lia).
    exists one_box_params, tr, (one_box_particles n m), (factors_from_model (taylor_model 1 (fun _ => 1%nat)) unit_calibration).
    clearbody n m.
    split; [|split; [|split; [|split; [|split; [|split; [|split]]]]]].
    - destruct one_box_ok as [O1 [O2 [O3 O4]]]. unfold fmm_traversal. split; [auto|]. split; [auto|]. split; [auto|].
      split; [auto|]. split; [discriminate|auto].
    - apply one_box_particles_ok.
    - reflexivity.
    - exact Hn.
    - exact Hm.
    - unfold cost_per_stage, cost_per_stage_with, ndirect_sources. cbn [eval_direct_stage].
      rewrite E1, E2, E3, E4. unfold direct_cost. rewrite E1. cbn. unfold nsrc, ntgt. cbn. rewrite Hn, Hm. reflexivity.
    - unfold py_cost_per_stage, py_ndirect. cbn [eval_direct_stage].
      rewrite E1, E2, E3, E4. unfold py_direct. rewrite E1. cbn. unfold nsrc, ntgt. cbn. rewrite Hn, Hm. reflexivity.
    - unfold ops_eval_direct, ops_direct, list1_of, list3_close_of, list4_close_of. rewrite E1, E2, E3, E4.
      assert (EN : entries [0%nat] (csr_of [[0%nat]]) 0 = [0%nat]) by reflexivity.
      rewrite total_app, total_app. unfold for_each at 1 4 5. cbn [map concat]. rewrite EN.
      unfold for_each at 1 3 4. cbn [map concat]. rewrite !app_nil_r.
      rewrite total_for_each.
      rewrite (qsum_ext _ (fun _ => of_Z (Z.of_nat m))).
      + rewrite qsum_const. unfold sources_of. rewrite seq_length. cbn [box_source_counts_nonchild one_box_particles].
        rewrite Hn, Hm. reflexivity.
      + intros s _. rewrite (total_map _ _ _ _ 1) by auto. unfold targets_of. rewrite seq_length.
        cbn [box_target_counts_nonchild one_box_particles]. ring. }
  destruct E as [P [tr [p [F [E1 [E2 [E3 [E4 [E5 [E6 [E7 E8]]]]]]]]]]]. split.
  - intros Q. specialize (Q one_box P tr p F E1 E2). rewrite E6, E8 in Q.
    apply (f_equal this) in Q. vm_compute in Q. discriminate Q.
  - exists P, tr, p, F. auto 10.
Qed.

(** ** C68: the level charged for point-to-local translations *)
(** documented: entry i of p2l_cost is the cost to a local expansion at level i *)
Definition C68_p2l_charged_at_target_level : Prop := forall t P tr p tc F,
  fmm_traversal t P tr -> wf_particles t p -> counts_below_2_31 t p tr tc ->
  form_locals_stage (cost_per_stage t p tr tc F) =
  total_cost t F (fun B A => box_level t A) (ops_form_locals p tr).
Definition ex_factors : cost_factors := factors_from_model (pde_aware_model 2 (fun l => (10 - l)%nat)) unit_calibration.
Definition tr_of (o : option traversal) (d : traversal) := match o with Some x => x | None => d end.
Lemma ex_fmm_traversal n have crit k tr : (1 <= n)%nat -> build_traversal ex_tree (ex_params n (ex_extent have crit k)) = Some tr ->
  fmm_traversal ex_tree (ex_params n (ex_extent have crit k)) tr.
Proof.
  intros Hn B. destruct (ex_fmm_hyps n have crit k Hn) as [H1 [H2 [H3 [H4 [H5 _]]]]].
  unfold fmm_traversal. split; [auto|]. split; [auto|]. split; [auto|]. split; [auto|]. split; [auto|]. left. exact B.
Qed.
Definition check_counts (t : tree) (p : particles) (tr : traversal) (tc : nat -> nat) : bool :=
  (Z.of_nat (nsources p) <? 2 ^ 31)%Z &&
  forallb (fun T => (Z.of_nat (nsources p) * Z.of_nat (tc T) <? 2 ^ 31) &&
                    (Z.of_nat (nboxes t) * Z.of_nat (tc T) <? 2 ^ 31))%Z (target_boxes tr).
Lemma check_counts_ok t p tr tc : check_counts t p tr tc = true -> counts_below_2_31 t p tr tc.
Proof.
  unfold check_counts. rewrite andb_true_iff, forallb_forall, Z.ltb_lt. intros [H1 H2]. split; auto.
  intros T HT. specialize (H2 T HT). rewrite andb_true_iff, !Z.ltb_lt in H2. auto.
Qed.

Theorem C68_refuted : ~ C68_p2l_charged_at_target_level.
Proof.
  intros Q. destruct (build_traversal ex_tree (ex_params 1 (ex_extent true static_l2 2))) as [tr|] eqn:B; [|vm_compute in B; discriminate B].
  assert (FT := ex_fmm_traversal 1 true static_l2 2 tr (le_n 1) B).
  assert (CB : match build_traversal ex_tree (ex_params 1 (ex_extent true static_l2 2)) with
     | Some tr => check_counts ex_tree ex_particles tr (box_target_counts_nonchild ex_particles)
     | None => false end = true) by (vm_compute; reflexivity).
  rewrite B in CB. apply check_counts_ok in CB.
  specialize (Q ex_tree _ tr ex_particles (box_target_counts_nonchild ex_particles) ex_factors FT (proj1 ex_particles_wf) CB).
  assert (N : match build_traversal ex_tree (ex_params 1 (ex_extent true static_l2 2)) with
     | Some tr => Qeq_bool (this (form_locals_stage (cost_per_stage ex_tree ex_particles tr (box_target_counts_nonchild ex_particles) ex_factors)))
                    (this (total_cost ex_tree ex_factors (fun B A => box_level ex_tree A) (ops_form_locals ex_particles tr)))
     | None => true end = false) by (vm_compute; reflexivity).
  rewrite B, Q in N. rewrite (Qeq_eq_bool _ _ (Qeq_refl _)) in N. discriminate N.
Qed.
(** with the same cost on all levels the two agree *)
Theorem C68_level_independent_costs : forall t P tr p tc F,
  fmm_traversal t P tr -> wf_particles t p -> counts_below_2_31 t p tr tc ->
  (forall l l', p2l_cost F l = p2l_cost F l') ->
  form_locals_stage (cost_per_stage t p tr tc F) =
  total_cost t F (fun B A => box_level t A) (ops_form_locals p tr).
Proof.
  intros t P tr p tc F FT HP C H.
  change (form_locals_stage (cost_per_stage t p tr tc F)) with (cost_of (cost_per_stage t p tr tc F) FormLocals).
  rewrite (C41_stage_costs_count_operations t P tr p tc F FormLocals FT HP C). cbn [stage_ops].
  unfold total_cost. apply qsum_ext. intros o _. destruct o; cbn [op_cost]; auto.
Qed.

(** ** C69: no model result for a stage *)
(** documented: the parameter of a stage without any model result is NaN *)
Definition C69_no_model_result_gives_nan : Prop := forall models timings s q r,
  param_of_stage s = Some q ->
  (forall m, In m models -> lookup s m = None) ->
  estimate stage_to_param models timings q = Some r -> r = NaN.
Theorem C69_no_model_result_gives_zero : forall models timings s q r,
  param_of_stage s = Some q ->
  (forall m, In m models -> lookup s m = None) ->
  estimate stage_to_param models timings q = Some r -> r = Fin 0.
Proof.
  intros ms ts s q r Hs H E. unfold estimate in E. destruct (_ =? _)%nat; [|discriminate].
  destruct (run_all _ ts) as [a|]; [|discriminate]. injection E as <-.
  unfold fit. rewrite all_close_zero_0; auto. intros x Hx. apply in_map_iff in Hx. destruct Hx as [m [<- Hm]].
  specialize (H m Hm). apply std_params in Hs. simpl in Hs.
  repeat (destruct Hs as [Hs|Hs]; [injection Hs as <- <-; unfold uncalibrated, stage_to_param; cbn [fold_left snd fst param_eqb]; rewrite H; reflexivity|]).
  contradiction.
Qed.
Theorem C69_refuted : ~ C69_no_model_result_gives_nan.
Proof.
  intros Q. specialize (Q [[]] [[(EvalDirect, 1)]] EvalDirect CP2P (Fin 0)). discriminate Q.
  - simpl. auto.
  - intros m [<-|[]]. reflexivity.
  - reflexivity.
Qed.

(** ** Non-vacuity: the example tree with list 1 - 4 and close lists *)
Example ex_cost_hyps :
  match build_traversal ex_tree (ex_params 1 (ex_extent true static_l2 2)) with
  | Some tr => fmm_traversal ex_tree (ex_params 1 (ex_extent true static_l2 2)) tr /\ wf_particles ex_tree ex_particles /\
      counts_below_2_31 ex_tree ex_particles tr (box_target_counts_nonchild ex_particles)
  | None => False end.
Proof.
  assert (CB : match build_traversal ex_tree (ex_params 1 (ex_extent true static_l2 2)) with
     | Some tr => check_counts ex_tree ex_particles tr (box_target_counts_nonchild ex_particles)
     | None => false end = true) by (vm_compute; reflexivity).
  destruct (build_traversal ex_tree (ex_params 1 (ex_extent true static_l2 2))) as [tr|] eqn:B; [|discriminate CB].
  split; [apply ex_fmm_traversal; auto|]. split; [apply ex_particles_wf|apply check_counts_ok; auto].
Qed.
(** numbers of operations in the stages *)
Example ex_cost_ops :
  match build_traversal ex_tree (ex_params 1 (ex_extent true static_l2 2)) with
  | Some tr => map (fun s => length (stage_ops ex_tree ex_particles tr (box_target_counts_nonchild ex_particles) s))
      [FormMultipoles; CoarsenMultipoles; EvalDirect; MultipoleToLocal; EvalMultipoles; FormLocals; RefineLocals; EvalLocals]
  | None => [] end = [40; 8; 465; 117; 5; 33; 23; 24]%nat.
Proof. vm_compute. reflexivity. Qed.
Definition ex_stage_costs (k : Z) : stage_costs :=
  mkStages (of_Z (k * 2)) (of_Z (k * 3)) (of_Z (k * 5)) (of_Z (k * 7)) (of_Z (k * 11)) (of_Z (k * 13)) (of_Z (k * 17))
    (of_Z (k * 19)).
Definition ex_cal : calibration :=
  mkCal (of_Z 2) (of_Z 3) (of_Z 4) (of_Z 5) (of_Z 6) (of_Z 7) (of_Z 8) (of_Z 9).
(** two timed runs; the stages are listed in another order than the model's *)
Definition ex_cases : list case :=
  map (fun k => (ex_stage_costs k,
         rev (map (fun s => (s, cal_of ex_cal s * cost_of (ex_stage_costs k) s)) (map fst stage_to_param)))) [1; 4]%Z.
Example ex_calibration :
  (forall x, In x ex_cases -> timed_stages (snd x) (fun s => cal_of ex_cal s * cost_of (fst x) s)) /\
  all_close_zero (map (fun x => cost_of (fst x) EvalDirect) ex_cases) = false /\
  match estimate stage_to_param (models ex_cases) (timings ex_cases) CP2P with
  | Some (Fin r) => this r = 9%Q | _ => False end.
Proof.
  split; [|split; vm_compute; reflexivity]. intros x Hx. apply in_map_iff in Hx. destruct Hx as [k [<- _]].
  cbn [fst snd]. split; [|split].
  - rewrite map_rev, map_map. cbn [fst]. apply NoDup_rev. rewrite map_id. unfold stage_to_param. cbn [map fst].
    repeat constructor; simpl; intuition discriminate.
  - intros s Hs. apply -> in_rev. apply in_map_iff. exists s. auto.
  - intros s v Hv. apply in_rev in Hv. apply in_map_iff in Hv. destruct Hv as [s' [E Hs]]. injection E as <- _. auto.
Qed.

Print Assumptions C41_operations_are_the_fmm.
Print Assumptions C41_stage_costs_count_operations.
Print Assumptions C41_box_costs_count_operations.
Print Assumptions C41_box_costs_sum_to_stage_costs.
Print Assumptions C41_device_equals_reference.
Print Assumptions C66_costs_linear.
Print Assumptions C66_least_squares.
Print Assumptions C66_exact_recovery.
Print Assumptions C66_calibrated_model_predicts.
Print Assumptions C67_refuted.
Print Assumptions C68_refuted.
Print Assumptions C68_level_independent_costs.
Print Assumptions C69_refuted.
Print Assumptions C69_no_model_result_gives_zero.
