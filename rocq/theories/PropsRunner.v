(** Property C112: the distributed FMM runner. *)
From Coq Require Import List Arith ZArith NArith Lia Bool Permutation QArith Qcanon.
From Verif Require Import Base Tree Spec TreeFacts Traversal SpecTraversal LevelStarts Fmm SpecFmm Partition
  PartitionFacts LocalTree SpecDist Distributed Cost SpecCost CostFacts PropsCost PropsPartition PropsDist FmmGen
  Layout FmmLib SpecFmmLib ScaledQuad PropsFmmLib DistributedLib SpecDistLib DistLibThm PropsDistLib Runner RunnerFacts.
From Verif Require Import TreeBuild SpecBuild.
From Verif Require PropsBuild PropsDistBuild PropsFmmLibBuild ExampleBuild.
Import ListNotations.
Local Open Scope nat_scope.
Notation coordinates := PropsFmmLibBuild.coordinates.

Lemma order_below t : wf_tree t -> forall order b, get_box_ids_dfs_order t = Some order -> In b order -> b < nboxes t.
Proof.
  intros W order b EO Hb. destruct (C36_dfs_order t W) as [o [EO' [P _]]]. rewrite EO in EO'. injection EO' as <-.
  apply (Permutation_in _ P), in_seq in Hb. lia.
Qed.
Lemma one_pos : (0 < 1)%Qc. Proof. reflexivity. Qed.

(** ** Who gets which boxes, with rational costs *)
(** As C37: the boxes are handed out in depth-first order, each to one rank, and only the last ranks
    can be left without. *)
Theorem C112_assignment : forall t cost size, wf_tree t -> 1 <= size -> size <= nboxes t ->
  exists order k, get_box_ids_dfs_order t = Some order /\ 1 <= k <= size /\
    concat (map (fun r => boxes_of (partition_work_q t cost size r)) (seq 0 size)) = order /\
    forall r, r < size ->
      if r <? k then exists l, partition_work_q t cost size r = Responsible l /\ l <> []
      else partition_work_q t cost size r = Uninitialised.
Proof.
  intros t cost size W S1 S2. destruct (integer_costs t cost) as [z H]. destruct (H (order_below t W)) as [_ E].
  assert (E' : forall r, partition_work_q t cost size r = partition_work t z size r)
    by (intros r; apply (E 1%Qc); [apply one_pos|lia|intros; ring]).
  destruct (C37_assignment t z size W S1 S2) as [order [k [A1 [A2 [A3 A4]]]]]. exists order, k. split; [auto|split; [auto|split]].
  - rewrite <- A3. f_equal. apply map_ext. intros r. rewrite E'. auto.
  - intros r Hr. specialize (A4 r Hr). rewrite E'. auto.
Qed.
Definition qcost_of (cost : nat -> Qc) (boxes : list nat) : Qc := qsum (map cost boxes).
(** for each m, the last m boxes in depth-first order cost less than m shares of the total *)
Definition shares_for_all (t : tree) (cost : nat -> Qc) (size : nat) : Prop :=
  forall order m, get_box_ids_dfs_order t = Some order -> 1 <= m -> m < size ->
    (qcost_of cost (skipn (nboxes t - m) order) < of_Z (Z.of_nat m) / of_Z (Z.of_nat size) * qcost_of cost (seq 0 (nboxes t)))%Qc.
Lemma scaled_sum d cost z n l : (forall b, b < n -> of_Z (z b) = (d * cost b)%Qc) -> (forall b, In b l -> b < n) ->
  of_Z (zsum (map z l)) = (d * qcost_of cost l)%Qc.
Proof. intros H I. unfold qcost_of. rewrite <- qsum_of_Z, <- qsum_scale, map_map. apply qsum_ext. intros b Hb. apply H. auto. Qed.
Lemma in_skipn {A} (x : A) n l : In x (skipn n l) -> In x l.
Proof. intros H. rewrite <- (firstn_skipn n l). apply in_or_app. auto. Qed.
Theorem C112_all_ranks_served : forall t cost size, wf_tree t -> 1 <= size -> size <= nboxes t ->
  (forall b, b < nboxes t -> (0 <= cost b)%Qc) ->
  ((forall r, r < size -> exists l, partition_work_q t cost size r = Responsible l) <-> shares_for_all t cost size).
Proof.
  intros t cost size W S1 S2 NN. destruct (integer_costs t cost) as [z H]. destruct (H (order_below t W)) as [[d [D EZ]] E].
  assert (E' : forall r, partition_work_q t cost size r = partition_work t z size r)
    by (intros r; apply (E 1%Qc); [apply one_pos|lia|intros; ring]).
  destruct (C36_dfs_order t W) as [order [EO [PO _]]].
  assert (NZ : forall b, b < nboxes t -> (0 <= z b)%Z).
  { intros b Hb. apply of_Z_le. rewrite of_Z_0, EZ by auto. rewrite <- (Qcmult_0_l (cost b)). apply Qcmult_le_compat_r; auto. apply Qclt_le_weak; auto. }
  assert (X := C37_all_ranks_served t z size order W S1 S2 NZ EO).
  assert (SZ : (0 < of_Z (Z.of_nat size))%Qc) by (rewrite <- of_Z_0; apply of_Z_lt; lia).
  assert (SN : of_Z (Z.of_nat size) <> 0%Qc) by (intros Y; rewrite Y in SZ; exact (Qclt_not_le _ _ SZ (Qcle_refl _))).
  assert (Q : forall m, (Z.of_nat size * PropsPartition.cost_of z (skipn (nboxes t - m) order) < Z.of_nat m * PropsPartition.cost_of z (seq 0 (nboxes t)))%Z <->
    (qcost_of cost (skipn (nboxes t - m) order) < of_Z (Z.of_nat m) / of_Z (Z.of_nat size) * qcost_of cost (seq 0 (nboxes t)))%Qc).
  { intros m. unfold PropsPartition.cost_of. rewrite <- of_Z_lt, !of_Z_mul.
    rewrite (scaled_sum d cost z (nboxes t) (skipn _ _) EZ) by (intros b Hb; apply in_skipn in Hb; apply (order_below t W order b EO Hb)).
    rewrite (scaled_sum d cost z (nboxes t) (seq 0 _) EZ) by (intros b Hb; apply in_seq in Hb; lia).
    rewrite <- (scale_lt (d * of_Z (Z.of_nat size)) (qcost_of _ _) _) by (rewrite <- (Qcmult_0_l (of_Z (Z.of_nat size))); apply Qcmult_lt_compat_r; auto).
    match goal with |- (?a < ?b)%Qc <-> (?a' < ?b')%Qc => replace a' with a by ring; replace b' with b by (field; auto) end. tauto. }
  assert (Y : (forall r, r < size -> exists l, partition_work_q t cost size r = Responsible l) <->
              (forall r, r < size -> partition_work t z size r <> Uninitialised)).
  { split; intros A r Hr.
    - destruct (A r Hr) as [l B]. rewrite <- E', B. discriminate.
    - rewrite E'. specialize (A r Hr). destruct (C37_assignment t z size W S1 S2) as [o [kk [_ [_ [_ B]]]]]. specialize (B r Hr).
      destruct (r <? kk); [destruct B as [l [B _]]; eauto|contradiction]. }
  rewrite Y, X. unfold shares_for_all. split.
  - intros A o m EO2 M1 M2. rewrite EO in EO2. injection EO2 as <-. apply Q. auto.
  - intros A m M1 M2. apply Q. auto.
Qed.

(** ** Only the ratios of the calibration parameters matter *)
Definition scaled_calibration (c : Qc) (k : calibration) : calibration :=
  (mkCal (c * c_l2l k) (c * c_l2p k) (c * c_m2l k) (c * c_m2m k) (c * c_m2p k) (c * c_p2l k) (c * c_p2m k) (c * c_p2p k))%Qc.
Theorem C112_only_ratios_matter : forall (ang D : Type) t p (tr : traversal) size k root_extent helmholtz_k level_to_order order
    (dipoles : option (nat -> D)) cutoff (rot_of : traversal -> option (rotation_data ang)) calibration c rank,
  wf_tree t -> 1 <= size -> (0 < c)%Qc ->
  runner_boxes t p tr size k root_extent helmholtz_k level_to_order order dipoles cutoff rot_of (Some (scaled_calibration c calibration)) rank =
  runner_boxes t p tr size k root_extent helmholtz_k level_to_order order dipoles cutoff rot_of (Some calibration) rank.
Proof.
  intros ang D t p tr size k re hk f o dip cu ro cal c rank W S1 C. unfold runner_boxes.
  destruct (global_factory _ _ _ _ _ _ _ _ _ _ _) as [e|gw]; auto. f_equal.
  match goal with |- partition_work_q t ?a _ _ = partition_work_q t ?b _ _ => set (c1 := a); set (c0 := b) end.
  destruct (integer_costs t c0) as [z H]. destruct (H (order_below t W)) as [_ E].
  rewrite (E c c1 size rank C ltac:(lia)), (E 1%Qc c0 size rank one_pos ltac:(lia)); auto; [intros; ring|].
  intros b _. apply cost_per_box_scale. unfold scale_factors, factors_from_model, scaled_calibration. cbn. repeat split; intros; ring.
Qed.

(** ** What the boxes cost *)
(** An expansion of order q in d dimensions has (q+1)^(d-1) coefficients; a translation between
    expansions of the same order costs their product, or 3 (q+1)^3 in three dimensions.
    [order l]: the order at level l. *)
Definition operation_cost (t : tree) (order : nat -> nat) (c : calibration) (o : SpecCost.op) : Qc :=
  let q b := (Z.of_nat (order (box_level t b)) + 1)%Z in
  let coefficients b := of_Z (q b ^ (Z.of_nat (dim t) - 1)) in
  match o with
  | P2M _ b => c_p2m c * coefficients b
  | P2P _ _ _ _ => c_p2p c
  | M2L _ A => c_m2l c * (if dim t =? 3 then of_Z (3 * q A ^ 3) else coefficients A * coefficients A)
  | M2P B _ _ => c_m2p c * coefficients B
  | P2L B _ _ => c_p2l c * coefficients B
  | L2P T _ => c_l2p c * coefficients T
  | M2M _ _ | L2L _ _ => 0   (* not charged to a box *)
  end%Qc.
(** The cost of a box is that of the operations charged to it, with the orders the factory was given. *)
Theorem C112_costs : forall (ang D : Type) t p (tr : traversal) k root_extent helmholtz_k level_to_order order
    (dipoles : option (nat -> D)) cutoff (rot_of : traversal -> option (rotation_data ang)) gw P calibration b given,
  global_factory t p tr k root_extent helmholtz_k level_to_order order dipoles cutoff rot_of = inr gw ->
  (level_to_order = Some given \/ exists n, order = Some n /\ given = fun _ => n) ->
  fmm_traversal t P tr -> wf_particles t p -> counts_below_2_31 t p tr (box_target_counts_nonchild p) ->
  exists ord, (forall l, l < nlevels t -> ord l = given l) /\
  runner_costs t p tr gw calibration b =
  qsum (map (operation_cost t ord (match calibration with Some c => c | None => mkCal 1 1 1 1 1 1 1 1 end))
            (filter (is_charged_to b) (fmm_ops t p tr (box_target_counts_nonchild p)))).
Proof.
  intros ang D t p tr k re hk f o dip cu rof gw P cal b given G OR FT HP CB.
  exists (fun l => nth l (wr_level_orders gw) 0). split.
  - intros l Hl. unfold global_factory in G. apply (C111_constructor _ _ _ _ _ _ _ _ (fun i => i)) in G; auto.
    unfold make_wrangler in G.
    assert (X : wr_level_orders gw = map given (seq 0 (nlevels t))).
    { destruct OR as [-> | [n [-> ->]]].
      - destruct o; [discriminate|]. cbv zeta in G. destruct (match k with LAPLACE => _ | HELMHOLTZ => _ end) as [e|r]; [discriminate|].
        destruct (negb _); [discriminate|]. destruct (tree_dipoles t p dip) as [[[rows cols] d]|]; [destruct (_ && _); [|discriminate]|]; injection G as <-; reflexivity.
      - destruct f; [discriminate|]. cbv zeta in G. destruct (match k with LAPLACE => _ | HELMHOLTZ => _ end) as [e|r]; [discriminate|].
        destruct (negb _); [discriminate|]. destruct (tree_dipoles t p dip) as [[[rows cols] d]|]; [destruct (_ && _); [|discriminate]|]; injection G as <-; reflexivity. }
    rewrite X. rewrite (nth_indep _ 0 (given 0)) by (rewrite map_length, seq_length; auto). rewrite map_nth, seq_nth by auto. reflexivity.
  - unfold runner_costs. rewrite (C41_box_costs_count_operations t P) by auto. unfold total_cost. apply qsum_ext.
    intros x Hx. apply filter_In in Hx. destruct Hx as [_ Hx]. change (mkCal 1 1 1 1 1 1 1 1) with unit_calibration.
    set (c := match cal with Some c => c | None => unit_calibration end).
    unfold operation_cost, factors_from_model. cbv zeta.
    destruct x; cbn [op_cost p2m_cost m2m_cost p2p_cost m2l_cost m2p_cost p2l_cost l2l_cost l2p_cost]; try reflexivity; try discriminate Hx.
    unfold e2e_cost. cbn [uses_point_and_shoot pde_aware_model ncoeffs].
    destruct (Nat.eqb_spec (dim t) 3) as [E|E]; [|rewrite of_Z_mul; reflexivity].
    rewrite E. change (Z.of_nat 3 - 1)%Z with 2%Z. set (q := (Z.of_nat (nth (box_level t A) (wr_level_orders gw) 0%nat) + 1)%Z).
    assert (Q : Z.sqrt (q ^ 2) = q) by (rewrite Z.pow_2_r; apply Z.sqrt_square; unfold q; lia).
    rewrite Q. f_equal. f_equal. ring.
Qed.

(** ** From particles to potentials *)
(** The way a user gets there: a tree from [build_tree], a traversal with the tree's level starts, and
    an MPI communicator of [size] ranks. *)
Record runner_input (inp : input) (B : built) (P : trav_params) (tr : traversal) (size : nat) : Prop := {
  ri_valid : valid_input inp;
  ri_geometry : valid_geometry inp;
  ri_restricted : not_restricted_with_extents inp;
  ri_populated : levels_stay_populated inp;
  ri_built : build_tree inp = inl B;
  ri_levels : nlevels (b_tree B) <= 30;
  ri_sep : 1 <= well_sep_is_n_away P;
  ri_same : sources_are_targets P = same inp;
  ri_mask : forall b, source_boxes_mask P b = true;
  ri_parent_mask : forall b, source_parent_boxes_mask P b = true;
  ri_extent : targets_have_extent (Traversal.extents P) = true -> wf_extent (Traversal.extents P);
  ri_threshold : no_source_threshold P;
  ri_starts : forall l, level_start_box_nrs P l = nth l (b_level_starts B) 0;
  ri_trav : build_traversal (b_tree B) P = Some tr;
  ri_ranks : 1 <= size;
  ri_size : (Z.of_nat size <= 2 ^ 31)%Z
}.
Lemma input_tree inp B P tr size : runner_input inp B P tr size -> wf_tree (b_tree B).
Proof. intros [V G NR L H D _ _ _ _ _ _ _ _ _ _]. destruct (PropsBuild.built_levels inp B V L H) as [st [pth [_ [F [E _]]]]]. rewrite E in *.
  apply (BuildThm.finish_wf_tree inp V st pth F G D). Qed.
Lemma input_distributed inp B P tr size cost boxes : runner_input inp B P tr size ->
  (forall r, r < size -> partition_work_q (b_tree B) cost size r = Responsible (boxes r)) ->
  distributed_input (b_tree B) (b_particles B) (b_target_cumul B) P size boxes.
Proof.
  intros I AL. pose proof (input_tree _ _ _ _ _ I) as W. destruct (integer_costs (b_tree B) cost) as [z H]. destruct (H (order_below _ W)) as [_ E].
  assert (E' : forall r, r < size -> partition_work (b_tree B) z size r = Responsible (boxes r)).
  { intros r Hr. rewrite <- (AL r Hr). symmetry. apply (E 1%Qc); [apply one_pos|lia|intros; ring]. }
  assert (R : PropsDistBuild.distributed_run inp B P tr z size) by (destruct I; split; eauto).
  destruct (PropsDistBuild.run_input _ _ _ _ _ _ R). split; auto. unfold every_box_once in *.
  replace (map boxes (seq 0 size)) with (map (PropsDistBuild.assigned (b_tree B) z size) (seq 0 size)); auto.
  apply map_ext_in. intros r Hr. apply in_seq in Hr. unfold PropsDistBuild.assigned. rewrite E' by lia. reflexivity.
Qed.
Lemma input_traversal inp B P tr size : runner_input inp B P tr size -> fmm_traversal (b_tree B) P tr /\ wf_particles (b_tree B) (b_particles B).
Proof.
  intros I. pose proof (input_tree _ _ _ _ _ I) as W.
  assert (DI : distributed_input (b_tree B) (b_particles B) (b_target_cumul B) P 1 (fun _ => boxes_of (partition_work_q (b_tree B) (fun _ => 1%Qc) 1 0))).
  { assert (I1 : runner_input inp B P tr 1) by (destruct I; split; auto; lia).
    apply (input_distributed inp B P tr 1 (fun _ => 1%Qc) _ I1). intros r Hr. replace r with 0 by lia.
    destruct (C112_assignment (b_tree B) (fun _ => 1%Qc) 1 W (le_n 1) (wf_nboxes _ W)) as [od [kk [_ [K [_ A]]]]]. specialize (A 0 ltac:(lia)).
    destruct (Nat.ltb_spec 0 kk); [|lia]. destruct A as [l [A _]]. rewrite A. reflexivity. }
  destruct DI. split; auto. destruct I. split; [auto|]. split; [auto|]. split; [auto|]. split; [auto|]. split; auto.
Qed.

(** C112.  Whatever the costs and whatever the execution, the root rank returns the direct sum over
    the caller's sources. *)
Theorem C112_runner_gives_direct_sum : forall (pt Wt D ang rmat : Type) (M L V : cmonoid) (lib : library pt (strength Wt D) ang rmat M L V)
    angle kern multipole local complex_dipole times real_part (point : list Z -> pt) inp B P tr size
    k root_extent helmholtz_k level_to_order order dipoles cutoff rot_of calibration rendezvous weights result j,
  runner_input inp B P tr size -> linear_library lib -> exact_library lib angle kern multipole local ->
  let t := b_tree B in let p := b_particles B in let d := dim t in
  let box_centers := fun b => point (coordinates d (box_center t b)) in
  (0 < root_extent)%Qc -> (forall a, helmholtz_k = Some a -> (0 <= a)%Qc) ->
  (forall x rd, rot_of x = Some rd -> rotation_data_fits x (fun A B => angle (box_centers A) (box_centers B)) rd) ->
  runner_execution lib complex_dipole times real_part t p (b_source_cumul B) (b_target_cumul B) P tr size box_centers
    (fun i => point (coordinates d (b_sources B i))) (fun i => point (coordinates d (b_targets B i)))
    k root_extent helmholtz_k level_to_order order dipoles cutoff rot_of calibration rendezvous weights result ->
  j < num_targets inp ->
  result j = with_factor times real_part k d
    (msum (map (fun u => kern (point (coordinates d (coord inp (first_target inp + j)))) (point (coordinates d (coord inp u)))
                              (user_strength k d complex_dipole weights dipoles u)) (seq 0 (nsrc inp)))).
Proof.
  intros pt Wt D ang rmat M L V lib angle kern mu lc cd times rp point inp B P tr size k re hk f o dip cu rof cal rdv w result j I LIN EX
    t p d bc RE HK ROT [boxes [loc [trl [wr [BX [MADE X]]]]]] Hj.
  destruct (PropsBuild.C17_particles_are_permuted inp B (ri_valid _ _ _ _ _ I) (ri_built _ _ _ _ _ I)) as [N1 [N2 [_ [S1 [_ [_ [T1 _]]]]]]].
  assert (DI : distributed_input t p (b_target_cumul B) P size boxes).
  { unfold runner_boxes in BX. destruct (global_factory t p tr k re hk f o dip cu rof) as [e|gw] eqn:G.
    - pose proof (BX 0 ltac:(pose proof (ri_ranks _ _ _ _ _ I); lia)). discriminate.
    - apply (input_distributed inp B P tr size (runner_costs t p tr gw cal) boxes I). intros r Hr. specialize (BX r Hr). injection BX as BX. exact BX. }
  rewrite <- N1.
  apply (C111_exact_library_gives_direct_sum pt Wt D ang rmat M L V lib angle kern mu lc cd times rp t p (b_source_cumul B) (b_target_cumul B) P tr size boxes false bc
    (fun i => point (coordinates d (b_sources B i))) (fun i => point (coordinates d (b_targets B i)))
    (fun u => point (coordinates d (coord inp u))) (fun j => point (coordinates d (coord inp (first_target inp + j))))
    loc trl wr k re hk f o dip cu (fun r => rof (trl r)) rdv w result j LIN EX DI (ri_threshold _ _ _ _ _ I) (ri_trav _ _ _ _ _ I) MADE RE HK); auto.
  - intros i Hi. f_equal. apply map_ext. intros q. apply S1, Hi.
  - fold p in N2. lia.
  - f_equal. apply map_ext. intros q. apply T1. fold p in N2 |- *. lia.
Qed.

(** ** When there is an execution *)
Lemma factory_whole ang D t p tr k re hk f o (dip : option (nat -> D)) cu (rof : traversal -> option (rotation_data ang)) gw :
  global_factory t p tr k re hk f o dip cu rof = inr gw ->
  exists w, @make_wrangler ang D k (dim t) (dim t) (nlevels t) (nsources p) re (user_source_ids p) hk f o (caller_dipoles t p dip) false cu None = inr w.
Proof.
  unfold global_factory. intros H. apply (C111_constructor _ _ _ _ _ _ _ _ (fun i => i)) in H; auto.
  apply C94_accepted_arguments. assert (A := proj1 (C94_accepted_arguments _ _ _ _ _ _ _ _ _ _ _ _ _ _ _ _) (ex_intro _ _ H)).
  unfold acceptable in *. destruct A as [A1 [A2 [A3 [A4 _]]]]. split; [auto|]. split; [auto|]. split; [auto|]. split; [auto|].
  intros rows cols d E. unfold caller_dipoles in E. destruct dip; [|discriminate]. injection E as <- <- _. auto.
Qed.
(** The factory can make a wrangler for the whole tree exactly if its arguments are acceptable. *)
Theorem C112_factory : forall (ang D : Type) t p (tr : traversal) k root_extent helmholtz_k level_to_order order
    (dipoles : option (nat -> D)) cutoff (rot_of : traversal -> option (rotation_data ang)),
  (exists gw, global_factory t p tr k root_extent helmholtz_k level_to_order order dipoles cutoff rot_of = inr gw) <->
  acceptable k (dim t) (dim t) (nlevels t) (nsources p) helmholtz_k level_to_order order (tree_dipoles t p dipoles).
Proof.
  intros ang D t p tr k re hk f o dip cu rof. unfold global_factory.
  rewrite <- (C94_accepted_arguments ang D k (dim t) (dim t) (nlevels t) (nsources p) re (fun i => i) hk f o (tree_dipoles t p dip) true cu (rof tr)).
  split; intros [gw H]; exists gw; apply (C111_constructor _ _ _ _ _ _ _ _ (fun i => i)); auto.
Qed.
(** costs are not negative if the calibration parameters are not, and counts are small enough *)
Definition nonnegative (k : calibration) : Prop :=
  (0 <= c_l2l k /\ 0 <= c_l2p k /\ 0 <= c_m2l k /\ 0 <= c_m2m k /\ 0 <= c_m2p k /\ 0 <= c_p2l k /\ 0 <= c_p2m k /\ 0 <= c_p2p k)%Qc.
Lemma prod_nonneg a z : (0 <= a -> (0 <= z)%Z -> 0 <= a * of_Z z)%Qc.
Proof. intros A Z0. rewrite <- (Qcmult_0_l (of_Z z)). apply Qcmult_le_compat_r; auto. rewrite <- of_Z_0. apply of_Z_le. auto. Qed.
Lemma model_costs_nonneg dim order cal l : nonnegative cal ->
  let F := factors_from_model (pde_aware_model dim order) cal in
  (0 <= p2m_cost F l /\ 0 <= m2m_cost F l /\ 0 <= p2p_cost F /\ 0 <= m2l_cost F l /\ 0 <= m2p_cost F l /\ 0 <= p2l_cost F l /\ 0 <= l2l_cost F l /\ 0 <= l2p_cost F l)%Qc.
Proof.
  intros [N1 [N2 [N3 [N4 [N5 [N6 [N7 N8]]]]]]] F.
  assert (NC : forall l, (0 <= ncoeffs (pde_aware_model dim order) l)%Z) by (intros; cbn [ncoeffs pde_aware_model]; apply Z.pow_nonneg; lia).
  assert (EE : forall l l', (0 <= e2e_cost (pde_aware_model dim order) (ncoeffs (pde_aware_model dim order) l) (ncoeffs (pde_aware_model dim order) l'))%Z).
  { intros a b. unfold e2e_cost. pose proof (NC a). pose proof (NC b).
    pose proof (Z.sqrt_nonneg (ncoeffs (pde_aware_model dim order) a)). pose proof (Z.sqrt_nonneg (ncoeffs (pde_aware_model dim order) b)).
    destruct (uses_point_and_shoot _); [|nia].
    pose proof (Z.pow_nonneg (Z.sqrt (ncoeffs (pde_aware_model dim order) a)) 3 ltac:(auto)).
    pose proof (Z.pow_nonneg (Z.sqrt (ncoeffs (pde_aware_model dim order) b)) 3 ltac:(auto)). nia. }
  unfold F, factors_from_model. cbn [p2m_cost m2m_cost p2p_cost m2l_cost m2p_cost p2l_cost l2l_cost l2p_cost].
  split; [|split; [|split; [|split; [|split; [|split; [|split]]]]]]; try apply prod_nonneg; auto.
Qed.
Lemma qsum_nonneg l : (forall x, In x l -> (0 <= x)%Qc) -> (0 <= qsum l)%Qc.
Proof.
  induction l as [|x l IH]; intros H; [apply Qcle_refl|]. rewrite qsum_cons. rewrite <- (Qcplus_0_l 0).
  apply Qcplus_le_compat; [apply H; left; auto|apply IH; intros; apply H; right; auto].
Qed.
Definition calibration_of (c : option calibration) : calibration := match c with Some c => c | None => unit_calibration end.
Lemma runner_costs_nonneg {ang D} t P tr p (gw : wrangler ang D) cal b : fmm_traversal t P tr -> wf_particles t p ->
  counts_below_2_31 t p tr (box_target_counts_nonchild p) -> nonnegative (calibration_of cal) -> (0 <= runner_costs t p tr gw cal b)%Qc.
Proof.
  intros FT HP CB NN. unfold runner_costs. rewrite (C41_box_costs_count_operations t P) by auto.
  unfold total_cost. apply qsum_nonneg. intros x Hx. apply in_map_iff in Hx. destruct Hx as [o [<- _]].
  fold (calibration_of cal). set (cal' := calibration_of cal) in *.
  assert (Y := fun l => model_costs_nonneg (dim t) (fun l => nth l (wr_level_orders gw) 0) cal' l NN). cbv zeta in Y.
  destruct o; cbn [op_cost]; [apply Y|apply Y|exact (proj1 (proj2 (proj2 (Y 0))))|apply Y|apply Y|apply Y|apply Y|apply Y].
Qed.

(** C112.  There is an execution exactly if the factory's arguments are acceptable, there are no
    more ranks than boxes, and the last boxes are cheap enough that every rank is served.  What the
    ranks are given is otherwise memory that was never written (C37). *)
Theorem C112_when_the_runner_runs : forall (pt Wt D ang rmat : Type) (M L V : cmonoid) (lib : library pt (strength Wt D) ang rmat M L V)
    complex_dipole times real_part inp B P tr size box_centers sources targets
    k root_extent helmholtz_k level_to_order order dipoles cutoff (rot_of : traversal -> option (rotation_data ang)) calibration rendezvous weights,
  runner_input inp B P tr size ->
  let t := b_tree B in let p := b_particles B in
  counts_below_2_31 t p tr (box_target_counts_nonchild p) -> nonnegative (calibration_of calibration) ->
  ((exists result, runner_execution lib complex_dipole times real_part t p (b_source_cumul B) (b_target_cumul B) P tr size box_centers sources targets
      k root_extent helmholtz_k level_to_order order dipoles cutoff rot_of calibration rendezvous weights result) <->
   exists gw, global_factory t p tr k root_extent helmholtz_k level_to_order order dipoles cutoff rot_of = inr gw /\
     size <= nboxes t /\ shares_for_all t (runner_costs t p tr gw calibration) size).
Proof.
  intros pt Wt D ang rmat M L V lib cd times rp inp B P tr size bc src tgt k re hk f o dip cu rof cal rdv w I t p CB NN.
  pose proof (input_tree _ _ _ _ _ I) as W. fold t in W. pose proof (ri_ranks _ _ _ _ _ I) as S1.
  destruct (input_traversal _ _ _ _ _ I) as [FT HP]. fold t p in FT, HP.
  assert (CN : forall gw : wrangler ang D, forall b, b < nboxes t -> (0 <= runner_costs t p tr gw cal b)%Qc)
    by (intros gw b _; apply (runner_costs_nonneg t P); auto).
  split.
  - intros [result [boxes [loc [trl [wr [BX _]]]]]]. unfold runner_boxes in BX.
    destruct (global_factory t p tr k re hk f o dip cu rof) as [e|gw] eqn:G; [pose proof (BX 0 S1); discriminate|].
    exists gw. split; auto. assert (BX' : forall r, r < size -> partition_work_q t (runner_costs t p tr gw cal) size r = Responsible (boxes r))
      by (intros r Hr; specialize (BX r Hr); injection BX as BX; exact BX).
    assert (S2 : size <= nboxes t).
    { specialize (BX' 0 S1). unfold partition_work_q in BX'. destruct (Nat.ltb_spec (nboxes t) size); [discriminate|auto]. }
    split; auto. apply C112_all_ranks_served; auto. eauto.
  - intros [gw [G [S2 SH]]]. destruct (C112_all_ranks_served t (runner_costs t p tr gw cal) size W S1 S2 (CN gw)) as [_ X]. specialize (X SH).
    set (boxes := fun r => boxes_of (partition_work_q t (runner_costs t p tr gw cal) size r)).
    assert (BX : forall r, r < size -> partition_work_q t (runner_costs t p tr gw cal) size r = Responsible (boxes r)).
    { intros r Hr. unfold boxes. destruct (X r Hr) as [l E]. rewrite E. reflexivity. }
    destruct (factory_whole ang D t p tr k re hk f o dip cu rof gw G) as [w0 MW].
    destruct (C111_execution_exists pt Wt D ang rmat M L V lib cd times rp t p (b_source_cumul B) (b_target_cumul B) P tr size boxes false bc src tgt
      k re hk f o dip cu rof None w0 rdv w (input_distributed inp B P tr size _ boxes I BX) (ri_threshold _ _ _ _ _ I) (ri_trav _ _ _ _ _ I) MW)
      as [loc [trl [wr [result [MADE EX]]]]].
    exists result, boxes, loc, trl, wr. split; [|split; auto]. intros r Hr. unfold runner_boxes. rewrite G, BX by auto. reflexivity.
Qed.

(** Otherwise every rank sees the error of the factory, or every rank raises because of the number of
    ranks, or a rank reads a row that was never written. *)
Theorem C112_otherwise : forall (ang D : Type) inp B P tr size k root_extent helmholtz_k level_to_order order
    (dipoles : option (nat -> D)) cutoff (rot_of : traversal -> option (rotation_data ang)) calibration,
  runner_input inp B P tr size ->
  let t := b_tree B in let p := b_particles B in
  let boxes := runner_boxes t p tr size k root_extent helmholtz_k level_to_order order dipoles cutoff rot_of calibration in
  counts_below_2_31 t p tr (box_target_counts_nonchild p) -> nonnegative (calibration_of calibration) ->
  match global_factory t p tr k root_extent helmholtz_k level_to_order order dipoles cutoff rot_of with
  | inl e => forall rank, boxes rank = inl e
  | inr gw =>
    (nboxes t < size -> forall rank, boxes rank = inr TooFewBoxes) /\
    (size <= nboxes t -> ~ shares_for_all t (runner_costs t p tr gw calibration) size -> exists rank, rank < size /\ boxes rank = inr Uninitialised)
  end.
Proof.
  intros ang D inp B P tr size k re hk f o dip cu rof cal I t p boxes CB NN. unfold boxes, runner_boxes.
  destruct (global_factory t p tr k re hk f o dip cu rof) as [e|gw]; [auto|].
  pose proof (input_tree _ _ _ _ _ I) as W. fold t in W. pose proof (ri_ranks _ _ _ _ _ I) as S1. split.
  - intros L rank. unfold partition_work_q. destruct (Nat.ltb_spec (nboxes t) size); [auto|lia].
  - intros S2 NS. set (cost := runner_costs t p tr gw cal) in *.
    destruct (C112_assignment t cost size W S1 S2) as [od [kk [_ [K [_ A]]]]]. destruct (Nat.eq_dec kk size) as [->|N].
    + exfalso. apply NS. apply C112_all_ranks_served; auto.
      * intros b _. destruct (input_traversal _ _ _ _ _ I). apply (runner_costs_nonneg t P); auto.
      * intros r Hr. specialize (A r Hr). destruct (Nat.ltb_spec r size); [|lia]. destruct A as [l [A _]]. eauto.
    + exists kk. split; [lia|]. specialize (A kk ltac:(lia)). rewrite Nat.ltb_irrefl in A. rewrite A. reflexivity.
Qed.

(** ** Non-vacuity: a run on three ranks, with dipoles and the default calibration *)
Definition ex_point (x : list Z) : spt := (q_of (nth 0 x 0%Z), q_of (nth 1 x 0%Z)).
Definition ex_directions (u : nat) : spt := (q_of (Z.of_nat u), q_of 2).
Definition ex_factory (B : built) (tr : traversal) : dist_ctor_error + wrangler spt spt :=
  global_factory (b_tree B) (b_particles B) tr HELMHOLTZ (Q2Qc (3 # 2)) (Some (Q2Qc (5 # 3))) (Some (fun l => 5 - l)) None (Some ex_directions) 10 (fun _ => None).
Definition ex_check (size : nat) (B : built) : bool :=
  (nlevels (b_tree B) <=? 30) &&
  match build_traversal (b_tree B) (PropsDistBuild.run_params B true) with
  | None => false
  | Some tr =>
    match ex_factory B tr with
    | inl _ => false
    | inr gw =>
      let cost := runner_costs (b_tree B) (b_particles B) tr gw None in
      (size <=? nboxes (b_tree B)) &&
      forallb (fun r => match partition_work_q (b_tree B) cost size r with Responsible (_ :: _) => true | _ => false end) (seq 0 size) &&
      forallb (fun T => (Z.of_nat (nsources (b_particles B)) * Z.of_nat (box_target_counts_nonchild (b_particles B) T) <? 2 ^ 31)%Z &&
                        (Z.of_nat (nboxes (b_tree B)) * Z.of_nat (box_target_counts_nonchild (b_particles B) T) <? 2 ^ 31)%Z) (target_boxes tr) &&
      (Z.of_nat (nsources (b_particles B)) <? 2 ^ 31)%Z
    end
  end.
Lemma responsible_of x : match x with Responsible (_ :: _) => true | _ => false end = true -> exists l, x = Responsible l.
Proof. destruct x as [| | |l]; [discriminate|discriminate|discriminate|eauto]. Qed.
Example ex_runner : exists B tr gw result,
  runner_input ExampleBuild.shared_input B (PropsDistBuild.run_params B true) tr 3 /\
  counts_below_2_31 (b_tree B) (b_particles B) tr (box_target_counts_nonchild (b_particles B)) /\ nonnegative (calibration_of None) /\
  ex_factory B tr = inr gw /\ 3 <= nboxes (b_tree B) /\ shares_for_all (b_tree B) (runner_costs (b_tree B) (b_particles B) tr gw None) 3 /\
  runner_execution scaled_lib (fun w d => Qcmult w (fst d)) (fun _ v => v) (fun v => v) (b_tree B) (b_particles B) (b_source_cumul B) (b_target_cumul B)
    (PropsDistBuild.run_params B true) tr 3 (fun b => ex_point (coordinates 2 (box_center (b_tree B) b)))
    (fun i => ex_point (coordinates 2 (b_sources B i))) (fun i => ex_point (coordinates 2 (b_targets B i)))
    HELMHOLTZ (Q2Qc (3 # 2)) (Some (Q2Qc (5 # 3))) (Some (fun l => 5 - l)) None (Some ex_directions) 10 (fun _ : traversal => @None (rotation_data spt))
    None true (fun u => q_of (Z.of_nat (u * u + 1))) result.
Proof.
  destruct PropsBuild.shared_input_ok as [VI [G [NR [LP _]]]].
  assert (H : ExampleBuild.holds ExampleBuild.shared_input (ex_check 3) = true) by (vm_compute; reflexivity).
  destruct (ExampleBuild.holds_spec _ _ H) as [B [E C]]. clear H. unfold ex_check in C. apply andb_prop in C. destruct C as [C0 C]. apply Nat.leb_le in C0.
  destruct (build_traversal (b_tree B) (PropsDistBuild.run_params B true)) as [tr|] eqn:TR; [|discriminate].
  destruct (ex_factory B tr) as [e|gw] eqn:GF; [discriminate|]. cbv zeta in C.
  apply andb_prop in C. destruct C as [C C4]. apply andb_prop in C. destruct C as [C C3]. apply andb_prop in C. destruct C as [C1 C2].
  apply Nat.leb_le in C1. apply Z.ltb_lt in C4. rewrite forallb_forall in C2, C3.
  assert (I : runner_input ExampleBuild.shared_input B (PropsDistBuild.run_params B true) tr 3) by (split; auto; try discriminate; try lia; reflexivity).
  assert (CB : counts_below_2_31 (b_tree B) (b_particles B) tr (box_target_counts_nonchild (b_particles B))).
  { split; auto. intros T HT. specialize (C3 T HT). apply andb_prop in C3. rewrite !Z.ltb_lt in C3. auto. }
  assert (NN : nonnegative (calibration_of None)) by (unfold nonnegative; cbn; repeat split; discriminate).
  assert (X := C112_when_the_runner_runs spt Qc spt spt _ _ _ _ scaled_lib (fun w d => Qcmult w (fst d)) (fun _ v => v) (fun v => v)
    ExampleBuild.shared_input B (PropsDistBuild.run_params B true) tr 3 (fun b => ex_point (coordinates 2 (box_center (b_tree B) b)))
    (fun i => ex_point (coordinates 2 (b_sources B i))) (fun i => ex_point (coordinates 2 (b_targets B i)))
    HELMHOLTZ (Q2Qc (3 # 2)) (Some (Q2Qc (5 # 3))) (Some (fun l => 5 - l)) None (Some ex_directions) 10 (fun _ : traversal => @None (rotation_data spt))
    None true (fun u => q_of (Z.of_nat (u * u + 1))) I CB NN).
  assert (SH : shares_for_all (b_tree B) (runner_costs (b_tree B) (b_particles B) tr gw None) 3).
  { pose proof (input_tree _ _ _ _ _ I) as W. 
    assert (FT : fmm_traversal (b_tree B) (PropsDistBuild.run_params B true) tr /\ wf_particles (b_tree B) (b_particles B)) by exact (input_traversal _ _ _ _ _ I).
    apply C112_all_ranks_served; auto; [intros b _; apply (runner_costs_nonneg _ (PropsDistBuild.run_params B true)); tauto|].
    intros r Hr. exact (responsible_of _ (C2 r ltac:(apply in_seq; lia))). }
  destruct (proj2 X (ex_intro _ gw (conj GF (conj C1 SH)))) as [result RUN].
  exists B, tr, gw, result. auto 10.
Qed.

Print Assumptions C112_assignment.
Print Assumptions C112_all_ranks_served.
Print Assumptions C112_only_ratios_matter.
Print Assumptions C112_costs.
Print Assumptions C112_runner_gives_direct_sum.
Print Assumptions C112_factory.
Print Assumptions C112_when_the_runner_runs.
Print Assumptions C112_otherwise.
