(** Property C111: distributed evaluation with pyfmmlib. *)
From Coq Require Import List Arith ZArith NArith Lia Bool Permutation QArith Qcanon.
From Verif Require Import Base Tree Spec TreeFacts Traversal SpecTraversal LevelStarts Fmm SpecFmm FmmFacts FmmThm Partition
  PartitionFacts LocalTree SpecDist LocalFacts Distributed DistGeom DistThm PropsPartition PropsFmm
  CheckTree ExampleTree PropsTraversal PropsDist FmmGen SpecFmmGen FmmGenFacts FmmGenThm PropsFmmGen DistributedGen DistGenRank DistGenThm
  Layout FmmLib SpecFmmLib FmmLibFacts FmmLibThm ScaledQuad PropsFmmLib DistributedLib SpecDistLib DistLibThm.
From Verif Require TreeBuild Comm PropsComm DistRank.
Import ListNotations.
Local Open Scope nat_scope.

(** ** The constructor *)
(** Dipoles cannot be passed in the caller's order: no arguments make a wrangler then. *)
Theorem C111_dipoles_in_callers_order_refused : forall (ang D : Type) k indep_dim t_dim t_nlevels t_nsources root_extent helmholtz_k
    level_to_order order (dipole_vec : nat * nat * (nat -> D)) cutoff (rot : option (rotation_data ang)),
  exists e, make_distributed_wrangler k indep_dim t_dim t_nlevels t_nsources root_extent helmholtz_k level_to_order order
    (Some dipole_vec) false cutoff rot = inl e /\
    (acceptable k indep_dim t_dim t_nlevels t_nsources helmholtz_k level_to_order order (Some dipole_vec) -> e = CommMissing).
Proof.
  intros ang D k id td nl ns re hk f o dip cu rot. unfold make_distributed_wrangler.
  destruct (make_wrangler k id td nl ns re (fun i => i) hk f o (Some dip) false cu rot) as [e|wr] eqn:E.
  - eexists. split; [reflexivity|]. intros A. exfalso.
    apply (C94_accepted_arguments ang D k id td nl ns re (fun i => i) hk f o (Some dip) false cu rot) in A.
    destruct A as [wr X]. rewrite E in X. discriminate.
  - eexists. split; [reflexivity|]. auto.
Qed.
(** Otherwise the wrangler is the one FMMLibExpansionWrangler makes from the same arguments. *)
Theorem C111_constructor : forall (ang D : Type) k indep_dim t_dim t_nlevels t_nsources root_extent usi helmholtz_k
    level_to_order order (dipole_vec : option (nat * nat * (nat -> D))) already cutoff (rot : option (rotation_data ang)) wr,
  dipole_vec = None \/ already = true ->
  (make_distributed_wrangler k indep_dim t_dim t_nlevels t_nsources root_extent helmholtz_k level_to_order order dipole_vec already cutoff rot = inr wr
   <-> make_wrangler k indep_dim t_dim t_nlevels t_nsources root_extent usi helmholtz_k level_to_order order dipole_vec already cutoff rot = inr wr).
Proof.
  intros ang D k id td nl ns re usi hk f o dip al cu rot wr H.
  assert (E : make_wrangler k id td nl ns re (fun i => i) hk f o dip al cu rot = make_wrangler k id td nl ns re usi hk f o dip al cu rot).
  { unfold make_wrangler. destruct H as [->| ->]; [|destruct dip as [[[rows cols] d]|]]; reflexivity. }
  unfold make_distributed_wrangler. rewrite E. destruct (make_wrangler k id td nl ns re usi hk f o dip al cu rot) as [e|w]; [split; discriminate|].
  destruct H as [->| ->]; [|destruct dip]; (split; intros X; injection X as <-; reflexivity).
Qed.

(** ... and its errors are those of FMMLibExpansionWrangler. *)
Theorem C111_constructor_errors : forall (ang D : Type) k indep_dim t_dim t_nlevels t_nsources root_extent usi helmholtz_k
    level_to_order order (dipole_vec : option (nat * nat * (nat -> D))) already cutoff (rot : option (rotation_data ang)) e,
  dipole_vec = None \/ already = true ->
  (make_distributed_wrangler k indep_dim t_dim t_nlevels t_nsources root_extent helmholtz_k level_to_order order dipole_vec already cutoff rot = inl e
   <-> exists e0, e = InBaseClass e0 /\
       make_wrangler k indep_dim t_dim t_nlevels t_nsources root_extent usi helmholtz_k level_to_order order dipole_vec already cutoff rot = inl e0).
Proof.
  intros ang D k id td nl ns re usi hk f o dip al cu rot e H.
  assert (E : make_wrangler k id td nl ns re (fun i => i) hk f o dip al cu rot = make_wrangler k id td nl ns re usi hk f o dip al cu rot).
  { unfold make_wrangler. destruct H as [->| ->]; [|destruct dip as [[[rows cols] d]|]]; reflexivity. }
  unfold make_distributed_wrangler. rewrite E. destruct (make_wrangler k id td nl ns re usi hk f o dip al cu rot) as [e1|w].
  - split; [intros X; injection X as <-; eauto|]. intros [e2 [-> X]]. injection X as <-. reflexivity.
  - split; [|intros [e2 [_ X]]; discriminate]. destruct H as [->| ->]; [|destruct dip]; discriminate.
Qed.
(** ** The result *)
Section Glue.
Context {pt Wt D ang rmat : Type} {M L V : cmonoid}.
Variable lib : library pt (strength Wt D) ang rmat M L V.
Hypothesis LIN : linear_library lib.
Variable complex_dipole : Wt -> D -> Wt.
Variable times : factor -> V -> V.
Variable real_part : V -> V.
Variable t : tree.
Variable p : particles.
Variables source_cumul target_cumul : nat -> nat.
Variable P : trav_params.
Variables tr tr' : traversal.
Variable size : nat.
Variable boxes : nat -> list nat.
Variable merge : bool.
Hypothesis DI : distributed_input t p target_cumul P size boxes.
Hypothesis MIN : no_source_threshold P.
Hypothesis Htr : build_traversal t P = Some tr.
Hypothesis BM : built_or_merged t P tr'.
Variables box_centers sources targets : nat -> pt.
Variable angle_between : nat -> nat -> ang.
Variable loc : nat -> local_tree.
Variable trl : nat -> traversal.
Variable wr : nat -> wrangler ang D.
Variables (k : kernel) (re : Qc) (hk : option Qc) (f : option (nat -> nat)) (o : option nat) (dipoles : option (nat -> D)) (cu : nat)
  (rot : nat -> option (rotation_data ang)).
Hypothesis MADE : wranglers_made t size loc wr k re hk f o (fun r => rank_dipoles t p (loc r) dipoles) true cu rot.
Hypothesis ROT : forall r rd, r < size -> rot r = Some rd -> rotation_data_fits (trl r) angle_between rd.
Variable weights : nat -> Wt.
Hypothesis SET : local_setup t p source_cumul target_cumul P tr size boxes merge loc trl.

Lemma made_form : 0 < size -> exists e lo,
  (forall r, r < size -> wr r = rank_wr t p loc k re e lo cu rot dipoles r) /\
  forall ro : option (rotation_data ang), make_wrangler k (dim t) (dim t) (nlevels t) (nsources p) re (user_source_ids p) hk f o (caller_dipoles t p dipoles) false cu ro =
    inr (whole_wr t p k re e lo cu dipoles ro).
Proof.
  intros S0.
  assert (M0 : forall r, r < size -> make_wrangler k (dim t) (dim t) (nlevels t) (length (lt_src_idx (loc r))) re (fun i => i) hk f o
     (rank_dipoles t p (loc r) dipoles) true cu (rot r) = inr (wr r)).
  { intros r Hr. specialize (MADE r Hr). destruct (SET r Hr) as [HG _].
    destruct (DistRank.rank_parts t p source_cumul target_cumul P tr (boxes r) (loc r) HG) as [_ [ET [EP [_ [ES _]]]]].
    rewrite ET, EP in MADE. cbn [nsources dim nlevels with_flags] in MADE. rewrite <- ES in MADE.
    apply (C111_constructor _ _ _ _ _ _ _ _ (fun i => i)) in MADE; auto. }
  destruct (make_form _ _ _ _ _ _ _ _ _ _ _ _ _ _ _ (M0 0 S0)) as [e [lo [_ G]]]. exists e, lo. split.
  - intros r Hr. specialize (M0 r Hr). rewrite G in M0.
    + injection M0 as <-. unfold rank_wr, rank_dipoles. destruct dipoles; reflexivity.
    + unfold rank_dipoles. destruct dipoles as [d|]; [|discriminate]. intros rows cols d' X. injection X as <- <- _. auto.
  - intros ro. rewrite G.
    + unfold whole_wr, caller_dipoles. destruct dipoles; reflexivity.
    + unfold caller_dipoles. destruct dipoles as [d|]; [|discriminate]. intros rows cols d' X. injection X as <- <- _. auto.
Qed.
Lemma ranks_exist j : j < ntargets p -> 0 < size.
Proof.
  intros Hj. destruct DI. pose proof (wf_sorted_target_ids t p di_particles j Hj) as Hi.
  destruct (owner_exists t _ _ _ _ (wf_targets_owned t p di_particles) Hi) as [T [HT _]].
  destruct (boxes_owner t P MIN size boxes di_once T HT) as [r0 [Hr0 _]]. lia.
Qed.
(** the value of every target is right if the expansions are complete after the exchange *)
Lemma result_value e lo mp old j v : j < ntargets p ->
  (forall r, r < size -> wr r = rank_wr t p loc k re e lo cu rot dipoles r) ->
  (forall r x, r < size -> x < nboxes t -> 2 <= box_level t x -> bm_multipole_src (lt_masks (loc r)) x = true ->
     mp r x = msum (map (fun q => initial_multipoles_lib lib complex_dipole t p P box_centers sources loc trl wr weights q x) (seq 0 size))) ->
  (forall r, r < size -> potentials_gen _ _ _ _ (whole_routines t p lib box_centers sources targets angle_between k re e lo cu dipoles (rot r)) t p
     (level_start_box_nrs P) tr' (fun m => m) (fun i => user_strength k (dim t) complex_dipole weights dipoles (user_source_ids p i))
     (sorted_target_ids p j) = v) ->
  gathered_result_lib lib complex_dipole times real_part p P size box_centers sources targets loc trl wr mp old weights j =
  finalize_potentials (whole_wr t p k re e lo cu dipoles (@None (rotation_data ang))) times real_part v.
Proof.
  intros Hj WR HM HV. destruct DI.
  apply (gathered_lib_ok t di_tree di_flags p di_particles source_cumul target_cumul di_ranges P di_params di_sorted
    (proj1 (proj2 di_levels)) di_extent MIN di_mask di_parent_mask di_same tr Htr size boxes di_once merge loc trl SET lib LIN complex_dipole
    times real_part box_centers sources targets angle_between k re e lo cu rot dipoles ROT wr WR weights mp old tr' j v Hj BM); auto.
  intros r x Hr Hx L2 U. rewrite HM by auto.
  apply (initial_lib_sum t di_tree di_flags p di_particles source_cumul target_cumul P di_params di_sorted (proj1 (proj2 di_levels)) MIN di_mask di_same tr
    size boxes di_once merge loc trl SET lib LIN complex_dipole box_centers sources targets angle_between k re e lo cu rot dipoles wr WR weights); auto.
Qed.
(** after the exchange of calculation.py:271-416 they are *)
Lemma exchange_complete rendezvous st n : 0 < size ->
  Comm.reachable size (nboxes t) (nlevels t) (level_start_box_nrs P)
    (box_to_user_ranks (nboxes t) size (fun r => bm_multipole_src (lt_masks (loc r)))) rendezvous
    (Comm.start size (initial_multipoles_lib lib complex_dipole t p P box_centers sources loc trl wr weights) (fun r => contributing_boxes (loc r))) st n ->
  Comm.all_done size st ->
  forall r x, r < size -> x < nboxes t -> 2 <= box_level t x -> bm_multipole_src (lt_masks (loc r)) x = true ->
  Comm.pr_mpoles (Comm.procs st r) x =
  msum (map (fun q => initial_multipoles_lib lib complex_dipole t p P box_centers sources loc trl wr weights q x) (seq 0 size)).
Proof.
  intros S0 X AD. destruct (made_form S0) as [e [lo [WR _]]]. destruct DI.
  assert (NO : PropsComm.nothing_outside size (nboxes t) (initial_multipoles_lib lib complex_dipole t p P box_centers sources loc trl wr weights)
    (fun r => contributing_boxes (loc r))).
  { intros r b Hr Hb C.
    apply (initial_lib_outside t di_tree di_flags p di_particles source_cumul target_cumul P di_params di_sorted MIN di_mask di_same tr
      size boxes di_once merge loc trl SET lib LIN complex_dipole box_centers sources targets angle_between k re e lo cu rot dipoles wr WR weights); auto. }
  destruct (PropsComm.C35_complete_multipoles _ _ _ _ _ _ _ _ _ _ _ di_levels NO X AD) as [C _].
  intros r x Hr Hx L2 U. apply C; auto. apply users_spec; auto.
Qed.
Lemma shared_value e lo w0 rot0 j r :
  w0 = whole_wr t p k re e lo cu dipoles rot0 -> (forall r, r < size -> wr r = rank_wr t p loc k re e lo cu rot dipoles r) ->
  r < size -> rotmat_order (wr r) = rotmat_order w0 ->
  potentials_gen _ _ _ _ (whole_routines t p lib box_centers sources targets angle_between k re e lo cu dipoles (rot r)) t p
     (level_start_box_nrs P) tr' (fun m => m) (fun i => user_strength k (dim t) complex_dipole weights dipoles (user_source_ids p i)) j =
  potentials_gen _ _ _ _ (whole_routines t p lib box_centers sources targets angle_between k re e lo cu dipoles rot0) t p
     (level_start_box_nrs P) tr' (fun m => m) (fun i => user_strength k (dim t) complex_dipole weights dipoles (user_source_ids p i)) j.
Proof.
  intros -> WR Hr RO. rewrite WR in RO by auto.
  rewrite (same_order_same_routines t p lib box_centers sources targets angle_between k re e lo cu dipoles (rot r) rot0); auto.
Qed.
End Glue.

(** C111.  If the routines of pyfmmlib are additive, and rotation matrices of the same size are used
    on all ranks, the root rank gets what the shared-memory wrangler computes - in every execution
    of the exchange of multipole expansions. *)
Theorem C111_distributed_equals_shared : forall (pt Wt D ang rmat : Type) (M L V : cmonoid) (lib : library pt (strength Wt D) ang rmat M L V)
    complex_dipole times real_part t p source_cumul target_cumul P tr tr' size boxes merge box_centers sources targets angle_between
    loc trl wr k root_extent helmholtz_k level_to_order order dipoles cutoff rot shared_rot shared_wr rendezvous weights result j,
  linear_library lib ->
  distributed_input t p target_cumul P size boxes -> no_source_threshold P -> build_traversal t P = Some tr -> built_or_merged t P tr' ->
  (* the wranglers of the ranks, and one for the whole tree *)
  wranglers_made t size loc wr k root_extent helmholtz_k level_to_order order (fun r => rank_dipoles t p (loc r) dipoles) true cutoff rot ->
  make_wrangler k (dim t) (dim t) (nlevels t) (nsources p) root_extent (user_source_ids p) helmholtz_k level_to_order order
    (caller_dipoles t p dipoles) false cutoff shared_rot = inr shared_wr ->
  (forall r rd, r < size -> rot r = Some rd -> rotation_data_fits (trl r) angle_between rd) ->
  (forall rd, shared_rot = Some rd -> rotation_data_fits tr' angle_between rd) ->
  (forall r, r < size -> rotmat_order (wr r) = rotmat_order shared_wr) ->
  distributed_execution_lib lib complex_dipole times real_part t p source_cumul target_cumul P tr size boxes merge box_centers sources targets
    loc trl wr rendezvous weights result \/
  allreduce_execution_lib lib complex_dipole times real_part t p source_cumul target_cumul P tr size boxes merge box_centers sources targets
    loc trl wr weights result ->
  j < ntargets p ->
  result j = drive_fmm_lib lib shared_wr complex_dipole times real_part t p (level_start_box_nrs P) box_centers sources targets tr' weights j.
Proof.
  intros pt Wt D ang rmat M L V lib cd times rp t p sc tc P tr tr' size boxes merge bc src tgt ab loc trl wr k re hk f o dip cu rot rot0 w0 rdv w
    result j LIN DI MIN Htr BM MADE MW ROT ROT0 RO X Hj.
  pose proof (ranks_exist t p tc P size boxes DI MIN j Hj) as S0.
  assert (SET : local_setup t p sc tc P tr size boxes merge loc trl) by (destruct X as [[S _]|[S _]]; exact S).
  destruct (made_form t p sc tc P tr size boxes merge loc trl wr k re hk f o dip cu rot MADE SET S0) as [e [lo [WR MK]]].
  assert (E0 : w0 = whole_wr t p k re e lo cu dip rot0) by (rewrite MK in MW; injection MW as <-; reflexivity).
  rewrite E0. pose proof DI as DI'. destruct DI'.
  rewrite (shared_lib_eq t di_tree p di_particles P di_params di_sorted (proj1 (proj2 di_levels)) lib LIN cd times rp bc src tgt ab
    k re e lo cu dip w tr' rot0 j BM ROT0).
  assert (HV : forall r, r < size -> _) by
    (intros r Hr; exact (shared_value lib cd t p P tr' size bc src tgt ab loc wr k re dip cu rot w e lo w0 rot0 (sorted_target_ids p j) r E0 WR Hr (RO r Hr))).
  destruct X as [[_ [st [n [old [X [AD ->]]]]]]|[_ [old ->]]].
  - apply (result_value lib LIN cd times rp t p sc tc P tr tr' size boxes merge DI MIN Htr BM bc src tgt ab loc trl wr k re dip cu rot ROT w SET e lo); auto.
    exact (exchange_complete lib LIN cd t p sc tc P tr size boxes merge DI MIN bc src tgt ab loc trl wr k re hk f o dip cu rot MADE w SET rdv st n S0 X AD).
  - apply (result_value lib LIN cd times rp t p sc tc P tr tr' size boxes merge DI MIN Htr BM bc src tgt ab loc trl wr k re dip cu rot ROT w SET e lo); auto.
Qed.

(** C111.  If the routines are exact the root rank gets the direct sum over the caller's sources, with
    the caller's weights and dipoles, whatever rotation matrices the ranks use. *)
Theorem C111_exact_library_gives_direct_sum : forall (pt Wt D ang rmat : Type) (M L V : cmonoid) (lib : library pt (strength Wt D) ang rmat M L V)
    angle kern multipole local complex_dipole times real_part t p source_cumul target_cumul P tr size boxes merge box_centers sources targets
    user_sources user_targets loc trl wr k root_extent helmholtz_k level_to_order order dipoles cutoff rot rendezvous weights result j,
  linear_library lib -> exact_library lib angle kern multipole local ->
  distributed_input t p target_cumul P size boxes -> no_source_threshold P -> build_traversal t P = Some tr ->
  wranglers_made t size loc wr k root_extent helmholtz_k level_to_order order (fun r => rank_dipoles t p (loc r) dipoles) true cutoff rot ->
  (0 < root_extent)%Qc -> (forall a, helmholtz_k = Some a -> (0 <= a)%Qc) ->
  (forall r rd, r < size -> rot r = Some rd -> rotation_data_fits (trl r) (fun A B => angle (box_centers A) (box_centers B)) rd) ->
  (forall i, i < nsources p -> sources i = user_sources (user_source_ids p i)) ->
  distributed_execution_lib lib complex_dipole times real_part t p source_cumul target_cumul P tr size boxes merge box_centers sources targets
    loc trl wr rendezvous weights result \/
  allreduce_execution_lib lib complex_dipole times real_part t p source_cumul target_cumul P tr size boxes merge box_centers sources targets
    loc trl wr weights result ->
  j < ntargets p -> targets (sorted_target_ids p j) = user_targets j ->
  result j = with_factor times real_part k (dim t)
    (msum (map (fun u => kern (user_targets j) (user_sources u) (user_strength k (dim t) complex_dipole weights dipoles u)) (seq 0 (nsources p)))).
Proof.
  intros pt Wt D ang rmat M L V lib angle kern mu lc cd times rp t p sc tc P tr size boxes merge bc src tgt us ut loc trl wr k re hk f o dip cu rot rdv w
    result j LIN EX DI MIN Htr MADE RE HA ROT US X Hj UT.
  pose proof (ranks_exist t p tc P size boxes DI MIN j Hj) as S0.
  assert (SET : local_setup t p sc tc P tr size boxes merge loc trl) by (destruct X as [[S _]|[S _]]; exact S).
  destruct (made_form t p sc tc P tr size boxes merge loc trl wr k re hk f o dip cu rot MADE SET S0) as [e [lo [WR MK]]].
  assert (BM : built_or_merged t P tr) by (exists tr; auto).
  pose proof DI as DI'. destruct DI'.
  assert (FI : fmm_input t P p tr) by (split; auto).
  assert (HV : forall r, r < size -> _) by
    (intros r Hr; exact (exact_value lib angle kern mu lc t P p tr cd bc src tgt us ut k re hk f o e lo cu (rot r) dip w j LIN EX FI
      (proj1 (proj2 di_levels)) (MK (rot r)) RE HA US Hj UT)).
  transitivity (finalize_potentials (whole_wr t p k re e lo cu dip (@None (rotation_data ang))) times rp
    (msum (map (fun u => kern (ut j) (us u) (user_strength k (dim t) cd w dip u)) (seq 0 (nsources p))))).
  2:{ unfold finalize_potentials, scale_factor, with_factor. cbn [wr_kernel wr_dim whole_wr].
      destruct k, (dim t) as [|[|[|[|d]]]]; reflexivity. }
  destruct X as [[_ [st [n [old [X [AD ->]]]]]]|[_ [old ->]]].
  - apply (result_value lib LIN cd times rp t p sc tc P tr tr size boxes merge DI MIN Htr BM bc src tgt _ loc trl wr k re dip cu rot ROT w SET e lo); auto.
    exact (exchange_complete lib LIN cd t p sc tc P tr size boxes merge DI MIN bc src tgt (fun A B => angle (bc A) (bc B)) loc trl wr k re hk f o dip cu rot MADE w SET rdv st n S0 X AD).
  - apply (result_value lib LIN cd times rp t p sc tc P tr tr size boxes merge DI MIN Htr BM bc src tgt _ loc trl wr k re dip cu rot ROT w SET e lo); auto.
Qed.

(** Setting up succeeds; with arguments from which the shared-memory wrangler can be made, the ranks
    can make theirs; and there is an execution. *)
Theorem C111_execution_exists : forall (pt Wt D ang rmat : Type) (M L V : cmonoid) (lib : library pt (strength Wt D) ang rmat M L V)
    complex_dipole times real_part t p source_cumul target_cumul P tr size boxes merge box_centers sources targets
    k root_extent helmholtz_k level_to_order order dipoles cutoff (rot_of : traversal -> option (rotation_data ang)) shared_rot
    (shared_wr : wrangler ang D) rendezvous weights,
  distributed_input t p target_cumul P size boxes -> no_source_threshold P -> build_traversal t P = Some tr ->
  make_wrangler k (dim t) (dim t) (nlevels t) (nsources p) root_extent (user_source_ids p) helmholtz_k level_to_order order
    (caller_dipoles t p dipoles) false cutoff shared_rot = inr shared_wr ->
  exists loc trl wr result,
    wranglers_made t size loc wr k root_extent helmholtz_k level_to_order order (fun r => rank_dipoles t p (loc r) dipoles) true cutoff
      (fun r => rot_of (trl r)) /\
    distributed_execution_lib lib complex_dipole times real_part t p source_cumul target_cumul P tr size boxes merge box_centers sources targets
      loc trl wr rendezvous weights result.
Proof.
  intros pt Wt D ang rmat M L V lib cd times rp t p sc tc P tr size boxes merge bc src tgt k re hk f o dip cu rof rot0 w0 rdv w DI MIN Htr MW.
  destruct DI.
  destruct (setup_exists t di_tree p sc tc P di_params di_extent MIN tr size boxes di_once merge) as [loc [trl SET]].
  destruct (make_form _ _ _ _ _ _ _ _ _ _ _ _ _ _ _ MW) as [e [lo [_ G]]].
  set (wr := rank_wr t p loc k re e lo cu (fun r => rof (trl r)) dip).
  destruct (PropsComm.C35_executions_complete size (nboxes t) (nlevels t) (level_start_box_nrs P)
    (box_to_user_ranks (nboxes t) size (fun r => bm_multipole_src (lt_masks (loc r)))) rdv M
    (initial_multipoles_lib lib cd t p P bc src loc trl wr w) (fun r => contributing_boxes (loc r)) _ 0 di_levels (Comm.reach_start _ _ _ _ _ _ _))
    as [st [n [_ [X AD]]]].
  exists loc, trl, wr. eexists. split.
  - intros r Hr. destruct (SET r Hr) as [HG _].
    destruct (DistRank.rank_parts t p sc tc P tr (boxes r) (loc r) HG) as [_ [ET [EP [_ [ES _]]]]].
    rewrite ET, EP. cbn [nsources dim nlevels with_flags]. rewrite <- ES.
    apply (C111_constructor _ _ _ _ _ _ _ _ (fun i => i)); auto. rewrite G.
    + unfold wr, rank_wr, rank_dipoles. destruct dip; reflexivity.
    + unfold rank_dipoles. destruct dip as [d|]; [|discriminate]. intros rows cols d' Y. injection Y as <- <- _. auto.
  - split; [exact SET|]. exists st, n, (fun _ => e0). split; [exact X|]. split; auto.
Qed.

(** ** Non-vacuity: the example tree on three ranks, with dipoles and rotation data. *)
Definition ex_dipole (u : nat) : spt := (q_of (Z.of_nat u), q_of 2).
Definition ex_rank (tr : traversal) (r : nat) : option (local_tree * traversal) :=
  match generate_local_tree ex_tree ex_dfs_particles (table (ex_cumul ex_sc)) (table (ex_cumul ex_tc)) true tr (ex_boxes r) with
  | Some l => option_map (pair l) (generate_local_travs (ex_dist_params true static_l2 0) l true)
  | None => None
  end.
(** the rotation data fit, as a test *)
Definition ex_fits (tr : traversal) : bool :=
  let c := from_sep_siblings tr in let rd := ex_rotation_data tr in
  (length (rotation_lists rd) =? length (lists c)) &&
  forallb (fun i => let s := nth i (starts c) 0 in let e := nth (S i) (starts c) 0 in
    forallb (fun k => match nth k (rotation_lists rd) None with
       | Some r => match nth_error (rotation_angles rd) r with
                   | Some a => same_angle a (sangle (ex_centers (nth k (lists c) 0)) (ex_centers (nth i (target_or_target_parent_boxes tr) 0)))
                   | None => false end
       | None => false end) (seq s (e - s))) (seq 0 (length (target_or_target_parent_boxes tr))).
Lemma ex_fits_ok tr : ex_fits tr = true -> rotation_data_fits tr (fun A B => sangle (ex_centers A) (ex_centers B)) (ex_rotation_data tr).
Proof.
  unfold ex_fits. cbv zeta. intros X. apply andb_prop in X. destruct X as [X1 X2]. split; [apply Nat.eqb_eq; auto|].
  intros k A B [i [Hi [Hk [-> ->]]]]. rewrite forallb_forall in X2. specialize (X2 i ltac:(apply in_seq; lia)).
  rewrite forallb_forall in X2. specialize (X2 k ltac:(apply in_seq; lia)).
  destruct (nth k (rotation_lists (ex_rotation_data tr)) None) as [r|]; [|discriminate]. exists r. split; auto.
  destruct (nth_error (rotation_angles (ex_rotation_data tr)) r) as [a|]; [|discriminate]. f_equal.
  unfold same_angle in X2. destruct a as [a1 a2]. unfold sangle in *. cbn [fst snd] in X2.
  destruct (Qc_eq_dec a1 _) as [->|]; [|discriminate]. destruct (Qc_eq_dec a2 _) as [->|]; [|discriminate]. reflexivity.
Qed.
Lemma ex_ranks_fit tr : build_traversal ex_tree (ex_dist_params true static_l2 0) = Some tr ->
  forallb (fun r => match ex_rank tr r with Some (_, x) => ex_fits x && (0 <? length (lists (from_sep_siblings x))) | None => false end) [0; 1; 2] = true.
Proof.
  intros B. assert (X : match build_traversal ex_tree (ex_dist_params true static_l2 0) with
    | Some tr => forallb (fun r => match ex_rank tr r with Some (_, x) => ex_fits x && (0 <? length (lists (from_sep_siblings x))) | None => false end) [0; 1; 2]
    | None => true end = true) by (vm_compute; reflexivity).
  rewrite B in X. exact X.
Qed.
Example ex_distributed_lib_run : forall rendezvous, exists tr loc trl wr result,
  build_traversal ex_tree (ex_dist_params true static_l2 0) = Some tr /\
  wranglers_made ex_tree 3 loc wr HELMHOLTZ (Q2Qc (3 # 2)) (Some (Q2Qc (5 # 3))) (Some (fun l => 5 - l)) None
    (fun r => rank_dipoles ex_tree ex_dfs_particles (loc r) (Some ex_dipole)) true (150 * 100) (fun r => Some (ex_rotation_data (trl r))) /\
  (forall r rd, r < 3 -> Some (ex_rotation_data (trl r)) = Some rd ->
     rotation_data_fits (trl r) (fun A B => sangle (ex_centers A) (ex_centers B)) rd) /\
  distributed_execution_lib scaled_lib (fun w d => Qcmult w (fst d)) (fun _ v => v) (fun v => v) ex_tree ex_dfs_particles
    (table (ex_cumul ex_sc)) (table (ex_cumul ex_tc)) (ex_dist_params true static_l2 0) tr 3 ex_boxes true ex_centers
    (fun i => ex_source (user_source_ids ex_dfs_particles i)) ex_target loc trl wr rendezvous (fun u => q_of (Z.of_nat (u * u + 1))) result /\
  result 7 = Some (fold_right Qcplus 0%Qc
    (map (fun u => potential (ex_target (sorted_target_ids ex_dfs_particles 7)) (ex_source u) (Dipole (q_of (Z.of_nat (u * u + 1))) (ex_dipole u)))
       (seq 0 ex_ns))).
Proof.
  intros rdv. destruct (build_traversal ex_tree (ex_dist_params true static_l2 0)) as [tr|] eqn:B.
  2:{ exfalso. assert (X : match build_traversal ex_tree (ex_dist_params true static_l2 0) with Some _ => true | None => false end = true)
        by (vm_compute; reflexivity). rewrite B in X. discriminate. }
  destruct (C111_execution_exists spt Qc spt spt _ _ _ _ scaled_lib (fun w d => Qcmult w (fst d)) (fun _ v => v) (fun v => v) ex_tree ex_dfs_particles
    (table (ex_cumul ex_sc)) (table (ex_cumul ex_tc)) (ex_dist_params true static_l2 0) tr 3 ex_boxes true ex_centers
    (fun i => ex_source (user_source_ids ex_dfs_particles i)) ex_target HELMHOLTZ (Q2Qc (3 # 2)) (Some (Q2Qc (5 # 3))) (Some (fun l => 5 - l)) None
    (Some ex_dipole) (150 * 100) (fun x => Some (ex_rotation_data x)) None _ rdv (fun u => q_of (Z.of_nat (u * u + 1)))
    (ex_distributed_input true static_l2 0) (fun _ => eq_refl) B eq_refl) as [loc [trl [wr [result [MADE X]]]]].
  assert (FIT : forall r rd, r < 3 -> Some (ex_rotation_data (trl r)) = Some rd ->
     rotation_data_fits (trl r) (fun A B => sangle (ex_centers A) (ex_centers B)) rd).
  { intros r rd Hr E. injection E as <-. apply ex_fits_ok. destruct X as [SET _]. destruct (SET r Hr) as [HG HT].
    pose proof (ex_ranks_fit tr B) as Y. rewrite forallb_forall in Y. specialize (Y r ltac:(destruct r as [|[|[|r]]]; cbn; auto; lia)).
    unfold ex_rank in Y. change (targets_have_extent (extents (ex_dist_params true static_l2 0))) with true in HG. rewrite HG, HT in Y.
    cbn [option_map] in Y. apply andb_prop in Y. apply Y. }
  exists tr, loc, trl, wr, result. split; [reflexivity|]. split; [exact MADE|]. split; [exact FIT|]. split; [exact X|].
  rewrite (C111_exact_library_gives_direct_sum spt Qc spt spt _ _ _ _ scaled_lib sangle potential smultipole slocal (fun w d => Qcmult w (fst d))
    (fun _ v => v) (fun v => v) ex_tree ex_dfs_particles (table (ex_cumul ex_sc)) (table (ex_cumul ex_tc)) (ex_dist_params true static_l2 0) tr 3 ex_boxes
    true ex_centers (fun i => ex_source (user_source_ids ex_dfs_particles i)) ex_target ex_source
    (fun j => ex_target (sorted_target_ids ex_dfs_particles j)) loc trl wr HELMHOLTZ (Q2Qc (3 # 2)) (Some (Q2Qc (5 # 3))) (Some (fun l => 5 - l)) None
    (Some ex_dipole) (150 * 100) (fun r => Some (ex_rotation_data (trl r))) rdv (fun u => q_of (Z.of_nat (u * u + 1))) result 7); auto.
  - apply scaled_linear.
  - apply scaled_exact.
  - apply ex_distributed_input.
  - exact (fun _ => eq_refl).
  - reflexivity.
  - intros a E. injection E as <-. apply Qclt_le_weak. reflexivity.
  - apply Nat.ltb_lt. vm_compute. reflexivity.
Qed.

Print Assumptions C111_dipoles_in_callers_order_refused.
Print Assumptions C111_constructor.
Print Assumptions C111_constructor_errors.
Print Assumptions C111_distributed_equals_shared.
Print Assumptions C111_exact_library_gives_direct_sum.
Print Assumptions C111_execution_exists.
