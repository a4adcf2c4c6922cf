(** All ranks of a distributed evaluation with pyfmmlib. *)
From Coq Require Import List Arith ZArith NArith Lia Bool Permutation QArith Qcanon.
From Verif Require Import Base Tree Spec TreeFacts Traversal SpecTraversal TraversalLists Coverage CoverageThm ListFacts
  LevelStarts MergeFacts Fmm SpecFmm FmmFacts FmmThm Tools ToolsFacts Partition PartitionFacts LocalTree SpecDist LocalFacts
  Distributed DistGeom DistThm PropsPartition PropsTools FmmGen SpecFmmGen FmmGenFacts FmmGenThm DistributedGen DistGenRank DistGenThm
  Layout FmmLib SpecFmmLib FmmLibFacts FmmLibThm DistributedLib PropsFmm PropsFmmGen PropsFmmLib.
From Verif Require TreeBuild ArrayFacts Comm PropsComm DistRank.
Import ListNotations.
Local Open Scope nat_scope.

(** ** Potentials from given expansions *)
Section Given.
Variable t : tree.
Hypothesis W : wf_tree t.
Variable P : trav_params.
Hypothesis WP : wf_params t P.
Hypothesis LS : level_sorted t (level_start_box_nrs P).
Variable tr : traversal.
Hypothesis B : built_or_merged t P tr.
Context {pt Wt D ang rmat : Type} {M L V : cmonoid}.
Variable lib : library pt (strength Wt D) ang rmat M L V.
Hypothesis LIN : linear_library lib.
Variable wr : wrangler ang D.
Variable complex_dipole : Wt -> D -> Wt.
Hypothesis LE : level_start_box_nrs P (nlevels t) = nboxes t.
Variable p : particles.
Hypothesis SRC : forall b, b < nboxes t -> box_source_counts_nonchild p b <> 0 ->
  box_source_starts p b + box_source_counts_nonchild p b <= nsources p.
Variables box_centers sources targets : nat -> pt.
Variable angle_between : nat -> nat -> ang.
Hypothesis ROT : forall rd, wr_rotation_data wr = Some rd -> rotation_data_fits tr angle_between rd.
Variable finish : V -> V.
Notation R := (level_routines lib wr box_centers sources targets angle_between finish).
Notation ls := (level_start_target_or_target_parent_box_nrs tr).
Notation ttpb := (target_or_target_parent_boxes tr).

Lemma potentials_given_lib_eq mp w :
  potentials_given_lib lib complex_dipole box_centers (level_start_box_nrs P) wr t p sources targets tr mp w =
  Some (potentials_gen _ _ _ _ R t p (level_start_box_nrs P) tr (fun _ => mp) (source_strength wr complex_dipole w)).
Proof.
  unfold potentials_given_lib, potentials_gen. cbv zeta.
  rewrite (multipole_to_local_eq lib wr t W (level_start_box_nrs P) LS LE box_centers sources targets angle_between finish
    ls ttpb (bm_delimited t W P WP LS tr B) (bm_bounds t W P WP LS tr B) (bm_range t W P WP tr B) (from_sep_siblings tr)
    (bm_sib_rows t W P WP tr B) (bm_sib t W P WP tr B)).
  2:{ intros rd E. destruct (ROT rd E) as [R1 R2]. split; auto. intros i k Hi Hk. apply R2. exists i. auto. }
  rewrite (form_locals_eq lib LIN wr complex_dipole t p (level_start_box_nrs P) LE box_centers sources targets angle_between finish
    ls ttpb (bm_delimited t W P WP LS tr B) (bm_bounds t W P WP LS tr B) (bm_range t W P WP tr B) (from_sep_bigger tr)
    (bm_big_rows t W P WP tr B) (bm_big t W P WP tr B) SRC).
  f_equal.
  assert (ED : forall c, eval_direct_lib lib wr complex_dipole p sources targets (target_boxes tr) c w =
     eval_direct_gen _ _ _ _ R p (target_boxes tr) c (source_strength wr complex_dipole w)).
  { intros c. apply eval_direct_lib_eq; auto. }
  destruct (from_sep_close_smaller tr), (from_sep_close_bigger tr); rewrite ?ED; reflexivity.
Qed.
End Given.
(** with the rank's own expansions this is what the shared-memory driver computes *)
Lemma potentials_given_own {pt Wt D ang rmat : Type} {M L V : cmonoid} (lib : library pt (strength Wt D) ang rmat M L V)
    wr cd t p starts bc src tgt tr w :
  potentials_given_lib lib cd bc starts wr t p src tgt tr
    (coarsen_multipoles_lib lib wr t starts bc (level_start_source_parent_box_nrs tr) (source_parent_boxes tr)
       (form_multipoles_lib lib wr cd t p starts bc src (level_start_source_box_nrs tr) (source_boxes tr) w)) w =
  potentials_lib lib wr cd t p starts bc src tgt tr w.
Proof. reflexivity. Qed.

(** ** The wranglers *)
Lemma make_form {ang D} k id td nl ns re usi hk f o (dip : option (nat * nat * (nat -> D))) al cu (rot : option (rotation_data ang)) wr :
  make_wrangler k id td nl ns re usi hk f o dip al cu rot = inr wr ->
  exists e lo, wr = mkWrangler k td nl re e lo rot cu (match dip with Some (_, _, d) => Some (if al then d else fun i => d (usi i)) | None => None end) /\
    forall ns' usi' (dip' : option (nat * nat * (nat -> D))) al' (rot' : option (rotation_data ang)),
      (forall rows cols d, dip' = Some (rows, cols, d) -> rows = td /\ cols = ns') ->
      make_wrangler k id td nl ns' re usi' hk f o dip' al' cu rot' =
      inr (mkWrangler k td nl re e lo rot' cu (match dip' with Some (_, _, d) => Some (if al' then d else fun i => d (usi' i)) | None => None end)).
Proof.
  intros H. unfold make_wrangler in *. destruct o as [o|], f as [f|]; try discriminate.
  all: destruct k; destruct hk as [a|]; try destruct (Qc_eq_dec a 0) as [->|NZ]; try discriminate.
  all: destruct (negb (id =? td)); try discriminate.
  all: try (destruct (Nat.eqb_spec nl 0) as [E|]; try discriminate).
  all: destruct dip as [[[rows cols] d]|]; try (destruct ((rows =? td) && (cols =? ns)); try discriminate).
  all: injection H as <-; eexists; eexists; (split; [reflexivity|]).
  all: intros ns' usi' [[[rows' cols'] d']|] al' rot' HD; [|reflexivity].
  all: destruct (HD _ _ _ eq_refl) as [-> ->]; rewrite !Nat.eqb_refl; reflexivity.
Qed.

Section All.
Variable t : tree.
Hypothesis W : wf_tree t.
Hypothesis F : wf_flags t.
Variable p : particles.
Hypothesis HP : wf_particles t p.
Variables source_cumul target_cumul : nat -> nat.
Hypothesis N : nested_ranges t (box_target_starts p) (box_target_counts_nonchild p) target_cumul.
Variable P : trav_params.
Hypothesis WP : wf_params t P.
Hypothesis LS : level_sorted t (level_start_box_nrs P).
Hypothesis LE : level_start_box_nrs P (nlevels t) = nboxes t.
Hypothesis WE : targets_have_extent (extents P) = true -> wf_extent (extents P).
Hypothesis MIN : targets_have_extent (extents P) = true -> from_sep_smaller_min_nsources_cumul (extents P) = 0.
Hypothesis M1 : forall b, source_boxes_mask P b = true.
Hypothesis M2 : forall b, source_parent_boxes_mask P b = true.
Hypothesis SAT : sources_are_targets P = true -> forall b, b < nboxes t -> is_target t b = true -> 0 < box_target_counts_nonchild p b.
Variable tr : traversal.
Hypothesis Htr : build_traversal t P = Some tr.
Variable size : nat.
Variable boxes : nat -> list nat.
Hypothesis ONCE : every_box_once t size boxes.
Variable merge : bool.
Variable loc : nat -> local_tree.
Variable trl : nat -> traversal.
Hypothesis SET : local_setup t p source_cumul target_cumul P tr size boxes merge loc trl.
Let starts := level_start_box_nrs P.

Context {pt Wt D ang rmat : Type} {M L V : cmonoid}.
Variable lib : library pt (strength Wt D) ang rmat M L V.
Hypothesis LIN : linear_library lib.
Variable complex_dipole : Wt -> D -> Wt.
Variable times : factor -> V -> V.
Variable real_part : V -> V.
Variables box_centers sources targets : nat -> pt.
Variable angle_between : nat -> nat -> ang.
Variables (k : kernel) (re e : Qc) (lo : list nat) (cu : nat) (rot : nat -> option (rotation_data ang)) (dipoles : option (nat -> D)).
Hypothesis ROT : forall r rd, r < size -> rot r = Some rd -> rotation_data_fits (trl r) angle_between rd.
(** the wrangler of a rank, and one for the global tree with the same order of rotation matrices *)
Definition rank_wr (r : nat) : wrangler ang D :=
  mkWrangler k (dim t) (nlevels t) re e lo (rot r) cu
    (option_map (fun d i => d (user_source_ids p (nth i (lt_src_idx (loc r)) 0))) dipoles).
Definition whole_wr (ro : option (rotation_data ang)) : wrangler ang D :=
  mkWrangler k (dim t) (nlevels t) re e lo ro cu (option_map (fun d i => d (user_source_ids p i)) dipoles).
Variable wr : nat -> wrangler ang D.
Hypothesis WR : forall r, r < size -> wr r = rank_wr r.
Definition whole_routines (ro : option (rotation_data ang)) : routines (strength Wt D) M L V :=
  level_routines lib (whole_wr ro) box_centers sources targets angle_between (fun v => v).
Variable weights : nat -> Wt.
Let ustr : nat -> strength Wt D := user_strength k (dim t) complex_dipole weights dipoles.
Let sw : nat -> strength Wt D := fun i => ustr (user_source_ids p i).

Lemma whole_linear ro : linear (whole_routines ro).
Proof. apply level_linear; auto. Qed.

Lemma rank_mp_eq r ro : rank_multipoles_lib lib complex_dipole box_centers sources starts (rank_wr r) (loc r) (trl r)
    (fun i => weights (user_source_ids p i)) =
  rank_multipoles_gen (whole_routines ro) (loc r) (trl r) starts sw.
Proof.
  unfold rank_multipoles_lib, rank_multipoles_gen.
  rewrite (form_multipoles_lib_eq lib LIN (rank_wr r) complex_dipole (lt_tree (loc r)) (lt_particles (loc r)) starts box_centers
    (rank_sources sources (loc r)) (rank_targets targets (loc r)) angle_between (fun v => v)).
  rewrite (coarsen_multipoles_lib_eq lib (rank_wr r) (lt_tree (loc r)) starts box_centers
    (rank_sources sources (loc r)) (rank_targets targets (loc r)) angle_between (fun v => v)).
  unfold sw, ustr, user_strength, local_weights. unfold source_strength, whole_routines, whole_wr, rank_wr.
  destruct dipoles as [d|]; reflexivity.
Qed.

Lemma local_src r b : r < size -> b < nboxes t -> box_source_counts_nonchild (lt_particles (loc r)) b <> 0 ->
  box_source_starts (lt_particles (loc r)) b + box_source_counts_nonchild (lt_particles (loc r)) b <= nsources (lt_particles (loc r)).
Proof.
  intros Hr Hb C. destruct (SET r Hr) as [HG _].
  destruct (DistRank.rank_parts t p source_cumul target_cumul P tr (boxes r) (loc r) HG) as [_ [_ [EP _]]].
  rewrite EP in *. cbn [box_source_starts box_source_counts_nonchild nsources] in *.
  pose proof (local_restricted t (nsources p) (bm_point_src (lt_masks (loc r))) _ _ source_cumul (wf_sources_owned t p HP)) as RS.
  cbv zeta in RS. destruct (bm_point_src (lt_masks (loc r)) b) eqn:E; [apply (rs_range _ _ _ _ _ _ _ _ RS); auto|].
  elim C. apply (rs_empty _ _ _ _ _ _ _ _ RS). auto.
Qed.

Lemma rank_pot_eq r mp : r < size ->
  rank_potentials_lib lib complex_dipole box_centers sources targets starts (rank_wr r) (loc r) (trl r) mp
    (fun i => weights (user_source_ids p i)) =
  Some (rank_potentials_gen (whole_routines (rot r)) (loc r) (trl r) starts mp sw).
Proof.
  intros Hr. destruct (SET r Hr) as [HG HT].
  destruct (DistRank.rank_parts t p source_cumul target_cumul P tr (boxes r) (loc r) HG) as [_ [ET _]].
  pose proof (DistRank.local_wf t W p target_cumul (loc r)) as LW.
  pose proof (DistRank.local_params_wf t p HP target_cumul P WP MIN M1 SAT (loc r)) as LP.
  pose proof (trl_bm t p source_cumul target_cumul P tr (boxes r) merge (loc r) HG (trl r) HT) as LB.
  pose proof (DistRank.local_sorted t p target_cumul P LS (loc r)) as LLS.
  rewrite <- ET in *.
  unfold rank_potentials_lib.
  assert (E := potentials_given_lib_eq (lt_tree (loc r)) LW (local_params P (loc r)) LP LLS (trl r) LB lib LIN (rank_wr r) complex_dipole).
  assert (NB : nboxes (lt_tree (loc r)) = nboxes t /\ nlevels (lt_tree (loc r)) = nlevels t) by (rewrite ET; split; reflexivity).
  destruct NB as [NB NL].
  specialize (E ltac:(rewrite NB, NL; exact LE) (lt_particles (loc r))).
  specialize (E ltac:(intros b Hb; rewrite NB in Hb; apply local_src; auto)).
  specialize (E box_centers (rank_sources sources (loc r)) (rank_targets targets (loc r)) angle_between).
  specialize (E ltac:(intros rd Hrd; apply (ROT r rd Hr Hrd)) (fun v => v)).
  unfold starts. rewrite E. clear E. f_equal.
  unfold rank_potentials_gen, sw, ustr, user_strength, local_weights. unfold source_strength, whole_routines, whole_wr, rank_wr.
  destruct dipoles as [d|]; reflexivity.
Qed.

Lemma gathered_lib_ok mp old tr' j v : j < ntargets p -> built_or_merged t P tr' ->
  (forall r x, r < size -> x < nboxes t -> 2 <= box_level t x -> bm_multipole_src (lt_masks (loc r)) x = true ->
     mp r x = msub (whole_routines None) t (own (whole_routines None) t p sw) x) ->
  (forall r, r < size -> potentials_gen _ _ _ _ (whole_routines (rot r)) t p starts tr' (fun m => m) sw (sorted_target_ids p j) = v) ->
  gathered_result_lib lib complex_dipole times real_part p P size box_centers sources targets loc trl wr mp old weights j =
  finalize_potentials (whole_wr None) times real_part v.
Proof.
  intros Hj BM HM HV. unfold gathered_result_lib. cbv zeta.
  rewrite (run_all_ok _ (fun r => rank_potentials_gen (whole_routines (rot r)) (loc r) (trl r) starts (to_storage starts (mp r)) sw)).
  2:{ intros r Hr. apply in_seq in Hr. rewrite WR by lia. apply rank_pot_eq. lia. }
  set (i := sorted_target_ids p j) in *. assert (Hi : i < ntargets p) by (apply (wf_sorted_target_ids t p HP); auto).
  destruct (owner_exists t _ _ _ i (wf_targets_owned t p HP) Hi) as [T [HT [CT HO]]].
  assert (IT : In i (seq (box_target_starts p T) (box_target_counts_nonchild p T))) by (apply covers_in; apply HO; auto).
  destruct (boxes_owner t P MIN size boxes ONCE T HT) as [r0 [Hr0 [B0 _]]].
  assert (E : gather_potentials size (fun r => lt_tgt_idx (loc r))
     (fun r => nth r (map (fun r => rank_potentials_gen (whole_routines (rot r)) (loc r) (trl r) starts (to_storage starts (mp r)) sw) (seq 0 size))
        (fun _ => e0)) old i = v).
  { apply gather_at.
    - destruct (SET r0 Hr0) as [HG _].
      destruct (DistRank.rank_parts t p source_cumul target_cumul P tr (boxes r0) (loc r0) HG) as [_ [_ [_ [_ [_ EI]]]]].
      destruct (DistRank.masks_facts t W p source_cumul target_cumul P tr (boxes r0) (fun b => range t P MIN size boxes ONCE r0 b Hr0) (loc r0) HG) as [MR _].
      assert (II : In i (lt_tgt_idx (loc r0))).
      { rewrite EI. apply (idx_spec t (ntargets p) _ _ _ _ (wf_targets_owned t p HP)). exists T. split; auto. split; [apply MR; auto|auto]. }
      destruct (In_nth _ _ 0 II) as [q [Hq E]]. exists r0, q. auto.
    - intros r q Hr Hq E. rewrite nth_map_seq by auto. rewrite <- (HV r Hr). destruct (SET r Hr) as [HG HTr].
      rewrite (potentials_gen_at (whole_routines (rot r)) (whole_linear (rot r)) t W p starts LS sw i T HO).
      2:{ apply (bm_ready t W F P WP LS tr' BM). destruct (bm_boxes t W P WP tr' BM) as [-> _].
          apply (nonempty_target t p); auto. }
      2:{ destruct (bm_boxes t W P WP tr' BM) as [-> _]. apply (nonempty_target t p); auto. }
      2:{ intros. apply (multipoles_gen_complete t W F P WP LS tr' BM M1 M2 _ (whole_linear (rot r))); auto. apply (wf_source_flag t p HP). }
      rewrite (rank_potential_gen t W F p HP source_cumul target_cumul N P WP LS WE MIN M1 SAT tr Htr (boxes r)
        (fun b => range t P MIN size boxes ONCE r b Hr) merge
        (loc r) HG (trl r) HTr (whole_routines (rot r)) (whole_linear (rot r)) sw (to_storage starts (mp r))) with (T := T) (tr' := tr'); auto.
      + rewrite E. reflexivity.
      + intros x Hx L2 U. transitivity (msub (whole_routines None) t (own (whole_routines None) t p sw) x).
        * rewrite <- HM with (r := r); auto. unfold at_box, view_get, to_storage. f_equal.
          pose proof (start_le t W starts LS x Hx). fold starts. lia.
        * reflexivity.
      + rewrite E. auto. }
  fold i. rewrite E. rewrite WR by lia. reflexivity.
Qed.

Lemma initial_lib_eq r x : r < size ->
  initial_multipoles_lib lib complex_dipole t p P box_centers sources loc trl wr weights r x =
  initial_multipoles (whole_routines None) t p P loc trl ustr r x.
Proof.
  intros Hr. unfold initial_multipoles_lib, initial_multipoles. rewrite WR by auto. fold starts.
  rewrite (rank_mp_eq r None). reflexivity.
Qed.
Lemma initial_lib_sum x : x < nboxes t -> 2 <= box_level t x ->
  msum (map (fun r => initial_multipoles_lib lib complex_dipole t p P box_centers sources loc trl wr weights r x) (seq 0 size)) =
  msub (whole_routines None) t (own (whole_routines None) t p sw) x.
Proof.
  intros Hx L2. rewrite (msum_map_ext _ (fun r => initial_multipoles (whole_routines None) t p P loc trl ustr r x)).
  2:{ intros r Hr. apply in_seq in Hr. apply initial_lib_eq. lia. }
  apply (initial_sum t W F p HP source_cumul target_cumul P WP LS MIN M1 SAT tr size boxes ONCE merge loc trl SET _ (whole_linear None)); auto.
Qed.
Lemma initial_lib_outside r x : r < size -> x < nboxes t -> contributing_boxes (loc r) x = false ->
  initial_multipoles_lib lib complex_dipole t p P box_centers sources loc trl wr weights r x = e0.
Proof.
  intros Hr Hx C. rewrite initial_lib_eq by auto.
  apply (initial_outside t W F p HP source_cumul target_cumul P WP LS MIN M1 SAT tr size boxes ONCE merge loc trl SET _ (whole_linear None)); auto.
Qed.

(** rotation data matter only through the order of the matrices *)
Lemma same_order_same_routines a b : rotmat_order (whole_wr a) = rotmat_order (whole_wr b) -> whole_routines a = whole_routines b.
Proof.
  intros E. unfold whole_routines, level_routines, level_rotation. rewrite E. reflexivity.
Qed.
Lemma shared_lib_eq tr' ro j : built_or_merged t P tr' -> (forall rd, ro = Some rd -> rotation_data_fits tr' angle_between rd) ->
  drive_fmm_lib lib (whole_wr ro) complex_dipole times real_part t p starts box_centers sources targets tr' weights j =
  finalize_potentials (whole_wr None) times real_part
    (potentials_gen _ _ _ _ (whole_routines ro) t p starts tr' (fun m => m) sw (sorted_target_ids p j)).
Proof.
  intros BM RO. unfold drive_fmm_lib.
  rewrite (potentials_lib_eq t W P WP LS tr' BM lib LIN (whole_wr ro) complex_dipole LE p (wf_sources_owned t p HP) box_centers sources targets
    angle_between RO (fun v => v)).
  unfold sw, ustr, user_strength, source_strength, whole_routines, whole_wr. destruct dipoles as [d|]; reflexivity.
Qed.
End All.

(** ** Exact routines: every rank's choice of rotation matrices gives the direct sum *)
Lemma exact_value {pt Wt D ang rmat : Type} {M L V : cmonoid} (lib : library pt (strength Wt D) ang rmat M L V) angle kern mu lc
    t P p tr cd bc sources targets user_sources user_targets k re hk f o e lo cu ro dipoles weights j :
  linear_library lib -> exact_library lib angle kern mu lc -> fmm_input t P p tr -> level_start_box_nrs P (nlevels t) = nboxes t ->
  make_wrangler k (dim t) (dim t) (nlevels t) (nsources p) re (user_source_ids p) hk f o
    (option_map (fun d => (dim t, nsources p, d)) dipoles) false cu ro = inr (whole_wr t p k re e lo cu dipoles ro) ->
  (0 < re)%Qc -> (forall a, hk = Some a -> (0 <= a)%Qc) ->
  (forall i, i < nsources p -> sources i = user_sources (user_source_ids p i)) ->
  j < ntargets p -> targets (sorted_target_ids p j) = user_targets j ->
  potentials_gen _ _ _ _ (whole_routines t p lib bc sources targets (fun A B => angle (bc A) (bc B)) k re e lo cu dipoles ro) t p
    (level_start_box_nrs P) tr (fun m => m)
    (fun i => user_strength k (dim t) cd weights dipoles (user_source_ids p i)) (sorted_target_ids p j) =
  msum (map (fun u => kern (user_targets j) (user_sources u) (user_strength k (dim t) cd weights dipoles u)) (seq 0 (nsources p))).
Proof.
  intros LIN EX H LE MW RE HA US Hj UT.
  destruct (C76_owners_and_routes_exist t P p tr j H Hj) as [T [sb [rt [HT [HTi Hk]]]]].
  destruct (C94_stored_arguments ang Wt D k (dim t) (dim t) (nlevels t) (nsources p) re (user_source_ids p) hk f o _ false cu ro _ MW)
    as [_ [_ [_ [RS _]]]].
  pose proof (input_bom _ _ _ _ H) as B.
  assert (HTb : In T (target_boxes tr)).
  { eapply input_target_box; eauto. apply (wf_target_flag _ _ (in_particles _ _ _ _ H)); auto.
    destruct (box_target_counts_nonchild p T); [destruct HTi|lia]. }
  pose proof (wf_user_source_ids _ _ (in_particles _ _ _ _ H)) as UP.
  destruct H as [W F WP LS WE M1 M2 HP _]. destruct HP as [U1 U2 U3 U4 U5 U6].
  set (ab := fun A B => angle (bc A) (bc B)). set (wr := whole_wr t p k re e lo cu dipoles ro) in *.
  rewrite (fmm_gen_total t W F P WP LS tr B WE M1 M2 _
    (level_linear lib LIN wr bc sources targets ab (fun v => v)) p _ sb rt _ T); auto.
  - transitivity (msum (map (fun u => kern (user_targets j) (user_sources u) (user_strength k (dim t) cd weights dipoles u))
      (map (user_source_ids p) (seq 0 (nsources p))))).
    2:{ apply msum_perm, Permutation_map. exact UP. }
    rewrite map_map. apply msum_map_ext. intros i Hi. apply in_seq in Hi. destruct (Hk i ltac:(lia)) as [S1 [S2 S3]].
    rewrite (contribution_level t W P WP tr B) by auto.
    rewrite (contribution_exact t W P WP tr B lib wr LE bc _ _ ab (fun v => v) angle kern mu lc EX); auto.
    + rewrite UT, US by lia. reflexivity.
    + intros l. specialize (RS l RE HA). unfold documented_rscale in RS. destruct RS as [m [_ [_ [_ [Hm RS]]]]].
      destruct (dim t) as [|[|[|[|d]]]]; try (rewrite RS; auto). destruct k; [|rewrite RS; auto].
      destruct (Qclt_le_dec 0 (level_to_rscale wr l)) as [|C]; auto. exfalso.
      assert (X : (level_to_rscale wr l * m <= 0 * m)%Qc) by (apply Qcmult_le_compat_r; auto; apply Qclt_le_weak; auto).
      rewrite RS, Qcmult_0_l in X. revert X. apply Qclt_not_le. reflexivity.
  - intros b Hb. destruct (owner_exists t _ _ _ (sorted_target_ids p j) U4 (U2 _ Hj)) as [T' [HT' [_ HO]]].
    rewrite (HO b Hb). assert (E : T = T'); [|rewrite E; tauto]. apply (HO T HT). apply covers_in. auto.
  - intros i Hi. destruct (Hk i Hi) as [A1 [A2 _]]. auto.
  - intros i Hi. apply (Hk i Hi).
Qed.
