(** Properties C93 and C94: the FMM with pyfmmlib.  Every routine gets the arguments that belong to
    the boxes it works on, so that exact routines give the direct sum over the caller's sources. *)
From Coq Require Import List Arith ZArith Lia Bool Permutation QArith Qcanon Qcabs.
From Verif Require Import Base Tree Spec TreeFacts Traversal SpecTraversal LevelStarts Fmm SpecFmm FmmFacts FmmThm FmmGen SpecFmmGen FmmGenFacts FmmGenThm
  Classes SpecClasses ClassFacts ClassThm RotThm PropsClasses Layout FmmLib SpecFmmLib FmmLibFacts FmmLibThm FmmLibCtor ScaledQuad
  CheckTree ExampleTree PropsTraversal PropsFmm PropsFmmGen.
Import ListNotations.
Local Open Scope nat_scope.

(** ** The constructor *)
(** C94.  The wrangler is made exactly for acceptable arguments. *)
Theorem C94_accepted_arguments : forall (ang D : Type) k indep_dim t_dim t_nlevels t_nsources root_extent usi helmholtz_k
    level_to_order order (dipole_vec : option (nat * nat * (nat -> D))) already cutoff (rot : option (rotation_data ang)),
  (exists wr, make_wrangler k indep_dim t_dim t_nlevels t_nsources root_extent usi helmholtz_k level_to_order order dipole_vec already cutoff rot = inr wr)
  <-> acceptable k indep_dim t_dim t_nlevels t_nsources helmholtz_k level_to_order order dipole_vec.
Proof.
  intros ang D k id td nl ns re usi hk f o dip al cu rot. unfold make_wrangler, acceptable.
  assert (DIP : forall mk : option (nat -> D) -> wrangler ang D, (exists wr, match dip with
      | Some (rows, cols, d) => if (rows =? td) && (cols =? ns) then inr (mk (Some (if al then d else fun i => d (usi i)))) else inl DipoleShape
      | None => inr (mk None) end = inr wr) <-> (forall rows cols d, dip = Some (rows, cols, d) -> rows = td /\ cols = ns)).
  { intros mk. destruct dip as [[[rows cols] d]|].
    - destruct (Nat.eqb_spec rows td), (Nat.eqb_spec cols ns); cbn [andb]; split;
        try (intros [wr E]; discriminate); try (intros _ r c d' E; injection E as <- <- <-; auto); try (intros _; eexists; reflexivity);
        intros H; destruct (H rows cols d eq_refl); contradiction.
    - split; [intros _ r c d E; discriminate|intros _; eexists; reflexivity]. }
  assert (REST : forall (e : Qc) (f' : option (nat -> nat)), (exists wr, (if negb (id =? td) then inl DimMismatch else
      match (match f' with Some f => Some (map f (seq 0 nl)) | None => if nl =? 0 then Some [] else None end) with
      | Some lo => match dip with
          | Some (rows, cols, d) => if (rows =? td) && (cols =? ns) then inr (mkWrangler k td nl re e lo rot cu (Some (if al then d else fun i => d (usi i)))) else inl DipoleShape
          | None => inr (mkWrangler k td nl re e lo rot cu None) end
      | None => inl NoOrder end) = inr wr) <->
      (f' <> None \/ nl = 0) /\ id = td /\ (forall rows cols d, dip = Some (rows, cols, d) -> rows = td /\ cols = ns)).
  { intros e f'. destruct (Nat.eqb_spec id td) as [E|E]; cbn [negb].
    - destruct f' as [f'|].
      + rewrite (DIP (mkWrangler k td nl re e (map f' (seq 0 nl)) rot cu)). split; [intros H; split; [left; discriminate|auto]|tauto].
      + destruct (Nat.eqb_spec nl 0) as [Z|Z].
        * rewrite (DIP (mkWrangler k td nl re e [] rot cu)). tauto.
        * split; [intros [wr Q]; discriminate|]. intros [[H|H] _]; [exfalso; apply H; auto|contradiction].
    - split; [intros [wr Q]; discriminate|tauto]. }
  destruct o as [o|], f as [f|].
  { split; [intros [wr E]; discriminate|]. intros [[H|H] _]; discriminate. }
  all: destruct k; destruct hk as [a|]; try destruct (Qc_eq_dec a 0) as [->|NZ].
  all: try (split; [intros [wr E]; discriminate|intros [_ [_ [H _]]]; (destruct H as [H|H]; [discriminate|injection H as H; contradiction]) || (destruct H as [b [H H']]; try discriminate; injection H as <-; contradiction)]; fail).
  all: first [ etransitivity; [exact (REST 1%Qc (Some (fun _ => o)))|] | etransitivity; [exact (REST (Qcabs a) (Some (fun _ => o)))|]
             | etransitivity; [exact (REST 1%Qc (Some f))|] | etransitivity; [exact (REST (Qcabs a) (Some f))|]
             | etransitivity; [exact (REST 1%Qc None)|] | etransitivity; [exact (REST (Qcabs a) None)|] ].
  all: clear REST DIP; split.
  all: try (intros [H1 [H2 H3]]; split; [auto|]; split; [destruct H1 as [H1|H1]; auto; try (left; discriminate); try (right; left; discriminate); try (exfalso; apply H1; reflexivity)|]; split; [auto; try (exists a; auto)|auto]; fail).
  all: intros [H1 [H2 [H3 [H4 H5]]]]; split; [destruct H2 as [H2|[H2|H2]]; auto; try (left; discriminate); try (exfalso; apply H2; reflexivity)|auto].
Qed.

(** C94.  What it then uses: on every level the order that was asked for, the documented scaling
    factor, and for every source the weight and the dipole of the same source of the caller. *)
Theorem C94_stored_arguments : forall (ang Wt D : Type) k indep_dim t_dim t_nlevels t_nsources root_extent usi helmholtz_k
    level_to_order order (dipole_vec : option (nat * nat * (nat -> D))) already cutoff (rot : option (rotation_data ang)) wr,
  make_wrangler k indep_dim t_dim t_nlevels t_nsources root_extent usi helmholtz_k level_to_order order dipole_vec already cutoff rot = inr wr ->
  length (wr_level_orders wr) = t_nlevels /\
  (forall l o, l < t_nlevels -> order = Some o -> nth l (wr_level_orders wr) 0 = o) /\
  (forall l f, l < t_nlevels -> level_to_order = Some f -> nth l (wr_level_orders wr) 0 = f l) /\
  (forall l, (0 < root_extent)%Qc -> (forall a, helmholtz_k = Some a -> (0 <= a)%Qc) ->
     documented_rscale k t_dim (root_extent / Qcpower (Q2Qc 2) l)%Qc (match helmholtz_k with Some a => a | None => 0%Qc end) (level_to_rscale wr l)) /\
  (forall (complex_dipole : Wt -> D -> Wt) weights dipoles i, describes_dipoles usi already dipole_vec dipoles ->
     source_strength wr complex_dipole (fun i => weights (usi i)) i = user_strength k t_dim complex_dipole weights dipoles (usi i)).
Proof.
  intros ang Wt D k id td nl ns re usi hk f o dip al cu rot wr H.
  assert (S : exists e lo dv, wr = mkWrangler k td nl re e lo rot cu dv /\
    e = (match k with LAPLACE => 1%Qc | HELMHOLTZ => match hk with Some a => Qcabs a | None => 0%Qc end end) /\
    (k = HELMHOLTZ -> exists a, hk = Some a /\ a <> 0%Qc) /\
    lo = map (match o with Some o => fun _ => o | None => match f with Some f => f | None => fun _ => 0 end end) (seq 0 nl) /\
    dv = match dip with Some (_, _, d) => Some (if al then d else fun i => d (usi i)) | None => None end /\
    (o = None \/ f = None)).
  { unfold make_wrangler in H. destruct o as [o|], f as [f|]; try discriminate.
    all: destruct k; destruct hk as [a|]; try destruct (Qc_eq_dec a 0) as [->|NZ]; try discriminate.
    all: destruct (negb (id =? td)); try discriminate.
    all: try (destruct (Nat.eqb_spec nl 0) as [->|]; try discriminate).
    all: destruct dip as [[[rows cols] d]|]; try (destruct ((rows =? td) && (cols =? ns)); try discriminate).
    all: injection H as <-.
    all: eexists; eexists; eexists; split; [reflexivity|]; split; [reflexivity|]; split; [try discriminate; intros _; eauto|]; split; [reflexivity|]; split; [reflexivity|]; auto. }
  destruct S as [e [lo [dv [-> [Ee [HK [El [Ed OF]]]]]]]]. cbn [wr_level_orders].
  split; [rewrite El, map_length, seq_length; auto|].
  split; [intros l o' Hl ->; rewrite El; rewrite nth_map_seq by auto; auto|].
  split. { intros l f' Hl ->. rewrite El. rewrite nth_map_seq by auto. destruct o; [destruct OF; discriminate|auto]. }
  split.
  - intros l RE HA. set (wr := mkWrangler k td nl re e lo rot cu dv) in *.
    assert (EP : (0 < e)%Qc).
    { rewrite Ee. destruct k; [reflexivity|]. destruct (HK eq_refl) as [a [-> NZ]]. rewrite Qcabs_pos by auto.
      destruct (Qcle_lt_or_eq _ _ (HA a eq_refl)) as [|E]; auto. exfalso. apply NZ. auto. }
    destruct (capped wr RE EP l) as [m [M1 [M2 [M3 [M4 M5]]]]].
    assert (RS : raw_rscale wr l = match k with LAPLACE => (re / Qcpower (Q2Qc 2) l)%Qc | HELMHOLTZ => (re / Qcpower (Q2Qc 2) l * match hk with Some a => a | None => 0%Qc end)%Qc end).
    { unfold raw_rscale. cbn [wr wr_root_extent wr_rscale_factor]. rewrite Ee. destruct k; [unfold Qcdiv; rewrite Qcmult_1_r; auto|].
      destruct (HK eq_refl) as [a [-> NZ]]. rewrite Qcabs_pos by auto. reflexivity. }
    unfold documented_rscale. cbv zeta. exists m. rewrite RS in M1, M2. split; auto. split; auto. split; auto. split; auto.
    rewrite M5. cbn [wr wr_dim wr_kernel].
    assert (NM : m <> 0%Qc). { intros ->. revert M4. apply Qcle_not_lt, Qcle_refl. }
    destruct td as [|[|[|[|td]]]]; auto. destruct k; auto. field. auto.
  - intros cd weights dipoles i HD. unfold source_strength, user_strength. cbn [wr_dipole_vec wr_kernel wr_dim].
    unfold describes_dipoles in HD. rewrite Ed. destruct dip as [[[rows cols] d]|], dipoles as [u|]; try contradiction; [|reflexivity].
    replace ((if al then d else fun i => d (usi i)) i) with (u (usi i)); [reflexivity|].
    destruct al; rewrite HD; auto.
Qed.

(** ** The driver *)
(** C93.  Nothing fails and no array is read out of bounds, and target j receives, for every
    source, what the library computes along the route from the source's box S to the target's box T,
    where every call gets the center, scaling factor and order of the box whose expansion is read or
    made, the radius of the box whose expansion is made, and the matrices of the angle between the
    two boxes (see [box_routines]). *)
Theorem C93_arguments_belong_to_boxes : forall (pt Wt D ang rmat : Type) (M L V : cmonoid) (lib : library pt (strength Wt D) ang rmat M L V)
    (wr : wrangler ang D) complex_dipole times real_part t P p tr box_centers sources targets angle_between weights j T source_box route_of,
  linear_library lib -> fmm_input t P p tr -> level_start_box_nrs P (nlevels t) = nboxes t ->
  (forall rd, wr_rotation_data wr = Some rd -> rotation_data_fits tr angle_between rd) ->
  j < ntargets p -> T < nboxes t -> In (sorted_target_ids p j) (seq (box_target_starts p T) (box_target_counts_nonchild p T)) ->
  (forall k, k < nsources p -> source_box k < nboxes t /\
     In k (seq (box_source_starts p (source_box k)) (box_source_counts_nonchild p (source_box k))) /\
     listed t tr T (source_box k) (route_of k)) ->
  drive_fmm_lib lib wr complex_dipole times real_part t p (level_start_box_nrs P) box_centers sources targets tr weights j =
  with_factor times real_part (wr_kernel wr) (wr_dim wr)
    (msum (map (fun k => contribution (box_routines lib wr t box_centers sources targets angle_between (fun v => v)) t
                           T (sorted_target_ids p j) (source_box k) k
                           (source_strength wr complex_dipole (fun k => weights (user_source_ids p k)) k) (route_of k))
          (seq 0 (nsources p)))).
Proof.
  intros pt Wt D ang rmat M L V lib wr cd times rp t P p tr bc src tgt ab w j T sb ro LIN H LE ROT Hj HT HTi Hk.
  pose proof (input_bom _ _ _ _ H) as B.
  assert (HTb : In T (target_boxes tr)).
  { eapply input_target_box; eauto. apply (wf_target_flag _ _ (in_particles _ _ _ _ H)); auto.
    destruct (box_target_counts_nonchild p T); [destruct HTi|lia]. }
  destruct H as [W F WP LS WE M1 M2 HP _]. destruct HP as [U1 U2 U3 U4 U5 U6].
  unfold drive_fmm_lib. rewrite (potentials_lib_eq t W P WP LS tr B lib LIN wr cd LE p U3 bc src tgt ab ROT (fun v => v)).
  assert (E : potentials_gen _ _ _ _ (level_routines lib wr bc src tgt ab (fun v => v)) t p (level_start_box_nrs P) tr (fun m => m)
    (source_strength wr cd (fun k => w (user_source_ids p k))) (sorted_target_ids p j) =
    msum (map (fun k => contribution (box_routines lib wr t bc src tgt ab (fun v => v)) t T (sorted_target_ids p j) (sb k) k
      (source_strength wr cd (fun k => w (user_source_ids p k)) k) (ro k)) (seq 0 (nsources p)))).
  { rewrite (fmm_gen_total t W F P WP LS tr B WE M1 M2 _ (level_linear lib LIN wr bc src tgt ab (fun v => v)) p _ sb ro _ T); auto.
    - apply msum_map_ext. intros k K. apply in_seq in K. destruct (Hk k ltac:(lia)) as [_ [_ A3]].
      apply (contribution_level t W P WP tr B); auto.
    - intros b Hb. destruct (owner_exists t _ _ _ (sorted_target_ids p j) U4 (U2 _ Hj)) as [T' [HT' [_ HO]]].
      rewrite (HO b Hb). assert (E : T = T'); [|rewrite E; tauto]. apply (HO T HT). apply covers_in. auto.
    - intros k K. destruct (Hk k K) as [A1 [A2 _]]. auto.
    - intros k K. apply (Hk k K). }
  rewrite E. unfold finalize_potentials, scale_factor, with_factor.
  destruct (wr_kernel wr), (wr_dim wr) as [|[|[|[|d]]]]; reflexivity.
Qed.

(** C93.  The classes and angles computed by the traversal (C33) are rotation data that fit. *)
Theorem C93_rotation_classes_fit : forall (angle : Type) (angle_eqb : angle -> angle -> bool) (angle_of : Z -> Z -> angle) t P tr
    (angle_between : nat -> nat -> angle),
  (forall a b, angle_eqb a b = true <-> a = b) ->
  wf_tree t -> wf_params t P -> build_traversal t P = Some tr -> 1 <= dim t <= 3 ->
  (forall A B w, A < nboxes t -> B < nboxes t -> direction (dim t) (translation t A B) w ->
     angle_between B A = angle_of (w (dim t - 1)) (squared_norm (dim t) w)) ->
  exists classes angles, rotation_classes angle angle_eqb angle_of t (well_sep_is_n_away P) tr = Some (classes, angles) /\
    rotation_data_fits tr angle_between (mkRotData classes angles).
Proof.
  intros angle eqb aof t P tr ab EQB W WP H D3 AB.
  destruct (C33_rotation_classes angle eqb aof t P tr EQB W WP H D3) as [cl [an [E [L [_ [_ [PR _]]]]]]].
  exists cl, an. split; auto. split; auto. intros k A B X. destruct (PR k A B X) as [r [w [R1 [R2 R3]]]].
  exists r. split; auto. rewrite (AB A B w); auto; apply (pair_geometry t W P WP tr H k A B X).
Qed.

(** C93, C94.  If the library is exact then the result is the direct sum over the caller's sources,
    with the caller's weights and dipoles. *)
Theorem C93_exact_library_gives_direct_sum : forall (pt Wt D ang rmat : Type) (M L V : cmonoid) (lib : library pt (strength Wt D) ang rmat M L V)
    angle kern multipole local complex_dipole times real_part t P p tr box_centers sources targets user_sources user_targets
    k root_extent helmholtz_k level_to_order order dipole_vec already cutoff rot wr weights dipoles j,
  linear_library lib -> exact_library lib angle kern multipole local ->
  fmm_input t P p tr -> level_start_box_nrs P (nlevels t) = nboxes t ->
  make_wrangler k (dim t) (dim t) (nlevels t) (nsources p) root_extent (user_source_ids p) helmholtz_k level_to_order order dipole_vec already cutoff rot = inr wr ->
  (0 < root_extent)%Qc -> (forall a, helmholtz_k = Some a -> (0 <= a)%Qc) -> describes_dipoles (user_source_ids p) already dipole_vec dipoles ->
  (forall rd, rot = Some rd -> rotation_data_fits tr (fun A B => angle (box_centers A) (box_centers B)) rd) ->
  (forall i, i < nsources p -> sources i = user_sources (user_source_ids p i)) ->
  j < ntargets p -> targets (sorted_target_ids p j) = user_targets j ->
  drive_fmm_lib lib wr complex_dipole times real_part t p (level_start_box_nrs P) box_centers sources targets tr weights j =
  with_factor times real_part k (dim t)
    (msum (map (fun u => kern (user_targets j) (user_sources u) (user_strength k (dim t) complex_dipole weights dipoles u)) (seq 0 (nsources p)))).
Proof.
  intros pt Wt D ang rmat M L V lib angle kern mu lo cd times rp t P p tr bc sc tg us ut k re hk f o dip al cu rot wr w dp j
    LIN EX H LE MW RE HA DD ROT US Hj UT.
  destruct (C76_owners_and_routes_exist t P p tr j H Hj) as [T [sb [ro [HT [HTi Hk]]]]].
  destruct (C94_stored_arguments ang Wt D k (dim t) (dim t) (nlevels t) (nsources p) re (user_source_ids p) hk f o dip al cu rot wr MW)
    as [_ [_ [_ [RS ST]]]].
  assert (F : wr_kernel wr = k /\ wr_dim wr = dim t /\ wr_rotation_data wr = rot).
  { unfold make_wrangler in MW. destruct o as [o|], f as [f|]; try discriminate.
    all: destruct k; destruct hk as [a|]; try destruct (Qc_eq_dec a 0) as [->|NZ]; try discriminate.
    all: destruct (negb (dim t =? dim t)); try discriminate.
    all: try (destruct (Nat.eqb_spec (nlevels t) 0) as [E|]; try discriminate).
    all: destruct dip as [[[rows cols] d]|]; try (destruct ((rows =? dim t) && (cols =? nsources p)); try discriminate).
    all: injection MW as <-; auto. }
  destruct F as [F1 [F2 F3]].
  set (ab := fun A B => angle (bc A) (bc B)).
  rewrite (C93_arguments_belong_to_boxes pt Wt D ang rmat M L V lib wr cd times rp t P p tr bc _ _ ab w j T sb ro LIN H LE); auto.
  2:{ intros rd E. apply ROT. congruence. }
  rewrite F1, F2. f_equal.
  transitivity (msum (map (fun u => kern (ut j) (us u) (user_strength k (dim t) cd w dp u)) (map (user_source_ids p) (seq 0 (nsources p))))).
  2:{ apply msum_perm, Permutation_map. apply (wf_user_source_ids _ _ (in_particles _ _ _ _ H)). }
  rewrite map_map. apply msum_map_ext. intros i Hi. apply in_seq in Hi. destruct (Hk i ltac:(lia)) as [S1 [S2 S3]].
  pose proof (input_bom _ _ _ _ H) as B. pose proof (in_tree _ _ _ _ H) as W. pose proof (in_params _ _ _ _ H) as WP.
  rewrite (contribution_exact t W P WP tr B lib wr LE bc _ _ ab (fun v => v) angle kern mu lo EX); auto.
  - rewrite UT, US by lia. f_equal. apply (ST cd w dp i DD).
  - intros l. specialize (RS l RE HA). unfold documented_rscale in RS. destruct RS as [m [_ [_ [_ [Hm RS]]]]].
    destruct (dim t) as [|[|[|[|d]]]]; try (rewrite RS; auto). destruct k; [|rewrite RS; auto].
    destruct (Qclt_le_dec 0 (level_to_rscale wr l)) as [|C]; auto. exfalso.
    assert (X : (level_to_rscale wr l * m <= 0 * m)%Qc) by (apply Qcmult_le_compat_r; auto; apply Qclt_le_weak; auto).
    rewrite RS, Qcmult_0_l in X. revert X. apply Qclt_not_le. reflexivity.
Qed.

(** ** Non-vacuity *)
(** The library of ScaledQuad.v meets the hypotheses (see [scaled_linear] and [scaled_exact]).  The
    example tree, with boxes on five levels and rational centers, orders that differ between the
    levels and dipoles in the caller's order: *)
Definition q_of (z : Z) : Qc := Q2Qc (inject_Z z).
Definition ex_wrangler (k : kernel) (d : nat) (rot : option (rotation_data spt)) : ctor_error + wrangler spt spt :=
  make_wrangler k d d (nlevels ex_tree) ex_ns (Q2Qc (3 # 2)) (user_source_ids ex_particles)
    (match k with LAPLACE => None | HELMHOLTZ => Some (Q2Qc (5 # 3)) end)
    (Some (fun l => 5 - l)) None (Some (d, ex_ns, fun u => (q_of (Z.of_nat u), q_of 2))) false (150 * 100) rot.
Definition ex_centers (b : nat) : spt := (q_of (box_center ex_tree b 0), q_of (box_center ex_tree b 1)).
(** rotation data with one class for each translation that occurs in list 2 *)
Definition same_angle (a b : spt) : bool :=
  if Qc_eq_dec (fst a) (fst b) then if Qc_eq_dec (snd a) (snd b) then true else false else false.
Fixpoint position (a : spt) (l : list spt) : option nat :=
  match l with [] => None | b :: l' => if same_angle a b then Some 0 else option_map S (position a l') end.
Definition ex_rotation_data (tr : traversal) : rotation_data spt :=
  let c := from_sep_siblings tr in
  let all := concat (map (fun i => map (fun src => sangle (ex_centers src) (ex_centers (nth i (target_or_target_parent_boxes tr) 0))) (csr_get c i))
                         (seq 0 (length (target_or_target_parent_boxes tr)))) in
  let angles := fold_left (fun l a => match position a l with None => l ++ [a] | Some _ => l end) all [] in
  mkRotData (map (fun a => position a angles) all) angles.
Definition ex_source (u : nat) : spt := (q_of (ex_pos 1 u), q_of (ex_pos 2 u)).
Definition ex_target (u : nat) : spt := (q_of (ex_pos 3 u), q_of (ex_pos 4 u)).
(** Running the model: rotation matrices are used on some levels but not on all (the last test), and
    the results are the direct sums. *)
Example ex_fmm_lib_run :
  match ex_trav 1 (ex_extent true static_l2 2) with
  | Some tr =>
    map (fun kd => match ex_wrangler (fst kd) (snd kd) (Some (ex_rotation_data tr)) with
      | inr wr =>
        (map (fun j => match drive_fmm_lib scaled_lib wr (fun w d => Qcmult w (fst d)) (fun f v => (match f with MinusOneOver2Pi => q_of 2 | One => 1%Qc | OneOver4Pi => q_of 3 end * v)%Qc)
             (fun v => v) ex_tree ex_particles ex_level_starts ex_centers
             (fun i => ex_source (user_source_ids ex_particles i)) (fun i => ex_target i) tr (fun u => q_of (Z.of_nat (u * u + 1))) j with
             | Some v => if Qc_eq_dec v (
                  (match fst kd, snd kd with LAPLACE, 2 => q_of 2 | HELMHOLTZ, 2 => 1%Qc | _, _ => q_of 3 end) *
                  fold_right Qcplus 0%Qc (map (fun u => let w := q_of (Z.of_nat (u * u + 1)) in let d := (q_of (Z.of_nat u), q_of 2) in
                     potential (ex_target (sorted_target_ids ex_particles j)) (ex_source u)
                       (match fst kd, snd kd with LAPLACE, 2 => ComplexDipole (w * fst d)%Qc | _, _ => Dipole w d end)) (seq 0 ex_ns)))%Qc then true else false
             | None => false end) [0; 20],
         map (fun l => uses_rotations (rotmat_order wr) (nth l (wr_level_orders wr) 0)) [2; 3; 4])
      | inl _ => ([], []) end) [(LAPLACE, 2); (HELMHOLTZ, 2); (LAPLACE, 3); (HELMHOLTZ, 3)]
  | None => [] end =
  [([true; true], [false; false; false]); ([true; true], [false; false; false]);
   ([true; true], [false; true; true]); ([true; true], [false; true; true])].
Proof. vm_compute. reflexivity. Qed.

(** The example meets the hypotheses of the theorems. *)
Example ex_fmm_lib_case : forall tr, ex_trav 1 (ex_extent true static_l2 2) = Some tr ->
  exists wr, ex_wrangler HELMHOLTZ 2 (Some (ex_rotation_data tr)) = inr wr /\
    linear_library scaled_lib /\ exact_library scaled_lib sangle potential smultipole slocal /\
    fmm_input ex_tree (ex_params 1 (ex_extent true static_l2 2)) ex_particles tr /\
    level_start_box_nrs (ex_params 1 (ex_extent true static_l2 2)) (nlevels ex_tree) = nboxes ex_tree /\
    (0 < Q2Qc (3 # 2))%Qc /\ (0 <= Q2Qc (5 # 3))%Qc /\
    describes_dipoles (user_source_ids ex_particles) false (Some (2, ex_ns, fun u => (q_of (Z.of_nat u), q_of 2))) (Some (fun u => (q_of (Z.of_nat u), q_of 2))) /\
    rotation_data_fits tr (fun A B => sangle (ex_centers A) (ex_centers B)) (ex_rotation_data tr) /\
    20 < ntargets ex_particles /\ dim ex_tree = 2.
Proof.
  intros tr E. eexists. split; [reflexivity|]. split; [apply scaled_linear|]. split; [apply scaled_exact|].
  split; [apply ex_fmm_input; auto|]. split; [reflexivity|]. split; [reflexivity|]. split; [apply Qclt_le_weak; reflexivity|].
  split; [cbn; auto|]. split; [|split; [apply ex_particles_wf|reflexivity]].
  assert (X : match ex_trav 1 (ex_extent true static_l2 2) with
    | Some tr => let c := from_sep_siblings tr in let rd := ex_rotation_data tr in
       (length (rotation_lists rd) =? length (lists c)) &&
       forallb (fun i => let s := nth i (starts c) 0 in let e := nth (S i) (starts c) 0 in
         forallb (fun k => match nth k (rotation_lists rd) None with
            | Some r => match nth_error (rotation_angles rd) r with
                        | Some a => same_angle a (sangle (ex_centers (nth k (lists c) 0)) (ex_centers (nth i (target_or_target_parent_boxes tr) 0)))
                        | None => false end
            | None => false end) (seq s (e - s))) (seq 0 (length (target_or_target_parent_boxes tr)))
    | None => false end = true) by (vm_compute; reflexivity).
  rewrite E in X. cbv zeta in X. apply andb_prop in X. destruct X as [X1 X2]. split; [apply Nat.eqb_eq; auto|].
  intros k A B [i [Hi [Hk [-> ->]]]]. rewrite forallb_forall in X2. specialize (X2 i ltac:(apply in_seq; lia)).
  rewrite forallb_forall in X2. specialize (X2 k ltac:(apply in_seq; lia)).
  destruct (nth k (rotation_lists (ex_rotation_data tr)) None) as [r|]; [|discriminate]. exists r. split; auto.
  destruct (nth_error (rotation_angles (ex_rotation_data tr)) r) as [a|]; [|discriminate]. f_equal.
  unfold same_angle in X2. destruct a as [a1 a2]. unfold sangle in *. cbn [fst snd] in X2.
  destruct (Qc_eq_dec a1 _) as [->|]; [|discriminate]. destruct (Qc_eq_dec a2 _) as [->|]; [|discriminate]. reflexivity.
Qed.

Print Assumptions C94_accepted_arguments.
Print Assumptions C94_stored_arguments.
Print Assumptions C93_arguments_belong_to_boxes.
Print Assumptions C93_rotation_classes_fit.
Print Assumptions C93_exact_library_gives_direct_sum.
