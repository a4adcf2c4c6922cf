(** * C109: from particles on the device to the potentials of pyfmmlib *)
From Coq Require Import List Arith ZArith NArith Lia Bool QArith Qcanon.
From Verif Require Import Base Tree Spec Fmm SpecFmm Traversal SpecTraversal Classes SpecClasses LevelStarts TreeBuild Kernel Device DeviceRuns ListBuilder TravDevice BuildDevice BuildDeviceEnd
  SpecBuild SpecDevice SpecDeviceEnd SpecDeviceTrav SpecDeviceChain BuildThm BuildFull ExampleBuild PropsTraversal PropsBuild PropsDevice PropsDeviceEnd PropsDeviceTrav PropsDeviceChain.
From Verif Require Import FmmGen SpecFmmGen Layout FmmLib SpecFmmLib FmmGrad SpecFmmGrad PropsFmmGenBuild PropsFmmLib PropsFmmLibBuild PropsFmmGrad
  ClassDevice SpecClassDevice DevClass PropsDeviceClass SpecDeviceWhole ScaledQuad.
Import ListNotations.
Local Open Scope nat_scope.

Lemma class_numbers_ok t P v tr : device_has_traversal P tr v ->
  class_numbers t (well_sep_is_n_away P) v = class_arguments t (well_sep_is_n_away P) tr ((nboxes t + 31) / 32 * 32).
Proof.
  intros H. unfold class_numbers, class_arguments. destruct (o_target_or_parent_boxes P tr v H) as [-> _].
  destruct (o_sep_siblings P tr v H) as [_ [-> _]]. rewrite !Nat2Z.id. reflexivity.
Qed.
Lemma passed_list2 inp B P e v tr d : device_has_tree inp B e -> device_has_traversal P tr v -> dim (b_tree B) = idim inp -> passed_to_classes e v d ->
  device_has_list2 (b_tree B) tr ((nboxes (b_tree B) + 31) / 32 * 32) d.
Proof.
  intros T TR DM [[L1 L2] [S1 S2] [T1 T2] [V1 V2] [C1 C2]]. destruct (o_sep_siblings P tr v TR) as [[SS SC] [LS LC]].
  destruct (o_target_or_parent_boxes P tr v TR) as [TS TC]. destruct (t_levels inp B e T) as [HL1 HL2]. destruct (t_centers inp B e T) as [HC1 HC2]. constructor.
  - split; [rewrite L1; auto|]. intros k Hk. rewrite L2. auto.
  - split; [rewrite S1; auto|]. intros k Hk. rewrite S2. auto.
  - split; [rewrite T1; auto|]. intros k Hk. rewrite T2. auto.
  - split; [rewrite V1; auto|]. intros b Hb. rewrite V2. auto.
  - assert (X := Nat.div_mod (nboxes (b_tree B) + 31) 32 ltac:(lia)). assert (Y := Nat.mod_upper_bound (nboxes (b_tree B) + 31) 32 ltac:(lia)). lia.
  - rewrite DM. split; [rewrite C1; auto|]. intros a b Ha Hb. rewrite C2. auto.
Qed.

(** ** Whatever the order of the accesses in the kernels that build the tree, build the traversal
    and find the rotation classes: nothing is accessed out of bounds, no error is raised, and if
    the library is exact then the FMM driven with the result gives the caller's target j the sum
    over the caller's sources.  [point] makes a point of the library from its coordinates;
    [angle_of] gets last component and squared length of a direction. *)
Theorem C109_particles_to_potentials_on_device :
  forall (pt Wt D ang rmat : Type) (M L V : cmonoid) (lib : library pt (strength Wt D) ang rmat M L V) raw neg dpotall dmpeval dtaeval
    angle kern multipole local complex_dipole times real_part (point : list Z -> pt) (angle_eqb : ang -> ang -> bool) (angle_of : Z -> Z -> ang)
    inp d0 n ls e P v,
  valid_input inp -> 2 <= nlevels_max inp -> valid_geometry inp -> not_restricted_with_extents inp -> levels_stay_populated inp ->
  idim inp = 2 \/ idim inp = 3 -> 0 < num_targets inp ->
  (* the library *)
  (forall v, neg (neg v) = v) -> no_errors raw -> returns_potential_and_gradient (idim inp) neg raw lib dpotall dmpeval dtaeval ->
  linear_library lib -> exact_library lib angle kern multipole local ->
  (forall a b, angle_eqb a b = true <-> a = b) ->
  (forall x y w, direction (idim inp) (fun i => (y i - x i)%Z) w ->
     angle (point (coordinates (idim inp) x)) (point (coordinates (idim inp) y)) = angle_of (w (idim inp - 1)) (squared_norm (idim inp) w)) ->
  (* the tree is built, then the traversal, then the rotation classes *)
  device_has_input inp d0 -> built_on inp d0 (inl (n, ls, e)) -> passed_on inp ls e v ->
  (forall B, build_tree inp = inl B -> nlevels (b_tree B) <= 30 /\ parameters_of inp B P) ->
  (targets_have_extent (Traversal.extents P) = true -> wf_extent (Traversal.extents P)) ->
  exists B, build_tree inp = inl B /\ device_has_tree inp B e /\
  let t := b_tree B in let p := b_particles B in
  safe varr varr_eq (traversal_program (scalar_arguments t P false false)) v /\
  forall r v', completes varr varr_eq (traversal_program (scalar_arguments t P false false)) v r v' ->
   exists tr, device_has_traversal P tr v' /\ r = starts_of tr /\
   let rotations := rotation_program ang angle_eqb angle_of (class_numbers t (well_sep_is_n_away P) v') in
   forall c, passed_to_classes e v' c -> safe carr carr_eq rotations c /\
   forall ra c', completes carr carr_eq rotations c ra c' ->
    exists angles, ra = Some angles /\
    forall k root_extent helmholtz_k level_to_order order dipole_vec already cutoff rd wr weights dipoles,
      read_classes c' angles rd ->
      make_wrangler k (idim inp) (idim inp) (nlevels t) (nsrc inp) root_extent (user_source_ids p) helmholtz_k level_to_order order dipole_vec already cutoff (Some rd) = inr wr ->
      (0 < root_extent)%Qc -> (forall a, helmholtz_k = Some a -> (0 <= a)%Qc) -> describes_dipoles (user_source_ids p) already dipole_vec dipoles ->
      exists a,
        drive_fmm_pg lib raw neg false wr complex_dipole times real_part t p (level_start_box_nrs P) (fun b => point (coordinates (idim inp) (box_center t b)))
          (fun i => point (coordinates (idim inp) (b_sources B i))) (fun i => point (coordinates (idim inp) (b_targets B i)))
          (output_zeros (idim inp) false) tr weights = inr (Flat a) /\
        forall j, j < num_targets inp -> Some (a j) = with_factor times real_part k (idim inp)
          (msum (map (fun u => kern (point (coordinates (idim inp) (coord inp (first_target inp + j)))) (point (coordinates (idim inp) (coord inp u)))
                                    (user_strength k (idim inp) complex_dipole weights dipoles u))
                     (seq 0 (nsrc inp)))).
Proof.
  intros pt Wt D ang rmat M L V lib raw neg dpo dmp dta angle kern mu lo cd times rp point aeqb aof inp d0 n ls e P v
    VI NL G NR LP DIM NT NN NE RT LIN EX EQB ANG D0 BO PO PP WE.
  assert (SR := C87_device_computes_the_tree inp d0 _ VI NL LP D0 BO). unfold same_result in SR.
  destruct (build_tree inp) as [B|er] eqn:EB; [|destruct SR]. destruct SR as [-> [-> T]]. destruct (PP B eq_refl) as [DP PA].
  destruct (built_for_traversal inp B P VI G NR LP EB DP PA) as [W [F [WP [LS [LN DM]]]]].
  assert (A := passed_arguments inp B P e v T PO PA LN DM).
  exists B. split; auto. split; auto. cbv zeta. split; [apply C88_traversal_in_bounds; auto|]. intros r v' C1.
  destruct (C89_device_computes_the_traversal _ _ _ _ _ _ _ W WP LS A C1) as [tr [E [ER TR]]]. exists tr. split; auto. split; auto. intros c PC.
  assert (H2 := passed_list2 inp B P e v' tr c T TR DM PC). rewrite (class_numbers_ok (b_tree B) P v' tr TR).
  assert (FIT := C103_built_lists_fit _ _ _ W WP E).
  split; [apply C103_rotation_in_bounds; auto|]. intros ra c' C2.
  assert (D3 : 1 <= dim (b_tree B) <= 3) by (rewrite DM; lia).
  destruct (C103_rotation_classes_on_device ang aeqb aof _ P tr _ c ra c' EQB W WP E D3 H2 C2) as [angles [-> [_ [SZ [PR _]]]]].
  exists angles. split; auto. intros k re hk f o dip al cu rd wr w dp [RS RL RA] MW RE HK DD.
  destruct PA as [WS ST M1 M2 LV QC QR QN].
  pose proof (C76_built_trees_qualify inp B P tr VI G NR LP EB DP WS ST M1 M2 WE LV (or_introl E)) as I.
  destruct (C17_particles_are_permuted inp B VI EB) as [N1 [N2 [U [S1 [_ [_ [T1 _]]]]]]].
  assert (LE : level_start_box_nrs P (nlevels (b_tree B)) = nboxes (b_tree B)).
  { destruct (built_levels inp B VI LP EB) as [st [pth [_ [F' [EB' FULL]]]]]. rewrite LV. rewrite EB'. apply (finish_levels inp VI st pth F' FULL). }
  rewrite <- DM in *. rewrite <- N1 in MW |- *. rewrite <- N2 in NT.
  destruct (C108_direct_sum pt Wt D ang rmat M L V lib raw neg dpo dmp dta angle kern mu lo cd times rp (b_tree B) P (b_particles B) tr
    (fun b => point (coordinates (dim (b_tree B)) (box_center (b_tree B) b)))
    (fun i => point (coordinates (dim (b_tree B)) (b_sources B i))) (fun i => point (coordinates (dim (b_tree B)) (b_targets B i)))
    (fun u => point (coordinates (dim (b_tree B)) (coord inp u))) (fun j => point (coordinates (dim (b_tree B)) (coord inp (first_target inp + j))))
    k re hk f o dip al cu (Some rd) wr w dp DIM NN NE RT LIN EX I LE NT MW RE HK DD) as [a [RUN SUM]].
  - intros rd' X. injection X as <-. split; [lia|]. intros i X Y LP2. destruct (PR i X Y LP2) as [cl [wv [CE [DI AN]]]].
    exists cl. split.
    + apply RL; auto. assert (HI := ClassThm.pair_lt (b_tree B) W P WP tr E i X Y LP2). lia.
    + rewrite RA, AN. f_equal. symmetry. apply (ANG (box_center (b_tree B) Y) (box_center (b_tree B) X) wv DI).
  - intros i Hi. f_equal. apply map_ext. intros q. apply S1, Hi.
  - intros j Hj. f_equal. apply map_ext. intros q. apply T1, Hj.
  - exists a. split; auto. intros j Hj. apply SUM. lia.
Qed.

(** ** A case meeting the hypotheses: sources and targets with extents, the kernel of ScaledQuad.v,
    and rotation matrices that know the cosine (squared, with its sign) they were made for *)
Definition cosine (x y : spt) : Qc :=
  let dx := (fst y - fst x)%Qc in let dy := (snd y - snd x)%Qc in (dy * Qcabs.Qcabs dy / (dx * dx + dy * dy))%Qc.
Definition cosine_of (last norm : Z) : Qc := (q_of last * q_of (Z.abs last) / q_of norm)%Qc.
Definition same_cosine (a b : Qc) : bool := if Qc_eq_dec a b then true else false.
Definition turned (o : option (rotation (nat * Qc))) (f f' : frame spt) : bool :=
  match o with
  | None => true
  | Some ro =>
    (fst (rot_f ro) =? rot_ldm ro) && (fst (rot_b ro) =? rot_ldm ro) &&
    same_cosine (snd (rot_f ro)) (cosine (fr_center f) (fr_center f')) && same_cosine (snd (rot_b ro)) (- cosine (fr_center f) (fr_center f'))%Qc &&
    (rot_nterms ro =? fr_order f') && (rot_nterms1 ro =? fr_order f) && (fr_order f <=? rot_ldm ro)
  end.
Definition turned_lib : library spt (strength Qc spt) Qc (nat * Qc) SQm SQm SVm := {|
  formmp := formmp scaled_lib; mpmp := mpmp scaled_lib;
  mploc := fun o r f m f' => if turned o f f' then mploc scaled_lib None r f m f' else e0;
  mpeval := mpeval scaled_lib; formta := formta scaled_lib; locloc := locloc scaled_lib; taeval := taeval scaled_lib; potall := potall scaled_lib;
  rotmat_builder := fun ldm a => (ldm, a); negated := Qcopp |}.
Lemma turned_linear : linear_library turned_lib.
Proof.
  destruct scaled_linear as [A1 A2 A3 A4 A5 A6 A7 A8 A9 A10 A11 A12 A13]. split; auto.
  - intros o r f f'. cbn [mploc turned_lib]. destruct (turned o f f'); auto.
  - intros o r f f' a b. cbn [mploc turned_lib]. destruct (turned o f f'); auto.
Qed.
Lemma same_cosine_ok a b : same_cosine a b = true <-> a = b.
Proof. unfold same_cosine. destruct (Qc_eq_dec a b); split; auto; discriminate. Qed.
Lemma turned_exact : exact_library turned_lib cosine potential smultipole slocal.
Proof.
  destruct scaled_exact as [A1 A2 A3 A4 A5 A6 A7 A8]. split; auto.
  intros o r f m s f' H H' E FT. cbn [mploc turned_lib].
  assert (FO : turned o f f' = true).
  { destruct o as [ro|]; auto. destruct (FT ro eq_refl) as [F1 [F2 [F3 [F4 F5]]]]. unfold turned. rewrite F1, F2. cbn [fst snd rotmat_builder turned_lib negated].
    rewrite F3, F4, !Nat.eqb_refl. cbn [andb]. rewrite (proj2 (same_cosine_ok _ _) eq_refl), (proj2 (same_cosine_ok (- _)%Qc _) eq_refl). cbn [andb].
    apply Nat.leb_le. auto. }
  rewrite FO. apply A3 with (f := f); auto. intros ro X. discriminate.
Qed.
Definition plane_point (x : list Z) : spt := (q_of (nth 0 x 0%Z), q_of (nth 1 x 0%Z)).
Lemma q_of_add a b : q_of (a + b) = (q_of a + q_of b)%Qc.
Proof. apply Qc_is_canon. unfold q_of. cbn [this Q2Qc Qcplus]. rewrite !Qred_correct. rewrite inject_Z_plus. reflexivity. Qed.
Lemma q_of_mul a b : q_of (a * b) = (q_of a * q_of b)%Qc.
Proof. apply Qc_is_canon. unfold q_of. cbn [this Q2Qc Qcmult]. rewrite !Qred_correct. rewrite inject_Z_mult. reflexivity. Qed.
Lemma q_of_opp a : q_of (- a) = (- q_of a)%Qc.
Proof. apply Qc_is_canon. unfold q_of. cbn [this Q2Qc Qcopp]. rewrite !Qred_correct. rewrite inject_Z_opp. reflexivity. Qed.
Lemma q_of_abs a : Qcabs.Qcabs (q_of a) = q_of (Z.abs a).
Proof. apply Qc_is_canon. unfold q_of. cbn [this Q2Qc Qcabs.Qcabs]. rewrite !Qred_correct. reflexivity. Qed.
Lemma q_of_nonzero a : a <> 0%Z -> q_of a <> 0%Qc.
Proof.
  intros H E. assert (X : (this (q_of a) == 0)%Q) by (rewrite E; reflexivity). unfold q_of in X. cbn [this Q2Qc] in X. rewrite Qred_correct in X.
  unfold Qeq, inject_Z in X. cbn in X. lia.
Qed.
Lemma cosine_of_direction x y w : direction 2 (fun i => (y i - x i)%Z) w ->
  cosine (plane_point (coordinates 2 x)) (plane_point (coordinates 2 y)) = cosine_of (w 1%nat) (squared_norm 2 w).
Proof.
  intros [[g [G H]] MIN]. assert (H0 := H 0 ltac:(lia)). assert (H1 := H 1 ltac:(lia)). cbv beta in H0, H1.
  unfold cosine, cosine_of, plane_point, coordinates, squared_norm. cbn [seq map nth fst snd].
  assert (SN : zsum [w 0%nat * w 0%nat; w 1%nat * w 1%nat]%Z = (w 0%nat * w 0%nat + w 1%nat * w 1%nat)%Z) by (cbn; lia). rewrite SN.
  assert (NZ : (w 0%nat * w 0%nat + w 1%nat * w 1%nat <> 0)%Z).
  { intros X. assert (W0 : w 0%nat = 0%Z) by nia. assert (W1 : w 1%nat = 0%Z) by nia. assert (Y := MIN 2%Z ltac:(lia)). 
    assert (2 = 1)%Z; [|lia]. apply Y. intros [|[|i]] Hi; [rewrite W0|rewrite W1|lia]; apply Z.divide_0_r. }
  assert (X0 : (q_of (y 0%nat) - q_of (x 0%nat))%Qc = (q_of g * q_of (w 0%nat))%Qc) by (rewrite <- q_of_mul, <- H0; unfold Z.sub, Qcminus; rewrite q_of_add, q_of_opp; reflexivity).
  assert (X1 : (q_of (y 1%nat) - q_of (x 1%nat))%Qc = (q_of g * q_of (w 1%nat))%Qc) by (rewrite <- q_of_mul, <- H1; unfold Z.sub, Qcminus; rewrite q_of_add, q_of_opp; reflexivity).
  rewrite X0, X1. rewrite <- (q_of_mul g (w 1%nat)), q_of_abs, Z.abs_mul, (Z.abs_eq g) by lia. rewrite !q_of_add, !q_of_mul.
  assert (GN := q_of_nonzero g ltac:(lia)). assert (WN := q_of_nonzero _ NZ). rewrite q_of_add, !q_of_mul in WN.
  field. split; auto. intros E. apply WN.
  replace (q_of g * q_of (w 0%nat) * (q_of g * q_of (w 0%nat)) + q_of g * q_of (w 1%nat) * (q_of g * q_of (w 1%nat)))%Qc
    with ((q_of g * q_of g) * (q_of (w 0%nat) * q_of (w 0%nat) + q_of (w 1%nat) * q_of (w 1%nat)))%Qc in E by ring.
  apply Qcmult_integral in E. destruct E as [E|E]; auto. apply Qcmult_integral in E. tauto.
Qed.
Definition turned_raw : raw_library spt (strength Qc spt) SQm SQm SVm := ex_raw.
(** every step of the chain ends, and a wrangler with dipoles can be made from the classes found *)
Example C109_case : exists n ls e B P v r v' c angles c' rd wr,
  let inp := extent_input in let t := b_tree B in
  (valid_input inp /\ 2 <= nlevels_max inp /\ valid_geometry inp /\ not_restricted_with_extents inp /\ levels_stay_populated inp /\ idim inp = 2 /\ 0 < num_targets inp) /\
  ((forall v, ex_neg (ex_neg v) = v) /\ no_errors turned_raw /\ returns_potential_and_gradient (idim inp) ex_neg turned_raw turned_lib ex_dpot ex_dmp ex_dta /\
   linear_library turned_lib /\ exact_library turned_lib cosine potential smultipole slocal /\ (forall a b, same_cosine a b = true <-> a = b) /\
   (forall x y w, direction (idim inp) (fun i => (y i - x i)%Z) w ->
      cosine (plane_point (coordinates (idim inp) x)) (plane_point (coordinates (idim inp) y)) = cosine_of (w (idim inp - 1)) (squared_norm (idim inp) w))) /\
  (device_has_input inp (some_device inp) /\ built_on inp (some_device inp) (inl (n, ls, e)) /\ passed_on inp ls e v /\
   build_tree inp = inl B /\ nlevels t <= 30 /\ parameters_of inp B P /\ targets_have_extent (Traversal.extents P) = true /\ wf_extent (Traversal.extents P)) /\
  completes varr varr_eq (traversal_program (scalar_arguments t P false false)) v r v' /\ passed_to_classes e v' c /\
  completes carr carr_eq (rotation_program Qc same_cosine cosine_of (class_numbers t (well_sep_is_n_away P) v')) c (Some angles) c' /\ read_classes c' angles rd /\
  make_wrangler HELMHOLTZ (idim inp) (idim inp) (nlevels t) (nsrc inp) (Q2Qc 8) (user_source_ids (b_particles B))
    (Some (Q2Qc (1 # 3))) None (Some 2) (Some (idim inp, nsrc inp, fun u => (q_of (Z.of_nat u), q_of 2))) false 10 (Some rd) = inr wr /\
  describes_dipoles (user_source_ids (b_particles B)) false (Some (idim inp, nsrc inp, fun u => (q_of (Z.of_nat u), q_of 2))) (Some (fun u => (q_of (Z.of_nat u), q_of 2))).
Proof.
  destruct C90_case as [n [ls [e [B [P [v [VI [NL [G [NR [LP [D0 [BO [PO [EB [[DP PA] [WE [TE _]]]]]]]]]]]]]]]]]].
  assert (LIB : (forall v, ex_neg (ex_neg v) = v) /\ no_errors turned_raw /\ returns_potential_and_gradient (idim extent_input) ex_neg turned_raw turned_lib ex_dpot ex_dmp ex_dta).
  { destruct ex_grad_hypotheses as [A1 [A2 [A3 _]]]. split; auto. split; auto. destruct (A3 (idim extent_input)) as [X1 X2 X3 X4 X5 X6]. split; auto. }
  destruct LIB as [NN [NE RT]].
  assert (PP : forall B', build_tree extent_input = inl B' -> nlevels (b_tree B') <= 30 /\ parameters_of extent_input B' P) by (intros B' X; rewrite EB in X; injection X as <-; auto).
  assert (NT : 0 < num_targets extent_input) by (apply Nat.ltb_lt; reflexivity).
  destruct (C109_particles_to_potentials_on_device spt Qc spt Qc (nat * Qc) SQm SQm SVm turned_lib turned_raw ex_neg ex_dpot ex_dmp ex_dta cosine potential smultipole slocal
    (fun w d => Qcmult w (fst d)) ex_times (fun v => v) plane_point same_cosine cosine_of extent_input (some_device extent_input) n ls e P v
    VI NL G NR LP (or_introl eq_refl) NT NN NE RT turned_linear turned_exact same_cosine_ok cosine_of_direction D0 BO PO PP (fun _ => WE)) as [B' [EB' [_ [S1 Y]]]].
  rewrite EB in EB'. injection EB' as <-. destruct (safe_completes _ _ _ _ S1) as [r [v' C1]]. destruct (Y r v' C1) as [tr [TR [_ Z]]].
  set (c := mkDevice (fun a k => match a with
    | SibLists => cells v' (Lists SepSiblings) k | SibStarts => cells v' (ListBuilder.Starts SepSiblings) k | SibTargets => cells v' (Lists TargetOrParentBoxes) k
    | ClassDevice.BoxLevels => cells e (Kept Levels) k | ClassDevice.BoxCenters => cells e CenterTable k | _ => 0%Z end)
   (fun a => match a with
    | SibLists => size v' (Lists SepSiblings) | SibStarts => size v' (ListBuilder.Starts SepSiblings) | SibTargets => size v' (Lists TargetOrParentBoxes)
    | ClassDevice.BoxLevels => size e (Kept Levels) | ClassDevice.BoxCenters => size e CenterTable | _ => 0%Z end)).
  assert (PC : passed_to_classes e v' c) by (constructor; split; reflexivity).
  destruct (Z c PC) as [S2 Z2]. destruct (safe_completes _ _ _ _ S2) as [ra [c' C2]]. destruct (Z2 ra c' C2) as [angles [-> _]].
  set (rd := mkRotData (map (fun k => Some (Z.to_nat (cells c' DenseClasses (Z.of_nat k)))) (seq 0 (Z.to_nat (size c' DenseClasses)))) angles).
  assert (RC : read_classes c' angles rd).
  { constructor; cbn [rd rotation_lists rotation_angles]; auto.
    - rewrite map_length, seq_length. auto.
    - intros k cl Hk E. rewrite map_length in Hk. rewrite (nth_indep _ None (Some (Z.to_nat (cells c' DenseClasses (Z.of_nat 0))))) by (rewrite map_length; auto).
      rewrite (map_nth (fun k => Some (Z.to_nat (cells c' DenseClasses (Z.of_nat k))))), seq_nth by (rewrite seq_length in Hk; auto). cbn [Nat.add]. rewrite E, Nat2Z.id. auto. }
  destruct (proj2 (C94_accepted_arguments Qc (Qc * Qc) HELMHOLTZ (idim extent_input) (idim extent_input) (nlevels (b_tree B)) (nsrc extent_input) (Q2Qc 8)
    (user_source_ids (b_particles B)) (Some (Q2Qc (1 # 3))) None (Some 2)
    (Some (idim extent_input, nsrc extent_input, fun u => (q_of (Z.of_nat u), q_of 2))) false 10 (Some rd))) as [wr E].
  { split; [auto|]. split; [left; discriminate|]. split; [eexists; split; [reflexivity|]; discriminate|].
    split; auto. intros r0 c0 d X. injection X as <- <- _. auto. }
  exists n, ls, e, B, P, v, r, v', c, angles, c', rd, wr. cbv zeta. split; [auto 10|]. split.
  { split; auto. split; auto. split; auto. split; [apply turned_linear|]. split; [apply turned_exact|]. split; [apply same_cosine_ok|apply cosine_of_direction]. }
  split; [auto 10|]. split; auto. split; auto. split; auto. split; auto. split; auto. intros i. reflexivity.
Qed.

Print Assumptions C109_particles_to_potentials_on_device.
