(** C99: from floating-point particles to potentials, everything rounded: the tree of C96 with the
    traversal of C95.  Every target gets the contribution of every source exactly once, and expansions
    are only used at a safe distance from their centers. *)
From Coq Require Import List Arith ZArith Bool Reals Lra Lia.
From Flocq Require Import Core Mult_error.
From Verif Require Import Base Tree Spec Fmm Traversal Coverage SpecTraversal TreeBuild Floats TravFloat FloatBuild SpecFloatBuild SpecBuild SpecRounding
  TravFloatFacts TravFloatThm FloatBuildFacts FloatBuildThm FloatEnd ExampleBuild BuildThm BuildThm2 PropsBuild PropsTraversal PropsRounding PropsFloatBuild.
Import ListNotations.

(** what the traversal builder gets from a tree of points *)
Record point_params (inp : input) (B : built) (P : trav_params) : Prop := {
  pp_sep : 1 <= well_sep_is_n_away P;
  pp_same : sources_are_targets P = same inp;
  pp_masks : forall b, source_boxes_mask P b = true /\ source_parent_boxes_mask P b = true;
  pp_points : targets_have_extent (Traversal.extents P) = false;
  pp_levels : forall l, level_start_box_nrs P l = nth l (b_level_starts B) 0
}.

Section End.
Variables (prec : Z) (huge : R) (axes : list (list R)) (inp : input) (B : built) (P : trav_params).
Hypothesis Hp : (24 <= prec)%Z.
Hypothesis RS : resolvable prec huge axes (npart inp).
Hypothesis V : valid_input inp.
Hypothesis VG : valid_geometry inp.
Hypothesis RUN : runs_on (rounded prec huge) (real_of_int prec) Zfloor axes inp.
Hypothesis BT : build_tree inp = inl B.
Hypothesis TL : nlevels (b_tree B) <= 30.
Hypothesis PP : point_params inp B P.
Let t := b_tree B.
Let G : float_geometry R := root_geometry (rounded prec huge) (real_of_int prec) axes.
Hypothesis PE : precise_enough prec t (well_sep_is_n_away P) G.

Lemma end_geometry : geometry_ok prec G.
Proof.
  destruct (G_fmt prec Hp huge axes (npart inp) RS) as [Fm Pp]. split; [exact Fm|]. split; [exact Pp|].
  change (f_stick_out G) with (real_of_int prec 0). unfold real_of_int. rewrite round_0; [lra|apply _].
Qed.
Lemma end_wf : wf_tree t /\ wf_flags t /\ wf_params t P.
Proof.
  assert (NE : ext inp = None) by exact (proj1 (proj2 RUN)).
  assert (NR : not_restricted_with_extents inp) by (intros _; exact NE).
  assert (LP : levels_stay_populated inp) by (right; right; exact NE).
  revert TL. subst t. destruct (built_levels inp B V LP BT) as [st [pth [_ [F [-> FULL]]]]]. intros D.
  assert (Q := pe inp NR).
  split; [apply (finish_wf_tree inp V st pth F VG D)|]. split; [apply (finish_wf_flags inp V st pth F Q)|].
  split; [apply (pp_sep _ _ _ PP)|]. intros S b Hb. rewrite (proj1 (pp_masks _ _ _ PP b)), andb_true_r.
  apply (finish_same_flags inp V st pth F Q); auto. rewrite <- (pp_same _ _ _ PP). exact S.
Qed.
Lemma end_traversal : build_traversal_in (rounded_trav prec) G t P = build_traversal t P.
Proof. destruct end_wf as [W [F WP]]. apply C95_traversal_with_rounding_is_exact; auto; [apply end_geometry|apply (pp_points _ _ _ PP)]. Qed.
Lemma end_precise : precise_enough prec t 1 G.
Proof. apply (precise_1 prec t (well_sep_is_n_away P)); auto; [apply (pp_sep _ _ _ PP)|apply end_geometry]. Qed.
End End.

Theorem C99_particles_to_potentials : forall prec huge axes inp B P, (24 <= prec)%Z ->
  resolvable prec huge axes (npart inp) -> valid_input inp -> valid_geometry inp ->
  runs_on (rounded prec huge) (real_of_int prec) Zfloor axes inp ->
  build_tree inp = inl B -> nlevels (b_tree B) <= 30 -> point_params inp B P ->
  let G : float_geometry R := root_geometry (rounded prec huge) (real_of_int prec) axes in
  precise_enough prec (b_tree B) (well_sep_is_n_away P) G ->
  exists tr, build_traversal_in (rounded_trav prec) G (b_tree B) P = Some tr /\
    forall weights j, j < num_targets inp ->
      drive_fmm (b_tree B) (b_particles B) tr weights j = zsum (map weights (seq 0 (nsrc inp))).
Proof.
  intros prec huge axes inp B P Hp RS V VG RUN BT TL PP G PE.
  assert (ET := end_traversal prec huge axes inp B P Hp RS V VG RUN BT TL PP PE). fold G in ET.
  destruct (C50_traversal_succeeds inp B P V VG BT TL (pp_sep _ _ _ PP)) as [tr Htr]. exists tr.
  split; [rewrite ET; exact Htr|]. intros weights j Hj.
  assert (NE : ext inp = None) by exact (proj1 (proj2 RUN)).
  apply (C50_build_traverse_evaluate inp B P tr weights j); auto.
  - intros _; exact NE.
  - right; right; exact NE.
  - apply (pp_sep _ _ _ PP).
  - apply (pp_same _ _ _ PP).
  - intros b. apply (pp_masks _ _ _ PP b).
  - intros b. apply (pp_masks _ _ _ PP b).
  - intros X. rewrite (pp_points _ _ _ PP) in X. discriminate X.
  - apply (pp_levels _ _ _ PP).
Qed.

(** Particles of a box are at most 5/4 of its radius away from its computed center (C96), those it
    interacts with through an expansion around that center at least 9/4. *)
Theorem C99_safe_distance : forall prec huge axes inp B P tr, (24 <= prec)%Z ->
  resolvable prec huge axes (npart inp) -> valid_input inp -> valid_geometry inp ->
  runs_on (rounded prec huge) (real_of_int prec) Zfloor axes inp ->
  build_tree inp = inl B -> nlevels (b_tree B) <= 30 -> point_params inp B P ->
  let t := b_tree B in
  let G : float_geometry R := root_geometry (rounded prec huge) (real_of_int prec) axes in
  let x u a : R := coordinate (rounded prec huge) (real_of_int prec) axes u a in
  let center b a : R := f_center (rounded_trav prec) t G b a in
  let radius b : R := f_rad (rounded_trav prec) G (box_level t b) in
  let apart u b factor := exists a, a < dim t /\ (factor * radius b <= Rabs (x u a - center b a))%R in
  precise_enough prec t (well_sep_is_n_away P) G ->
  build_traversal_in (rounded_trav prec) G t P = Some tr ->
  (* list 3: the multipole expansion of S is evaluated at the targets of T *)
  (forall T S j, In T (target_boxes tr) -> In S (list3_of tr T) -> j < num_targets inp ->
     all_targets B T (sorted_target_ids (b_particles B) j) -> apart (first_target inp + j) S (9 / 4)%R) /\
  (* list 4: the sources of S are taken into the local expansion of A *)
  (forall A S k, In A (target_or_target_parent_boxes tr) -> In S (list4_of tr A) -> k < nsrc inp ->
     all_sources B S k -> apart (user_source_ids (b_particles B) k) A (9 / 4)%R) /\
  (* list 2: the multipole expansion of S is translated to the local expansion of A *)
  (forall A S, In A (target_or_target_parent_boxes tr) -> In S (list2_of tr A) ->
     let factor := (2 * INR (well_sep_is_n_away P) + / 4)%R in
     (forall k, k < nsrc inp -> all_sources B S k -> apart (user_source_ids (b_particles B) k) A factor) /\
     (forall j, j < num_targets inp -> all_targets B A (sorted_target_ids (b_particles B) j) -> apart (first_target inp + j) S factor)).
Proof.
  intros prec huge axes inp B P tr Hp RS V VG RUN BT TL PP t G x center radius apart PE Htr.
  assert (ET := end_traversal prec huge axes inp B P Hp RS V VG RUN BT TL PP PE).
  apply (eq_trans (eq_sym ET)) in Htr. clear ET.
  destruct (end_wf prec huge axes inp B P V VG RUN BT TL PP PE) as [W [F WP]].
  destruct (end_precise prec huge axes inp B P Hp RS PP PE) as [K [HK2 [HK COND]]].
  destruct (built_shape inp B V BT TL) as [TD TE]. assert (LC := built_corner inp B V VG BT TL).
  assert (FAR := far_center prec Hp huge axes inp RS VG RUN t W LC TD TE TL K HK HK2 COND).
  assert (N9 : (9 / 4 = IZR 3 - 3 / 4)%R) by lra.
  assert (NF : forall n, (2 * INR n + / 4 = IZR (2 * Z.of_nat n + 1) - 3 / 4)%R).
  { intros n. rewrite plus_IZR, mult_IZR, <- INR_IZR_INZ. lra. }
  split; [|split].
  - intros T S j HT HS Hj O. destruct (list3_gap t W F P WP tr Htr T S HT HS) as [H1 [H2 [a [Ha GP]]]].
    destruct (target_place prec huge axes inp B V VG RUN BT TL T j H1 Hj O) as [U IC].
    exists a. split; [exact Ha|]. rewrite N9. exact (FAR T S _ a 3%Z H1 H2 U Ha IC GP).
  - intros A S k HA HS Hk O. destruct (list4_gap t W P WP tr Htr A S HA HS) as [H1 [H2 [a [Ha GP]]]].
    destruct (source_place prec huge axes inp B V VG RUN BT TL S k H2 Hk O) as [U IC].
    exists a. split; [exact Ha|]. rewrite N9. exact (FAR S A _ a 3%Z H2 H1 U Ha IC GP).
  - intros A S HA HS. cbv zeta. destruct (list2_gap t W P WP tr Htr A S HA HS) as [H1 [H2 [_ [a [Ha [GP GP']]]]]]. split.
    + intros k Hk O. destruct (source_place prec huge axes inp B V VG RUN BT TL S k H2 Hk O) as [U IC].
      exists a. split; [exact Ha|]. rewrite NF. exact (FAR S A _ a _ H2 H1 U Ha IC GP').
    + intros j Hj O. destruct (target_place prec huge axes inp B V VG RUN BT TL A j H1 Hj O) as [U IC].
      exists a. split; [exact Ha|]. rewrite NF. exact (FAR A S _ a _ H1 H2 U Ha IC GP).
Qed.

(** ** The hypotheses are met: three particles on a diagonal in single precision; the box of the first is
    in list 3 of the box of the last. *)
Local Open Scope R_scope.
Definition diag : list (list R) := [[0; / 2; 1]; [0; / 2; 1]].
Definition diag_input : input :=
  {| idim := 2; npart := 3; nsrc := 3; same := true;
     coord := fun u a => match u with 0%nat => 0%Z | 1%nat => (16775538 * 32)%Z | _ => (16775538 * 64)%Z end;
     ext := None; weight := fun _ => 1%Z; max_weight := 1; bbox_min := fun _ => 0%Z; bbox_max := fun _ => (2 ^ 30)%Z; build_kind := Adaptive;
     nlevels_max := 48; skip_prune := false; nboxes_guess := 20; lr_lookbehind := 1 |}.
Definition diag_params (B : built) : trav_params := {|
  well_sep_is_n_away := 1;
  Traversal.extents := {| targets_have_extent := false; stick_out_num := 0; stick_out_den := 1; eps_num := 1; eps_den := 2 ^ 23;
    from_sep_smaller_crit := static_linf; tgt_ext_center2 := fun _ _ => 0%Z; tgt_ext_radius2 := fun _ _ => 0%Z;
    box_source_counts_cumul := fun _ => 1%nat; from_sep_smaller_min_nsources_cumul := 0 |};
  sources_are_targets := true; source_boxes_mask := fun _ => true; source_parent_boxes_mask := fun _ => true;
  level_start_box_nrs := fun l => nth l (b_level_starts B) 0%nat |}.
Definition diag_check (B : built) : bool :=
  ((nlevels (b_tree B) =? 3) && (nboxes (b_tree B) =? 5) && (dim (b_tree B) =? 2) &&
   match build_traversal (b_tree B) (diag_params B) with
   | Some tr => existsb (fun T => negb (length (list3_of tr T) =? 0)) (target_boxes tr) &&
                existsb (fun A => negb (length (list4_of tr A) =? 0)) (target_or_target_parent_boxes tr)
   | None => false end)%nat.
Lemma diag_case : deep_ok diag_input diag_check = true.
Proof. vm_cast_no_check (eq_refl true). Qed.

Local Instance digits24' : Prec_gt_0 24. Proof. reflexivity. Qed.
Local Notation rnd := (round radix2 (FLX_exp 24) ZnearestE).
Local Notation A24 := (rounded 24 10).
Lemma diag_axis a : (a < 2)%nat -> nth a diag [] = [0; / 2; 1].
Proof. intros H. destruct a as [|[|a]]; [reflexivity|reflexivity|lia]. Qed.
Lemma diag_in xs : In xs diag -> xs = [0; / 2; 1].
Proof. intros [<-|[<-|[]]]; reflexivity. Qed.
Lemma diag_min : axis_min A24 [0; / 2; 1] = 0.
Proof.
  unfold axis_min, f_min; cbn [fold_left rounded ltb top_num num].
  rewrite (Rlt_bool_true 0 10), (Rlt_bool_false (/ 2) 0), (Rlt_bool_false 1 0) by lra. reflexivity.
Qed.
Lemma diag_max : axis_max A24 [0; / 2; 1] = 1.
Proof.
  unfold axis_max, f_max; cbn [fold_left rounded ltb bottom_num num].
  rewrite (Rlt_bool_true (- (10)) 0), (Rlt_bool_true 0 (/ 2)), (Rlt_bool_true (/ 2) 1) by lra. reflexivity.
Qed.
Lemma diag_axis_extent : axis_extent A24 [0; / 2; 1] = 1.
Proof. unfold axis_extent. rewrite diag_max, diag_min. cbn [rounded sub]. rewrite Rminus_0_r. apply rnd_1. Qed.
Lemma diag_extent : float_root_extent A24 diag = stretch24.
Proof.
  unfold float_root_extent, diag. cbn [map fold_left]. rewrite !diag_axis_extent.
  unfold f_max. cbn [rounded ltb mul stretch num]. rewrite Rlt_bool_false by lra. rewrite rnd_stretch, Rmult_1_l. apply rnd_st.
Qed.
Lemma diag_top : box_top A24 diag [0; / 2; 1] = stretch24.
Proof. unfold box_top. rewrite diag_min, diag_extent. cbn [rounded add]. rewrite Rplus_0_l. apply rnd_st. Qed.
Lemma rnd_half : rnd (/ 2) = / 2.
Proof. change (/ 2) with (bpow radix2 (-1)). apply r_bpow. lia. Qed.
Lemma rnd_quotient_half : rnd (/ 2 / stretch24) = 16775538 / 33554432.
Proof. rewrite (rnd_eval _ (-1) 16775538); unfold stretch24; simpl; try (split; lra); try (apply Rabs_def1; lra); lra. Qed.
Lemma diag_scaled u a : (u < 3)%nat -> (a < 2)%nat ->
  scaled A24 diag (nth a diag []) (coordinate A24 (real_of_int 24) diag u a) =
  match u with 0%nat => 0 | 1%nat => 16775538 / 33554432 | _ => 16775538 / 16777216 end.
Proof.
  intros Hu Ha. assert (CX : coordinate A24 (real_of_int 24) diag u a = match u with 0%nat => 0 | 1%nat => / 2 | _ => 1 end).
  { destruct a as [|[|a]]; [| |lia]; (destruct u as [|[|[|u]]]; [| | |lia]); reflexivity. }
  rewrite CX, (diag_axis a Ha). unfold scaled. rewrite diag_top, diag_min. cbn [rounded sub div]. rewrite !Rminus_0_r, rnd_st.
  destruct u as [|[|[|u]]]; [| | |lia].
  - rewrite rnd_0. unfold Rdiv. rewrite Rmult_0_l. apply rnd_0.
  - rewrite rnd_half. apply rnd_quotient_half.
  - rewrite rnd_1. apply rnd_quotient.
Qed.
Lemma diag_ok : resolvable 24 10 diag 3.
Proof.
  constructor.
  - simpl. lia.
  - intros a Ha. rewrite diag_axis by exact Ha. reflexivity.
  - lia.
  - intros xs x H. rewrite (diag_in xs H). intros [<-|[<-|[<-|[]]]]; rewrite Rabs_pos_eq; lra.
  - exists 1. split; [split|split; [lra|]].
    + exists [0; / 2; 1], 1, 0. cbn. intuition lra.
    + intros xs x y H. rewrite (diag_in xs H). intros [<-|[<-|[<-|[]]]] [<-|[<-|[<-|[]]]]; lra.
    + intros xs x H. rewrite (diag_in xs H). intros [<-|[<-|[<-|[]]]]; rewrite Rabs_pos_eq; simpl; lra.
Qed.
Lemma diag_coord u a : (u < 3)%nat -> (a < 2)%nat -> f_particle_bits A24 (real_of_int 24) Zfloor diag u 29 a = coord diag_input u a.
Proof.
  intros Hu Ha. rewrite (bits_floor 24 ltac:(lia) 10 diag u 29 a). rewrite diag_scaled by auto. cbn [coord diag_input].
  destruct u as [|[|[|u]]]; [| | |lia].
  - rewrite Rmult_0_l. apply Zfloor_IZR.
  - replace (16775538 / 33554432 * bpow radix2 (Z.of_nat (1 + 29))) with (IZR (16775538 * 32)) by (rewrite mult_IZR; simpl; lra). apply Zfloor_IZR.
  - replace (16775538 / 16777216 * bpow radix2 (Z.of_nat (1 + 29))) with (IZR (16775538 * 64)) by (rewrite mult_IZR; simpl; lra). apply Zfloor_IZR.
Qed.
Lemma diag_runs : runs_on A24 (real_of_int 24) Zfloor diag diag_input.
Proof.
  split; [reflexivity|]. split; [reflexivity|]. intros u l Hu Hl.
  destruct (grid_runs 24 ltac:(lia) 10 diag diag_input) as [_ [_ X]]. rewrite <- (X u l Hu Hl). clear X.
  unfold morton_number. cbn [idim on_grid diag_input]. change (length diag) with 2%nat. cbn [seq fold_left].
  assert (PB : forall a, (a < 2)%nat -> particle_bits diag_input u l a = particle_bits (on_grid A24 (real_of_int 24) Zfloor diag diag_input) u l a).
  { intros a Ha. unfold particle_bits, extent_along. cbn [bbox_min bbox_max on_grid diag_input]. rewrite <- (diag_coord u a Hu Ha). reflexivity. }
  rewrite !PB by lia. reflexivity.
Qed.
Example float_end_example : exists B tr, build_tree diag_input = inl B /\
  resolvable 24 10 diag (npart diag_input) /\ valid_input diag_input /\ valid_geometry diag_input /\
  runs_on A24 (real_of_int 24) Zfloor diag diag_input /\ (nlevels (b_tree B) <= 30)%nat /\ point_params diag_input B (diag_params B) /\
  precise_enough 24 (b_tree B) 1 (root_geometry A24 (real_of_int 24) diag) /\
  build_traversal_in (rounded_trav 24) (root_geometry A24 (real_of_int 24) diag) (b_tree B) (diag_params B) = Some tr /\
  (exists T S, In T (target_boxes tr) /\ In S (list3_of tr T)) /\
  (exists A S, In A (target_or_target_parent_boxes tr) /\ In S (list4_of tr A)).
Proof.
  destruct (deep_spec _ _ diag_case) as [B [E C]]. unfold diag_check in C. rewrite !andb_true_iff, Nat.leb_le, !Nat.eqb_eq in C.
  destruct C as [D [[[L N] DM] T]]. destruct (build_traversal (b_tree B) (diag_params B)) as [tr|] eqn:TR; [|discriminate T].
  exists B, tr. split; [exact E|]. split; [exact diag_ok|].
  assert (V : valid_input diag_input).
  { constructor; cbn [diag_input npart nsrc same weight max_weight nboxes_guess];
      [lia|lia|auto|discriminate|intros; lia|unfold INT_MAX; lia|lia]. }
  assert (VG : valid_geometry diag_input).
  { constructor; [cbn; lia|reflexivity|reflexivity|exists 1%Z; reflexivity|].
    intros u a Hu Ha. cbn [diag_input bbox_min bbox_max coord npart idim] in *.
    destruct u as [|[|[|u]]]; [split; lia|split; lia|split; lia|lia]. }
  assert (PP : point_params diag_input B (diag_params B)).
  { constructor; [simpl; lia|reflexivity|split; reflexivity|reflexivity|reflexivity]. }
  assert (PE : precise_enough 24 (b_tree B) 1 (root_geometry A24 (real_of_int 24) diag)).
  { assert (C0 : forall i, (i < 2)%nat -> @f_root_center R (root_geometry A24 (real_of_int 24) diag) i = stretch24 / 2).
    { intros i Hi. unfold root_geometry. cbn [f_root_center].
      assert (AX : @nth (list (num A24)) i diag [] = [0; / 2; 1]) by exact (diag_axis i Hi). rewrite AX.
      rewrite diag_top, diag_min. cbn [rounded add sub div]. rewrite Rminus_0_r, rnd_st, Rplus_0_l.
      assert (X := two 24 ltac:(lia)). rewrite X.
      assert (H : rnd (stretch24 / 2) = stretch24 / 2).
      { apply round_generic; [apply _|]. change (stretch24 / 2) with (stretch24 * bpow radix2 (-1)).
        apply mult_bpow_exact_FLX. rewrite <- rnd_stretch. apply generic_format_round; apply _. }
      rewrite !H. reflexivity. }
    assert (ER : @f_extent R (root_geometry A24 (real_of_int 24) diag) = stretch24) by exact diag_extent.
    exists (5 / 2 * stretch24). rewrite L, DM.
    split; [rewrite ER; unfold stretch24; lra|]. split.
    - intros i Hi. rewrite C0, ER by auto. rewrite Rabs_pos_eq; unfold stretch24; lra.
    - rewrite ER. unfold stretch24. simpl. lra. }
  split; [exact V|]. split; [exact VG|]. split; [exact diag_runs|]. split; [exact D|]. split; [exact PP|]. split; [exact PE|].
  split. { rewrite <- TR. exact (end_traversal 24 10 diag diag_input B (diag_params B) ltac:(lia) diag_ok V VG diag_runs E D PP PE). }
  apply andb_true_iff in T. destruct T as [T1 T2]. split.
  - apply existsb_exists in T1. destruct T1 as [T [HT X]]. destruct (list3_of tr T) as [|S l] eqn:EL; [discriminate X|].
    exists T, S. rewrite EL. split; [exact HT|left; reflexivity].
  - apply existsb_exists in T2. destruct T2 as [T [HT X]]. destruct (list4_of tr T) as [|S l] eqn:EL; [discriminate X|].
    exists T, S. rewrite EL. split; [exact HT|left; reflexivity].
Qed.

Print Assumptions C99_particles_to_potentials.
Print Assumptions C99_safe_distance.
