(** C96: trees built in floating-point arithmetic.  Morton numbers come from rounded scaled
    coordinates, box centers from rounded sums (FloatBuild.v, TravFloat.v).  Particles need not lie in
    the computed box they are assigned to, but they are at most a quarter of its radius outside. *)
From Coq Require Import List Arith ZArith Bool Reals Lra Lia SpecFloat.
From Flocq Require Import Core Mult_error.
From Verif Require Import Base Tree Spec Fmm TreeBuild Floats TravFloat FloatBuild SpecFloatBuild SpecBuild SpecRounding TravFloatFacts
  FloatBuildFacts FloatBuildThm ExampleBuild BuildThm BuildThm2 PropsBuild.
Import ListNotations.

(** For all particles the tree builder runs as the exact one on coordinates cut off to 30 binary
    digits. *)
Theorem C96_exact_run : forall prec huge axes inp, (24 <= prec)%Z ->
  resolvable prec huge axes (npart inp) -> valid_input inp ->
  let inp' := on_grid (rounded prec huge) (real_of_int prec) Zfloor axes inp in
  valid_input inp' /\ valid_geometry inp' /\ runs_on (rounded prec huge) (real_of_int prec) Zfloor axes inp'.
Proof.
  intros prec huge axes inp Hp RS V. cbv zeta. split; [apply grid_valid; auto|]. split; [apply grid_geometry; auto|apply grid_runs; auto].
Qed.

(** Every particle below a box, in every such run, is within 5/4 of the box's radius of its computed
    center on each axis, if the precision resolves the smallest boxes. *)
Theorem C96_particles_near_their_boxes : forall prec huge axes inp B, (24 <= prec)%Z ->
  resolvable prec huge axes (npart inp) -> valid_input inp -> valid_geometry inp ->
  runs_on (rounded prec huge) (real_of_int prec) Zfloor axes inp ->
  build_tree inp = inl B -> nlevels (b_tree B) <= 30 ->
  let t := b_tree B in
  let G : float_geometry R := root_geometry (rounded prec huge) (real_of_int prec) axes in
  let x u a : R := coordinate (rounded prec huge) (real_of_int prec) axes u a in
  let center b a : R := f_center (rounded_trav prec) t G b a in
  let radius b : R := f_rad (rounded_trav prec) G (box_level t b) in
  precise_enough prec t 1 G ->
  (forall b k a, b < nboxes t -> k < nsrc inp -> a < dim t -> all_sources B b k ->
     (Rabs (x (user_source_ids (b_particles B) k) a - center b a) <= 5 / 4 * radius b)%R) /\
  (forall b j a, b < nboxes t -> j < num_targets inp -> a < dim t -> all_targets B b (sorted_target_ids (b_particles B) j) ->
     (Rabs (x (first_target inp + j)%nat a - center b a) <= 5 / 4 * radius b)%R).
Proof.
  intros prec huge axes inp B Hp RS V VG RUN BT TL t G x center radius [K [HK2 [HK COND]]].
  assert (W := built_wf inp B V VG BT TL). destruct (built_shape inp B V BT TL) as [TD TE].
  assert (LC := built_corner inp B V VG BT TL).
  assert (N := near_center_54 prec Hp huge axes (npart inp) RS inp eq_refl VG RUN t W LC TD TE TL K HK HK2 COND).
  split; intros b k a Hb Hk Ha O.
  - destruct (source_place prec huge axes inp B V VG RUN BT TL b k Hb Hk O) as [U IC]. exact (N b _ a Hb U Ha IC).
  - destruct (target_place prec huge axes inp B V VG RUN BT TL b k Hb Hk O) as [U IC]. exact (N b _ a Hb U Ha IC).
Qed.

(** Explicit bound: the radius plus [level + 5] rounding errors. *)
Theorem C96_distance_bound : forall prec huge axes inp B K, (24 <= prec)%Z ->
  resolvable prec huge axes (npart inp) -> valid_input inp -> valid_geometry inp ->
  runs_on (rounded prec huge) (real_of_int prec) Zfloor axes inp ->
  build_tree inp = inl B -> nlevels (b_tree B) <= 30 ->
  let t := b_tree B in
  let G : float_geometry R := root_geometry (rounded prec huge) (real_of_int prec) axes in
  (2 * f_extent G <= K)%R -> (forall i, (i < dim t)%nat -> Rabs (f_root_center G i) + 2 * f_extent G <= K)%R ->
  ((4 * INR (nlevels t) + 4 * INR 1 + 20) * (bpow radix2 (- prec) * K) < f_extent G * bpow radix2 (- Z.of_nat (nlevels t)))%R ->
  forall b k a, b < nboxes t -> k < nsrc inp -> a < dim t -> all_sources B b k ->
  (Rabs (coordinate (rounded prec huge) (real_of_int prec) axes (user_source_ids (b_particles B) k) a - f_center (rounded_trav prec) t G b a)
   <= f_rad (rounded_trav prec) G (box_level t b) + (INR (box_level t b) + 5) * (bpow radix2 (- prec) * K))%R.
Proof.
  intros prec huge axes inp B K Hp RS V VG RUN BT TL t G HK2 HK COND b k a Hb Hk Ha O.
  assert (W := built_wf inp B V VG BT TL). destruct (built_shape inp B V BT TL) as [TD TE].
  assert (LC := built_corner inp B V VG BT TL).
  destruct (source_place prec huge axes inp B V VG RUN BT TL b k Hb Hk O) as [U IC].
  exact (near_center prec Hp huge axes (npart inp) RS inp eq_refl VG RUN t W LC TD TE TL K HK HK2 COND b _ a Hb U Ha IC).
Qed.

(** ** Particles do not always lie in their boxes.
    Three particles in single precision; the second has exactly the center of the root box as coordinates
    and is put into a child that starts just above it. *)
Definition f32 (m e : Z) : spec_float := binary_normalize 24 128 m e false.
Definition edge_axis : list spec_float := [f32 11 (-2); f32 16515570 (-22); f32 41 (-3)].
Definition edge_axes : list (list spec_float) := [edge_axis; edge_axis].
Definition edge_input : input := on_grid (ieee 24 128) (ieee_of_int 24 128) truncate edge_axes
  (example_input [[1;1];[2;2];[3;3]]%Z 3 true None [] 2 Adaptive false).
Definition edge_outside (B : built) : bool :=
  let t := b_tree B in
  (0 <? nboxes t) && existsb (fun b => leafb t b && in_range (box_source_starts (b_particles B) b) (box_source_counts_nonchild (b_particles B) b) 1
    && (user_source_ids (b_particles B) 1 =? 1) &&
    SFltb (f_rad (ieee_trav 24 128) (root_geometry (ieee 24 128) (ieee_of_int 24 128) edge_axes) (box_level t b))
      (SFabs (SFsub 24 128 (coordinate (ieee 24 128) (ieee_of_int 24 128) edge_axes 1 0)
        (f_center (ieee_trav 24 128) t (root_geometry (ieee 24 128) (ieee_of_int 24 128) edge_axes) b 0)))) (seq 0 (nboxes t)).
Lemma edge_case : deep_ok edge_input edge_outside = true.
Proof. vm_cast_no_check (eq_refl true). Qed.
Lemma edge_runs : forallb (fun u => forallb (fun l =>
  morton_number edge_input u l =? f_morton_number (ieee 24 128) (ieee_of_int 24 128) truncate edge_axes u l) (seq 0 30)) (seq 0 3) = true.
Proof. vm_cast_no_check (eq_refl true). Qed.
Theorem C96_refuted_single : exists axes inp B b k u, 
  valid_input inp /\ valid_geometry inp /\ runs_on (ieee 24 128) (ieee_of_int 24 128) truncate axes inp /\
  build_tree inp = inl B /\ nlevels (b_tree B) <= 30 /\ b < nboxes (b_tree B) /\ leaf_box (b_tree B) b /\
  own_sources B b k /\ user_source_ids (b_particles B) k = u /\
  let G : float_geometry spec_float := root_geometry (ieee 24 128) (ieee_of_int 24 128) axes in
  SFltb (f_rad (ieee_trav 24 128) G (box_level (b_tree B) b))
    (SFabs (SFsub 24 128 (coordinate (ieee 24 128) (ieee_of_int 24 128) axes u 0) (f_center (ieee_trav 24 128) (b_tree B) G b 0))) = true.
Proof.
  destruct (deep_spec _ _ edge_case) as [B [E C]]. unfold edge_outside in C. cbv zeta in C.
  rewrite !andb_true_iff, Nat.leb_le, Nat.ltb_lt, existsb_exists in C. destruct C as [D [_ [b [Hb C]]]].
  rewrite !andb_true_iff, leafb_spec, Nat.eqb_eq in C. destruct C as [[[C1 C2] C3] C4]. apply in_seq in Hb.
  exists edge_axes, edge_input, B, b, 1, 1. split.
  { assert (V : valid_input (example_input [[1;1];[2;2];[3;3]]%Z 3 true None [] 2 Adaptive false)) by (apply example_valid; reflexivity).
    destruct V as [H1 H2 H3 H4 H5 H6 H7]. constructor; auto. }
  split. { constructor; [cbn; lia|reflexivity|reflexivity|exists 1%Z; reflexivity|]. intros u a Hu Ha. cbn in Hu, Ha.
    destruct u as [|[|[|u]]]; [| | |lia]; (destruct a as [|[|a]]; [| |lia]); vm_compute; split; congruence. }
  split. { split; [reflexivity|]. split; [reflexivity|]. intros u l Hu Hl. cbn in Hu. assert (X := edge_runs).
    rewrite forallb_forall in X. specialize (X u ltac:(apply in_seq; lia)). rewrite forallb_forall in X.
    apply Nat.eqb_eq. apply X. apply in_seq. lia. }
  split; [exact E|]. split; [exact D|]. split; [lia|]. split; [exact C1|].
  split; [apply in_range_spec; exact C2|]. split; [exact C3|exact C4].
Qed.

(** ** The hypotheses are met: three particles in the plane, single precision *)
Local Open Scope R_scope.
Local Instance digits24 : Prec_gt_0 24. Proof. reflexivity. Qed.
Lemma rnd_eval x e n : bpow radix2 (e - 1) <= x < bpow radix2 e -> Rabs (x * bpow radix2 (24 - e) - IZR n) < / 2 ->
  round radix2 (FLX_exp 24) ZnearestE x = IZR n * bpow radix2 (e - 24).
Proof.
  intros H1 H2. unfold round, F2R, scaled_mantissa, cexp, FLX_exp. rewrite (mag_unique_pos radix2 x e H1). cbn [Fnum Fexp].
  replace (- (e - 24))%Z with (24 - e)%Z by lia. rewrite (Znearest_imp _ _ n H2). reflexivity.
Qed.
Definition plane : list (list R) := [[0; 1; 1]; [0; 0; 1]].
Definition plane_input : input :=
  {| idim := 2; npart := 3; nsrc := 3; same := true;
     coord := fun u a => if ((u =? 0) || (u =? 1) && (a =? 1))%nat then 0%Z else (16775538 * 64)%Z;
     ext := None; weight := fun _ => 1%Z; max_weight := 1; bbox_min := fun _ => 0%Z; bbox_max := fun _ => (2 ^ 30)%Z; build_kind := Adaptive;
     nlevels_max := 48; skip_prune := false; nboxes_guess := 20; lr_lookbehind := 1 |}.
Lemma plane_case : deep_ok plane_input (fun B => (nlevels (b_tree B) =? 2)%nat && (nboxes (b_tree B) =? 4)%nat && (dim (b_tree B) =? 2)%nat) = true.
Proof. vm_cast_no_check (eq_refl true). Qed.
Local Notation rnd := (round radix2 (FLX_exp 24) ZnearestE).
Local Notation P := (rounded 24 10).
Definition stretch24 : R := 8389447 / 8388608.
Lemma rnd_stretch : rnd (10001 / 10000) = stretch24.
Proof. rewrite (rnd_eval _ 1 8389447); unfold stretch24; simpl; try (split; lra); try (apply Rabs_def1; lra); lra. Qed.
Lemma rnd_quotient : rnd (1 / stretch24) = 16775538 / 16777216.
Proof. rewrite (rnd_eval _ 0 16775538); unfold stretch24; simpl; try (split; lra); try (apply Rabs_def1; lra); lra. Qed.
Lemma rnd_1 : rnd 1 = 1.
Proof. change 1 with (bpow radix2 0). apply r_bpow. lia. Qed.
Lemma rnd_0 : rnd 0 = 0.
Proof. apply round_0. apply _. Qed.
Lemma rnd_st : rnd stretch24 = stretch24.
Proof. rewrite <- rnd_stretch. apply round_generic; [apply _|]. apply generic_format_round; apply _. Qed.
Lemma plane_min xs : In xs plane -> axis_min P xs = 0.
Proof.
  intros [<-|[<-|[]]]; unfold axis_min, f_min; cbn [fold_left rounded ltb top_num num];
    repeat (rewrite ?(Rlt_bool_true 0 10), ?(Rlt_bool_false 0 0), ?(Rlt_bool_false 1 0) by lra); reflexivity.
Qed.
Lemma plane_max xs : In xs plane -> axis_max P xs = 1.
Proof.
  intros [<-|[<-|[]]]; unfold axis_max, f_max; cbn [fold_left rounded ltb bottom_num num];
    repeat (rewrite ?(Rlt_bool_true (- (10)) 0), ?(Rlt_bool_false 0 0), ?(Rlt_bool_true 0 1), ?(Rlt_bool_false 1 1) by lra); reflexivity.
Qed.
Lemma plane_axis_extent xs : In xs plane -> axis_extent P xs = 1.
Proof. intros H. unfold axis_extent. rewrite plane_max, plane_min by auto. cbn [rounded sub]. rewrite Rminus_0_r. apply rnd_1. Qed.
Lemma plane_extent : float_root_extent P plane = stretch24.
Proof.
  unfold float_root_extent, plane. cbn [map fold_left]. rewrite !plane_axis_extent by (unfold plane; cbn [In]; auto).
  unfold f_max. cbn [rounded ltb mul stretch num]. rewrite Rlt_bool_false by lra. rewrite rnd_stretch, Rmult_1_l. apply rnd_st.
Qed.
Lemma plane_top xs : In xs plane -> box_top P plane xs = stretch24.
Proof. intros H. unfold box_top. rewrite plane_min, plane_extent by auto. cbn [rounded add]. rewrite Rplus_0_l. apply rnd_st. Qed.
Lemma plane_scaled xs x : In xs plane -> (x = 0 \/ x = 1) -> scaled P plane xs x = if Req_bool x 0 then 0 else 16775538 / 16777216.
Proof.
  intros H X. unfold scaled. rewrite plane_top, plane_min by auto. cbn [rounded sub div]. rewrite !Rminus_0_r, rnd_st.
  destruct X as [-> | ->].
  - rewrite Req_bool_true by auto. rewrite rnd_0. unfold Rdiv. rewrite Rmult_0_l. apply rnd_0.
  - rewrite Req_bool_false by lra. rewrite rnd_1. apply rnd_quotient.
Qed.
Lemma plane_ok : resolvable 24 10 plane 3.
Proof.
  constructor.
  - simpl. lia.
  - intros [|[|a]] Ha; [reflexivity|reflexivity|simpl in Ha; lia].
  - lia.
  - intros xs x [<-|[<-|[]]] [<-|[<-|[<-|[]]]]; rewrite ?Rabs_R0, ?Rabs_R1; lra.
  - exists 1. split; [split|split; [lra|]].
    + exists [0; 1; 1], 1, 0. cbn. intuition lra.
    + intros xs x y [<-|[<-|[]]] [<-|[<-|[<-|[]]]] [<-|[<-|[<-|[]]]]; lra.
    + intros xs x [<-|[<-|[]]] [<-|[<-|[<-|[]]]]; rewrite ?Rabs_R0, ?Rabs_R1; simpl; lra.
Qed.
Lemma plane_coord u a : (u < 3)%nat -> (a < 2)%nat -> f_particle_bits P (real_of_int 24) Zfloor plane u 29 a = coord plane_input u a.
Proof.
  intros Hu Ha. assert (AX : In (nth a plane []) plane) by (apply nth_In; exact Ha).
  rewrite (bits_floor 24 ltac:(lia) 10 plane u 29 a). 
  assert (CX : coordinate P (real_of_int 24) plane u a = 0 \/ coordinate P (real_of_int 24) plane u a = 1).
  { unfold coordinate, plane. destruct a as [|[|a]]; [| |lia]; (destruct u as [|[|[|u]]]; [| | |lia]); cbn [nth]; auto. }
  rewrite plane_scaled by auto.
  assert (Z0 : Zfloor (0 * bpow radix2 (Z.of_nat (1 + 29))) = 0%Z) by (rewrite Rmult_0_l; apply Zfloor_IZR).
  assert (Z1 : Zfloor (16775538 / 16777216 * bpow radix2 (Z.of_nat (1 + 29))) = (16775538 * 64)%Z).
  { replace (16775538 / 16777216 * bpow radix2 (Z.of_nat (1 + 29))) with (IZR (16775538 * 64)) by (rewrite mult_IZR; simpl; lra). apply Zfloor_IZR. }
  unfold coordinate, plane. destruct a as [|[|a]]; [| |lia]; (destruct u as [|[|[|u]]]; [| | |lia]); cbn [nth];
    first [rewrite Req_bool_true by auto; exact Z0|rewrite Req_bool_false by lra; exact Z1].
Qed.
Lemma plane_runs : runs_on P (real_of_int 24) Zfloor plane plane_input.
Proof.
  split; [reflexivity|]. split; [reflexivity|]. intros u l Hu Hl.
  destruct (grid_runs 24 ltac:(lia) 10 plane plane_input) as [_ [_ X]]. rewrite <- (X u l Hu Hl). clear X.
  unfold morton_number. cbn [idim on_grid plane_input]. change (length plane) with 2%nat. cbn [seq fold_left].
  assert (PB : forall a, (a < 2)%nat -> particle_bits plane_input u l a = particle_bits (on_grid P (real_of_int 24) Zfloor plane plane_input) u l a).
  { intros a Ha. unfold particle_bits, extent_along. cbn [bbox_min bbox_max on_grid plane_input]. rewrite <- (plane_coord u a Hu Ha). reflexivity. }
  rewrite !PB by lia. reflexivity.
Qed.
Example float_build_example : exists B, build_tree plane_input = inl B /\ nboxes (b_tree B) = 4%nat /\
  resolvable 24 10 plane (npart plane_input) /\ valid_input plane_input /\ valid_geometry plane_input /\
  runs_on P (real_of_int 24) Zfloor plane plane_input /\ (nlevels (b_tree B) <= 30)%nat /\
  precise_enough 24 (b_tree B) 1 (root_geometry P (real_of_int 24) plane).
Proof.
  destruct (deep_spec _ _ plane_case) as [B [E C]]. rewrite !andb_true_iff, Nat.leb_le, !Nat.eqb_eq in C. destruct C as [D [[L N] DM]].
  exists B. split; [exact E|]. split; [exact N|]. split; [exact plane_ok|]. split.
  { constructor; cbn [plane_input npart nsrc same weight max_weight nboxes_guess];
      [lia|lia|auto|discriminate|intros; lia|unfold INT_MAX; lia|lia]. }
  split. { constructor; [cbn; lia|reflexivity|reflexivity|exists 1%Z; reflexivity|].
    intros u a Hu Ha. cbn [plane_input bbox_min bbox_max coord npart idim] in *.
    destruct ((u =? 0) || (u =? 1) && (a =? 1))%nat; split; lia. }
  split; [exact plane_runs|]. split; [exact D|].
  assert (C0 : forall i, (i < 2)%nat -> @f_root_center R (root_geometry P (real_of_int 24) plane) i = stretch24 / 2).
  { intros i Hi. assert (AX : In (nth i plane []) plane) by (apply nth_In; exact Hi). unfold root_geometry. cbn [f_root_center].
    rewrite plane_top, plane_min by auto. cbn [rounded add sub div]. rewrite Rminus_0_r, rnd_st, Rplus_0_l.
    assert (T := two 24 ltac:(lia)). rewrite T.
    assert (H : rnd (stretch24 / 2) = stretch24 / 2).
    { apply round_generic; [apply _|]. change (stretch24 / 2) with (stretch24 * bpow radix2 (-1)).
      apply mult_bpow_exact_FLX. rewrite <- rnd_stretch. apply generic_format_round; apply _. }
    rewrite !H. reflexivity. }
  assert (ER : @f_extent R (root_geometry P (real_of_int 24) plane) = stretch24) by exact plane_extent.
  exists (5 / 2 * stretch24). rewrite L, DM. unfold precise_enough.
  split; [rewrite ER; unfold stretch24; lra|]. split.
  - intros i Hi. rewrite C0, ER by auto. rewrite Rabs_pos_eq; unfold stretch24; lra.
  - rewrite ER. unfold stretch24. simpl. lra.
Qed.

Print Assumptions C96_exact_run.
Print Assumptions C96_particles_near_their_boxes.
Print Assumptions C96_distance_bound.
Print Assumptions C96_refuted_single.
