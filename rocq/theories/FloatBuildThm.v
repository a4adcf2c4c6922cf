(** C96: floating-point particles are close to their boxes. *)
From Coq Require Import List Arith ZArith Bool Reals Lra Lia.
From Flocq Require Import Core.
From Verif Require Import Base Tree Spec TreeFacts GeomFacts Fmm TreeBuild BuildInv BuildGeom BuildThm BuildThm2 Floats FloatFacts TravFloat TravFloatFacts
  FloatBuild SpecFloatBuild SpecBuild SpecRounding FloatBuildFacts PropsBuild.
Import ListNotations.
Local Open Scope R_scope.

Lemma combine x c lo z rho c0 r k l w p : 0 < rho -> r = rho * p / 2 -> k * p <= z <= (k + 1) * p ->
  Rabs (c0 - (lo + rho / 2)) <= 11 / 5 * w -> Rabs (lo + z * rho - x) <= 27 / 10 * w ->
  Rabs (c - (c0 - rho / 2 + (2 * k + 1) * r)) <= l * w -> Rabs (x - c) <= r + (l + 5) * w.
Proof.
  intros Hr -> [Z1 Z2] H1 H2 H3. assert (0 <= w) by (assert (X := Rabs_pos (c0 - (lo + rho / 2))); lra).
  apply Rabs_le_inv in H1. apply Rabs_le_inv in H2. apply Rabs_le_inv in H3.
  assert (k * p * rho <= z * rho) by (apply Rmult_le_compat_r; lra).
  assert (z * rho <= (k + 1) * p * rho) by (apply Rmult_le_compat_r; lra).
  apply Rabs_le. lra.
Qed.

Section Thm.
Variable prec : Z.
Hypothesis Hprec : (24 <= prec)%Z.
Variable huge : R.
Notation A := (rounded prec huge).
Notation oi := (real_of_int prec).
Variable axes : list (list R).
Variable np : nat.
Hypothesis RS : resolvable prec huge axes np.
Let G : float_geometry R := root_geometry A oi axes.
Notation bits := (f_particle_bits A oi Zfloor axes).
Notation sc u a := (scaled A axes (nth a axes []) (coordinate A oi axes u a)).

Lemma axis_in a : (a < length axes)%nat -> In (nth a axes []) axes.
Proof. intros H. apply nth_In. auto. Qed.
Lemma coord_in u a : (a < length axes)%nat -> (u < np)%nat -> In (coordinate A oi axes u a) (nth a axes []).
Proof. intros Ha Hu. unfold coordinate. apply nth_In. rewrite (rs_count _ _ _ _ RS) by auto. auto. Qed.
Lemma axes_ne xs : In xs axes -> xs <> [].
Proof.
  intros H E. destruct (In_nth _ _ [] H) as [a [Ha Ea]]. assert (X := rs_count _ _ _ _ RS a Ha). rewrite Ea, E in X.
  assert (Y := rs_some _ _ _ _ RS). simpl in X. lia.
Qed.
Lemma sc_range u a : (a < length axes)%nat -> (u < np)%nat -> 0 <= sc u a < 1.
Proof.
  intros Ha Hu. destruct (rs_spread _ _ _ _ RS) as [s [[S1 S2] [S0 MAG]]].
  apply (scaled_range prec Hprec huge axes axes_ne (rs_huge _ _ _ _ RS) s S1 S2 S0 MAG (nth a axes []) (axis_in a Ha) _ (coord_in u a Ha Hu)).
Qed.
Lemma bits_floor u l a : bits u l a = Zfloor (sc u a * bpow radix2 (Z.of_nat (1 + l))).
Proof. apply prefix_exact; auto. Qed.
Lemma bits_range u l a : (a < length axes)%nat -> (u < np)%nat -> (0 <= bits u l a < 2 ^ Z.of_nat (1 + l))%Z.
Proof.
  intros Ha Hu. rewrite bits_floor. assert (SR := sc_range u a Ha Hu). assert (P := bpow_gt_0 radix2 (Z.of_nat (1 + l))).
  set (z := sc u a) in *. change (num A) with R in z.
  split.
  - apply Zfloor_lub. change (IZR 0) with 0. nra.
  - apply lt_IZR. rewrite IZR_pow2. eapply Rle_lt_trans; [apply Zfloor_lb|]. nra.
Qed.
Lemma bits_next u l a : (bits u (S l) a = 2 * bits u l a \/ bits u (S l) a = 2 * bits u l a + 1)%Z.
Proof.
  rewrite !bits_floor. replace (Z.of_nat (1 + S l)) with (1 + Z.of_nat (1 + l))%Z by lia. rewrite bpow_plus. change (bpow radix2 1) with 2.
  replace (sc u a * (2 * bpow radix2 (Z.of_nat (1 + l)))) with (2 * (sc u a * bpow radix2 (Z.of_nat (1 + l)))) by ring.
  apply floor_double.
Qed.
Lemma bits_first u a : (a < length axes)%nat -> (u < np)%nat -> (bits u 0 a = 0 \/ bits u 0 a = 1)%Z.
Proof. intros Ha Hu. assert (X := bits_range u 0 a Ha Hu). change (2 ^ Z.of_nat (1 + 0))%Z with 2%Z in X. lia. Qed.
Lemma f_morton_testbit u l a : (a < length axes)%nat ->
  Nat.testbit (f_morton_number A oi Zfloor axes u l) (length axes - 1 - a) = Z.odd (bits u l a).
Proof.
  intros Ha. unfold f_morton_number.
  rewrite (lor_fold_testbit (fun a => Z.odd (bits u l a)) (length axes) a Ha).
  - rewrite Nat.bits_0. cbn [orb]. etransitivity; [|apply andb_true_l]. f_equal. apply existsb_exists. exists a. split; [apply in_seq; split; [apply Nat.le_0_l|exact Ha]|apply Nat.eqb_refl].
  - apply seq_NoDup.
  - intros y Hy. apply in_seq in Hy. apply Hy.
Qed.

(** ** runs of the exact tree builder with the same Morton numbers *)
Section Run.
Variable inp : input.
Hypothesis NP : npart inp = np.
Hypothesis VG : valid_geometry inp.
Hypothesis RUN : runs_on A oi Zfloor axes inp.
Lemma run_dim : idim inp = length axes.
Proof. exact (proj1 RUN). Qed.
Lemma exact_bits u l a : (a < length axes)%nat -> (u < np)%nat -> (l <= 29)%nat ->
  particle_bits inp u l a = ((coord inp u a - bbox_min inp a) * 2 ^ Z.of_nat (1 + l) / the_root_extent inp)%Z.
Proof.
  intros Ha Hu Hl. unfold particle_bits. rewrite u32_shl1_small by lia. f_equal. unfold extent_along. apply (v_cube _ VG).
  rewrite run_dim. auto.
Qed.
Lemma same_bits u l a : (a < length axes)%nat -> (u < np)%nat -> (l <= 29)%nat -> particle_bits inp u l a = bits u l a.
Proof.
  intros Ha Hu. revert l. assert (D := run_dim). destruct RUN as [_ [_ MN]]. assert (EP := v_pos _ VG).
  apply (prefixes_eq (fun l => particle_bits inp u l a) (fun l => bits u l a) 29).
  - rewrite exact_bits by (auto; lia). change (2 ^ Z.of_nat (1 + 0))%Z with 2%Z.
    assert (IN := v_inside _ VG u a ltac:(lia) ltac:(lia)). assert (C := v_cube _ VG a ltac:(lia)).
    replace ((coord inp u a - bbox_min inp a) * 2)%Z with (2 * (coord inp u a - bbox_min inp a))%Z by ring.
    assert (X := div_double (coord inp u a - bbox_min inp a) _ EP). rewrite (Z.div_small (coord inp u a - bbox_min inp a)) in X by lia. exact X.
  - apply bits_first; auto.
  - intros l Hl. rewrite !exact_bits by (auto; lia).
    replace (Z.of_nat (1 + S l)) with (1 + Z.of_nat (1 + l))%Z by lia. rewrite Z.pow_add_r by lia.
    replace ((coord inp u a - bbox_min inp a) * (2 ^ 1 * 2 ^ Z.of_nat (1 + l)))%Z
      with (2 * ((coord inp u a - bbox_min inp a) * 2 ^ Z.of_nat (1 + l)))%Z by ring.
    apply div_double; auto.
  - intros l _. apply bits_next.
  - intros l Hl. rewrite <- morton_testbit by lia. rewrite MN by lia. rewrite run_dim. apply f_morton_testbit; auto.
Qed.

Variable t : tree.
Hypothesis W : wf_tree t.
Hypothesis LC : forall a, (a < dim t)%nat -> (box_center t 0 a - level_to_rad t 0 = bbox_min inp a)%Z.
Hypothesis TD : dim t = idim inp.
Hypothesis TE : root_extent t = the_root_extent inp.
Hypothesis TL : (nlevels t <= 30)%nat.
(** the scaled coordinate lies in the cell of the box *)
Lemma cell_scaled b u a : (b < nboxes t)%nat -> (u < np)%nat -> (a < dim t)%nat -> in_cell t b (coord inp u) ->
  exists k, (box_center t b a = box_center t 0 a - level_to_rad t 0 + (2 * k + 1) * box_rad t b)%Z /\
    IZR k * bpow radix2 (- Z.of_nat (box_level t b)) <= sc u a <= (IZR k + 1) * bpow radix2 (- Z.of_nat (box_level t b)).
Proof.
  intros Hb Hu Ha IC. assert (D := run_dim). destruct (grid t W b Hb a Ha) as [k Hk]. exists k. split; [auto|].
  assert (SR := sc_range u a ltac:(lia) Hu). specialize (IC a Ha). rewrite LC in Hk by auto.
  assert (LV := wf_level_lt t W b Hb). assert (RP := box_rad_pos t W b Hb).
  assert (RE : (2 * box_rad t b * 2 ^ Z.of_nat (box_level t b) = root_extent t)%Z).
  { assert (X := rad_pow t W 0 (box_level t b) ltac:(lia)). simpl (0 + _)%nat in X. fold (box_rad t b) in X.
    assert (Y := wf_extent_div t W). unfold level_to_rad in X at 1. change (2 ^ Z.of_nat (0 + 1))%Z with 2%Z in X.
    assert (EV : (root_extent t mod 2 = 0)%Z).
    { destruct Y as [q Q]. rewrite Q. replace (Z.of_nat (nlevels t)) with (Z.of_nat (nlevels t - 1) + 1)%Z by lia.
      rewrite Z.pow_add_r, Z.mul_assoc by lia. apply Z.mod_mul. lia. }
    assert (DM := Z.div_mod (root_extent t) 2 ltac:(lia)). rewrite EV, X in DM. lia. }
  set (z := sc u a) in *. change (num A) with R in z.
  destruct (box_level t b) as [|l] eqn:EL.
  - assert (k = 0)%Z. { change (2 ^ Z.of_nat 0)%Z with 1%Z in RE.
      assert (IN := v_inside _ VG u a ltac:(lia) ltac:(lia)). assert (C := v_cube _ VG a ltac:(lia)). nia. }
    subst k. simpl. lra.
  - assert (B := same_bits u l a ltac:(lia) Hu ltac:(lia)).
    rewrite exact_bits in B by (auto; lia).
    assert (KK : ((coord inp u a - bbox_min inp a) * 2 ^ Z.of_nat (1 + l) / the_root_extent inp = k)%Z).
    { symmetry. rewrite <- TE. change (1 + l)%nat with (S l). set (P := (2 ^ Z.of_nat (S l))%Z) in *.
      assert (0 < P)%Z by (apply Z.pow_pos_nonneg; lia).
      apply (Z.div_unique_pos _ _ _ ((coord inp u a - bbox_min inp a) * P - root_extent t * k)); [|lia].
      rewrite <- RE. split; nia. }
    rewrite KK, bits_floor in B. fold z in B. change (1 + l)%nat with (S l) in B.
    assert (F1 := Zfloor_lb (z * bpow radix2 (Z.of_nat (S l)))). assert (F2 := Zfloor_ub (z * bpow radix2 (Z.of_nat (S l)))).
    rewrite <- B in F1, F2. rewrite bpow_opp. assert (P := bpow_gt_0 radix2 (Z.of_nat (S l))).
    split; apply Rmult_le_reg_r with (bpow radix2 (Z.of_nat (S l))); auto; rewrite Rmult_assoc, Rinv_l; lra.
Qed.
Variable K : R.
Hypothesis HK : forall i, (i < dim t)%nat -> Rabs (f_root_center G i) + 2 * f_extent G <= K.
Hypothesis HK2 : 2 * f_extent G <= K.
Hypothesis COND : (4 * INR (nlevels t) + 4 * INR 1 + 20) * (bpow radix2 (- prec) * K) < f_extent G * bpow radix2 (- Z.of_nat (nlevels t)).
Lemma G_fmt : generic_format radix2 (FLX_exp prec) (f_extent G) /\ 0 < f_extent G.
Proof.
  destruct (rs_spread _ _ _ _ RS) as [s [[S1 S2] [S0 MAG]]].
  assert (X := extent_fmt prec Hprec huge axes axes_ne (rs_huge _ _ _ _ RS) s S1 S2 S0).
  assert (Y := extent_bounds prec Hprec huge axes axes_ne (rs_huge _ _ _ _ RS) s S1 S2 S0).
  split; [exact X|]. change (0 < float_root_extent A axes). lra.
Qed.
Lemma near_center b u a : (b < nboxes t)%nat -> (u < np)%nat -> (a < dim t)%nat -> in_cell t b (coord inp u) ->
  Rabs (coordinate A oi axes u a - f_center (rounded_trav prec) t G b a)
    <= f_rad (rounded_trav prec) G (box_level t b) + (INR (box_level t b) + 5) * (bpow radix2 (- prec) * K).
Proof.
  intros Hb Hu Ha IC. destruct G_fmt as [Fm Pp].
  destruct (cell_scaled b u a Hb Hu Ha IC) as [k [Hk SC]]. assert (D := run_dim).
  assert (CE := center_err prec Hprec t W G Fm Pp 1%nat (le_n 1) K HK HK2 COND _ b a Hb Ha eq_refl).
  rewrite (f_rad_exact prec Hprec G Fm 1%nat (le_n 1)).
  assert (HR := h_box_rad t W G 1%nat (le_n 1) b Hb).
  assert (HR0 := h_rad t W G 1%nat (le_n 1) 0%nat ltac:(assert (X := wf_level_lt t W b Hb); lia)). rewrite rad_0 in HR0.
  destruct (rs_spread _ _ _ _ RS) as [s [[S1 S2] [S0 MAG]]].
  assert (AX := axis_in a ltac:(lia)). assert (CI := coord_in u a ltac:(lia) Hu).
  assert (P1 := center_place prec Hprec huge axes axes_ne (rs_huge _ _ _ _ RS) s S1 S2 S0 MAG (nth a axes []) AX K (HK a Ha)).
  assert (P2 := scaled_place prec Hprec huge axes axes_ne (rs_huge _ _ _ _ RS) s S1 S2 S0 MAG (nth a axes []) AX K (HK a Ha) _ CI).
  assert (EE : E t G b a = f_root_center G a - f_extent G / 2 + (2 * IZR k + 1) * rad G (box_level t b)).
  { unfold E. rewrite Hk, HR, HR0. rewrite !minus_IZR, plus_IZR, minus_IZR, mult_IZR, plus_IZR, mult_IZR. ring. }
  assert (RR : rad G (box_level t b) = f_extent G * bpow radix2 (- Z.of_nat (box_level t b)) / 2).
  { unfold rad. replace (- (Z.of_nat (box_level t b) + 1))%Z with (- Z.of_nat (box_level t b) + -1)%Z by lia. rewrite bpow_plus.
    change (bpow radix2 (-1)) with (/ 2). lra. }
  rewrite EE in CE.
  exact (combine _ _ (axis_min A (nth a axes [])) (scaled A axes (nth a axes []) (coordinate A oi axes u a)) (f_extent G) (f_root_center G a) _ (IZR k) _ _ _ Pp RR SC P1 P2 CE).
Qed.
Lemma near_center_54 b u a : (b < nboxes t)%nat -> (u < np)%nat -> (a < dim t)%nat -> in_cell t b (coord inp u) ->
  Rabs (coordinate A oi axes u a - f_center (rounded_trav prec) t G b a) <= 5 / 4 * f_rad (rounded_trav prec) G (box_level t b).
Proof.
  intros Hb Hu Ha IC. eapply Rle_trans; [apply near_center; auto|]. destruct G_fmt as [Fm Pp].
  rewrite (f_rad_exact prec Hprec G Fm 1%nat (le_n 1)).
  assert (LV := wf_level_lt t W b Hb). assert (RM := rad_min t G Pp 1%nat (le_n 1) (box_level t b) LV).
  assert (LI : INR (box_level t b) <= INR (nlevels t)) by (apply le_INR; lia).
  assert (WP := w_pos prec Hprec G Pp K HK2). change (INR 1) with 1 in COND.
  assert (C := COND). set (w := bpow radix2 (- prec) * K) in *. set (l := INR (box_level t b)) in *. set (L := INR (nlevels t)) in *.
  assert (l * w <= L * w) by (apply Rmult_le_compat_r; lra). lra.
Qed.
End Run.
End Thm.

(** ** the returned tree *)
Section Built.
Variable prec : Z.
Hypothesis Hprec : (24 <= prec)%Z.
Variable huge : R.
Variable axes : list (list R).
Variable inp : input.
Variable B : built.
Hypothesis RS : resolvable prec huge axes (npart inp).
Hypothesis V : valid_input inp.
Hypothesis VG : valid_geometry inp.
Hypothesis RUN : runs_on (rounded prec huge) (real_of_int prec) Zfloor axes inp.
Hypothesis BT : build_tree inp = inl B.
Hypothesis TL : (nlevels (b_tree B) <= 30)%nat.
Notation t := (b_tree B).
Lemma built_wf : wf_tree t.
Proof.
  revert TL. destruct (built_fin inp B V BT) as [st [pth [_ [F ->]]]]. intros TL. exact (finish_wf_tree inp V st pth F VG TL).
Qed.
Lemma built_shape : dim t = idim inp /\ root_extent t = the_root_extent inp.
Proof. destruct (built_fin inp B V BT) as [st [pth [_ [F ->]]]]. split; reflexivity. Qed.
Lemma built_corner a : (a < dim t)%nat -> (box_center t 0 a - level_to_rad t 0 = bbox_min inp a)%Z.
Proof.
  intros Ha. destruct (C25_geometry_up_to_30_levels inp B V VG BT TL) as [C _]. rewrite (C a Ha). unfold level_to_rad.
  change (2 ^ Z.of_nat (0 + 1))%Z with 2%Z. lia.
Qed.
Lemma source_place b k : (b < nboxes t)%nat -> (k < nsrc inp)%nat -> all_sources B b k ->
  (user_source_ids (b_particles B) k < npart inp)%nat /\ in_cell t b (coord inp (user_source_ids (b_particles B) k)).
Proof.
  intros Hb Hk O. destruct RUN as [_ [NE _]].
  destruct (C17_particles_are_permuted inp B V BT) as [N1 [_ [PM [EQ _]]]].
  destruct (C18_cumulative_ranges_are_cells inp B V VG NE BT TL) as [CS _]. split.
  - assert (X : In (user_source_ids (b_particles B) k) (seq 0 (nsources (b_particles B)))).
    { eapply Permutation.Permutation_in; [exact PM|]. apply in_map, in_seq. lia. }
    apply in_seq in X. assert (Y := v_nsrc _ V). lia.
  - apply (CS b k Hb Hk) in O. intros a Ha. specialize (O a Ha). rewrite EQ in O by lia. exact O.
Qed.
Lemma target_place b j : (b < nboxes t)%nat -> (j < num_targets inp)%nat -> all_targets B b (sorted_target_ids (b_particles B) j) ->
  (first_target inp + j < npart inp)%nat /\ in_cell t b (coord inp (first_target inp + j)).
Proof.
  intros Hb Hk O. destruct RUN as [_ [NE _]].
  destruct (C17_particles_are_permuted inp B V BT) as [_ [N1 [_ [_ [_ [PM [EQ _]]]]]]].
  destruct (C18_cumulative_ranges_are_cells inp B V VG NE BT TL) as [_ CS]. split.
  - unfold first_target, num_targets in *. assert (Y := v_nsrc _ V). destruct (same inp); lia.
  - assert (X : In (sorted_target_ids (b_particles B) j) (seq 0 (ntargets (b_particles B)))).
    { eapply Permutation.Permutation_in; [exact PM|]. apply in_map, in_seq. lia. }
    apply in_seq in X. apply (CS b (sorted_target_ids (b_particles B) j) Hb ltac:(lia)) in O. intros a Ha. specialize (O a Ha). rewrite EQ in O by lia. exact O.
Qed.
End Built.

(** ** the grid input *)
Lemma fold_left_ext {X Y} (f g : X -> Y -> X) l : (forall x y, f x y = g x y) -> forall x, fold_left f l x = fold_left g l x.
Proof. intros H. induction l as [|y l IH]; intros x; [reflexivity|]. cbn [fold_left]. rewrite H. apply IH. Qed.
Section Grid.
Variable prec : Z.
Hypothesis Hprec : (24 <= prec)%Z.
Variable huge : R.
Variable axes : list (list R).
Variable inp : input.
Hypothesis RS : resolvable prec huge axes (npart inp).
Notation A := (rounded prec huge).
Notation oi := (real_of_int prec).
Notation bits := (f_particle_bits A oi Zfloor axes).
Notation gi := (on_grid A oi Zfloor axes inp).
Lemma bits_drop u a k : forall l, (bits u (l + k) a / 2 ^ Z.of_nat k = bits u l a)%Z.
Proof.
  induction k as [|k IH]; intros l.
  - rewrite Nat.add_0_r. change (2 ^ Z.of_nat 0)%Z with 1%Z. apply Z.div_1_r.
  - replace (l + S k)%nat with (S (l + k)) by lia. rewrite <- (IH l).
    replace (2 ^ Z.of_nat (S k))%Z with (2 * 2 ^ Z.of_nat k)%Z by (rewrite <- Z.pow_succ_r by lia; f_equal; lia).
    rewrite <- Z.div_div by (try lia; apply Z.pow_pos_nonneg; lia). f_equal.
    destruct (bits_next prec Hprec huge axes u (l + k) a) as [E|E]; rewrite E.
    + rewrite Z.mul_comm. apply Z.div_mul. lia.
    + rewrite Z.mul_comm, Z.div_add_l by lia. change (1 / 2)%Z with 0%Z. lia.
Qed.
Lemma grid_valid : valid_input inp -> valid_input gi.
Proof. intros [H1 H2 H3 H4 H5 H6 H7]. constructor; auto. discriminate. Qed.
Lemma grid_geometry : valid_geometry gi.
Proof.
  constructor.
  - apply (rs_dim _ _ _ _ RS).
  - intros. reflexivity.
  - reflexivity.
  - exists 1%Z. reflexivity.
  - intros u a Hu Ha. assert (X := bits_range prec Hprec huge axes (npart inp) RS u 29 a Ha Hu). exact X.
Qed.
Lemma grid_bits u l a : (l <= 29)%nat -> particle_bits gi u l a = bits u l a.
Proof.
  intros Hl. unfold particle_bits. rewrite u32_shl1_small by lia. unfold extent_along. cbn [coord bbox_min bbox_max on_grid].
  rewrite !Z.sub_0_r. rewrite <- (bits_drop u a (29 - l) l). replace (l + (29 - l))%nat with 29%nat by lia.
  replace (2 ^ 30)%Z with (2 ^ Z.of_nat (29 - l) * 2 ^ Z.of_nat (1 + l))%Z by (rewrite <- Z.pow_add_r by lia; f_equal; lia).
  apply Z.div_mul_cancel_r; apply Z.pow_nonzero; lia.
Qed.
Lemma grid_runs : runs_on A oi Zfloor axes gi.
Proof.
  split; [reflexivity|]. split; [reflexivity|]. intros u l _ Hl. unfold morton_number, f_morton_number. cbn [idim on_grid].
  apply fold_left_ext. intros acc a. rewrite grid_bits by auto. reflexivity.
Qed.
End Grid.
