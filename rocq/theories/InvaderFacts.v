(** Bit patterns of nonnegative single precision numbers are ordered like the numbers, and what
    rounding to single precision and back gives. *)
From Coq Require Import List ZArith Bool Reals Lia Lra Psatz SpecFloat.
From Flocq Require Import Core Relative IEEE754.BinarySingleNaN.
From Verif Require Import Base Invader SpecInvader.
Import ListNotations.
Local Open Scope Z_scope.

Lemma two_to_bpow e : two_to e = bpow radix2 e.
Proof.
  unfold two_to. destruct (Z.leb_spec 0 e) as [H|H].
  - rewrite <- IZR_Zpower; auto.
  - replace e with (- (- e)) at 2 by lia. rewrite bpow_opp, <- IZR_Zpower by lia. reflexivity.
Qed.
Lemma scaled_F2R v e : scaled_int v e = F2R (Float radix2 v e).
Proof. unfold scaled_int, F2R. cbn. rewrite two_to_bpow. reflexivity. Qed.

(** ** SpecFloat's normalisation is Flocq's, for any format *)
Section Equiv.
Variables prec emax : Z.
Context (Hp : Prec_gt_0 prec) (Hm : Prec_lt_emax prec emax).
Lemma rne_equiv s m l : round_nearest_even m l = choice_mode mode_NE s m l.
Proof. case l; [reflexivity|intro c]. case c; [|reflexivity..]. now simpl; unfold Round.cond_incr; case Z.even. Qed.
Lemma round_aux_equiv sx mx ex lx : SpecFloat.binary_round_aux prec emax sx mx ex lx = BinarySingleNaN.binary_round_aux prec emax mode_NE sx mx ex lx.
Proof.
  unfold SpecFloat.binary_round_aux, BinarySingleNaN.binary_round_aux. set (mrse' := shr_fexp _ _ _). case mrse'; intros mrs' e'; simpl.
  now rewrite (rne_equiv sx).
Qed.
Lemma round_equiv s m e : SpecFloat.binary_round prec emax s m e = BinarySingleNaN.binary_round prec emax mode_NE s m e.
Proof.
  unfold SpecFloat.binary_round, BinarySingleNaN.binary_round, shl_align_fexp. set (mez := shl_align _ _ _); case mez as [mz ez].
  apply round_aux_equiv.
Qed.
Lemma normalize_equiv m e szero : SpecFloat.binary_normalize prec emax m e szero = B2SF (BinarySingleNaN.binary_normalize prec emax Hp Hm mode_NE m e szero).
Proof. case m as [|p|p]; [now simpl|..]; simpl; rewrite B2SF_SF2B; apply round_equiv. Qed.
Lemma B2SF_value x : is_finite (prec := prec) (emax := emax) x = true -> float_value (B2SF x) = Some (B2R x).
Proof.
  destruct x as [s|s| |s m e B]; try discriminate; intros _; cbn [B2SF float_value B2R]; [reflexivity|].
  rewrite scaled_F2R. destruct s; reflexivity.
Qed.
Definition rnd_to (x : R) : R := round radix2 (SpecFloat.fexp prec emax) ZnearestE x.
(** what SpecFloat.binary_normalize returns *)
Lemma normalize_spec m e : let x := scaled_int m e in
  if Rlt_bool (Rabs (rnd_to x)) (bpow radix2 emax)
  then float_value (SpecFloat.binary_normalize prec emax m e false) = Some (rnd_to x)
  else SpecFloat.binary_normalize prec emax m e false = S754_infinity (Rlt_bool x 0).
Proof.
  cbv zeta. rewrite normalize_equiv. assert (H := binary_normalize_correct prec emax Hp Hm mode_NE m e false).
  cbv zeta in H. rewrite scaled_F2R. unfold rnd_to. change (round_mode mode_NE) with ZnearestE in H. destruct (Rlt_bool (Rabs _) _).
  - destruct H as [H1 [H2 _]]. rewrite B2SF_value by exact H2. rewrite H1. reflexivity.
  - rewrite H. reflexivity.
Qed.
End Equiv.

#[local] Instance p24 : Prec_gt_0 24 := eq_refl.
#[local] Instance p24e : Prec_lt_emax 24 128 := eq_refl.
Notation sfexp := (SpecFloat.fexp 24 128).
Notation single := (binary_float 24 128).
Notation rnds := (rnd_to 24 128).

(** ** the order of bit patterns *)
Lemma bounded_range m e : bounded 24 128 m e = true ->
  -149 <= e <= 104 /\ Z.pos m < 2 ^ 24 /\ (-149 < e -> 2 ^ 23 <= Z.pos m).
Proof.
  intros B. unfold bounded in B. apply andb_true_iff in B. destruct B as [C B]. apply Z.leb_le in B.
  unfold canonical_mantissa in C. apply Zeq_bool_eq in C. unfold SpecFloat.fexp, emin in C.
  rewrite Digits.Zpos_digits2_pos in C. set (d := Digits.Zdigits radix2 (Z.pos m)) in *.
  assert (P : (Zpower radix2 (d - 1) <= Z.pos m < Zpower radix2 d)%Z) by (assert (X := Digits.Zdigits_correct radix2 (Z.pos m)); cbn [Z.abs] in X; exact X).
  assert (D : 0 < d) by (apply Digits.Zdigits_gt_0; discriminate).
  assert (DE : d <= 24 /\ -149 <= e /\ (-149 < e -> d = 24)) by lia. destruct DE as [D1 [D2 D3]].
  split; [lia|]. split.
  - apply Z.lt_le_trans with (Zpower radix2 d); [tauto|]. apply (Zpower_le radix2 d 24). lia.
  - intros Q. specialize (D3 Q). rewrite D3 in P. exact (proj1 P).
Qed.
Definition nonneg_float (x : single) : Prop := is_nan x = false /\ Bsign x = false.
Lemma as_int_finite m e : bounded 24 128 m e = true -> as_int (S754_finite false m e) = (e + 149) * 2 ^ 23 + Z.pos m.
Proof.
  intros B. destruct (bounded_range m e B) as [H1 [H2 H3]]. unfold as_int, with_sign, fields.
  destruct (Z.leb_spec (2 ^ 23) (Z.pos m)); [ring|]. assert (e = -149) by lia. subst. ring.
Qed.
Lemma as_int_nonneg (x : single) : nonneg_float x -> 0 <= as_int (B2SF x) <= fields 255 0.
Proof.
  intros [N S]. destruct x as [s|s| |s m e B]; cbn [Bsign B2SF is_nan] in *; try subst s; try discriminate.
  - cbn. lia.
  - cbn. lia.
  - rewrite as_int_finite by exact B. destruct (bounded_range m e B) as [H1 [H2 H3]]. unfold fields. lia.
Qed.
Lemma as_int_lt m1 e1 m2 e2 : bounded 24 128 m1 e1 = true -> bounded 24 128 m2 e2 = true -> e1 < e2 ->
  as_int (S754_finite false m1 e1) < as_int (S754_finite false m2 e2).
Proof.
  intros B1 B2 L. rewrite !as_int_finite by auto. destruct (bounded_range _ _ B1) as [H1 [H2 H3]]. destruct (bounded_range _ _ B2) as [G1 [G2 G3]].
  specialize (G3 ltac:(lia)). lia.
Qed.
(** the comparison of the numbers (SFleb) is that of the patterns *)
Lemma as_int_order (x y : single) : nonneg_float x -> nonneg_float y -> (as_int (B2SF x) <= as_int (B2SF y) <-> SFleb (B2SF x) (B2SF y) = true).
Proof.
  intros [N1 S1] [N2 S2].
  destruct x as [s|s| |s m e B]; cbn [Bsign B2SF is_nan] in *; try subst s; try discriminate;
    destruct y as [s|s| |s m' e' B']; cbn [Bsign B2SF is_nan] in *; try subst s; try discriminate.
  - cbn. split; auto. intros _. lia.
  - cbn. split; auto. intros _. lia.
  - rewrite as_int_finite by exact B'. destruct (bounded_range _ _ B') as [H1 [H2 H3]]. cbn. split; auto. lia.
  - cbn. split; [lia|discriminate].
  - cbn. split; auto. intros _. lia.
  - rewrite as_int_finite by exact B'. destruct (bounded_range _ _ B') as [H1 [H2 H3]]. cbn. split; [lia|discriminate].
  - rewrite as_int_finite by exact B. destruct (bounded_range _ _ B) as [H1 [H2 H3]]. cbn. split; [lia|discriminate].
  - rewrite as_int_finite by exact B. destruct (bounded_range _ _ B) as [H1 [H2 H3]]. cbn. split; auto. lia.
  - unfold SFleb, SFcompare. destruct (Z.compare_spec e e') as [E|L|L].
    + subst e'. rewrite !as_int_finite by auto. fold (Pos.compare m m'). change (Pos.compare_cont Eq m m') with (Pos.compare m m'). destruct (Pos.compare_spec m m') as [E|L|L].
      * subst. split; auto. lia.
      * split; auto. lia.
      * split; [lia|discriminate].
    + assert (X := as_int_lt _ _ _ _ B B' L). split; auto. lia.
    + assert (X := as_int_lt _ _ _ _ B' B L). split; [lia|discriminate].
Qed.

(** ** back from the pattern *)
Lemma of_as_int (x : single) : nonneg_float x -> of_int (as_int (B2SF x)) = B2SF x.
Proof.
  intros [N S]. destruct x as [s|s| |s m e B]; cbn [Bsign B2SF is_nan] in *; try subst s; try discriminate; try reflexivity.
  destruct (bounded_range m e B) as [H1 [H2 H3]]. unfold as_int, with_sign, of_int.
  assert (F : forall k f, 0 <= f < 2 ^ 23 -> fields k f / 2 ^ 23 = k /\ fields k f mod 2 ^ 23 = f).
  { intros k f Hf. unfold fields. split.
    - rewrite Z.div_add_l by lia. rewrite (Z.div_small f) by lia. lia.
    - rewrite Z.add_comm, Z.mod_add by lia. apply Z.mod_small. lia. }
  destruct (Z.leb_spec (2 ^ 23) (Z.pos m)) as [L|L].
  - destruct (F (e + 150) (Z.pos m - 2 ^ 23) ltac:(lia)) as [-> ->].
    destruct (Z.eqb_spec (e + 150) 255); [lia|]. destruct (Z.eqb_spec (e + 150) 0); [lia|].
    replace (2 ^ 23 + (Z.pos m - 2 ^ 23)) with (Z.pos m) by ring. cbn [Z.to_pos]. f_equal. lia.
  - destruct (F 0 (Z.pos m) ltac:(lia)) as [-> ->]. cbn [Z.eqb]. f_equal. lia.
Qed.

(** ** rounding to single precision *)
Definition bsingle (e d : Z) : single := BinarySingleNaN.binary_normalize 24 128 p24 p24e mode_NE d e false.
Lemma to_single_b e d : to_single e d = B2SF (bsingle e d).
Proof. apply normalize_equiv. Qed.
Lemma scaled_nonneg e d : 0 <= d -> (0 <= scaled_int d e)%R.
Proof. intros H. rewrite scaled_F2R. apply F2R_ge_0. exact H. Qed.
Lemma bsingle_nonneg e d : 0 <= d -> nonneg_float (bsingle e d).
Proof.
  intros H. split; [apply is_nan_binary_normalize|]. assert (X := binary_normalize_correct 24 128 p24 p24e mode_NE d e false).
  fold (bsingle e d) in X. cbv zeta in X. assert (P := scaled_nonneg e d H). rewrite scaled_F2R in P. destruct (Rlt_bool (Rabs _) _).
  - destruct X as [_ [_ X]]. rewrite X. destruct (Rcompare_spec (F2R (Float radix2 d e)) 0); auto. lra.
  - rewrite Rlt_bool_false in X by exact P. cbn in X. unfold bsingle in *. destruct (BinarySingleNaN.binary_normalize _ _ _ _ _ _ _ _); cbn in X; try discriminate. injection X as ->. reflexivity.
Qed.
Lemma scaled_le e x y : x <= y -> (scaled_int x e <= scaled_int y e)%R.
Proof. intros H. rewrite !scaled_F2R. apply F2R_le. exact H. Qed.
Lemma rnds_mono x y : (x <= y)%R -> (rnds x <= rnds y)%R.
Proof. intros H. apply round_le; auto; [apply fexp_correct; reflexivity|apply valid_rnd_N]. Qed.
Lemma single_mono e x y : 0 <= x <= y -> as_int (to_single e x) <= as_int (to_single e y).
Proof.
  intros [H0 H1]. rewrite !to_single_b. assert (N1 := bsingle_nonneg e x H0). assert (N2 := bsingle_nonneg e y ltac:(lia)).
  assert (X := binary_normalize_correct 24 128 p24 p24e mode_NE x e false). fold (bsingle e x) in X. cbv zeta in X.
  assert (Y := binary_normalize_correct 24 128 p24 p24e mode_NE y e false). fold (bsingle e y) in Y. cbv zeta in Y.
  assert (RM := rnds_mono _ _ (scaled_le e x y H1)). rewrite !scaled_F2R in RM. unfold rnd_to in RM.
  assert (R0 : (0 <= rnds (scaled_int x e))%R).
  { replace 0%R with (rnds 0) by (apply round_0, valid_rnd_N). apply rnds_mono, scaled_nonneg, H0. }
  unfold rnd_to in R0. rewrite scaled_F2R in R0. change (round_mode mode_NE) with ZnearestE in *.
  set (rx := round radix2 sfexp ZnearestE (F2R (Float radix2 x e))) in *. set (ry := round radix2 sfexp ZnearestE (F2R (Float radix2 y e))) in *.
  destruct (Rlt_bool_spec (Rabs ry) (bpow radix2 128)) as [LY|LY].
  - rewrite Rlt_bool_true in X by (rewrite Rabs_pos_eq in * by lra; lra).
    apply as_int_order; auto. assert (C := Bleb_correct _ _ (bsingle e x) (bsingle e y) (proj1 (proj2 X)) (proj1 (proj2 Y))).
    unfold Bleb in C. rewrite C, (proj1 X), (proj1 Y). apply Rle_bool_true. exact RM.
  - rewrite Rlt_bool_false in Y. 2: { apply F2R_ge_0. cbn. lia. }
    rewrite Y. change (as_int (binary_overflow 24 128 mode_NE false)) with (fields 255 0). apply as_int_nonneg, N1.
Qed.
Lemma single_zero e : as_int (to_single e 0) = 0.
Proof. reflexivity. Qed.
Lemma of_int_single e d : 0 <= d -> of_int (as_int (to_single e d)) = to_single e d.
Proof. intros H. rewrite to_single_b. apply of_as_int, bsingle_nonneg, H. Qed.

(** ** which numbers come out *)
Lemma single_generic z : single_number z -> generic_format radix2 sfexp z.
Proof.
  intros [m [e [-> [Hm He]]]]. rewrite scaled_F2R. apply (generic_format_FLT radix2 (-149) 24).
  exists (Float radix2 m e); [reflexivity|exact Hm|cbn; lia].
Qed.
Lemma finite_single (x : single) : is_finite x = true -> single_number (B2R x).
Proof.
  destruct x as [s|s| |s m e B]; try discriminate; intros _; cbn [B2R].
  - exists 0, 0. split; [rewrite scaled_F2R; symmetry; apply F2R_0|]. split; [reflexivity|lia].
  - destruct (bounded_range m e B) as [H1 [H2 _]]. exists (cond_Zopp s (Z.pos m)), e. split; [rewrite scaled_F2R; reflexivity|].
    split; [destruct s; cbn [cond_Zopp]; lia|lia].
Qed.
Definition flt_max : R := F2R (Float radix2 (2 ^ 24 - 1) 104).
Lemma range_bound x : single_range x -> (Rabs (rnds x) < bpow radix2 128)%R.
Proof.
  intros H. unfold single_range in H. rewrite scaled_F2R in H.
  assert (G : generic_format radix2 sfexp flt_max) by (apply single_generic; exists (2 ^ 24 - 1), 104; rewrite scaled_F2R; split; [reflexivity|split; [reflexivity|lia]]).
  assert (E1 : bpow radix2 128 = (flt_max + bpow radix2 104)%R).
  { unfold flt_max, F2R. cbn [Fnum Fexp]. replace 128 with (24 + 104) by lia. rewrite bpow_plus.
    replace (bpow radix2 24) with (IZR (2 ^ 24)) by reflexivity. rewrite minus_IZR. ring. }
  assert (E2 : F2R (Float radix2 (2 ^ 25 - 1) 103) = (flt_max + bpow radix2 103)%R).
  { unfold flt_max, F2R. cbn [Fnum Fexp]. replace 104 with (1 + 103) by lia. rewrite bpow_plus.
    replace (bpow radix2 1) with 2%R by reflexivity. rewrite !minus_IZR. replace (IZR (2 ^ 25)) with (2 * IZR (2 ^ 24))%R by (rewrite <- mult_IZR; reflexivity). ring. }
  assert (E3 : bpow radix2 104 = (2 * bpow radix2 103)%R) by (replace 104 with (1 + 103) by lia; rewrite bpow_plus; reflexivity).
  assert (P : (0 < bpow radix2 103)%R) by apply bpow_gt_0.
  destruct (Rle_or_lt (Rabs x) flt_max) as [L|L].
  - assert (Rabs (rnds x) <= flt_max)%R; [|lra].
    apply abs_round_le_generic; auto; [apply fexp_correct; reflexivity|apply valid_rnd_N].
  - (* nearer to the largest number than half the gap *)
    destruct (round_N_pt radix2 sfexp (fun n => negb (Z.even n)) x) as [_ N].
    change (round radix2 sfexp (Znearest (fun n => negb (Z.even n))) x) with (rnds x) in N.
    destruct (Rcase_abs x) as [S|S].
    + rewrite (Rabs_left x) in L, H by exact S. specialize (N (- flt_max)%R (generic_format_opp _ _ _ G)).
      assert (Rabs (- flt_max - x) < bpow radix2 103)%R by (rewrite Rabs_pos_eq by lra; lra).
      apply Rabs_lt. assert (Q := Rle_lt_trans _ _ _ N H0). apply Rabs_lt_inv in Q. lra.
    + rewrite (Rabs_pos_eq x) in L, H by lra. specialize (N flt_max G).
      assert (Rabs (flt_max - x) < bpow radix2 103)%R by (rewrite Rabs_left by lra; lra).
      apply Rabs_lt. assert (Q := Rle_lt_trans _ _ _ N H0). apply Rabs_lt_inv in Q. lra.
Qed.
Lemma single_value e d : single_range (scaled_int d e) ->
  float_value (to_single e d) = Some (rnds (scaled_int d e)) /\ is_finite (bsingle e d) = true /\ B2R (bsingle e d) = rnds (scaled_int d e).
Proof.
  intros H. apply range_bound in H. assert (X := binary_normalize_correct 24 128 p24 p24e mode_NE d e false). fold (bsingle e d) in X.
  cbv zeta in X. change (round_mode mode_NE) with ZnearestE in X. unfold rnd_to in *. rewrite scaled_F2R in *. rewrite Rlt_bool_true in X by exact H.
  destruct X as [X1 [X2 _]]. rewrite to_single_b, B2SF_value by exact X2. rewrite X1. auto.
Qed.
Lemma rnds_nearest e d : single_range (scaled_int d e) -> nearest_single (scaled_int d e) (rnds (scaled_int d e)).
Proof.
  intros H. destruct (single_value e d H) as [_ [F V]]. split.
  - rewrite <- V. apply finite_single, F.
  - intros z Hz. apply single_generic in Hz. destruct (round_N_pt radix2 sfexp (fun n => negb (Z.even n)) (scaled_int d e)) as [_ N]. exact (N z Hz).
Qed.
(** the error of a nearest number *)
Lemma nearest_unique_dist x y z : nearest_single x y -> nearest_single x z -> Rabs (y - x) = Rabs (z - x).
Proof. intros [A B] [C D]. apply Rle_antisym; auto. Qed.
Lemma rnds_rel x : (two_to (-126) <= Rabs x)%R -> (Rabs (rnds x - x) <= two_to (-24) * Rabs x)%R.
Proof.
  rewrite !two_to_bpow. intros H. assert (X := relative_error_N_FLT radix2 (-149) 24 ltac:(reflexivity) (fun n => negb (Z.even n)) x H).
  replace (bpow radix2 (-24)) with (/ 2 * bpow radix2 (- (24) + 1))%R; [exact X|].
  replace (- (24) + 1) with (1 + -24) by lia. rewrite bpow_plus. replace (bpow radix2 1) with 2%R by reflexivity. lra.
Qed.
Lemma rnds_abs x : (Rabs x < two_to (-126))%R -> (Rabs (rnds x - x) <= two_to (-150))%R.
Proof.
  rewrite !two_to_bpow. intros H.
  assert (X := error_le_half_ulp radix2 sfexp (fun n => negb (Z.even n)) x).
  assert (U : ulp radix2 sfexp x = bpow radix2 (-149)).
  { apply (ulp_FLT_small radix2 (-149) 24). apply Rlt_trans with (1 := H). apply bpow_lt. reflexivity. }
  rewrite U in X. replace (bpow radix2 (-150)) with (/ 2 * bpow radix2 (-149))%R; [exact X|].
  replace (-149) with (1 + -150) by lia. rewrite bpow_plus. replace (bpow radix2 1) with 2%R by reflexivity. lra.
Qed.
Lemma rnds_exact x : single_number x -> rnds x = x.
Proof. intros H. apply round_generic; [apply valid_rnd_N|]. apply single_generic, H. Qed.

(** ** the cast to the coordinate type *)
Lemma to_coord_value prec emax (x : single) : 24 <= prec -> 128 <= emax -> prec < emax -> is_finite x = true ->
  float_value (to_coord prec emax (B2SF x)) = Some (B2R x).
Proof.
  intros Hp He Hl F. destruct x as [s|s| |s m e B]; try discriminate F; cbn [B2SF to_coord]; [reflexivity|].
  destruct (bounded_range m e B) as [H1 [H2 _]].
  assert (HP : Prec_gt_0 prec) by (unfold Prec_gt_0; lia). assert (HM : Prec_lt_emax prec emax) by (unfold Prec_lt_emax; lia).
  set (z := if s then Z.neg m else Z.pos m). assert (Z1 : Z.abs z = Z.pos m) by (unfold z; destruct s; reflexivity).
  assert (Z2 : B2R (B754_finite s m e B) = scaled_int z e) by (rewrite scaled_F2R; unfold z; destruct s; reflexivity).
  assert (S := normalize_spec prec emax HP HM z e). cbv zeta in S.
  assert (G : rnd_to prec emax (scaled_int z e) = scaled_int z e).
  { apply round_generic; [apply valid_rnd_N|]. rewrite scaled_F2R. apply (generic_format_FLT radix2 (emin prec emax) prec).
    exists (Float radix2 z e); [reflexivity| |].
    - cbn [Fnum]. rewrite Z1. apply Z.lt_le_trans with (1 := H2). apply (Zpower_le radix2 24 prec). lia.
    - cbn [Fexp]. unfold emin. lia. }
  rewrite G in S. rewrite Rlt_bool_true in S; [rewrite Z2; exact S|].
  rewrite scaled_F2R, <- F2R_Zabs, Z1. apply Rlt_le_trans with (F2R (Float radix2 (2 ^ 24) 104)).
  - apply Rlt_le_trans with (F2R (Float radix2 (2 ^ 24) e)); [apply F2R_lt; exact H2|]. unfold F2R. cbn [Fnum Fexp].
    apply Rmult_le_compat_l; [apply IZR_le; lia|]. apply bpow_le. lia.
  - unfold F2R. cbn [Fnum Fexp]. replace (IZR (2 ^ 24)) with (bpow radix2 24) by reflexivity. rewrite <- bpow_plus. apply bpow_le. lia.
Qed.

(** ** overflow *)
Lemma threshold_overflows : (bpow radix2 128 <= rnds (scaled_int (2 ^ 25 - 1) 103))%R.
Proof.
  assert (S := normalize_spec 24 128 p24 p24e (2 ^ 25 - 1) 103). cbv zeta in S.
  assert (E : SpecFloat.binary_normalize 24 128 (2 ^ 25 - 1) 103 false = S754_infinity false) by (vm_compute; reflexivity).
  rewrite E in S. destruct (Rlt_bool_spec (Rabs (rnds (scaled_int (2 ^ 25 - 1) 103))) (bpow radix2 128)) as [L|L]; [discriminate|].
  rewrite Rabs_pos_eq in L; [exact L|]. replace 0%R with (rnds 0) by (apply round_0, valid_rnd_N). apply rnds_mono, scaled_nonneg. lia.
Qed.
Lemma single_overflow e d : 0 <= d -> ~ single_range (scaled_int d e) -> to_single e d = S754_infinity false.
Proof.
  intros H N. unfold single_range in N. assert (P := scaled_nonneg e d H). rewrite Rabs_pos_eq in N by exact P. apply Rnot_lt_le, rnds_mono in N.
  assert (T := threshold_overflows). assert (S := normalize_spec 24 128 p24 p24e d e). cbv zeta in S. fold (to_single e d) in S.
  rewrite Rlt_bool_false in S.
  - rewrite Rlt_bool_false in S by exact P. exact S.
  - rewrite Rabs_pos_eq; [lra|]. assert (0 < bpow radix2 128)%R by apply bpow_gt_0. lra.
Qed.
Lemma range_dec x : {single_range x} + {~ single_range x}.
Proof. unfold single_range. apply Rlt_dec. Qed.

(** ** a valid number in the sense of SpecFloat *)
Lemma valid_order x y : valid_binary 24 128 x = true -> valid_binary 24 128 y = true ->
  is_nan_SF x = false -> is_nan_SF y = false -> sign_SF x = false -> sign_SF y = false ->
  (as_int x <= as_int y <-> SFleb x y = true).
Proof.
  intros V1 V2 N1 N2 S1 S2. rewrite <- (B2SF_SF2B 24 128 x V1), <- (B2SF_SF2B 24 128 y V2).
  apply as_int_order; split; rewrite ?is_nan_SF2B, ?Bsign_SF2B; auto.
Qed.
