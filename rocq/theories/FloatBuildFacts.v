(** Facts for C96: where floating-point particles end up. *)
From Coq Require Import List Arith ZArith Bool Reals Lra Lia.
From Flocq Require Import Core Relative Mult_error.
From Verif Require Import Base Tree Spec TreeFacts GeomFacts TreeBuild BuildGeom Floats FloatFacts TravFloat TravFloatFacts FloatBuild SpecFloatBuild SpecBuild.
Import ListNotations.
Local Open Scope R_scope.

(** two sequences of prefixes with the same binary digits are equal *)
Lemma prefixes_eq (p q : nat -> Z) N :
  (p 0%nat = 0 \/ p 0%nat = 1)%Z -> (q 0%nat = 0 \/ q 0%nat = 1)%Z ->
  (forall l, (S l <= N)%nat -> (p (S l) = 2 * p l \/ p (S l) = 2 * p l + 1)%Z) ->
  (forall l, (S l <= N)%nat -> (q (S l) = 2 * q l \/ q (S l) = 2 * q l + 1)%Z) ->
  (forall l, (l <= N)%nat -> Z.odd (p l) = Z.odd (q l)) -> forall l, (l <= N)%nat -> p l = q l.
Proof.
  intros P0 Q0 PS QS O l. induction l as [|l IH]; intros Hl.
  - assert (X := O 0%nat Hl). destruct P0 as [P0|P0], Q0 as [Q0|Q0]; rewrite P0, Q0 in *; auto; discriminate X.
  - assert (X := O (S l) Hl). specialize (IH ltac:(lia)).
    destruct (PS l Hl) as [P1|P1], (QS l Hl) as [Q1|Q1]; rewrite P1, Q1, IH in *; auto; exfalso;
      rewrite ?Z.odd_add, ?Z.odd_mul in X; simpl in X; discriminate X.
Qed.
Lemma floor_double x : Zfloor (2 * x) = (2 * Zfloor x)%Z \/ Zfloor (2 * x) = (2 * Zfloor x + 1)%Z.
Proof.
  assert (H1 := Zfloor_lb x). assert (H2 := Zfloor_ub x).
  destruct (Rlt_or_le (2 * x) (IZR (2 * Zfloor x + 1))) as [C|C].
  - left. apply Zfloor_imp. rewrite plus_IZR, mult_IZR in *. lra.
  - right. apply Zfloor_imp. rewrite !plus_IZR, mult_IZR in *. lra.
Qed.
Lemma div_double x e : (0 < e)%Z -> (2 * x / e = 2 * (x / e) \/ 2 * x / e = 2 * (x / e) + 1)%Z.
Proof.
  intros He. assert (D := Z.div_mod x e ltac:(lia)). assert (M := Z.mod_pos_bound x e He).
  destruct (Z_lt_le_dec (2 * (x mod e)) e) as [C|C].
  - left. symmetry. apply (Z.div_unique _ _ _ (2 * (x mod e))); lia.
  - right. symmetry. apply (Z.div_unique _ _ _ (2 * (x mod e) - e)); lia.
Qed.

Section Place.
Variable prec : Z.
Hypothesis Hprec : (24 <= prec)%Z.
Variable huge : R.
Notation A := (rounded prec huge).
Notation rnd := (round radix2 (FLX_exp prec) ZnearestE).
Let u := bpow radix2 (- prec).
Local Instance precpos' : Prec_gt_0 prec. Proof. unfold Prec_gt_0. lia. Qed.
Variable axes : list (list R).
Hypothesis NE : forall xs, In xs axes -> xs <> [].
Hypothesis HB : forall xs x, In xs axes -> In x xs -> Rabs x <= huge.
Variable s : R.
Hypothesis S1 : exists xs x y, In xs axes /\ In x xs /\ In y xs /\ x - y = s.
Hypothesis S2 : forall xs x y, In xs axes -> In x xs -> In y xs -> x - y <= s.
Hypothesis S0 : 0 < s.
Hypothesis MAG : forall xs x, In xs axes -> In x xs -> Rabs x <= bpow radix2 (prec - 16) * s.
Notation rho := (float_root_extent A axes).

Lemma u_mag : u * bpow radix2 (prec - 16) = / 65536.
Proof. unfold u. rewrite <- bpow_plus. replace (- prec + (prec - 16))%Z with (-16)%Z by lia. simpl. lra. Qed.
Lemma extent_bounds : s <= rho <= s * (1 + / 9000).
Proof.
  destruct (extent_exact prec Hprec huge axes NE HB s S1 S2 S0) as [m [ER EM]].
  assert (U := u_bound prec Hprec). fold u in U.
  assert (Mb := r_pos prec Hprec s ltac:(lra)). rewrite <- EM in Mb. fold u in Mb.
  assert (Sb := r_pos prec Hprec (10001 / 10000) ltac:(lra)). fold u in Sb. set (st := rnd (10001 / 10000)) in *.
  assert (ST : 10001 / 10000 - / 16000000 <= st <= 10001 / 10000 + / 16000000) by lra.
  assert (MM : s * (1 - / 16777216) <= m <= s * (1 + / 16777216)) by nra.
  assert (MS : 0 <= m * st) by nra.
  assert (Rb := r_pos prec Hprec (m * st) MS). rewrite <- ER in Rb. fold u in Rb.
  assert (MST : s * (10001 / 10000 - / 5000000) <= m * st <= s * (10001 / 10000 + / 5000000)) by nra.
  set (re := rho) in *. change (num A) with R in re. clearbody re. split; nra.
Qed.
Lemma extent_fmt : generic_format radix2 (FLX_exp prec) rho.
Proof.
  destruct (extent_exact prec Hprec huge axes NE HB s S1 S2 S0) as [m [ER _]]. rewrite ER. apply generic_format_round; apply _.
Qed.

Variable xs : list R.
Hypothesis Hxs : In xs axes.
Let lo : R := axis_min A xs.
Let top : R := box_top A axes xs.
Let g := rnd (top - lo).
Let c0 := rnd (lo + rnd (g / real_of_int prec 2)).
Variable K : R.
Hypothesis HK : Rabs c0 + 2 * rho <= K.
Let w := u * K.

Lemma two : real_of_int prec 2 = 2.
Proof. unfold real_of_int. change (IZR 2) with (bpow radix2 1). apply r_bpow; auto. Qed.
Lemma lo_in : In lo xs /\ forall x, In x xs -> lo <= x.
Proof. apply (axis_min_spec prec huge xs (NE xs Hxs) (fun x => HB xs x Hxs)). Qed.
Lemma half_exact : rnd (g / 2) = g / 2.
Proof.
  apply round_generic; [apply _|]. change (g / 2) with (g * bpow radix2 (-1)). apply mult_bpow_exact_FLX. apply generic_format_round; apply _.
Qed.
Lemma top_mag : Rabs (lo + rho) <= bpow radix2 (prec - 16) * s + 2 * s.
Proof.
  destruct lo_in as [L1 _]. assert (E := extent_bounds).
  eapply Rle_trans; [apply Rabs_triang|]. apply Rplus_le_compat; [apply (MAG xs); auto|]. rewrite Rabs_pos_eq; lra.
Qed.
Lemma g_crude : Rabs (g - rho) <= rho / 1000.
Proof.
  assert (U := u_bound prec Hprec). fold u in U. assert (E := extent_bounds). assert (T := top_mag).
  assert (TE := r_rel prec Hprec (lo + rho)). fold u in TE. change (rnd (lo + rho)) with top in TE.
  assert (UA : u * Rabs (lo + rho) <= s * (/ 65536 + / 8388608)).
  { apply Rle_trans with (u * (bpow radix2 (prec - 16) * s + 2 * s)); [apply Rmult_le_compat_l; lra|].
    replace (u * (bpow radix2 (prec - 16) * s + 2 * s)) with ((u * bpow radix2 (prec - 16)) * s + 2 * u * s) by ring.
    rewrite u_mag. nra. }
  assert (GE := r_rel prec Hprec (top - lo)). fold u in GE. fold g in GE.
  apply Rabs_le_inv in TE. 
  assert (TL : Rabs (top - lo) <= 2 * s) by (apply Rabs_le; lra).
  assert (u * Rabs (top - lo) <= s * / 1000000) by nra.
  apply Rabs_le_inv in GE. apply Rabs_le. lra.
Qed.
Lemma w_rho : 2 * u * rho <= w.
Proof.
  unfold w. assert (P := Rabs_pos c0). assert (U := u_bound prec Hprec). fold u in U. nra.
Qed.
Lemma lo_K : Rabs lo + rho <= K * (1001 / 1000).
Proof.
  assert (U := u_bound prec Hprec). fold u in U. assert (E := extent_bounds). assert (GC := g_crude).
  assert (C := r_rel prec Hprec (lo + rnd (g / real_of_int prec 2))). fold u in C. fold c0 in C. rewrite two, half_exact in C.
  assert (P := Rabs_pos c0). apply Rabs_le_inv in GC.
  assert (T1 : Rabs (lo + g / 2) <= Rabs c0 + u * Rabs (lo + g / 2)).
  { assert (X := Rabs_triang c0 (- (c0 - (lo + g / 2)))). rewrite Rabs_Ropp in X. replace (c0 + - (c0 - (lo + g / 2))) with (lo + g / 2) in X by ring.
    lra. }
  assert (T2 : Rabs (lo + g / 2) <= Rabs c0 * (1 + / 8000000)) by (assert (Y := Rabs_pos (lo + g / 2)); nra).
  assert (T3 : Rabs lo <= Rabs (lo + g / 2) + g / 2).
  { assert (X := Rabs_triang (lo + g / 2) (- (g / 2))). rewrite Rabs_Ropp, (Rabs_pos_eq (g / 2)) in X by lra.
    replace (lo + g / 2 + - (g / 2)) with lo in X by ring. lra. }
  lra.
Qed.
Lemma g_err : Rabs (g - rho) <= 8 / 5 * w.
Proof.
  assert (U := u_bound prec Hprec). fold u in U. assert (E := extent_bounds).
  assert (W := w_rho). assert (LK := lo_K).
  assert (TE := r_rel prec Hprec (lo + rho)). fold u in TE. change (rnd (lo + rho)) with top in TE.
  assert (T := Rabs_triang lo rho). rewrite (Rabs_pos_eq rho) in T by lra.
  assert (TW : u * Rabs (lo + rho) <= 1001 / 1000 * w) by (unfold w; nra).
  assert (GC := g_crude). assert (GE := r_rel prec Hprec (top - lo)). fold u in GE. fold g in GE.
  assert (TL : Rabs (top - lo) <= rho * (101 / 100)).
  { assert (X := Rabs_le_inv _ _ GC). assert (Y := Rabs_le_inv _ _ GE). destruct (Rle_or_lt 0 (top - lo)) as [C|C].
    - rewrite (Rabs_pos_eq (top - lo)) in * by lra. nra.
    - exfalso. assert (g <= 0) by (unfold g; rewrite <- (round_0 radix2 (FLX_exp prec) ZnearestE); apply r_mono; auto; lra). lra. }
  assert (u * Rabs (top - lo) <= 51 / 100 * w) by nra.
  apply Rabs_le_inv in GE. apply Rabs_le_inv in TE. apply Rabs_le. lra.
Qed.
Lemma center_place : Rabs (c0 - (lo + rho / 2)) <= 11 / 5 * w.
Proof.
  assert (U := u_bound prec Hprec). fold u in U. assert (E := extent_bounds). assert (W := w_rho). assert (LK := lo_K). assert (GE := g_err).
  assert (C := r_rel prec Hprec (lo + rnd (g / real_of_int prec 2))). fold u in C. fold c0 in C. rewrite two, half_exact in C.
  assert (GC := g_crude). apply Rabs_le_inv in GC.
  assert (T := Rabs_triang lo (g / 2)). rewrite (Rabs_pos_eq (g / 2)) in T by lra.
  assert (u * Rabs (lo + g / 2) <= 1001 / 1000 * w) by (unfold w; nra).
  apply Rabs_le_inv in C. apply Rabs_le_inv in GE. apply Rabs_le. lra.
Qed.
Variable x : R.
Hypothesis Hx : In x xs.
Notation sc := (scaled A axes xs x).
Lemma scaled_range : 0 <= sc < 1.
Proof. apply (scaled_below_one prec Hprec huge axes NE HB s S1 S2 S0 MAG xs x Hxs Hx). Qed.
Lemma scaled_place : Rabs (lo + sc * rho - x) <= 27 / 10 * w.
Proof.
  assert (U := u_bound prec Hprec). fold u in U. assert (E := extent_bounds). assert (W := w_rho). assert (GE := g_err).
  assert (SR := scaled_range). destruct lo_in as [L1 L2]. specialize (L2 x Hx). assert (XS := S2 xs x lo Hxs Hx L1).
  assert (SD : sc = rnd (rnd (x - lo) / g)) by reflexivity.
  set (sg := sc) in *. change (num A) with R in sg. 
  assert (N := r_pos prec Hprec (x - lo) ltac:(lra)). fold u in N. set (n := rnd (x - lo)) in *.
  assert (GC := g_crude). apply Rabs_le_inv in GC. assert (G0 : 0 < g) by lra.
  assert (N0 : 0 <= n) by nra.
  assert (Q0 : 0 <= n / g) by (apply Rmult_le_pos; [auto|left; apply Rinv_0_lt_compat; auto]).
  assert (D := r_pos prec Hprec (n / g) Q0). fold u in D. rewrite <- SD in D.
  assert (DG : n * (1 - u) <= sg * g <= n * (1 + u)).
  { replace (n * (1 - u)) with (n / g * (1 - u) * g) by (field; lra). replace (n * (1 + u)) with (n / g * (1 + u) * g) by (field; lra).
    split; apply Rmult_le_compat_r; lra. }
  assert (UN : u * (x - lo) <= / 2 * w) by nra.
  assert (UN2 : u * n <= 51 / 100 * w) by nra.
  apply Rabs_le_inv in GE.
  assert (SGR : Rabs (sg * rho - sg * g) <= 8 / 5 * w).
  { rewrite <- Rmult_minus_distr_l, Rabs_mult, (Rabs_pos_eq sg) by lra. assert (Rabs (rho - g) <= 8 / 5 * w) by (apply Rabs_le; lra).
    assert (Y := Rabs_pos (rho - g)). nra. }
  apply Rabs_le_inv in SGR. apply Rabs_le. lra.
Qed.

(** the integer prefixes of the scaled coordinate *)
Lemma prefix_exact k : Zfloor (rnd (sc * real_of_int prec (2 ^ Z.of_nat k))) = Zfloor (sc * bpow radix2 (Z.of_nat k)).
Proof.
  unfold real_of_int. rewrite IZR_pow2, r_bpow by auto. f_equal. apply round_generic; [apply _|].
  apply mult_bpow_exact_FLX. unfold scaled. cbn [rounded div]. apply generic_format_round; apply _.
Qed.
End Place.
