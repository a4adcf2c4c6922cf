(** Facts for C75. *)
From Coq Require Import List ZArith Bool Reals Lra Lia.
From Flocq Require Import Core Relative.
From Verif Require Import Floats.
Import ListNotations.
Local Open Scope R_scope.

Section Rounded.
Variable prec : Z.
Hypothesis Hprec : (24 <= prec)%Z.
Variable huge : R.
Notation A := (rounded prec huge).
Notation rnd := (round radix2 (FLX_exp prec) ZnearestE).
Let u := / 2 * bpow radix2 (- prec + 1).
Instance prec_pos : Prec_gt_0 prec. Proof. unfold Prec_gt_0. lia. Qed.

Lemma u_small : 0 < u <= / 16777216.
Proof.
  unfold u. assert (H : bpow radix2 (- prec + 1) <= bpow radix2 (-23)) by (apply bpow_le; lia).
  assert (P := bpow_gt_0 radix2 (- prec + 1)). replace (bpow radix2 (-23)) with (/ 8388608) in H by (simpl; lra). lra.
Qed.
Lemma rnd_rel x : Rabs (rnd x - x) <= u * Rabs x.
Proof. unfold u. apply relative_error_N_FLX. lia. Qed.
Lemma rnd_pos x : 0 <= x -> x * (1 - u) <= rnd x <= x * (1 + u).
Proof. intros H. assert (E := rnd_rel x). rewrite (Rabs_pos_eq x H) in E. apply Rabs_le_inv in E. lra. Qed.
Lemma rnd_mono x y : x <= y -> rnd x <= rnd y.
Proof. apply round_le; apply _. Qed.
Lemma rnd_nonneg x : 0 <= x -> 0 <= rnd x.
Proof. intros H. rewrite <- (round_0 radix2 (FLX_exp prec) ZnearestE). apply rnd_mono. exact H. Qed.

(** ** minimum and maximum *)
Lemma fold_min_spec xs m : let r := fold_left (f_min A) xs m in
  r <= m /\ (forall x, In x xs -> r <= x) /\ (r = m \/ In r xs).
Proof.
  revert m. induction xs as [|x xs IH]; intros m r; subst r; cbn [fold_left].
  - split; [lra|]. split; [intros x []|auto].
  - destruct (IH (f_min A m x)) as [I1 [I2 I3]]. 
    assert (F : (f_min A m x <= m /\ f_min A m x <= x) /\ (f_min A m x = m \/ f_min A m x = x)).
    { unfold f_min. cbn [ltb rounded]. destruct (Rlt_bool_spec x m); cbn [num rounded] in *; lra. }
    destruct F as [[F1 F2] F3]. cbn [num rounded] in *. split; [lra|]. split.
    + intros y [->|Hy]; [lra|auto].
    + destruct I3 as [I3|I3]; [|right; right; auto]. rewrite I3. destruct F3 as [F3|F3]; rewrite F3; [left|right; left]; auto.
Qed.
Lemma fold_max_spec xs m : let r := fold_left (f_max A) xs m in
  m <= r /\ (forall x, In x xs -> x <= r) /\ (r = m \/ In r xs).
Proof.
  revert m. induction xs as [|x xs IH]; intros m r; subst r; cbn [fold_left].
  - split; [lra|]. split; [intros x []|auto].
  - destruct (IH (f_max A m x)) as [I1 [I2 I3]]. 
    assert (F : (m <= f_max A m x /\ x <= f_max A m x) /\ (f_max A m x = m \/ f_max A m x = x)).
    { unfold f_max. cbn [ltb rounded]. destruct (Rlt_bool_spec m x); cbn [num rounded] in *; lra. }
    destruct F as [[F1 F2] F3]. cbn [num rounded] in *. split; [lra|]. split.
    + intros y [->|Hy]; [lra|auto].
    + destruct I3 as [I3|I3]; [|right; right; auto]. rewrite I3. destruct F3 as [F3|F3]; rewrite F3; [left|right; left]; auto.
Qed.
Lemma axis_min_spec xs : xs <> [] -> (forall x, In x xs -> Rabs x <= huge) ->
  In (axis_min A xs) xs /\ forall x, In x xs -> axis_min A xs <= x.
Proof.
  intros NE B. destruct (fold_min_spec xs huge) as [I1 [I2 I3]]. unfold axis_min. cbn [top_num rounded] in *. split; auto.
  destruct I3 as [I3|I3]; auto. destruct xs as [|x xs]; [congruence|]. assert (H := I2 x (or_introl eq_refl)).
  assert (K := B x (or_introl eq_refl)). apply Rabs_le_inv in K. left. rewrite I3 in *. lra.
Qed.
Lemma axis_max_spec xs : xs <> [] -> (forall x, In x xs -> Rabs x <= huge) ->
  In (axis_max A xs) xs /\ forall x, In x xs -> x <= axis_max A xs.
Proof.
  intros NE B. destruct (fold_max_spec xs (- huge)) as [I1 [I2 I3]]. unfold axis_max. cbn [bottom_num rounded] in *. split; auto.
  destruct I3 as [I3|I3]; auto. destruct xs as [|x xs]; [congruence|]. assert (H := I2 x (or_introl eq_refl)).
  assert (K := B x (or_introl eq_refl)). apply Rabs_le_inv in K. left. rewrite I3 in *. lra.
Qed.

(** ** the root box *)
Variable axes : list (list R).
Hypothesis NE : forall xs, In xs axes -> xs <> [].
Hypothesis HB : forall xs x, In xs axes -> In x xs -> Rabs x <= huge.
Variable s : R.
Hypothesis S1 : exists xs x y, In xs axes /\ In x xs /\ In y xs /\ x - y = s.
Hypothesis S2 : forall xs x y, In xs axes -> In x xs -> In y xs -> x - y <= s.
Hypothesis S0 : 0 < s.

Lemma extent_exact : exists m, float_root_extent A axes = rnd (m * rnd (10001 / 10000)) /\ m = rnd s.
Proof.
  assert (E : forall xs, In xs axes -> 0 <= axis_max A xs - axis_min A xs <= s).
  { intros xs Hxs. destruct (axis_min_spec xs (NE xs Hxs) (fun x => HB xs x Hxs)) as [L1 L2].
    destruct (axis_max_spec xs (NE xs Hxs) (fun x => HB xs x Hxs)) as [U1 U2]. split; [specialize (L2 _ U1); lra|]. apply (S2 xs); auto. }
  assert (X : exists xs, In xs axes /\ axis_max A xs - axis_min A xs = s).
  { destruct S1 as [xs [x [y [Hxs [Hx [Hy D]]]]]]. exists xs. split; auto. specialize (E xs Hxs).
    destruct (axis_min_spec xs (NE xs Hxs) (fun x => HB xs x Hxs)) as [L1 L2]. destruct (axis_max_spec xs (NE xs Hxs) (fun x => HB xs x Hxs)) as [U1 U2].
    specialize (L2 _ Hy). specialize (U2 _ Hx). lra. }
  destruct axes as [|a0 rest] eqn:EA; [destruct X as [xs [[] _]]|]. cbn [float_root_extent]. 
  exists (fold_left (f_max A) (map (axis_extent A) rest) (axis_extent A a0)). split; [reflexivity|].
  destruct (fold_max_spec (map (axis_extent A) rest) (axis_extent A a0)) as [M1 [M2 M3]].
  set (m := fold_left _ _ _) in *. cbn [num rounded] in *.
  assert (AE : forall xs, axis_extent A xs = rnd (axis_max A xs - axis_min A xs)) by reflexivity.
  apply Rle_antisym.
  - destruct M3 as [M3|M3].
    + rewrite M3, AE. apply rnd_mono. apply E. left. auto.
    + apply in_map_iff in M3. destruct M3 as [xs [M3 Hxs]]. rewrite <- M3, AE. apply rnd_mono. apply E. right. auto.
  - destruct X as [xs [[->|Hxs] <-]].
    + rewrite <- AE. auto.
    + rewrite <- AE. apply M2. apply in_map. auto.
Qed.

Hypothesis MAG : forall xs x, In xs axes -> In x xs -> Rabs x <= bpow radix2 (prec - 16) * s.
Lemma u_times_big : u * bpow radix2 (prec - 16) = / 65536.
Proof.
  unfold u. rewrite Rmult_assoc, <- bpow_plus. replace (- prec + 1 + (prec - 16))%Z with (-15)%Z by lia. simpl. lra.
Qed.
Lemma scaled_below_one xs x : In xs axes -> In x xs -> 0 <= scaled A axes xs x < 1.
Proof.
  intros Hxs Hx. destruct (axis_min_spec xs (NE xs Hxs) (fun x => HB xs x Hxs)) as [L1 L2].
  unfold scaled, box_top. set (l := axis_min A xs) in *. cbn [num rounded add sub div] in *.
  destruct u_small as [U0 U1]. 
  destruct extent_exact as [m [ER EM]]. set (re := float_root_extent A axes) in *. cbn [num rounded] in *.
  assert (N := rnd_pos (x - l) ltac:(specialize (L2 _ Hx); lra)). assert (XS : x - l <= s) by (apply (S2 xs); auto).
  assert (X0 : 0 <= x - l) by (specialize (L2 _ Hx); lra).
  assert (Mb := rnd_pos s ltac:(lra)). rewrite <- EM in Mb.
  assert (Sb := rnd_pos (10001 / 10000) ltac:(lra)). set (st := rnd (10001 / 10000)) in *.
  assert (ST : 10001 / 10000 - / 16000000 <= st <= 10001 / 10000 + / 16000000) by lra.
  assert (MM : s * (1 - / 16777216) <= m <= s * (1 + / 16777216)) by nra.
  assert (MS : 0 <= m * st) by nra.
  assert (Rb := rnd_pos (m * st) MS). rewrite <- ER in Rb.
  assert (MST : s * (10001 / 10000 - / 5000000) <= m * st <= s * (10001 / 10000 + / 5000000)) by nra.
  assert (RE : s * (10001 / 10000 - / 3000000) <= re <= s * (10001 / 10000 + / 3000000)) by nra.
  assert (TE := rnd_rel (l + re)). set (top := rnd (l + re)) in *.
  assert (AL : Rabs (l + re) <= bpow radix2 (prec - 16) * s + 2 * s).
  { eapply Rle_trans; [apply Rabs_triang|]. apply Rplus_le_compat; [apply (MAG xs); auto|]. rewrite Rabs_pos_eq; nra. }
  assert (UA : u * Rabs (l + re) <= s * (/ 65536 + / 8388608)).
  { apply Rle_trans with (u * (bpow radix2 (prec - 16) * s + 2 * s)); [apply Rmult_le_compat_l; lra|].
    replace (u * (bpow radix2 (prec - 16) * s + 2 * s)) with ((u * bpow radix2 (prec - 16)) * s + 2 * u * s) by ring.
    rewrite u_times_big. nra. }
  apply Rabs_le_inv in TE.
  assert (TL : s * (10001 / 10000 - / 60000) <= top - l) by nra.
  assert (G := rnd_pos (top - l) ltac:(nra)). set (g := rnd (top - l)) in *.
  assert (GB : s * (10001 / 10000 - / 50000) <= g) by nra.
  assert (G0 : 0 < g) by nra.
  set (n := rnd (x - l)) in *. assert (N0 : 0 <= n) by nra.
  assert (NB : n <= s * (1 + / 16777216)) by nra.
  assert (Q0 : 0 <= n / g) by (apply Rmult_le_pos; [auto|left; apply Rinv_0_lt_compat; auto]).
  assert (Q : n / g <= 1 - / 20000).
  { apply Rmult_le_reg_r with g; auto. unfold Rdiv. rewrite Rmult_assoc, Rinv_l by lra. nra. }
  assert (F := rnd_pos (n / g) Q0). split; [apply rnd_nonneg; auto|]. nra.
Qed.
End Rounded.
