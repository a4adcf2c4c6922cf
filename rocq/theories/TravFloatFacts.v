(** Rounding errors of the geometric tests of TravFloat.v. *)
From Coq Require Import List Arith ZArith Bool Reals Lra Lia.
From Flocq Require Import Core Relative Mult_error.
From Verif Require Import Base Tree Spec TreeFacts Traversal GeomFacts TravRounded Floats FloatFacts TravFloat.
Import ListNotations.
Local Open Scope R_scope.

(** boxes whose distance exceeds the sum of radii keep at least twice the smaller radius *)
Lemma gap t (W : wf_tree t) n a b i : (1 <= n)%nat -> (a < nboxes t)%nat -> (b < nboxes t)%nat -> (i < dim t)%nat ->
  (let S := (2 * (Z.of_nat n - 1) + 1) * box_rad t a + box_rad t b in
   let D := Z.abs (box_center t a i - box_center t b i) in
   D <= S \/ S + 2 * Z.min (box_rad t a) (box_rad t b) <= D)%Z.
Proof.
  intros Hn Ha Hb Hi. cbv zeta.
  pose proof (box_rad_pos t W a Ha) as Pa. pose proof (box_rad_pos t W b Hb) as Pb.
  destruct (grid t W a Ha i Hi) as [ga Ga]. destruct (grid t W b Hb i Hi) as [gb Gb].
  set (o := (box_center t 0 i - level_to_rad t 0)%Z) in *. rewrite Ga, Gb.
  assert (KEY : forall x y r : Z, (0 < r)%Z -> (exists k, x + y = 2 * k)%Z ->
    (Z.abs (x * r) <= y * r \/ y * r + 2 * r <= Z.abs (x * r))%Z).
  { intros x y r Hr [k Hk]. rewrite Z.abs_mul, (Z.abs_eq r) by lia.
    assert (Z.abs x <= y \/ y + 2 <= Z.abs x)%Z as [H|H] by lia; [left|right]; nia. }
  destruct (Nat.le_ge_cases (box_level t a) (box_level t b)) as [L|L].
  - assert (E : box_rad t a = (2 ^ Z.of_nat (box_level t b - box_level t a) * box_rad t b)%Z).
    { unfold box_rad. rewrite (rad_pow t W _ (box_level t b - box_level t a)).
      - f_equal. f_equal. lia.
      - pose proof (wf_level_lt t W b Hb). lia. }
    set (k := (2 ^ Z.of_nat (box_level t b - box_level t a))%Z) in *.
    assert (Hk : (1 <= k)%Z) by (assert (0 < k)%Z by (apply Z.pow_pos_nonneg; lia); lia).
    rewrite E. set (r := box_rad t b) in *. rewrite Z.min_r by nia.
    replace (o + (2*ga+1)*(k*r) - (o + (2*gb+1)*r))%Z with (((2*ga+1)*k - (2*gb+1)) * r)%Z by ring.
    replace ((2*(Z.of_nat n - 1)+1)*(k*r) + r)%Z with (((2*(Z.of_nat n - 1)+1)*k + 1) * r)%Z by ring.
    apply KEY; auto. exists (ga * k - gb + (Z.of_nat n - 1 + 1)*k)%Z. ring.
  - assert (E : box_rad t b = (2 ^ Z.of_nat (box_level t a - box_level t b) * box_rad t a)%Z).
    { unfold box_rad. rewrite (rad_pow t W _ (box_level t a - box_level t b)).
      - f_equal. f_equal. lia.
      - pose proof (wf_level_lt t W a Ha). lia. }
    set (k := (2 ^ Z.of_nat (box_level t a - box_level t b))%Z) in *.
    assert (Hk : (1 <= k)%Z) by (assert (0 < k)%Z by (apply Z.pow_pos_nonneg; lia); lia).
    rewrite E. set (r := box_rad t a) in *. rewrite Z.min_l by nia.
    replace (o + (2*ga+1)*r - (o + (2*gb+1)*(k*r)))%Z with (((2*ga+1) - (2*gb+1)*k) * r)%Z by ring.
    replace ((2*(Z.of_nat n - 1)+1)*r + k*r)%Z with (((2*(Z.of_nat n - 1)+1) + k) * r)%Z by ring.
    apply KEY; auto. exists (ga - gb * k + Z.of_nat n - 1 + 1)%Z. ring.
Qed.

Section Facts.
Variable prec : Z.
Hypothesis Hprec : (24 <= prec)%Z.
Notation A := (rounded_trav prec).
Notation rnd := (round radix2 (FLX_exp prec) ZnearestE).
Notation fmt := (generic_format radix2 (FLX_exp prec)).
Let u := bpow radix2 (- prec).
Local Instance precpos : Prec_gt_0 prec. Proof. unfold Prec_gt_0. lia. Qed.

Lemma u_half : / 2 * bpow radix2 (- prec + 1) = u.
Proof. unfold u. rewrite bpow_plus. simpl. lra. Qed.
Lemma u_bound : 0 < u <= / 16777216.
Proof. rewrite <- u_half. apply u_small; auto. Qed.
Lemma r_rel x : Rabs (rnd x - x) <= u * Rabs x.
Proof. rewrite <- u_half. apply rnd_rel; auto. Qed.
Lemma r_pos x : 0 <= x -> x * (1 - u) <= rnd x <= x * (1 + u).
Proof. rewrite <- u_half. apply rnd_pos; auto. Qed.
Lemma r_mono x y : x <= y -> rnd x <= rnd y.
Proof. apply rnd_mono; auto. Qed.
Lemma fmt_int z : (Z.abs z < 2 ^ prec)%Z -> fmt (IZR z).
Proof.
  intros H. apply generic_format_FLX. exists (Float radix2 z 0); [unfold F2R; simpl; lra|exact H].
Qed.
Lemma r_int z : (Z.abs z < 2 ^ prec)%Z -> rnd (IZR z) = IZR z.
Proof. intros H. apply round_generic; auto with typeclass_instances. apply fmt_int; auto. Qed.
Lemma prec_big : (16777216 <= 2 ^ prec)%Z.
Proof. change 16777216%Z with (2 ^ 24)%Z. apply Z.pow_le_mono_r; lia. Qed.
Lemma r_small z : (Z.abs z < 16777216)%Z -> rnd (IZR z) = IZR z.
Proof. intros H. apply r_int. assert (P := prec_big). lia. Qed.
Lemma r_bpow e : rnd (bpow radix2 e) = bpow radix2 e.
Proof. apply round_generic; auto with typeclass_instances. apply generic_format_bpow. unfold FLX_exp. lia. Qed.
Lemma IZR_pow2 k : IZR (2 ^ Z.of_nat k) = bpow radix2 (Z.of_nat k).
Proof. rewrite <- IZR_Zpower by lia. reflexivity. Qed.

Variable t : tree.
Hypothesis W : wf_tree t.
Variable G : float_geometry R.
Notation rho := (f_extent G).
Notation c0 := (f_root_center G).
Hypothesis Frho : fmt rho.
Hypothesis Prho : 0 < rho.
Variable n : nat.
Hypothesis Hn : (1 <= n)%nat.
Variable K : R.
Hypothesis HK : forall i, (i < dim t)%nat -> Rabs (c0 i) + 2 * rho <= K.
Hypothesis HK2 : 2 * rho <= K.
Let w := u * K.
Let L := INR (nlevels t).
Let rmin := rho * bpow radix2 (- Z.of_nat (nlevels t)).
Hypothesis COND : (4 * L + 4 * INR n + 20) * w < rmin.

(** ** radii *)
Definition rad (l : nat) : R := rho * bpow radix2 (- (Z.of_nat l + 1)).
Lemma f_rad_exact l : f_rad A G l = rad l.
Proof.
  unfold f_rad, rad. cbn [num base rounded_trav rounded div mul of_int].
  change (rnd (IZR 1)) with (rnd (bpow radix2 0)). rewrite r_bpow. simpl (bpow radix2 0). rewrite Rmult_1_r.
  rewrite (round_generic radix2 (FLX_exp prec) ZnearestE rho) by auto. rewrite IZR_pow2, r_bpow.
  unfold Rdiv. rewrite <- bpow_opp. replace (- (Z.of_nat l + 1))%Z with (- Z.of_nat (l + 1))%Z by lia.
  apply round_generic; auto with typeclass_instances. apply mult_bpow_exact_FLX; auto.
Qed.
Lemma rad_pos' l : 0 < rad l.
Proof. unfold rad. assert (P := bpow_gt_0 radix2 (- (Z.of_nat l + 1))). nra. Qed.
Lemma rad_half l : rad l = 2 * rad (S l).
Proof.
  unfold rad. replace (- (Z.of_nat l + 1))%Z with (1 + - (Z.of_nat (S l) + 1))%Z by lia. rewrite bpow_plus. simpl (bpow radix2 1). lra.
Qed.
Lemma rad_0 : rad 0 = rho / 2.
Proof. unfold rad. simpl. lra. Qed.
Lemma rad_le l : rad l <= rho / 2.
Proof. induction l as [|l IH]; [rewrite rad_0; lra|]. rewrite rad_half in IH. assert (P := rad_pos' (S l)). lra. Qed.
Lemma rad_min l : (l < nlevels t)%nat -> rmin <= rad l.
Proof. intros H. unfold rmin, rad. apply Rmult_le_compat_l; [lra|]. apply bpow_le. lia. Qed.
Let h := rho / IZR (root_extent t).
Lemma ext_pos : 0 < IZR (root_extent t).
Proof. apply (IZR_lt 0). apply (wf_extent_pos t W). Qed.
Lemma h_pos : 0 < h.
Proof. unfold h. apply Rdiv_lt_0_compat; auto using ext_pos. Qed.
Lemma h_rad l : (l < nlevels t)%nat -> rad l = h * IZR (level_to_rad t l).
Proof.
  intros H. unfold level_to_rad.
  destruct (wf_extent_div t W) as [q Hq].
  assert (E : (root_extent t = root_extent t / 2 ^ Z.of_nat (l + 1) * 2 ^ Z.of_nat (l + 1))%Z).
  { assert (M : (root_extent t mod 2 ^ Z.of_nat (l + 1) = 0)%Z).
    { rewrite Hq. replace (Z.of_nat (nlevels t)) with (Z.of_nat (nlevels t - (l + 1)) + Z.of_nat (l + 1))%Z by lia.
      rewrite Z.pow_add_r, Z.mul_assoc by lia. apply Z.mod_mul. assert (0 < 2 ^ Z.of_nat (l + 1))%Z by (apply Z.pow_pos_nonneg; lia). lia. }
    assert (0 < 2 ^ Z.of_nat (l + 1))%Z by (apply Z.pow_pos_nonneg; lia).
    rewrite (Z.div_mod (root_extent t) (2 ^ Z.of_nat (l + 1))) at 1 by lia. lia. }
  unfold h, rad. assert (X := ext_pos). set (z := (root_extent t / 2 ^ Z.of_nat (l + 1))%Z) in *.
  rewrite E, mult_IZR, IZR_pow2. replace (- (Z.of_nat l + 1))%Z with (- Z.of_nat (l + 1))%Z by lia. rewrite bpow_opp.
  assert (B := bpow_gt_0 radix2 (Z.of_nat (l + 1))). rewrite E, mult_IZR, IZR_pow2 in X.
  assert (IZR z <> 0). { intros Z0. rewrite Z0 in X. lra. }
  field. split; [lra|auto].
Qed.
Lemma h_box_rad b : (b < nboxes t)%nat -> rad (box_level t b) = h * IZR (box_rad t b).
Proof. intros H. apply h_rad. apply (wf_level_lt t W); auto. Qed.

(** ** the scale of the errors *)
Lemma rmin_rho : rmin <= rho / 2.
Proof.
  assert (H := wf_level_lt t W 0 (wf_nboxes t W)). eapply Rle_trans; [apply (rad_min 0); lia|]. rewrite rad_0. lra.
Qed.
Lemma K_pos : 0 < K. Proof. lra. Qed.
Lemma w_pos : 0 < w. Proof. unfold w. apply Rmult_lt_0_compat; [apply u_bound|apply K_pos]. Qed.
Lemma L_ge : 1 <= L.
Proof. unfold L. change 1 with (INR 1). apply le_INR. assert (H := wf_level_lt t W 0 (wf_nboxes t W)). lia. Qed.
Lemma n_ge : 1 <= INR n.
Proof. change 1 with (INR 1). apply le_INR. auto. Qed.

(** ** centers *)
Definition E (b i : nat) : R := c0 i + h * IZR (box_center t b i - box_center t 0 i).
Lemma morton_of_child b : (0 < b)%nat -> (b < nboxes t)%nat ->
  (morton_of t b < nchildren t)%nat /\ box_child t (morton_of t b) (box_parent t b) = b.
Proof.
  intros H0 Hb. destruct (wf_parent t W b H0 Hb) as [Hp [m [Hm Hc]]]. unfold morton_of.
  destruct (find _ _) as [m'|] eqn:F.
  - apply find_some in F. destruct F as [F1 F2]. apply in_seq in F1. apply Nat.eqb_eq in F2. split; [lia|auto].
  - eapply find_none in F; [|apply in_seq; split; [apply Nat.le_0_l|exact Hm]]. apply Nat.eqb_neq in F. congruence.
Qed.
Lemma E_child b i : (0 < b)%nat -> (b < nboxes t)%nat -> (i < dim t)%nat ->
  E b i = if Nat.testbit (morton_of t b) (dim t - 1 - i) then E (box_parent t b) i + rad (box_level t b)
          else E (box_parent t b) i - rad (box_level t b).
Proof.
  intros H0 Hb Hi. destruct (morton_of_child b H0 Hb) as [M1 M2].
  destruct (wf_child t W (morton_of t b) (box_parent t b) (parent_lt t W b Hb) M1) as [_ [_ C]]; [lia|].
  specialize (C i Hi). rewrite M2 in C. unfold E. rewrite C. unfold morton_sign.
  rewrite (h_box_rad b Hb).
  destruct (Nat.testbit _ _); rewrite !minus_IZR, plus_IZR, mult_IZR; ring.
Qed.
Lemma E_bound l : forall b i, (b < nboxes t)%nat -> (i < dim t)%nat -> box_level t b = l -> Rabs (E b i - c0 i) + rad l <= rho / 2.
Proof.
  induction l as [|l IH]; intros b i Hb Hi Hl.
  - apply (level_0 t W) in Hl; auto. subst b. unfold E. rewrite Z.sub_diag, Rmult_0_r. rewrite rad_0.
    replace (c0 i + 0 - c0 i) with 0 by ring. rewrite Rabs_R0. lra.
  - assert (H0 : (0 < b)%nat). { destruct b; [rewrite (wf_root_level t W) in Hl; discriminate|lia]. }
    assert (PL := parent_level t W b Hb H0). specialize (IH (box_parent t b) i (parent_lt t W b Hb) Hi ltac:(lia)).
    rewrite E_child by auto. rewrite Hl. rewrite rad_half in IH. assert (P := rad_pos' (S l)).
    destruct (Nat.testbit _ _).
    + replace (E (box_parent t b) i + rad (S l) - c0 i) with ((E (box_parent t b) i - c0 i) + rad (S l)) by ring.
      assert (T := Rabs_triang (E (box_parent t b) i - c0 i) (rad (S l))). rewrite (Rabs_pos_eq (rad (S l))) in T by lra. lra.
    + replace (E (box_parent t b) i - rad (S l) - c0 i) with ((E (box_parent t b) i - c0 i) + - rad (S l)) by ring.
      assert (T := Rabs_triang (E (box_parent t b) i - c0 i) (- rad (S l))). rewrite Rabs_Ropp, (Rabs_pos_eq (rad (S l))) in T by lra. lra.
Qed.
Lemma E_abs b i : (b < nboxes t)%nat -> (i < dim t)%nat -> Rabs (E b i) <= K - rho.
Proof.
  intros Hb Hi. assert (H := E_bound _ b i Hb Hi eq_refl). assert (P := rad_pos' (box_level t b)). assert (X := HK i Hi).
  assert (T := Rabs_triang (E b i - c0 i) (c0 i)). replace (E b i - c0 i + c0 i) with (E b i) in T by ring. lra.
Qed.
Lemma round_err x y e B : Rabs (x - y) <= e -> Rabs x <= B -> Rabs (rnd x - y) <= e + u * B.
Proof.
  intros H1 H2. assert (H := r_rel x). assert (U := u_bound).
  replace (rnd x - y) with ((rnd x - x) + (x - y)) by ring.
  eapply Rle_trans; [apply Rabs_triang|]. assert (u * Rabs x <= u * B) by (apply Rmult_le_compat_l; lra). lra.
Qed.
Lemma lev_err l : (l <= nlevels t)%nat -> INR l * w <= rho / 2.
Proof.
  intros H. apply le_INR in H. fold L in H. assert (P := w_pos). assert (R := rmin_rho). assert (N := n_ge).
  assert (INR l * w <= (4 * L + 4 * INR n + 20) * w).
  { apply Rmult_le_compat_r; [lra|]. assert (0 <= INR l) by apply pos_INR. lra. } lra.
Qed.
Lemma center_err l : forall b i, (b < nboxes t)%nat -> (i < dim t)%nat -> box_level t b = l ->
  Rabs (f_center_at A t G l b i - E b i) <= INR l * w.
Proof.
  induction l as [|l IH]; intros b i Hb Hi Hl.
  - apply (level_0 t W) in Hl; auto. subst b. cbn [f_center_at]. unfold E. rewrite Z.sub_diag, Rmult_0_r.
    change (Rabs (c0 i - (c0 i + 0)) <= INR 0 * w). replace (c0 i - (c0 i + 0)) with 0 by ring. rewrite Rabs_R0. simpl. lra.
  - assert (H0 : (0 < b)%nat). { destruct b; [rewrite (wf_root_level t W) in Hl; discriminate|lia]. }
    assert (PL := parent_level t W b Hb H0). specialize (IH (box_parent t b) i (parent_lt t W b Hb) Hi ltac:(lia)).
    cbn [f_center_at]. cbv zeta. rewrite f_rad_exact. assert (EC := E_child b i H0 Hb Hi).
    assert (EA := E_abs b i Hb Hi). assert (LE := lev_err l ltac:(assert (X := wf_level_lt t W b Hb); lia)).
    set (c := f_center_at A t G l (box_parent t b) i) in *. cbn [num base rounded_trav rounded] in c.
    rewrite S_INR. replace ((INR l + 1) * w) with (INR l * w + u * K) by (unfold w; ring).
    cbn [num base rounded_trav rounded add sub].
    assert (X : forall y, Rabs (y - E b i) <= INR l * w -> Rabs y <= K).
    { intros y Hy. assert (T := Rabs_triang (y - E b i) (E b i)). replace (y - E b i + E b i) with y in T by ring. lra. }
    destruct (Nat.testbit _ _); apply round_err.
    2, 4: apply X. all: rewrite EC.
    all: match goal with |- Rabs ?a <= _ => replace a with (c - E (box_parent t b) i) by ring end; exact IH.
Qed.

(** ** distances *)
Definition e1 : R := (2 * L + 2) * w.
Lemma axis_err a b i : (a < nboxes t)%nat -> (b < nboxes t)%nat -> (i < dim t)%nat ->
  Rabs (abs A (sub A (f_center A t G a i) (f_center A t G b i)) - Rabs (E a i - E b i)) <= e1.
Proof.
  intros Ha Hb Hi. cbn [num base rounded_trav rounded abs sub].
  assert (CA := center_err _ a i Ha Hi eq_refl). assert (CB := center_err _ b i Hb Hi eq_refl).
  fold (f_center A t G a i) in CA. fold (f_center A t G b i) in CB.
  set (x := f_center A t G a i) in *. set (y := f_center A t G b i) in *. cbn [num base rounded_trav rounded] in x, y.
  assert (LA := wf_level_lt t W a Ha). assert (LB := wf_level_lt t W b Hb).
  apply Nat.lt_le_incl in LA, LB. assert (XA := lev_err _ LA). assert (XB := lev_err _ LB).
  apply le_INR in LA, LB. fold L in LA, LB. assert (P := w_pos).
  assert (INR (box_level t a) * w <= L * w) by (apply Rmult_le_compat_r; lra).
  assert (INR (box_level t b) * w <= L * w) by (apply Rmult_le_compat_r; lra).
  assert (D : Rabs (x - y - (E a i - E b i)) <= 2 * L * w).
  { replace (x - y - (E a i - E b i)) with ((x - E a i) + - (y - E b i)) by ring.
    eapply Rle_trans; [apply Rabs_triang|]. rewrite Rabs_Ropp. lra. }
  assert (B : Rabs (x - y) <= 2 * K).
  { assert (EA := E_abs a i Ha Hi). assert (EB := E_abs b i Hb Hi).
    replace (x - y) with ((x - E a i) + - (y - E b i) + E a i + - E b i) by ring.
    eapply Rle_trans; [apply Rabs_triang|]. rewrite (Rabs_Ropp (E b i)).
    assert (T := Rabs_triang (x - E a i + - (y - E b i)) (E a i)). assert (T2 := Rabs_triang (x - E a i) (- (y - E b i))).
    rewrite Rabs_Ropp in T2. lra. }
  assert (Q := round_err _ _ _ _ D B). eapply Rle_trans; [apply Rabs_triang_inv2|].
  unfold e1. replace ((2 * L + 2) * w) with (2 * L * w + u * (2 * K)) by (unfold w; ring). exact Q.
Qed.
Lemma f_max_R (x y : R) : f_max A x y = Rmax x y.
Proof.
  unfold f_max. cbn [num base rounded_trav rounded ltb]. unfold Rmax.
  destruct (Rlt_bool_spec x y); destruct (Rle_dec x y); try lra; auto.
Qed.
Lemma fold_Rmax (f : nat -> R) l : forall acc x,
  (fold_left (fun acc i => f_max A acc (f i)) l acc <= x <-> acc <= x /\ forall i, In i l -> f i <= x).
Proof.
  induction l as [|y l IH]; intros acc x; cbn [fold_left].
  - split; [intros H; split; [exact H|intros i []]|tauto].
  - rewrite IH, f_max_R. split.
    + intros [H1 H2]. assert (M1 := Rmax_l acc (f y)). assert (M2 := Rmax_r acc (f y)). split; [lra|].
      intros i [<-|Hi]; [lra|auto].
    + intros [H1 H2]. split; [|intros i Hi; apply H2; right; auto]. apply Rmax_lub; auto. apply H2. left; auto.
Qed.
Lemma linf_le_iff a b x : (f_linf A t G a b : R) <= x <->
  0 <= x /\ forall i, (i < dim t)%nat -> (abs A (sub A (f_center A t G a i) (f_center A t G b i)) : R) <= x.
Proof.
  unfold f_linf, f_max_axes. change (of_int A 0) with (rnd 0). rewrite round_0 by auto with typeclass_instances.
  rewrite (fold_Rmax (fun i => abs A (sub A (f_center A t G a i) (f_center A t G b i)))).
  split; intros [H1 H2]; split; auto; intros i Hi; apply H2; [apply in_seq|apply in_seq in Hi]; lia.
Qed.
Lemma linf_upper a b x : (a < nboxes t)%nat -> (b < nboxes t)%nat -> 0 <= x ->
  (forall i, (i < dim t)%nat -> Rabs (E a i - E b i) <= x) -> (f_linf A t G a b : R) <= x + e1.
Proof.
  intros Ha Hb Hx H. apply linf_le_iff. assert (P := w_pos). assert (LG := L_ge). split; [unfold e1; nra|].
  intros i Hi. assert (Q := axis_err a b i Ha Hb Hi). apply Rabs_le_inv in Q. specialize (H i Hi). lra.
Qed.
Lemma linf_lower a b i : (a < nboxes t)%nat -> (b < nboxes t)%nat -> (i < dim t)%nat ->
  Rabs (E a i - E b i) - e1 <= (f_linf A t G a b : R).
Proof.
  intros Ha Hb Hi. assert (Q := axis_err a b i Ha Hb Hi). apply Rabs_le_inv in Q.
  destruct (proj1 (linf_le_iff a b (f_linf A t G a b)) (Rle_refl _)) as [_ X]. specialize (X i Hi). lra.
Qed.
Lemma linf_pos a b : 0 <= (f_linf A t G a b : R).
Proof. apply (linf_le_iff a b (f_linf A t G a b)). apply Rle_refl. Qed.
Lemma E_diff a b i : Rabs (E a i - E b i) = h * IZR (Z.abs (box_center t a i - box_center t b i)).
Proof.
  unfold E. replace (c0 i + h * IZR (box_center t a i - box_center t 0 i) - (c0 i + h * IZR (box_center t b i - box_center t 0 i)))
    with (h * IZR (box_center t a i - box_center t b i)) by (rewrite !minus_IZR; ring).
  rewrite Rabs_mult, (Rabs_pos_eq h) by (assert (P := h_pos); lra). rewrite abs_IZR. auto.
Qed.
Lemma f_min_R (x y : R) : f_min A x y = Rmin x y.
Proof.
  unfold f_min. cbn [num base rounded_trav rounded ltb]. unfold Rmin.
  destruct (Rlt_bool_spec y x); destruct (Rle_dec x y); try lra; auto.
Qed.

(** ** the adjacency test *)
Lemma n_small : (Z.of_nat n < 2 ^ (prec - 3))%Z.
Proof.
  apply lt_IZR. rewrite <- INR_IZR_INZ. change 2%Z with (radix_val radix2). rewrite IZR_Zpower by lia.
  assert (B : bpow radix2 (prec - 3) * u = / 8).
  { unfold u. rewrite <- bpow_plus. replace (prec - 3 + - prec)%Z with (-3)%Z by lia. simpl. lra. }
  destruct u_bound as [U _]. assert (KP := K_pos). assert (R := rmin_rho). assert (LG := L_ge). assert (WP := w_pos).
  assert (X : INR n * w < rho / 8).
  { assert (4 * (INR n * w) <= (4 * L + 4 * INR n + 20) * w) by nra. lra. }
  assert (Y : INR n * u < / 8).
  { unfold w in X. assert (INR n * u * K < / 16 * K) by lra. apply Rmult_lt_reg_r with K; auto. lra. }
  apply Rmult_lt_reg_r with u; auto. lra.
Qed.
Definition mult : R := 2 * INR n - 1.
Lemma mult_exact : add A (mul A (of_int A 2) (sub A (of_int A (Z.of_nat n)) (of_int A 1))) (of_int A 1) = mult.
Proof.
  assert (N := n_small). assert (P : (2 ^ prec = 8 * 2 ^ (prec - 3))%Z).
  { replace prec with (3 + (prec - 3))%Z at 1 by lia. rewrite Z.pow_add_r by lia. reflexivity. }
  cbn [num base rounded_trav rounded add mul sub of_int].
  rewrite (r_small 2), (r_small 1) by lia. rewrite (r_int (Z.of_nat n)) by lia. rewrite <- minus_IZR, r_int by lia.
  rewrite <- mult_IZR, r_int by lia. rewrite <- plus_IZR, r_int by lia. unfold mult. rewrite INR_IZR_INZ.
  rewrite plus_IZR, mult_IZR, minus_IZR. ring.
Qed.
Lemma slack_err ra rb : 0 < ra <= rho / 2 -> 0 < rb <= rho / 2 ->
  Rabs (rnd (rnd (rnd (mult * ra) + rb) + Rmin ra rb) - (mult * ra + rb + Rmin ra rb)) <= 4 * INR n * w.
Proof.
  intros Ha Hb. assert (NG := n_ge). destruct u_bound as [U U2]. assert (KP := K_pos).
  assert (M : 1 <= mult) by (unfold mult; lra).
  assert (MN : 0 < Rmin ra rb <= rho / 2).
  { split; [apply Rmin_pos; lra|]. assert (X := Rmin_l ra rb). lra. }
  set (mn := Rmin ra rb) in *. clearbody mn.
  assert (P0 : 0 <= mult * ra <= mult * (K / 4)) by (split; [nra|apply Rmult_le_compat_l; lra]).
  assert (P1 := r_pos _ (proj1 P0)). set (p1 := rnd (mult * ra)) in *. clearbody p1.
  assert (D1 : Rabs (p1 - mult * ra) <= u * (mult * (K / 4))).
  { apply Rabs_le. assert (u * (mult * ra) <= u * (mult * (K / 4))) by (apply Rmult_le_compat_l; lra). lra. }
  assert (B1 : 0 <= p1 <= mult * (K / 2)) by nra.
  assert (D2 : Rabs (p1 + rb - (mult * ra + rb)) <= u * (mult * (K / 4))).
  { replace (p1 + rb - (mult * ra + rb)) with (p1 - mult * ra) by ring. exact D1. }
  assert (P2 := r_pos (p1 + rb) ltac:(lra)).
  assert (Q2 := round_err _ _ _ (mult * (K / 2) + K / 4) D2 ltac:(rewrite Rabs_pos_eq; lra)).
  set (p2 := rnd (p1 + rb)) in *. clearbody p2.
  assert (B2 : 0 <= p2 <= mult * K + K / 2) by nra.
  assert (D3 : Rabs (p2 + mn - (mult * ra + rb + mn)) <= u * (mult * (K / 4)) + u * (mult * (K / 2) + K / 4)).
  { replace (p2 + mn - (mult * ra + rb + mn)) with (p2 - (mult * ra + rb)) by ring. exact Q2. }
  assert (Q3 := round_err _ _ _ (mult * K + K / 2 + K / 4) D3 ltac:(rewrite Rabs_pos_eq; lra)).
  eapply Rle_trans; [exact Q3|]. unfold w, mult. assert (0 < u * K) by nra. nra.
Qed.
Lemma f_adjacent_exact a b : (a < nboxes t)%nat -> (b < nboxes t)%nat ->
  f_adjacent A t G n a (box_level t a) b (box_level t b) = adj_n t n a b.
Proof.
  intros Ha Hb. unfold f_adjacent. cbv zeta. rewrite !f_rad_exact, f_min_R, mult_exact.
  assert (La := wf_level_lt t W a Ha). assert (Lb := wf_level_lt t W b Hb).
  assert (SE := slack_err (rad (box_level t a)) (rad (box_level t b)) (conj (rad_pos' _) (rad_le _)) (conj (rad_pos' _) (rad_le _))).
  change (Rle_bool (f_linf A t G a b) (rnd (rnd (rnd (mult * rad (box_level t a)) + rad (box_level t b)) + Rmin (rad (box_level t a)) (rad (box_level t b)))) = adj_n t n a b).
  set (sl := rnd (rnd (rnd _ + _) + _)) in *. clearbody sl. apply Rabs_le_inv in SE.
  assert (MN : rmin <= Rmin (rad (box_level t a)) (rad (box_level t b))) by (apply Rmin_glb; apply rad_min; auto).
  assert (SZ : mult * rad (box_level t a) + rad (box_level t b) = h * IZR ((2 * (Z.of_nat n - 1) + 1) * box_rad t a + box_rad t b)).
  { rewrite !h_box_rad by auto. unfold mult. rewrite !plus_IZR, !mult_IZR, plus_IZR, mult_IZR, minus_IZR, <- INR_IZR_INZ. ring. }
  assert (MZ : Rmin (rad (box_level t a)) (rad (box_level t b)) = h * IZR (Z.min (box_rad t a) (box_rad t b))).
  { rewrite !h_box_rad by auto. assert (HP := h_pos). unfold Rmin. destruct (Rle_dec _ _) as [C|C].
    - rewrite Z.min_l; auto. apply le_IZR. apply Rmult_le_reg_l with h; auto.
    - rewrite Z.min_r; auto. apply le_IZR. apply Rmult_le_reg_l with h; auto. lra. }
  assert (WP := w_pos). assert (LG := L_ge). assert (NG := n_ge). assert (HP := h_pos).
  assert (C1 : e1 + 4 * INR n * w < rmin) by (unfold e1; nra).
  destruct (adj_n t n a b) eqn:AD.
  - apply (adj_n_near t W) in AD; auto. apply Rle_bool_true.
    assert (X := linf_upper a b (mult * rad (box_level t a) + rad (box_level t b)) Ha Hb).
    assert (P1 := rad_pos' (box_level t a)). assert (P2 := rad_pos' (box_level t b)).
    specialize (X ltac:(unfold mult; nra)).
    assert (Y : forall i, (i < dim t)%nat -> Rabs (E a i - E b i) <= mult * rad (box_level t a) + rad (box_level t b)).
    { intros i Hi. rewrite E_diff, SZ. apply Rmult_le_compat_l; [lra|]. apply IZR_le. apply (AD i Hi). }
    specialize (X Y). lra.
  - apply (adj_n_not_near t W) in AD; auto. apply Rle_bool_false.
    assert (EX : exists i, (i < dim t)%nat /\ ~ (Z.abs (box_center t a i - box_center t b i) <= (2 * (Z.of_nat n - 1) + 1) * box_rad t a + box_rad t b)%Z).
    { clear - AD. unfold near in AD. revert AD. generalize (dim t) as d. induction d as [|d IH]; intros AD.
      - destruct AD. intros i Hi. lia.
      - destruct (Z_le_dec (Z.abs (box_center t a d - box_center t b d)) ((2 * (Z.of_nat n - 1) + 1) * box_rad t a + box_rad t b)) as [Y|Y].
        + destruct IH as [i [Hi N]].
          * intros H. apply AD. intros i Hi. destruct (Nat.eq_dec i d) as [->|NE]; auto. apply H. lia.
          * exists i. split; [lia|auto].
        + exists d. split; [lia|auto]. }
    destruct EX as [i [Hi N]]. destruct (gap t W n a b i Hn Ha Hb Hi) as [C|C]; [contradiction|].
    assert (X := linf_lower a b i Ha Hb Hi). rewrite E_diff in X.
    apply IZR_le in C. rewrite plus_IZR, mult_IZR in C. apply (Rmult_le_compat_l h) in C; [|lra].
    rewrite Rmult_plus_distr_l in C. rewrite <- SZ in C. replace (h * (2 * IZR (Z.min (box_rad t a) (box_rad t b)))) with (2 * (h * IZR (Z.min (box_rad t a) (box_rad t b)))) in C by ring.
    rewrite <- MZ in C. lra.
Qed.

(** ** the separation test of list 4 *)
Hypothesis Hso : 0 <= f_stick_out G.
Lemma r_twice x : rnd (2 * x) = 2 * rnd x.
Proof.
  destruct (Req_dec x 0) as [->|NZ]. { rewrite Rmult_0_r, round_0 by auto with typeclass_instances. ring. }
  replace (2 * x) with (x * bpow radix2 1) by (change (bpow radix2 1) with 2; ring).
  unfold round, scaled_mantissa, cexp, F2R. cbn [Fnum Fexp]. unfold FLX_exp. rewrite mag_mult_bpow by auto.
  replace (x * bpow radix2 1 * bpow radix2 (- (mag radix2 x + 1 - prec))) with (x * bpow radix2 (- (mag radix2 x - prec))).
  2:{ rewrite Rmult_assoc, <- bpow_plus. do 2 f_equal. lia. }
  replace (mag radix2 x + 1 - prec)%Z with (1 + (mag radix2 x - prec))%Z by lia. rewrite bpow_plus. change (bpow radix2 1) with 2. ring.
Qed.
Definition allowed_factor : R := rnd (rnd 3 * rnd (rnd 1 + f_stick_out G)).
Lemma allowed_ge : 3 <= allowed_factor.
Proof.
  unfold allowed_factor. rewrite (r_small 3), (r_small 1) by lia.
  assert (1 <= rnd (1 + f_stick_out G)). { rewrite <- (r_small 1) at 1 by lia. apply r_mono. lra. }
  rewrite <- (r_small 3) at 1 by lia. apply r_mono. nra.
Qed.
Definition shrink : R := rnd (rnd 1 - rnd (rnd 8 * bpow radix2 (1 - prec))).
Lemma shrink_bound : 1 - / 100000 <= shrink <= 1.
Proof.
  unfold shrink. rewrite (r_small 1), (r_small 8) by lia. change (IZR 8) with (bpow radix2 3). rewrite <- bpow_plus, r_bpow.
  assert (B := bpow_gt_0 radix2 (3 + (1 - prec))).
  assert (C : bpow radix2 (3 + (1 - prec)) <= bpow radix2 (-20)) by (apply bpow_le; lia).
  replace (bpow radix2 (-20)) with (/ 1048576) in C by (simpl; lra). destruct u_bound as [U1 U2].
  assert (P := r_pos (1 - bpow radix2 (3 + (1 - prec))) ltac:(lra)). split; [nra|].
  rewrite <- (r_small 1) at 2 by lia. apply r_mono. lra.
Qed.
Definition threshold (rt rs : R) : R := rnd (rnd (rnd (allowed_factor * rt) + rs) * shrink).
Lemma threshold_gap r rs : rmin <= r -> r <= rho / 2 -> 0 < rs <= rho / 2 -> threshold r rs + r + 2 * e1 <= threshold (2 * r) rs.
Proof.
  intros H1 H2 H3. unfold threshold. replace (allowed_factor * (2 * r)) with (2 * (allowed_factor * r)) by ring. rewrite r_twice.
  assert (AG := allowed_ge). destruct u_bound as [U1 U2]. destruct shrink_bound as [S1 S2]. assert (WP := w_pos).
  assert (LG := L_ge). assert (NG := n_ge). assert (RP : 0 < r).
  { assert (0 < (4 * L + 4 * INR n + 20) * w) by (apply Rmult_lt_0_compat; lra). lra. }
  assert (Y := r_pos (allowed_factor * r) ltac:(nra)). set (y := rnd (allowed_factor * r)) in *. clearbody y.
  assert (Y0 : 29 / 10 * r <= y) by nra. clear Y.
  assert (P := r_pos (2 * y + rs) ltac:(lra)). assert (Q := r_pos (y + rs) ltac:(lra)).
  set (p := rnd (2 * y + rs)) in *. set (q := rnd (y + rs)) in *. clearbody p q.
  assert (Pp : 0 <= p) by nra. assert (Qp : 0 <= q) by nra.
  assert (P' := r_pos (p * shrink) ltac:(nra)). assert (Q' := r_pos (q * shrink) ltac:(nra)).
  assert (UR : u * rs <= w). { unfold w. apply Rmult_le_compat_l; lra. }
  assert (E1 : 0 <= e1) by (unfold e1; nra).
  assert (COND' : 4 * e1 + 28 * w <= 2 * r) by (unfold e1; nra).
  assert (UY : 0 <= u * y <= y / 16777216). { split; [nra|]. replace (y / 16777216) with (/ 16777216 * y) by lra. apply Rmult_le_compat_r; lra. }
  (* p*s*(1-u) >= s*(2y+rs)(1-2u),  q*s*(1+u) <= s*(y+rs)(1+3u) *)
  assert (LP : (2 * y + rs) * (1 - 2 * u) <= p * (1 - u)).
  { apply Rle_trans with ((2 * y + rs) * (1 - u) * (1 - u)); [nra|]. apply Rmult_le_compat_r; lra. }
  assert (UQ : q * (1 + u) <= (y + rs) * (1 + 3 * u)).
  { apply Rle_trans with ((y + rs) * (1 + u) * (1 + u)); [apply Rmult_le_compat_r; lra|].
    replace ((y + rs) * (1 + u) * (1 + u)) with ((y + rs) * ((1 + u) * (1 + u))) by ring. apply Rmult_le_compat_l; [lra|]. nra. }
  assert (D : y - 7 * (u * y) - 5 * (u * rs) <= p * (1 - u) - q * (1 + u)) by nra.
  assert (D' : 99 / 100 * y - 5 * w <= p * (1 - u) - q * (1 + u)) by lra.
  assert (F : shrink * (99 / 100 * y - 5 * w) <= shrink * (p * (1 - u) - q * (1 + u))) by (apply Rmult_le_compat_l; lra).
  assert (F2 : 98 / 100 * y - 5 * w <= shrink * (99 / 100 * y - 5 * w)).
  { assert (0 <= 99 / 100 * y - 5 * w) by lra.
    assert ((1 - / 100000) * (99 / 100 * y - 5 * w) <= shrink * (99 / 100 * y - 5 * w)) by (apply Rmult_le_compat_r; lra). lra. }
  lra.
Qed.
Lemma f_far_bigger_threshold a la b lb :
  f_far_bigger A t G a la b lb = true <-> threshold (rad la) (rad lb) <= (f_linf A t G a b : R).
Proof.
  unfold f_far_bigger. cbv zeta. rewrite !f_rad_exact.
  change (Rle_bool (threshold (rad la) (rad lb)) (f_linf A t G a b) = true <-> threshold (rad la) (rad lb) <= (f_linf A t G a b : R)).
  destruct (Rle_bool_spec (threshold (rad la) (rad lb)) (f_linf A t G a b)); split; intros; auto; try congruence; lra.
Qed.
Lemma f_far_bigger_mono a b : (a < nboxes t)%nat -> (b < nboxes t)%nat -> (0 < a)%nat ->
  f_far_bigger A t G (box_parent t a) (box_level t a - 1) b (box_level t b) = true ->
  f_far_bigger A t G a (box_level t a) b (box_level t b) = true.
Proof.
  intros Ha Hb H0. rewrite !f_far_bigger_threshold. intros H.
  assert (PL := parent_level t W a Ha H0). assert (La := wf_level_lt t W a Ha).
  assert (R2 : rad (box_level t a - 1) = 2 * rad (box_level t a)).
  { rewrite rad_half. replace (S (box_level t a - 1)) with (box_level t a) by lia. auto. }
  rewrite R2 in H.
  assert (TG := threshold_gap (rad (box_level t a)) (rad (box_level t b)) (rad_min _ La) (rad_le _) (conj (rad_pos' _) (rad_le _))).
  assert (RP := rad_pos' (box_level t a)).
  set (l := f_linf A t G a b) in *. cbn [num base rounded_trav rounded] in l.
  assert (X : (f_linf A t G (box_parent t a) b : R) <= (l + e1 + rad (box_level t a)) + e1).
  { apply linf_upper; auto using (parent_lt t W).
    - assert (LP := linf_pos a b). fold l in LP. assert (WP := w_pos). assert (LG := L_ge). unfold e1. nra.
    - intros i Hi. assert (Y := linf_lower a b i Ha Hb Hi). fold l in Y.
      assert (EC := E_child a i H0 Ha Hi).
      assert (Z : Rabs (E (box_parent t a) i - E a i) <= rad (box_level t a)).
      { rewrite EC. destruct (Nat.testbit _ _); apply Rabs_le; lra. }
      assert (T := Rabs_triang (E (box_parent t a) i - E a i) (E a i - E b i)).
      replace (E (box_parent t a) i - E a i + (E a i - E b i)) with (E (box_parent t a) i - E b i) in T by ring. lra. }
  lra.
Qed.
End Facts.
