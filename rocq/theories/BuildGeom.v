(** Geometry of the boxes of the particle tree. *)
From Coq Require Import List Arith ZArith NArith Lia Bool Permutation.
From Verif Require Import Base Tree Walk Traversal Fmm TreeBuild ArrayFacts BuildInv BuildStep.
Import ListNotations.

Lemma lor_fold_testbit (f : nat -> bool) d k : k < d -> forall ax acc, NoDup ax -> (forall a, In a ax -> a < d) ->
  Nat.testbit (fold_left (fun acc a => Nat.lor acc (Nat.shiftl (if f a then 1 else 0) (d - 1 - a))) ax acc) (d - 1 - k)
  = (Nat.testbit acc (d - 1 - k) || (existsb (Nat.eqb k) ax && f k)).
Proof.
  intros Hk. induction ax as [|a ax IH]; intros acc ND Hax; cbn [fold_left existsb].
  - rewrite orb_false_r. auto.
  - inversion ND; subst. rewrite IH; auto; [|intros; apply Hax; right; auto].
    assert (Ha := Hax a (or_introl eq_refl)). rewrite Nat.lor_spec.
    assert (T : Nat.testbit (Nat.shiftl (if f a then 1 else 0) (d - 1 - a)) (d - 1 - k) = ((k =? a) && f a)).
    { destruct (Nat.eqb_spec k a) as [->|N].
      - rewrite Nat.shiftl_spec_high' by auto. rewrite Nat.sub_diag. destruct (f a); auto.
      - destruct (Nat.lt_ge_cases (d - 1 - k) (d - 1 - a)) as [C|C].
        + rewrite Nat.shiftl_spec_low by auto. auto.
        + rewrite Nat.shiftl_spec_high' by auto. destruct (d - 1 - k - (d - 1 - a)) as [|x] eqn:E; [lia|].
          destruct (f a); [|apply Nat.bits_0]. cbn [Nat.testbit]. change (Nat.div2 1) with 0. apply Nat.bits_0. }
    rewrite T. destruct (Nat.eqb_spec k a) as [->|N]; cbn [andb orb].
    + destruct (Nat.testbit acc (d - 1 - a)), (f a); cbn [orb]; auto; rewrite ?andb_false_r; auto.
    + rewrite orb_false_r. auto.
Qed.
Lemma morton_testbit inp u l a : a < idim inp ->
  Nat.testbit (morton_number inp u l) (idim inp - 1 - a) = Z.odd (particle_bits inp u l a).
Proof.
  intros Ha. unfold morton_number.
  rewrite (lor_fold_testbit (fun a => Z.odd (particle_bits inp u l a)) (idim inp) a Ha).
  - rewrite Nat.bits_0. cbn [orb]. replace (existsb (Nat.eqb a) (seq 0 (idim inp))) with true; auto.
    symmetry. apply existsb_exists. exists a. split; [apply in_seq; lia|apply Nat.eqb_refl].
  - apply seq_NoDup.
  - intros x Hx. apply in_seq in Hx. lia.
Qed.
Lemma zsum_scale (c : Z) (f g : nat -> Z) l : (forall a, In a l -> f a = c * g a)%Z ->
  zsum (map f l) = (c * zsum (map g l))%Z.
Proof.
  induction l as [|a l IH]; intros H; unfold zsum; cbn [map fold_right]; [ring|].
  fold (zsum (map f l)). fold (zsum (map g l)). rewrite IH by (intros; apply H; right; auto).
  rewrite (H a (or_introl eq_refl)). ring.
Qed.
Lemma u32_shl1_small k : k < 32 -> u32_shl1 k = (2 ^ Z.of_nat k)%Z.
Proof. intros H. unfold u32_shl1. rewrite Nat.mod_small by auto. auto. Qed.
Lemma i32_shl1_small k : k < 31 -> i32_shl1 k = (2 ^ Z.of_nat k)%Z.
Proof.
  intros H. unfold i32_shl1. rewrite Nat.mod_small by lia. destruct (Nat.eqb_spec k 31); [lia|auto].
Qed.

Section Geom.
Variable inp : input.
Notation np := (npart inp).
Notation d := (idim inp).
Notation E := (the_root_extent inp).
Hypothesis CUBE : forall a, a < d -> extent_along inp a = E.
Hypothesis EPOS : (0 < E)%Z.
Hypothesis EDIV : (2 ^ 30 | E)%Z.

(** index of the cell of a path along an axis *)
Definition bit (m a : nat) : Z := if Nat.testbit m (d - 1 - a) then 1%Z else 0%Z.
Definition idx (p : list nat) (a : nat) : Z := fold_left (fun k m => 2 * k + bit m a)%Z p 0%Z.
Lemma idx_snoc p m a : idx (p ++ [m]) a = (2 * idx p a + bit m a)%Z.
Proof. unfold idx. rewrite fold_left_app. auto. Qed.
(** box radius at a level *)
Definition lrad (l : nat) : Z := (E / 2 ^ Z.of_nat (l + 1))%Z.
Lemma lrad_exact l : l <= 29 -> E = (2 ^ Z.of_nat (l + 1) * lrad l)%Z.
Proof.
  intros Hl. unfold lrad. destruct EDIV as [e He]. rewrite He at 2.
  assert (P : (2 ^ 30 = 2 ^ Z.of_nat (29 - l) * 2 ^ Z.of_nat (l + 1))%Z).
  { rewrite <- Z.pow_add_r by lia. f_equal. lia. }
  assert (Q : (0 < 2 ^ Z.of_nat (l + 1))%Z) by (apply Z.pow_pos_nonneg; lia).
  rewrite P, Z.mul_assoc, Z.div_mul by lia. rewrite He, P. ring.
Qed.
Lemma lrad_half l : l < 29 -> lrad l = (2 * lrad (S l))%Z.
Proof.
  intros Hl. assert (A := lrad_exact l ltac:(lia)). assert (B := lrad_exact (S l) ltac:(lia)).
  assert (Q : (0 < 2 ^ Z.of_nat (l + 1))%Z) by (apply Z.pow_pos_nonneg; lia).
  replace (Z.of_nat (S l + 1)) with (Z.of_nat (l + 1) + 1)%Z in B by lia.
  rewrite Z.pow_add_r, Z.pow_1_r in B by lia. rewrite A in B. 
  apply (Z.mul_reg_l _ _ (2 ^ Z.of_nat (l + 1))); [lia|]. rewrite B. ring.
Qed.
Lemma lrad_pos l : l <= 29 -> (0 < lrad l)%Z.
Proof.
  intros Hl. assert (A := lrad_exact l Hl). assert (Q : (0 < 2 ^ Z.of_nat (l + 1))%Z) by (apply Z.pow_pos_nonneg; lia). nia.
Qed.
Lemma lrad_shift l : l <= 29 -> (E / i32_shl1 (1 + l))%Z = lrad l.
Proof. intros Hl. rewrite i32_shl1_small by lia. unfold lrad. do 3 f_equal. lia. Qed.
Lemma sign_bit m a : morton_sign d m a = (2 * bit m a - 1)%Z.
Proof. unfold morton_sign, bit. destruct (Nat.testbit m (d - 1 - a)); auto. Qed.
Lemma path_center_child p m a : length p < 29 ->
  path_center inp (p ++ [m]) a = (path_center inp p a + morton_sign d m a * lrad (S (length p)))%Z.
Proof.
  intros Hp. rewrite path_center_snoc. replace (length p + 1) with (S (length p)) by lia. rewrite lrad_shift by lia. auto.
Qed.
Lemma path_center_idx p a : a < d -> length p <= 29 ->
  path_center inp p a = (bbox_min inp a + (2 * idx p a + 1) * lrad (length p))%Z.
Proof.
  intros Ha. induction p as [|m p IH] using rev_ind; intros Hp.
  - unfold path_center, idx. cbn [center_down fold_left length]. rewrite CUBE by auto.
    unfold lrad. change (Z.of_nat (0 + 1)) with 1%Z. rewrite Z.pow_1_r. ring.
  - rewrite app_length in *. cbn [length] in *. rewrite path_center_child by lia. rewrite IH by lia. rewrite idx_snoc, sign_bit.
    rewrite (lrad_half (length p)) by lia. replace (length p + 1) with (S (length p)) by lia. ring.
Qed.
(** the cell of a particle *)
Lemma particle_bits_idx u p a : a < d -> reach inp u p = true -> length p <= 31 ->
  idx p a = ((coord inp u a - bbox_min inp a) * 2 ^ Z.of_nat (length p) / E
            - 2 ^ Z.of_nat (length p) * ((coord inp u a - bbox_min inp a) / E))%Z.
Proof.
  intros Ha. set (y := (coord inp u a - bbox_min inp a)%Z).
  induction p as [|m p IH] using rev_ind; intros R Hp.
  - cbn [length idx fold_left]. change (Z.of_nat 0) with 0%Z. rewrite Z.pow_0_r, !Z.mul_1_r, Z.mul_1_l, Z.sub_diag. auto.
  - rewrite app_length in *. cbn [length] in *. rewrite reach_snoc in R. apply andb_true_iff in R. destruct R as [R K].
    apply Nat.eqb_eq in K. rewrite idx_snoc, IH by (auto; lia).
    assert (M : m = morton_number inp u (length p)).
    { unfold key, dig, morton in K. destruct (stop_descent inp u (length p)); [discriminate|]. cbn [bin_key] in K. congruence. }
    assert (B : bit m a = ((y * 2 ^ Z.of_nat (length p + 1) / E) mod 2)%Z).
    { unfold bit. rewrite M, morton_testbit by auto. unfold particle_bits. rewrite CUBE by auto.
      rewrite u32_shl1_small by lia. fold y. replace (1 + length p) with (length p + 1) by lia.
      rewrite Zmod_odd. auto. }
    rewrite B. set (k := (y * 2 ^ Z.of_nat (length p + 1) / E)%Z).
    assert (K2 : (y * 2 ^ Z.of_nat (length p) / E = k / 2)%Z).
    { unfold k. rewrite Z.div_div by lia. rewrite Nat2Z.inj_add, Z.pow_add_r by lia. change (Z.of_nat 1) with 1%Z. rewrite Z.pow_1_r.
      rewrite Z.mul_assoc, (Z.mul_comm E 2), (Z.mul_comm _ 2). rewrite Z.div_mul_cancel_l by lia. auto. }
    rewrite K2. assert (D := Z.div_mod k 2 ltac:(lia)).
    replace (2 ^ Z.of_nat (length p + 1))%Z with (2 * 2 ^ Z.of_nat (length p))%Z.
    2:{ rewrite Nat2Z.inj_add, Z.pow_add_r by lia. change (Z.of_nat 1) with 1%Z. rewrite Z.pow_1_r. ring. }
    lia.
Qed.
Section Inside.
Variable u : nat.
Hypothesis INSIDE : forall a, a < d -> (bbox_min inp a <= coord inp u a < bbox_max inp a)%Z.
Lemma inside_idx p a : a < d -> reach inp u p = true -> length p <= 31 ->
  idx p a = ((coord inp u a - bbox_min inp a) * 2 ^ Z.of_nat (length p) / E)%Z.
Proof.
  intros Ha R Hp. rewrite (particle_bits_idx u p a Ha R Hp). assert (X := INSIDE a Ha).
  assert (C := CUBE a Ha). unfold extent_along in C. rewrite (Z.div_small (coord inp u a - bbox_min inp a)) by lia. lia.
Qed.
(** a particle that reaches a box lies in it *)
Theorem reach_inside p a : a < d -> reach inp u p = true -> length p <= 29 ->
  (path_center inp p a - lrad (length p) <= coord inp u a < path_center inp p a + lrad (length p))%Z.
Proof.
  intros Ha R Hp. rewrite path_center_idx by auto. rewrite (inside_idx p a Ha R) by lia.
  assert (EX := lrad_exact (length p) Hp).
  set (y := (coord inp u a - bbox_min inp a)%Z). set (l := length p) in *. set (r := lrad l) in *.
  assert (RP := lrad_pos l Hp). fold r in RP.
  assert (Q : (0 < 2 ^ Z.of_nat l)%Z) by (apply Z.pow_pos_nonneg; lia).
  assert (E2 : E = (2 ^ Z.of_nat l * (2 * r))%Z).
  { rewrite EX. rewrite Nat2Z.inj_add, Z.pow_add_r by lia. change (Z.of_nat 1) with 1%Z. rewrite Z.pow_1_r. ring. }
  assert (K : (y * 2 ^ Z.of_nat l / E = y / (2 * r))%Z).
  { rewrite E2, (Z.mul_comm y). apply Z.div_mul_cancel_l; lia. }
  rewrite K. assert (D1 := Z.mul_div_le y (2 * r) ltac:(lia)). assert (D2 := Z.mul_succ_div_gt y (2 * r) ltac:(lia)).
  unfold y in *. lia.
Qed.
(** conversely, without extents, a particle lying in a box reaches it *)
Theorem inside_reach p : have_extent inp = false -> length p <= 29 -> (forall m, In m p -> m < nchild inp) ->
  (forall a, a < d -> (path_center inp p a - lrad (length p) <= coord inp u a < path_center inp p a + lrad (length p))%Z) ->
  reach inp u p = true.
Proof.
  intros NE. induction p as [|m p IH] using rev_ind; intros Hp Hm H; [reflexivity|].
  rewrite app_length in *. cbn [length] in *.
  assert (R : reach inp u p = true).
  { apply IH; [lia|intros; apply Hm, in_or_app; auto|]. intros a Ha. specialize (H a Ha).
    rewrite path_center_child in H by lia. rewrite (lrad_half (length p)) by lia.
    replace (length p + 1) with (S (length p)) in H by lia.
    unfold morton_sign in H. destruct (Nat.testbit m (d - 1 - a)); lia. }
  assert (KEY : key inp u (length p) = S (morton_number inp u (length p))).
  { unfold key, dig, morton, stop_descent. unfold have_extent in NE. destruct (ext inp); [discriminate|]. auto. }
  rewrite reach_snoc, R. cbn [andb]. apply Nat.eqb_eq. rewrite KEY. f_equal.
  (* compare the morton numbers bit by bit *)
  set (m' := morton_number inp u (length p)).
  assert (R' : reach inp u (p ++ [m']) = true).
  { rewrite reach_snoc, R, KEY. apply Nat.eqb_refl. }
  assert (M' : m' < nchild inp) by apply morton_number_lt.
  assert (M : m < nchild inp) by (apply Hm, in_or_app; right; left; auto).
  apply Nat.bits_inj. intros k. destruct (Nat.lt_ge_cases k d) as [C|C].
  - set (a := d - 1 - k). assert (Ha : a < d) by (unfold a; lia). replace k with (d - 1 - a) by (unfold a; lia).
    specialize (H a Ha). assert (X := reach_inside (p ++ [m']) a Ha R'). rewrite app_length in X. cbn [length] in X.
    specialize (X Hp). rewrite path_center_child in H, X by lia.
    replace (length p + 1) with (S (length p)) in * by lia. assert (RP := lrad_pos (S (length p)) Hp).
    unfold morton_sign in H, X. destruct (Nat.testbit m (d - 1 - a)), (Nat.testbit m' (d - 1 - a)); auto; lia.
  - unfold nchild in M, M'.
    assert (Z : forall x, x < 2 ^ d -> Nat.testbit x k = false).
    { intros x Hx. destruct (Nat.eq_dec x 0) as [->|N]; [apply Nat.bits_0|]. apply Nat.bits_above_log2.
      assert (Nat.log2 x < d) by (apply Nat.log2_lt_pow2; lia). lia. }
    rewrite !Z; auto.
Qed.
(** center of the next box, as the kernel computes it *)
Lemma next_center2_eq p m a : a < d -> reach inp u (p ++ [m]) = true -> length p < 29 ->
  next_center2 inp u (length p) a = (2 ^ Z.of_nat (length p + 2) * path_center inp (p ++ [m]) a)%Z.
Proof.
  intros Ha R Hp. unfold next_center2. rewrite path_center_idx by (rewrite ?app_length; cbn [length]; auto; lia).
  rewrite (inside_idx (p ++ [m]) a Ha R) by (rewrite app_length; cbn [length]; lia).
  rewrite app_length. cbn [length]. unfold particle_bits. rewrite CUBE by auto. rewrite u32_shl1_small by lia.
  replace (1 + length p) with (length p + 1) by lia.
  set (k := (_ / E)%Z).
  assert (EX := lrad_exact (length p + 1) ltac:(lia)).
  replace (length p + 1 + 1) with (length p + 2) in EX by lia. rewrite EX at 1.
  replace (2 ^ Z.of_nat (length p + 2))%Z with (2 * 2 ^ Z.of_nat (length p + 1))%Z.
  2:{ rewrite !Nat2Z.inj_add, !Z.pow_add_r by lia. change (Z.of_nat 1) with 1%Z. change (Z.of_nat 2) with 2%Z. ring. }
  ring.
Qed.
(** "linf" stick-out: the extent of a particle in a box (other than the root) is within the
    box enlarged by the stick-out factor *)
Theorem stick_out_linf e p m a : ext inp = Some e -> extent_norm e = Linf -> a < d ->
  reach inp u (p ++ [m]) = true -> length p < 29 ->
  (sof_den e * (path_center inp (p ++ [m]) a) - (sof_den e + sof_num e) * lrad (S (length p)) <= sof_den e * (coord inp u a - radius e u) /\
   sof_den e * (coord inp u a + radius e u) < sof_den e * (path_center inp (p ++ [m]) a) + (sof_den e + sof_num e) * lrad (S (length p)))%Z.
Proof.
  intros EE EN Ha R Hp. assert (RR := R). rewrite reach_snoc in R. apply andb_true_iff in R. destruct R as [R K].
  apply Nat.eqb_eq in K. unfold key, dig, morton in K.
  destruct (stop_descent inp u (length p)) eqn:SD; [discriminate|]. unfold stop_descent in SD. rewrite EE, EN in SD.
  assert (SO : sticks_out_linf inp e u (length p) a = false).
  { apply not_true_is_false. intros T. assert (X : existsb (sticks_out_linf inp e u (length p)) (seq 0 d) = true).
    { apply existsb_exists. exists a. split; auto. apply in_seq. lia. } congruence. }
  unfold sticks_out_linf in SO. rewrite (next_center2_eq p m a Ha RR Hp) in SO. rewrite CUBE in SO by auto.
  rewrite u32_shl1_small in SO by lia. replace (1 + length p) with (length p + 1) in SO by lia.
  assert (EX := lrad_exact (length p + 1) ltac:(lia)). replace (length p + 1 + 1) with (length p + 2) in EX by lia.
  replace (S (length p)) with (length p + 1) by lia. set (c := path_center inp (p ++ [m]) a) in *.
  set (r := lrad (length p + 1)) in *.
  assert (P2 : (2 ^ Z.of_nat (length p + 2) = 2 * 2 ^ Z.of_nat (length p + 1))%Z).
  { rewrite !Nat2Z.inj_add, !Z.pow_add_r by lia. change (Z.of_nat 1) with 1%Z. change (Z.of_nat 2) with 2%Z. ring. }
  rewrite P2 in *. assert (Q : (0 < 2 ^ Z.of_nat (length p + 1))%Z) by (apply Z.pow_pos_nonneg; lia).
  set (w := (2 ^ Z.of_nat (length p + 1))%Z) in *. rewrite EX in SO.
  apply orb_false_iff in SO. destruct SO as [S1 S2]. apply Z.leb_gt in S1. apply Z.ltb_ge in S2. split.
  - apply (Z.mul_le_mono_pos_l _ _ (2 * w)); [lia|]. lia.
  - apply (Z.mul_lt_mono_pos_l (2 * w)); [lia|]. lia.
Qed.
Theorem stick_out_l2 e p m : ext inp = Some e -> extent_norm e = L2 -> 0 < d ->
  reach inp u (p ++ [m]) = true -> length p < 29 ->
  let D2 := zsum (map (fun a => (sof_den e * (coord inp u a - path_center inp (p ++ [m]) a))
                              * (sof_den e * (coord inp u a - path_center inp (p ++ [m]) a)))%Z (seq 0 d)) in
  let rho := (sof_den e * radius e u)%Z in
  let r := ((sof_den e + sof_num e) * lrad (S (length p)))%Z in
  let K := (Z.of_nat d * r * r - D2 - rho * rho)%Z in
  (0 < K /\ 4 * rho * rho * D2 < K * K)%Z.
Proof.
  intros EE EN D0 R Hp D2 rho r K. assert (RR := R). rewrite reach_snoc in R. apply andb_true_iff in R. destruct R as [R KK].
  apply Nat.eqb_eq in KK. unfold key, dig, morton in KK.
  destruct (stop_descent inp u (length p)) eqn:SD; [discriminate|]. unfold stop_descent in SD. rewrite EE, EN in SD.
  unfold sticks_out_l2 in SD. rewrite CUBE in SD by auto. rewrite u32_shl1_small in SD by lia.
  replace (1 + length p) with (length p + 1) in SD by lia.
  assert (EX := lrad_exact (length p + 1) ltac:(lia)). replace (length p + 1 + 1) with (length p + 2) in EX by lia.
  assert (P2 : (2 ^ Z.of_nat (length p + 2) = 2 * 2 ^ Z.of_nat (length p + 1))%Z).
  { rewrite !Nat2Z.inj_add, !Z.pow_add_r by lia. change (Z.of_nat 1) with 1%Z. change (Z.of_nat 2) with 2%Z. ring. }
  assert (Q : (0 < 2 ^ Z.of_nat (length p + 1))%Z) by (apply Z.pow_pos_nonneg; lia).
  rewrite P2 in EX. set (w := (2 * 2 ^ Z.of_nat (length p + 1))%Z) in *.
  assert (DD : zsum (map (fun a => (sof_den e * (w * coord inp u a - next_center2 inp u (length p) a))
                                 * (sof_den e * (w * coord inp u a - next_center2 inp u (length p) a)))%Z (seq 0 d)) = (w * w * D2)%Z).
  { unfold D2. apply zsum_scale. intros a Ha. apply in_seq in Ha.
    rewrite (next_center2_eq p m a ltac:(lia) RR Hp). rewrite P2. fold w. ring. }
  rewrite DD, EX in SD. replace (length p + 1) with (S (length p)) in SD by lia. clear DD.
  assert (W : (0 < w)%Z) by (unfold w; lia).
  assert (KE : (Z.of_nat d * ((sof_den e + sof_num e) * (w * lrad (S (length p)))) * ((sof_den e + sof_num e) * (w * lrad (S (length p))))
               - w * w * D2 - w * sof_den e * radius e u * (w * sof_den e * radius e u) = w * w * K)%Z).
  { unfold K, r, rho. ring. }
  rewrite KE in SD. apply orb_false_iff in SD. destruct SD as [S1 S2]. apply Z.leb_gt in S1. apply Z.leb_gt in S2.
  assert (WW : (0 < w * w)%Z) by nia. split; [nia|].
  apply (Z.mul_lt_mono_pos_l (w * w * (w * w))); [nia|]. unfold rho. clear KE EX. nia.
Qed.
End Inside.
End Geom.
