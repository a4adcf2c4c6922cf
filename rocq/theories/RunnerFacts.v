(** Rational costs and integer costs; scaling. *)
From Coq Require Import List Arith ZArith Lia Bool QArith Qcanon.
From Verif Require Import Base Tree Traversal Fmm Partition Cost CostFacts Runner.
Import ListNotations.
Local Open Scope Qc_scope.

Lemma of_Z_lt a b : of_Z a < of_Z b <-> (a < b)%Z.
Proof. unfold Qclt, of_Z. cbn [this Q2Qc]. rewrite !Qred_correct. rewrite <- Zlt_Qlt. tauto. Qed.
Lemma of_Z_le a b : of_Z a <= of_Z b <-> (a <= b)%Z.
Proof. unfold Qcle, of_Z. cbn [this Q2Qc]. rewrite !Qred_correct. rewrite <- Zle_Qle. tauto. Qed.
Lemma qltb_spec x y : qltb x y = true <-> x < y.
Proof. unfold qltb. destruct (Qclt_le_dec x y) as [H|H]; split; auto; try discriminate. intros K. exfalso. exact (Qclt_not_le _ _ K H). Qed.
Lemma scale_lt c x y : 0 < c -> (c * x < c * y <-> x < y).
Proof.
  intros C. assert (G : forall x y, x < y -> c * x < c * y).
  { intros a b H. rewrite (Qcmult_comm c a), (Qcmult_comm c b). apply Qcmult_lt_compat_r; auto. }
  split; auto. intros H. destruct (Qclt_le_dec x y) as [|K]; auto. exfalso. apply Qcle_lt_or_eq in K. destruct K as [K|K].
  - apply (G y x) in K. exact (Qclt_not_le _ _ K (Qclt_le_weak _ _ H)).
  - subst. exact (Qclt_not_le _ _ H (Qcle_refl _)).
Qed.
(** the comparison of line 110 *)
Lemma compare_scaled K size s total total' w w' : 0 < K -> (0 < size)%nat -> of_Z total' = K * total -> of_Z w' = K * w ->
  qltb (of_Z (Z.of_nat s) * total / of_Z (Z.of_nat size)) w = (Z.of_nat s * total' <? w' * Z.of_nat size)%Z.
Proof.
  intros HK HS ET EW. assert (S0 : 0 < of_Z (Z.of_nat size)) by (rewrite <- of_Z_0; apply of_Z_lt; lia).
  assert (NZ : of_Z (Z.of_nat size) <> 0) by (intros E; rewrite E in S0; exact (Qclt_not_le _ _ S0 (Qcle_refl _))).
  assert (X : of_Z (Z.of_nat s) * total / of_Z (Z.of_nat size) < w <-> (Z.of_nat s * total' < w' * Z.of_nat size)%Z).
  { rewrite <- (scale_lt (K * of_Z (Z.of_nat size))) by (rewrite <- (Qcmult_0_l (of_Z (Z.of_nat size))); apply Qcmult_lt_compat_r; auto).
    rewrite <- of_Z_lt, !of_Z_mul, ET, EW.
    replace (K * of_Z (Z.of_nat size) * (of_Z (Z.of_nat s) * total / of_Z (Z.of_nat size))) with (of_Z (Z.of_nat s) * (K * total)) by (field; auto).
    replace (K * of_Z (Z.of_nat size) * w) with (K * w * of_Z (Z.of_nat size)) by ring. tauto. }
  rewrite <- qltb_spec in X. rewrite <- Z.ltb_lt in X.
  destruct (qltb _ _), (_ <? _)%Z; auto; try (symmetry; apply X; auto). apply X. auto.
Qed.
Lemma loop_scaled K n size total total' : 0 < K -> (0 < size)%nat -> of_Z total' = K * total ->
  forall costs costs' i start seg w w', map of_Z costs' = map (Qcmult K) costs -> of_Z w' = K * w ->
  segment_loop_q n size total costs i start seg w = segment_loop n size total' costs' i start seg w'.
Proof.
  intros HK HS ET. induction costs as [|c costs IH]; intros costs' i start seg w w' EC EW; (destruct costs' as [|c' costs']; try discriminate); auto.
  assert (E1 : of_Z c' = K * c) by exact (f_equal (hd 0) EC). assert (E2 : map of_Z costs' = map (Qcmult K) costs) by exact (f_equal (@tl Qc) EC). cbn [segment_loop_q segment_loop]. cbv zeta.
  assert (W2 : of_Z (w' + c') = K * (w + c)) by (rewrite of_Z_add, EW, E1; ring).
  rewrite (compare_scaled K size (seg + 1) total total' (w + c) (w' + c')%Z) by auto.
  destruct (seg + 1 =? size)%nat; auto. destruct (_ || _); [f_equal|]; auto.
Qed.
Lemma qsum_scale K l : qsum (map (Qcmult K) l) = K * qsum l.
Proof. induction l as [|x l IH]; cbn [map]; [unfold qsum; cbn [fold_right]; ring|]. rewrite !qsum_cons, IH. ring. Qed.
Lemma dfs_below t order : (forall b, In b order -> (b < nboxes t)%nat) -> forall K cost z,
  (forall b, (b < nboxes t)%nat -> of_Z (z b) = K * cost b) -> map of_Z (map z order) = map (Qcmult K) (map cost order).
Proof. intros H K cost z E. rewrite !map_map. apply map_ext_in. auto. Qed.
Lemma partition_scaled t K cost z size rank : 0 < K -> (0 < size)%nat ->
  (forall order b, get_box_ids_dfs_order t = Some order -> In b order -> (b < nboxes t)%nat) ->
  (forall b, (b < nboxes t)%nat -> of_Z (z b) = K * cost b) ->
  partition_work_q t cost size rank = partition_work t z size rank.
Proof.
  intros HK HS HO E. unfold partition_work_q, partition_work. destruct (nboxes t <? size)%nat; auto.
  destruct (get_box_ids_dfs_order t) as [order|] eqn:EO; auto. cbv zeta.
  rewrite (loop_scaled K (nboxes t) size _ (zsum (map z (seq 0 (nboxes t)))) HK HS) with (costs' := map z order) (w' := 0%Z); auto.
  - rewrite <- qsum_of_Z, <- qsum_scale, map_map. apply qsum_ext. intros b Hb. apply in_seq in Hb. apply E. lia.
  - apply (dfs_below t); auto. intros b. apply HO. auto.
  - rewrite of_Z_0. ring.
Qed.
(** a common denominator *)
Lemma common_denominator (cost : nat -> Qc) n : exists d z, (0 < d)%Z /\ forall b, (b < n)%nat -> of_Z (z b) = of_Z d * cost b.
Proof.
  induction n as [|n [d [z [D IH]]]]; [exists 1%Z, (fun _ => 0%Z); split; [lia|intros; lia]|].
  set (m := Zpos (Qden (cost n))). exists (m * d)%Z, (fun b => if (b =? n)%nat then (d * Qnum (cost n))%Z else (m * z b)%Z).
  split; [unfold m; lia|]. intros b Hb. destruct (Nat.eqb_spec b n) as [->|N].
  - rewrite !of_Z_mul. assert (X : of_Z (Qnum (cost n)) = of_Z m * cost n); [|rewrite X; ring].
    apply Qc_is_canon. unfold of_Z, Qcmult. cbn [this Q2Qc]. rewrite !Qred_correct.
    destruct (cost n) as [[nu de] can]. cbn [this Qnum Qden] in *. unfold m, Qeq, inject_Z, Qmult. cbn [Qnum Qden]. rewrite Pos.mul_1_l, !Z.mul_1_r. apply Z.mul_comm.
  - rewrite !of_Z_mul, IH by lia. ring.
Qed.
(** [cost] is a multiple of integer costs, and so is a multiple of it *)
Lemma integer_costs t cost : exists z, (forall order b, get_box_ids_dfs_order t = Some order -> In b order -> (b < nboxes t)%nat) ->
  (exists d, 0 < d /\ forall b, (b < nboxes t)%nat -> of_Z (z b) = d * cost b) /\
  forall c cost' size rank, 0 < c -> (0 < size)%nat -> (forall b, (b < nboxes t)%nat -> cost' b = c * cost b) ->
  partition_work_q t cost' size rank = partition_work t z size rank.
Proof.
  destruct (common_denominator cost (nboxes t)) as [d [z [D E]]]. exists z. intros HO.
  assert (D0 : 0 < of_Z d) by (rewrite <- of_Z_0; apply of_Z_lt; auto). split; [exists (of_Z d); auto|].
  intros c cost' size rank C S H.
  assert (NZ : c <> 0) by (intros ->; exact (Qclt_not_le _ _ C (Qcle_refl _))).
  apply (partition_scaled t (of_Z d / c)); auto.
  - apply (scale_lt c); auto. replace (c * 0) with 0 by ring. replace (c * (of_Z d / c)) with (of_Z d) by (field; auto). auto.
  - intros b Hb. rewrite H, E by auto. field. auto.
Qed.

(** ** The costs are linear in the calibration parameters *)
Lemma qset_scale c a a' i v : (forall b, a' b = c * a b) -> forall b, qset a' i (c * v) b = c * qset a i v b.
Proof. intros H b. unfold qset. destruct (b =? i)%nat; auto. Qed.
Lemma combine_map_r {A B C} (f : B -> C) (l : list A) : forall m, combine l (map f m) = map (fun q => (fst q, f (snd q))) (combine l m).
Proof. induction l as [|x l IH]; intros m; auto. destruct m as [|y m]; auto. cbn [combine map fst snd]. rewrite IH. auto. Qed.
Lemma fancy_add_scale c idx : forall vals vals' (a a' : qarray), vals' = map (Qcmult c) vals -> (forall b, a' b = c * a b) ->
  forall b, fancy_add a' idx vals' b = c * fancy_add a idx vals b.
Proof.
  intros vals vals' a a' -> H. unfold fancy_add.
  assert (G : forall l r r', (forall b, r' b = c * r b) -> forall b,
    fold_left (fun (r : qarray) iv => qset r (fst iv) (snd iv)) (map (fun iv : nat * Qc => (fst iv, c * snd iv)) l) r' b =
    c * fold_left (fun (r : qarray) iv => qset r (fst iv) (snd iv)) l r b).
  { induction l as [|[i v] l IH]; intros r r' E b; cbn [map fold_left fst snd]; auto. apply IH. apply qset_scale. auto. }
  assert (C : map (fun iv => a' (fst iv) + snd iv) (combine idx (map (Qcmult c) vals)) =
              map (Qcmult c) (map (fun iv => a (fst iv) + snd iv) (combine idx vals))).
  { rewrite combine_map_r, !map_map. apply map_ext. intros [i v]. cbn [fst snd]. rewrite H. ring. }
  intros b. rewrite C, combine_map_r. apply G. auto.
Qed.
Definition scale_factors (c : Qc) (F F' : cost_factors) : Prop :=
  (forall l, p2m_cost F' l = c * p2m_cost F l) /\ p2p_cost F' = c * p2p_cost F /\ (forall l, m2l_cost F' l = c * m2l_cost F l) /\
  (forall l, m2p_cost F' l = c * m2p_cost F l) /\ (forall l, p2l_cost F' l = c * p2l_cost F l) /\ (forall l, l2p_cost F' l = c * l2p_cost F l).
Lemma cost_per_box_scale t p tr tc c F F' : scale_factors c F F' -> forall b, cost_per_box t p tr tc F' b = c * cost_per_box t p tr tc F b.
Proof.
  intros [H1 [H2 [H3 [H4 [H5 H6]]]]]. unfold cost_per_box, cost_per_box_with. cbv zeta.
  apply fancy_add_scale.
  { unfold eval_locals_cost. rewrite map_map. apply map_ext. intros b. rewrite H6. ring. }
  apply fancy_add_scale.
  { unfold list4_cost. rewrite map_map. apply map_ext. intros i.
    assert (G : forall l x x', x' = c * x -> fold_left (fun a S => a + of_Z (nsrc p S) * p2l_cost F' (lvl t S)) l x' =
      c * fold_left (fun a S => a + of_Z (nsrc p S) * p2l_cost F (lvl t S)) l x).
    { induction l as [|y l IH]; intros x x' E; cbn [fold_left]; auto. apply IH. rewrite E, H5. ring. }
    apply G. ring. }
  assert (L3 : forall b, list3_cost tr tc F' b = c * list3_cost tr tc F b).
  { unfold list3_cost.
    assert (G : forall ls r r', (forall b, r' b = c * r b) -> forall b,
      fold_left (fun nm2p lb => list3_kernel_cost tc F' (fst lb) (fst (snd lb)) (snd (snd lb)) nm2p) ls r' b =
      c * fold_left (fun nm2p lb => list3_kernel_cost tc F (fst lb) (fst (snd lb)) (snd (snd lb)) nm2p) ls r b).
    { induction ls as [|[l [bx cs]] ls IH]; intros r r' E b; cbn [fold_left fst snd]; auto. apply IH. clear - E H4.
      unfold list3_kernel_cost. generalize (combine (seq 0 (length bx)) bx) as L. intros L. revert r r' E.
      induction L as [|[i x] L IH]; intros r r' E b; cbn [fold_left fst snd]; auto. apply IH. unfold qadd_at. intros y.
      rewrite H4, E. match goal with |- qset r' x ?v y = _ => replace v with (c * (r x + of_Z (mul32 (ntgt tc x) (row_len cs i)) * m2p_cost F l)) by ring end.
      apply qset_scale. auto. }
    apply G. intros b. unfold qzeros. ring. }
  intros b. rewrite L3, Qcmult_plus_distr_r. f_equal. revert b.
  apply fancy_add_scale.
  { unfold list2_cost. rewrite map_map. apply map_ext. intros ib. rewrite H3. ring. }
  apply fancy_add_scale.
  { unfold direct_cost. rewrite map_map. apply map_ext. intros ib. rewrite H2. ring. }
  apply fancy_add_scale.
  { unfold form_multipoles_cost. rewrite map_map. apply map_ext. intros b. rewrite H1. ring. }
  intros b. unfold qzeros. ring.
Qed.
