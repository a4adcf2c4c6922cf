(** Exactness of the adjacency tests and their monotonicity along ancestor chains. *)
From Coq Require Import List Arith ZArith Lia Bool.
From Verif Require Import Base Tree Spec TreeFacts Walk Traversal.
Import ListNotations.

Lemma fold_max_le (f : nat -> Z) l acc r :
  (fold_left (fun a i => Z.max a (f i)) l acc <= r <->
   acc <= r /\ forall i, In i l -> f i <= r)%Z.
Proof.
  revert acc; induction l as [|x l IH]; intros acc; simpl.
  - intuition.
  - rewrite IH. split.
    + intros [H1 H2]. split; [lia|]. intros i [<-|Hi]; [lia|auto].
    + intros [H1 H2]. split; [|auto]. pose proof (H2 x (or_introl eq_refl)). lia.
Qed.

Lemma linf_le d a b r :
  (linf_dist d a b <= r <-> 0 <= r /\ forall i, (i < d)%nat -> Z.abs (a i - b i) <= r)%Z.
Proof.
  unfold linf_dist. rewrite (fold_max_le (fun i => Z.abs (a i - b i))).
  split; intros [H1 H2]; split; auto; intros i Hi; apply H2; [apply in_seq|apply in_seq in Hi]; lia.
Qed.

Lemma linf_nonneg d a b : (0 <= linf_dist d a b)%Z.
Proof. assert (linf_dist d a b <= linf_dist d a b)%Z by lia. apply linf_le in H. tauto. Qed.

Lemma linf_ge d a b i : i < d -> (Z.abs (a i - b i) <= linf_dist d a b)%Z.
Proof.
  intros Hi. assert (linf_dist d a b <= linf_dist d a b)%Z by lia.
  apply linf_le in H. apply H; auto.
Qed.

Section Geom.
Variable t : tree.
Hypothesis W : wf_tree t.

(** centers lie on the odd multiples of the radius *)
Lemma grid b : b < nboxes t -> forall i, i < dim t -> exists g : Z,
  (box_center t b i = box_center t 0 i - level_to_rad t 0 + (2 * g + 1) * box_rad t b)%Z.
Proof.
  remember (box_level t b) as l eqn:El. revert b El.
  induction l; intros b El Hb i Hi.
  - symmetry in El. apply level_0 in El; auto. subst b. exists 0%Z.
    unfold box_rad. rewrite (wf_root_level t W). lia.
  - assert (H0 : 0 < b). { destruct b; [rewrite (wf_root_level t W) in El|]; lia. }
    destruct (IHl (box_parent t b)) with (i := i) as [g Hg]; auto.
    { rewrite (parent_level t W b) in El by auto. lia. }
    { apply parent_lt; auto. }
    pose proof (parent_center t W b i Hb H0 Hi) as Hc.
    rewrite Hg, parent_rad in Hc by auto.
    pose proof (box_rad_pos t W b Hb).
    set (r := box_rad t b) in *. set (o := (box_center t 0 i - level_to_rad t 0)%Z) in *.
    assert (box_center t b i = o + (2*g+1)*(2*r) + r \/ box_center t b i = o + (2*g+1)*(2*r) - r)%Z
      as [E|E] by lia.
    + exists (2*g+1)%Z. rewrite E. ring.
    + exists (2*g)%Z. rewrite E. ring.
Qed.

(** the n-neighborhood of [a] touches [b] *)
Definition near (n a b : nat) : Prop :=
  forall i, i < dim t ->
  (Z.abs (box_center t a i - box_center t b i)
   <= (2 * (Z.of_nat n - 1) + 1) * box_rad t a + box_rad t b)%Z.

Lemma parity_slack (D X : Z) : (exists k, D + X = 2 * k)%Z -> (Z.abs D <= X + 1)%Z -> (Z.abs D <= X)%Z.
Proof. intros [k Hk] H. lia. Qed.

Lemma adj_n_near n a b : 1 <= n -> a < nboxes t -> b < nboxes t ->
  (adj_n t n a b = true <-> near n a b).
Proof.
  intros Hn Ha Hb. unfold adj_n, is_adj_nbhd. rewrite Z.leb_le, linf_le.
  fold (box_rad t a). fold (box_rad t b).
  pose proof (box_rad_pos t W a Ha) as Pa. pose proof (box_rad_pos t W b Hb) as Pb.
  assert (PX : (0 <= (2 * (Z.of_nat n - 1) + 1) * box_rad t a + box_rad t b)%Z) by nia.
  split.
  - intros [_ H] i Hi. specialize (H i Hi).
    destruct (grid a Ha i Hi) as [ga Ga]. destruct (grid b Hb i Hi) as [gb Gb].
    set (o := (box_center t 0 i - level_to_rad t 0)%Z) in *.
    rewrite Ga, Gb in *.
    destruct (Nat.le_ge_cases (box_level t a) (box_level t b)) as [L|L].
    + assert (E : box_rad t a = (2 ^ Z.of_nat (box_level t b - box_level t a) * box_rad t b)%Z).
      { unfold box_rad. rewrite (rad_pow t W _ (box_level t b - box_level t a)).
        - f_equal. f_equal. lia.
        - pose proof (wf_level_lt t W b Hb). lia. }
      set (k := (2 ^ Z.of_nat (box_level t b - box_level t a))%Z) in *.
      assert (Hk : (1 <= k)%Z) by (assert (0 < k)%Z by (apply Z.pow_pos_nonneg; lia); lia).
      rewrite E in *. set (r := box_rad t b) in *.
      replace (o + (2*ga+1)*(k*r) - (o + (2*gb+1)*r))%Z with (((2*ga+1)*k - (2*gb+1)) * r)%Z in * by ring.
      replace ((2*(Z.of_nat n - 1)+1)*(k*r) + r)%Z with (((2*(Z.of_nat n - 1)+1)*k + 1) * r)%Z in * by ring.
      rewrite Z.min_r in H by nia. rewrite Z.abs_mul in *. rewrite (Z.abs_eq r) in * by lia.
      apply Z.mul_le_mono_nonneg_r; [lia|]. apply parity_slack.
      * exists (ga * k - gb + (Z.of_nat n - 1 + 1)*k)%Z. ring.
      * apply (Z.mul_le_mono_pos_r _ _ r); lia.
    + assert (E : box_rad t b = (2 ^ Z.of_nat (box_level t a - box_level t b) * box_rad t a)%Z).
      { unfold box_rad. rewrite (rad_pow t W _ (box_level t a - box_level t b)).
        - f_equal. f_equal. lia.
        - pose proof (wf_level_lt t W a Ha). lia. }
      set (k := (2 ^ Z.of_nat (box_level t a - box_level t b))%Z) in *.
      assert (Hk : (1 <= k)%Z) by (assert (0 < k)%Z by (apply Z.pow_pos_nonneg; lia); lia).
      rewrite E in *. set (r := box_rad t a) in *.
      replace (o + (2*ga+1)*r - (o + (2*gb+1)*(k*r)))%Z with (((2*ga+1) - (2*gb+1)*k) * r)%Z in * by ring.
      replace ((2*(Z.of_nat n - 1)+1)*r + k*r)%Z with (((2*(Z.of_nat n - 1)+1) + k) * r)%Z in * by ring.
      rewrite Z.min_l in H by nia. rewrite Z.abs_mul in *. rewrite (Z.abs_eq r) in * by lia.
      apply Z.mul_le_mono_nonneg_r; [lia|]. apply parity_slack.
      * exists (ga - gb * k + Z.of_nat n - 1 + 1)%Z. ring.
      * apply (Z.mul_le_mono_pos_r _ _ r); lia.
  - intros H. split; [lia|]. intros i Hi. specialize (H i Hi). lia.
Qed.

Lemma adj_near a b : a < nboxes t -> b < nboxes t -> (adj t a b = true <-> near 1 a b).
Proof. intros. apply (adj_n_near 1); auto. Qed.

Lemma adj_n_not_near n a b : 1 <= n -> a < nboxes t -> b < nboxes t ->
  (adj_n t n a b = false <-> ~ near n a b).
Proof. intros. rewrite <- adj_n_near by auto. destruct (adj_n t n a b); intuition congruence. Qed.

(** touching of the closed boxes = near 1 *)
Lemma near_1_touching a b : a < nboxes t -> b < nboxes t -> (near 1 a b <-> touching t a b).
Proof.
  intros Ha Hb. pose proof (box_rad_pos t W a Ha). pose proof (box_rad_pos t W b Hb).
  unfold near, touching, in_closed_box. change (Z.of_nat 1) with 1%Z. split.
  - intros H1.
    exists (fun i => let ca := box_center t a i in let cb := box_center t b i in
              Z.max (ca - box_rad t a) (cb - box_rad t b))%Z.
    split; intros i Hi; specialize (H1 i Hi); cbv zeta; lia.
  - intros [x [Xa Xb]] i Hi. specialize (Xa i Hi). specialize (Xb i Hi). lia.
Qed.

Lemma near_within n a b : box_level t a = box_level t b ->
  (near n a b <-> within_n_boxes t n a b).
Proof.
  intros L. assert (R : box_rad t b = box_rad t a) by (unfold box_rad; congruence).
  unfold near, within_n_boxes. rewrite R. split.
  - intros H. split; auto. intros i Hi. specialize (H i Hi). lia.
  - intros [_ H] i Hi. specialize (H i Hi). lia.
Qed.

Lemma near_sym a b : near 1 a b -> near 1 b a.
Proof. intros H i Hi. specialize (H i Hi). change (Z.of_nat 1) with 1%Z in *. lia. Qed.

Lemma near_parent_r n a b : b < nboxes t -> near n a b -> near n a (box_parent t b).
Proof.
  intros Hb H. destruct (Nat.eq_dec b 0) as [->|H0]; [rewrite (wf_root_parent t W); auto|].
  intros i Hi. specialize (H i Hi).
  pose proof (parent_center t W b i Hb ltac:(lia) Hi) as P.
  rewrite (parent_rad t W b) by lia. lia.
Qed.

Lemma near_parent_l n a b : 1 <= n -> a < nboxes t -> near n a b -> near n (box_parent t a) b.
Proof.
  intros Hn Ha H. destruct (Nat.eq_dec a 0) as [->|H0]; [rewrite (wf_root_parent t W); auto|].
  intros i Hi. specialize (H i Hi).
  pose proof (parent_center t W a i Ha ltac:(lia) Hi) as P.
  rewrite (parent_rad t W a) by lia. pose proof (box_rad_pos t W a Ha). nia.
Qed.

Lemma near_anc_r n a b k : b < nboxes t -> near n a b -> near n a (anc t k b).
Proof.
  intros Hb H. unfold anc. induction (box_level t b - k) as [|j IH]; simpl; auto.
  apply near_parent_r; auto. apply up_lt; auto.
Qed.
Lemma near_anc_l n a b k : 1 <= n -> a < nboxes t -> near n a b -> near n (anc t k a) b.
Proof.
  intros Hn Ha H. unfold anc. induction (box_level t a - k) as [|j IH]; simpl; auto.
  apply near_parent_l; auto. apply up_lt; auto.
Qed.

(** same level: separation is inherited by children *)
Lemma near_parents n a b : 1 <= n -> a < nboxes t -> b < nboxes t ->
  near n a b -> near n (box_parent t a) (box_parent t b).
Proof. intros. apply near_parent_r; auto. apply near_parent_l; auto. Qed.

Lemma near_refl n a : 1 <= n -> a < nboxes t -> near n a a.
Proof. intros Hn Ha i Hi. pose proof (box_rad_pos t W a Ha). rewrite Z.sub_diag. nia. Qed.

Lemma near_mono n m a b : n <= m -> a < nboxes t -> near n a b -> near m a b.
Proof. intros Hn Ha H i Hi. specialize (H i Hi). pose proof (box_rad_pos t W a Ha). nia. Qed.

(** a box touches each of its ancestors *)
Lemma near_anc_self n b k : 1 <= n -> b < nboxes t -> near n (anc t k b) b.
Proof. intros. apply near_anc_l; auto. apply near_refl; auto. Qed.

(** children of one box touch *)
Lemma siblings_near n a b : 1 <= n -> a < nboxes t -> b < nboxes t -> 0 < a -> 0 < b ->
  box_parent t a = box_parent t b -> near n a b.
Proof.
  intros Hn Ha Hb Ha0 Hb0 E. apply (near_mono 1 n); auto. intros i Hi.
  pose proof (parent_center t W a i Ha Ha0 Hi). pose proof (parent_center t W b i Hb Hb0 Hi).
  rewrite E in *. change (Z.of_nat 1) with 1%Z. lia.
Qed.

Lemma near_sym_level n a b : box_level t a = box_level t b -> near n a b -> near n b a.
Proof.
  intros L H i Hi. specialize (H i Hi).
  assert (R : box_rad t b = box_rad t a) by (unfold box_rad; congruence).
  rewrite R in *. lia.
Qed.
End Geom.
