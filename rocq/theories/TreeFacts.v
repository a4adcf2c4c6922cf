(** Ancestors, radii and exactness of the adjacency tolerance. *)
From Coq Require Import List Arith ZArith Lia Bool.
From Verif Require Import Base Tree Spec.
Import ListNotations.

Section Facts.
Variable t : tree.
Hypothesis W : wf_tree t.

(** ** Radii *)
Lemma rad_exact l : l < nlevels t ->
  (root_extent t = level_to_rad t l * 2 ^ Z.of_nat (l + 1))%Z.
Proof.
  intros H. unfold level_to_rad. destruct (wf_extent_div t W) as [k Hk].
  replace (Z.of_nat (nlevels t)) with (Z.of_nat (nlevels t - (l+1)) + Z.of_nat (l+1))%Z in Hk by lia.
  rewrite Z.pow_add_r in Hk by lia.
  rewrite Hk. rewrite Z.mul_assoc. rewrite Z.div_mul; auto.
  apply Z.pow_nonzero; lia.
Qed.

Lemma rad_pos l : l < nlevels t -> (0 < level_to_rad t l)%Z.
Proof.
  intros H. pose proof (rad_exact l H). pose proof (wf_extent_pos t W).
  assert (0 < 2 ^ Z.of_nat (l+1))%Z by (apply Z.pow_pos_nonneg; lia). nia.
Qed.

Lemma rad_double l : S l < nlevels t -> level_to_rad t l = (2 * level_to_rad t (S l))%Z.
Proof.
  intros H. pose proof (rad_exact l ltac:(lia)) as H1. pose proof (rad_exact (S l) H) as H2.
  replace (Z.of_nat (S l + 1)) with (1 + Z.of_nat (l+1))%Z in H2 by lia.
  rewrite Z.pow_add_r in H2 by lia. change (2^1)%Z with 2%Z in H2.
  assert (H0 : (0 < 2 ^ Z.of_nat (l+1))%Z) by (apply Z.pow_pos_nonneg; lia).
  generalize dependent (2 ^ Z.of_nat (l+1))%Z. intros P H1 H2 H0. nia.
Qed.

Lemma rad_pow l k : l + k < nlevels t ->
  level_to_rad t l = (2 ^ Z.of_nat k * level_to_rad t (l + k))%Z.
Proof.
  induction k; intros H.
  - rewrite Nat.add_0_r. change (Z.of_nat 0) with 0%Z. rewrite Z.pow_0_r. ring.
  - rewrite IHk by lia. rewrite (rad_double (l+k)) by lia.
    replace (Z.of_nat (S k)) with (1 + Z.of_nat k)%Z by lia.
    rewrite Z.pow_add_r by lia. replace (l + S k) with (S (l+k)) by lia. change (2^1)%Z with 2%Z. ring.
Qed.

Lemma box_rad_pos b : b < nboxes t -> (0 < box_rad t b)%Z.
Proof. intros. apply rad_pos. apply wf_level_lt; auto. Qed.

(** ** Children and parents *)
Definition is_child (c b : nat) : Prop :=
  c <> 0 /\ exists m, m < nchildren t /\ box_child t m b = c.

Lemma child_facts m b : b < nboxes t -> m < nchildren t -> box_child t m b <> 0 ->
  box_parent t (box_child t m b) = b /\
  box_level t (box_child t m b) = S (box_level t b) /\
  box_child t m b < nboxes t.
Proof.
  intros Hb Hm Hc. destruct (wf_child t W m b Hb Hm Hc) as [H1 [H2 H3]].
  repeat split; auto. apply wf_child_lt; auto.
Qed.

Lemma parent_lt b : b < nboxes t -> box_parent t b < nboxes t.
Proof.
  intros H. destruct b. { rewrite wf_root_parent; auto. }
  apply (wf_parent t W); lia.
Qed.

Lemma parent_level b : b < nboxes t -> 0 < b -> box_level t b = S (box_level t (box_parent t b)).
Proof.
  intros H H0. destruct (wf_parent t W b H0 H) as [Hp [m [Hm Hc]]].
  destruct (child_facts m _ Hp Hm) as [_ [Hl _]]; [lia|]. rewrite Hc in Hl. auto.
Qed.

Lemma level_0 b : b < nboxes t -> box_level t b = 0 -> b = 0.
Proof. intros H Hl. destruct b; auto. rewrite parent_level in Hl by lia. lia. Qed.

Lemma level_pos b : b < nboxes t -> 0 < b -> 0 < box_level t b.
Proof. intros. rewrite parent_level; lia. Qed.

Lemma parent_level_pred b : b < nboxes t -> box_level t (box_parent t b) = box_level t b - 1.
Proof.
  intros H. destruct b. { rewrite (wf_root_parent t W), (wf_root_level t W). auto. }
  rewrite (parent_level (S b)) by lia. lia.
Qed.

Lemma parent_center b i : b < nboxes t -> 0 < b -> i < dim t ->
  (Z.abs (box_center t b i - box_center t (box_parent t b) i) = box_rad t b)%Z.
Proof.
  intros H H0 Hi. destruct (wf_parent t W b H0 H) as [Hp [m [Hm Hc]]].
  destruct (wf_child t W m _ Hp Hm) as [_ [_ H3]]; [lia|].
  specialize (H3 i Hi). rewrite Hc in H3. rewrite H3.
  pose proof (box_rad_pos b H). unfold morton_sign. destruct Nat.testbit; lia.
Qed.

Lemma parent_rad b : b < nboxes t -> 0 < b -> box_rad t (box_parent t b) = (2 * box_rad t b)%Z.
Proof.
  intros H H0. unfold box_rad. rewrite (parent_level b) by auto. apply rad_double.
  rewrite <- parent_level by auto. apply wf_level_lt; auto.
Qed.

(** ** Ancestors by level *)
Definition up (k b : nat) : nat := Nat.iter k (box_parent t) b.
Definition anc (k b : nat) : nat := up (box_level t b - k) b.

Lemma up_lt k b : b < nboxes t -> up k b < nboxes t.
Proof. intros H. induction k; simpl; auto. apply parent_lt; auto. Qed.

Lemma up_level k b : b < nboxes t -> box_level t (up k b) = box_level t b - k.
Proof.
  intros H. induction k; simpl; [lia|].
  fold (up k b). rewrite parent_level_pred by (apply up_lt; auto). lia.
Qed.

Lemma up_up j k b : up j (up k b) = up (j + k) b.
Proof. unfold up. induction j; simpl; auto. Qed.

Lemma anc_lt k b : b < nboxes t -> anc k b < nboxes t.
Proof. apply up_lt. Qed.
Lemma anc_level k b : b < nboxes t -> k <= box_level t b -> box_level t (anc k b) = k.
Proof. intros. unfold anc. rewrite up_level by auto. lia. Qed.
Lemma anc_self b : anc (box_level t b) b = b.
Proof. unfold anc. rewrite Nat.sub_diag. reflexivity. Qed.
Lemma anc_anc j k b : b < nboxes t -> j <= k -> k <= box_level t b -> anc j (anc k b) = anc j b.
Proof.
  intros. unfold anc at 1. rewrite anc_level by auto. unfold anc. rewrite up_up. f_equal. lia.
Qed.
Lemma anc_0 b : b < nboxes t -> anc 0 b = 0.
Proof. intros. apply level_0; [apply anc_lt; auto|apply anc_level; auto; lia]. Qed.
Lemma parent_anc k b : b < nboxes t -> k < box_level t b -> box_parent t (anc (S k) b) = anc k b.
Proof.
  intros. unfold anc. replace (box_level t b - k) with (S (box_level t b - S k)) by lia. reflexivity.
Qed.
Lemma parent_is_anc b : b < nboxes t -> 0 < b -> box_parent t b = anc (box_level t b - 1) b.
Proof.
  intros. pose proof (level_pos b H H0). unfold anc.
  replace (box_level t b - (box_level t b - 1)) with 1 by lia. reflexivity.
Qed.
Lemma anc_parent k b : b < nboxes t -> k < box_level t b -> anc k (box_parent t b) = anc k b.
Proof.
  intros. rewrite parent_is_anc; auto.
  - rewrite anc_anc; auto; lia.
  - destruct b; [rewrite (wf_root_level t W) in *; lia | lia].
Qed.
Lemma anc_pos k b : b < nboxes t -> 0 < k -> k <= box_level t b -> 0 < anc k b.
Proof.
  intros. destruct (anc k b) eqn:E; [|lia].
  assert (box_level t (anc k b) = k) by (apply anc_level; auto).
  rewrite E, (wf_root_level t W) in *. lia.
Qed.

Lemma chain_fuel_map f b : chain_fuel t f b = map (fun k => up k b) (seq 0 (S f)).
Proof.
  revert b; induction f; intros b; [reflexivity|].
  change (chain_fuel t (S f) b) with (b :: chain_fuel t f (box_parent t b)).
  rewrite IHf. change (seq 0 (S (S f))) with (0 :: seq 1 (S f)).
  rewrite map_cons. change (up 0 b) with b. f_equal.
  rewrite <- (seq_shift (S f) 0), map_map. apply map_ext. intros k.
  clear. induction k; simpl in *; auto.
Qed.

Lemma in_chain a b : b < nboxes t ->
  (In a (ancestors_or_self t b) <-> exists k, k <= box_level t b /\ a = anc k b).
Proof.
  intros H. unfold ancestors_or_self. rewrite chain_fuel_map, in_map_iff. split.
  - intros [k [<- Hk]]. apply in_seq in Hk. exists (box_level t b - k). split; [lia|].
    unfold anc. f_equal. lia.
  - intros [k [Hk ->]]. exists (box_level t b - k). split; auto. apply in_seq. lia.
Qed.

Lemma chain_NoDup b : b < nboxes t -> NoDup (ancestors_or_self t b).
Proof.
  intros H. unfold ancestors_or_self. rewrite chain_fuel_map. apply NoDup_map_inj.
  - intros x y Hx Hy E. apply in_seq in Hx, Hy.
    assert (box_level t (up x b) = box_level t (up y b)) by congruence.
    rewrite !up_level in * by auto. lia.
  - apply seq_NoDup.
Qed.
End Facts.
