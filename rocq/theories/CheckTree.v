(** A decision procedure for [wf_tree] / [wf_flags] / [level_sorted] on concrete trees,
    used to show that the hypotheses of the theorems are met by concrete trees. *)
From Coq Require Import List Arith ZArith NArith Lia Bool.
From Verif Require Import Base Tree LevelStarts.
Import ListNotations.

Definition forb (n : nat) (p : nat -> bool) : bool := forallb p (seq 0 n).
Definition exb (n : nat) (p : nat -> bool) : bool := existsb p (seq 0 n).
Lemma forb_spec n p : forb n p = true <-> forall i, i < n -> p i = true.
Proof.
  unfold forb. rewrite forallb_forall. split; intros H i Hi; apply H.
  - apply in_seq; lia.
  - apply in_seq in Hi; lia.
Qed.
Lemma exb_spec n p : exb n p = true <-> exists i, i < n /\ p i = true.
Proof.
  unfold exb. rewrite existsb_exists. split; intros [i [H1 H2]]; exists i; split; auto.
  - apply in_seq in H1; lia.
  - apply in_seq; lia.
Qed.

Definition check_wf (t : tree) : bool :=
  (0 <? nboxes t) && (0 <? root_extent t)%Z &&
  (root_extent t mod 2 ^ Z.of_nat (nlevels t) =? 0)%Z &&
  (box_level t 0 =? 0) && (box_parent t 0 =? 0) &&
  forb (nboxes t) (fun b => box_level t b <? nlevels t) &&
  forb (nboxes t) (fun b => forb (nchildren t) (fun m => box_child t m b <? nboxes t)) &&
  forb (nboxes t) (fun b => forb (nchildren t) (fun m =>
     (box_child t m b =? 0) ||
     ((box_parent t (box_child t m b) =? b) &&
      (box_level t (box_child t m b) =? S (box_level t b)) &&
      forb (dim t) (fun i =>
        (box_center t (box_child t m b) i =?
         box_center t b i + morton_sign (dim t) m i * box_rad t (box_child t m b))%Z)))) &&
  forb (nboxes t) (fun b => forb (nchildren t) (fun m => forb (nchildren t) (fun m' =>
     (box_child t m b =? 0) || negb (box_child t m b =? box_child t m' b) || (m =? m')))) &&
  forb (nboxes t) (fun b => (b =? 0) ||
     ((box_parent t b <? nboxes t) &&
      exb (nchildren t) (fun m => box_child t m (box_parent t b) =? b))).

Lemma check_wf_ok t : check_wf t = true -> wf_tree t.
Proof.
  unfold check_wf. rewrite !andb_true_iff, !forb_spec.
  intros [[[[[[[[[H1 H2] H3] H4] H5] H6] H7] H8] H9] H10].
  apply Nat.ltb_lt in H1. apply Z.ltb_lt in H2. apply Z.eqb_eq in H3.
  apply Nat.eqb_eq in H4, H5. constructor; auto.
  - apply Z.mod_divide; auto. pose proof (Z.pow_pos_nonneg 2 (Z.of_nat (nlevels t))). lia.
  - intros b Hb. apply Nat.ltb_lt. auto.
  - intros m b Hb Hm. specialize (H7 b Hb). rewrite forb_spec in H7. apply Nat.ltb_lt. auto.
  - intros m b Hb Hm Hc. specialize (H8 b Hb). rewrite forb_spec in H8. specialize (H8 m Hm).
    apply orb_true_iff in H8. destruct H8 as [H8|H8]; [apply Nat.eqb_eq in H8; tauto|].
    rewrite !andb_true_iff, forb_spec in H8. destruct H8 as [[A1 A2] A3].
    apply Nat.eqb_eq in A1, A2. repeat split; auto. intros i Hi. apply Z.eqb_eq. auto.
  - intros m m' b Hb Hm Hm' Hc E. specialize (H9 b Hb). rewrite forb_spec in H9. specialize (H9 m Hm).
    rewrite forb_spec in H9. specialize (H9 m' Hm'). rewrite !orb_true_iff in H9.
    destruct H9 as [[H9|H9]|H9].
    + apply Nat.eqb_eq in H9. tauto.
    + apply negb_true_iff, Nat.eqb_neq in H9. congruence.
    + apply Nat.eqb_eq in H9. auto.
  - intros b H0 Hb. specialize (H10 b Hb). apply orb_true_iff in H10.
    destruct H10 as [H|H]; [apply Nat.eqb_eq in H; lia|]. rewrite andb_true_iff, exb_spec in H.
    destruct H as [A1 [m [A2 A3]]]. apply Nat.ltb_lt in A1. apply Nat.eqb_eq in A3. eauto.
Qed.

Definition check_flags (t : tree) : bool :=
  forb (nboxes t) (fun b => forb (nchildren t) (fun m =>
    (box_child t m b =? 0) ||
    (implb (is_source t (box_child t m b) || has_source_child t (box_child t m b))
           (has_source_child t b) &&
     implb (is_target t (box_child t m b) || has_target_child t (box_child t m b))
           (has_target_child t b)))).

Lemma check_flags_ok t : check_flags t = true -> wf_flags t.
Proof.
  unfold check_flags. rewrite forb_spec. intros H.
  assert (K : forall m b, b < nboxes t -> m < nchildren t -> box_child t m b <> 0 ->
    implb (is_source t (box_child t m b) || has_source_child t (box_child t m b))
           (has_source_child t b) = true /\
    implb (is_target t (box_child t m b) || has_target_child t (box_child t m b))
           (has_target_child t b) = true).
  { intros m b Hb Hm Hc. specialize (H b Hb). rewrite forb_spec in H. specialize (H m Hm).
    apply orb_true_iff in H. destruct H as [H|H]; [apply Nat.eqb_eq in H; tauto|].
    apply andb_true_iff in H. auto. }
  constructor; intros m b Hb Hm Hc E; destruct (K m b Hb Hm Hc) as [K1 K2];
    apply orb_true_iff in E; [rewrite E in K1|rewrite E in K2]; auto.
Qed.

Definition check_sorted (t : tree) (starts : nat -> nat) : bool :=
  forb (nboxes t) (fun b => forb (nlevels t) (fun l =>
     Bool.eqb (starts l <=? b) (l <=? box_level t b))).
Lemma check_sorted_ok t starts : check_sorted t starts = true -> level_sorted t starts.
Proof.
  unfold check_sorted. rewrite forb_spec. intros H b l Hb Hl. specialize (H b Hb).
  rewrite forb_spec in H. specialize (H l Hl). apply eqb_prop in H.
  rewrite <- !Nat.leb_le. rewrite H. tauto.
Qed.
