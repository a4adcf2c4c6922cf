(** Lemmas about the layout of expansion arrays. *)
From Coq Require Import List Arith ZArith Lia Bool Permutation.
From Verif Require Import Base Layout SpecLayout.
Import ListNotations.

(** *** the list of level starts *)
Section Starts.
Variables (nl : nat) (lsb sz : nat -> nat).
Definition start_of (l : nat) : nat := nsum (map (fun lev => sz lev * (lsb (lev + 1) - lsb lev)) (seq 0 l)).
Lemma start_of_S l : start_of (S l) = start_of l + sz l * (lsb (l + 1) - lsb l).
Proof. unfold start_of. rewrite seq_S, map_app, nsum_app. simpl. lia. Qed.
Lemma els_eq : expansions_level_starts nl lsb sz = map start_of (seq 0 (S nl)).
Proof.
  unfold expansions_level_starts. induction nl as [|n IH]; [reflexivity|].
  rewrite (seq_S n), fold_left_app, IH. cbn [fold_left].
  rewrite (seq_S (S n)), map_app. cbn [map]. f_equal. f_equal.
  replace (0 + S n) with (S n) by lia. replace (0 + n) with n by lia. rewrite start_of_S. f_equal.
  rewrite (seq_S n), map_app. cbn [map]. rewrite last_last. reflexivity.
Qed.
Lemma els_nth l : l <= nl -> nth l (expansions_level_starts nl lsb sz) 0 = start_of l.
Proof. intros H. rewrite els_eq. rewrite nth_indep with (d' := start_of 0) by (rewrite map_length, seq_length; lia).
  rewrite map_nth, seq_nth by lia. reflexivity. Qed.
Lemma els_last : last (expansions_level_starts nl lsb sz) 0 = start_of nl.
Proof. rewrite els_eq, seq_S, map_app. cbn [map]. rewrite last_last. reflexivity. Qed.
Lemma start_mono l l' : l <= l' -> start_of l <= start_of l'.
Proof. induction 1 as [|m H IH]; auto. rewrite start_of_S. etransitivity; [apply IH|apply Nat.le_add_r]. Qed.
Lemma view_ok l : l < nl -> expansions_view nl lsb sz l = Some (lsb l, start_of l).
Proof.
  intros H. unfold expansions_view. rewrite !els_nth by lia.
  assert (E : start_of (l + 1) = start_of l + sz l * (lsb (l + 1) - lsb l)) by (rewrite <- start_of_S; f_equal; lia).
  rewrite E, Nat.add_comm, Nat.add_sub, Nat.mul_comm, Nat.eqb_refl. auto.
Qed.
Lemma index_eq l b c : l < nl -> coefficient_index nl lsb sz l b c = Some (start_of l + (b - lsb l) * sz l + c).
Proof. intros H. unfold coefficient_index. rewrite view_ok by auto. reflexivity. Qed.
Lemma index_range l b c : on_level lsb l b -> c < sz l -> start_of l <= start_of l + (b - lsb l) * sz l + c < start_of (S l).
Proof. unfold on_level. intros H Hc. rewrite start_of_S. nia. Qed.
End Starts.

(** *** parts of lists *)
Lemma firstn_skipn_app_mid {C} (a v : list C) p n : length v = n -> p + n <= length a ->
  firstn n (skipn p (firstn p a ++ v ++ skipn (p + n) a)) = v.
Proof.
  intros L H. rewrite skipn_app, firstn_length, Nat.min_l by lia. rewrite skipn_all2 by (rewrite firstn_length; lia).
  rewrite Nat.sub_diag. cbn [skipn app]. rewrite firstn_app, L, Nat.sub_diag. cbn [firstn]. rewrite app_nil_r.
  apply firstn_all2. lia.
Qed.
Lemma skipn_twice {C} (a : list C) p n : skipn n (skipn p a) = skipn (p + n) a.
Proof. revert p. induction a as [|x a IH]; intros [|p]; simpl; rewrite ?skipn_nil; auto. Qed.
Lemma firstn_skipn_other {C} (a v : list C) p n q m : length v = n -> p + n <= length a -> q + m <= length a ->
  q + m <= p \/ p + n <= q ->
  firstn m (skipn q (firstn p a ++ v ++ skipn (p + n) a)) = firstn m (skipn q a).
Proof.
  intros L H H' D.
  assert (LEN : length (firstn p a ++ v ++ skipn (p + n) a) = length a).
  { rewrite !app_length, firstn_length, skipn_length. lia. }
  assert (N : forall i d, i < length a -> i < p \/ p + n <= i ->
    nth i (firstn p a ++ v ++ skipn (p + n) a) d = nth i a d).
  { intros i d Hi Q. rewrite <- (firstn_skipn p a) at 3.
    destruct Q as [Q|Q]; [rewrite !app_nth1 by (rewrite firstn_length; lia); auto|].
    assert (LF : length (firstn p a) = p) by (rewrite firstn_length; lia).
    rewrite (app_nth2 (firstn p a) (v ++ _)), (app_nth2 (firstn p a) (skipn p a)), LF by lia.
    rewrite app_nth2 by lia. rewrite L.
    replace (skipn (p + n) a) with (skipn n (skipn p a)) by apply skipn_twice.
    rewrite <- (firstn_skipn n (skipn p a)) at 2.
    assert (LG : length (firstn n (skipn p a)) = n) by (rewrite firstn_length, skipn_length; lia).
    rewrite app_nth2, LG by lia.
    reflexivity. }
  destruct a as [|d0 a'] eqn:Ea; [simpl in *; assert (p = 0) by lia; assert (n = 0) by lia; subst; destruct v; [reflexivity|discriminate]|].
  rewrite <- Ea in *. clear Ea.
  apply nth_ext with (d := d0) (d' := d0).
  - rewrite !firstn_length, !skipn_length, LEN. auto.
  - intros i Hi. rewrite firstn_length, skipn_length, LEN in Hi.
    assert (G : forall (l : list C), length l = length a -> nth i (firstn m (skipn q l)) d0 = nth (q + i) l d0).
    { intros l Hl. rewrite <- (firstn_skipn q l) at 2. rewrite app_nth2; rewrite firstn_length, Nat.min_l by lia; [|lia].
      replace (q + i - q) with i by lia. rewrite <- (firstn_skipn m (skipn q l)) at 2.
      rewrite app_nth1; auto. rewrite firstn_length, skipn_length. lia. }
    rewrite !G by auto. apply N; lia.
Qed.

(** *** sorting *)
Lemma insert_desc_perm x l : Permutation (insert_desc x l) (x :: l).
Proof.
  induction l as [|y l IH]; simpl; auto. destruct (y <=? x); auto.
  rewrite IH. apply perm_swap.
Qed.
Lemma sort_desc_perm l : Permutation (sort_desc l) l.
Proof. induction l as [|x l IH]; simpl; auto. rewrite insert_desc_perm, IH. auto. Qed.
Inductive desc : list nat -> Prop :=
| desc_nil : desc []
| desc_cons x l : (forall y, In y l -> y <= x) -> desc l -> desc (x :: l).
Lemma insert_desc_desc x l : desc l -> desc (insert_desc x l).
Proof.
  induction 1 as [|y l H D IH]; simpl; [constructor; [intros ? []|constructor]|].
  destruct (Nat.leb_spec y x).
  - constructor; [|constructor; auto]. intros z [->|Hz]; auto. specialize (H z Hz). lia.
  - constructor; auto. intros z Hz. apply (Permutation_in _ (insert_desc_perm x l)) in Hz. destruct Hz as [->|Hz]; auto. lia.
Qed.
Lemma sort_desc_desc l : desc (sort_desc l).
Proof. induction l; simpl; [constructor|apply insert_desc_desc; auto]. Qed.
Lemma find_desc f l : desc l -> match find f l with
  | Some x => In x l /\ f x = true /\ forall y, In y l -> f y = true -> y <= x
  | None => forall y, In y l -> f y = false end.
Proof.
  induction 1 as [|x l H D IH]; simpl; [intros ? []|]. destruct (f x) eqn:E.
  - split; auto. split; auto. intros y [->|Hy] _; auto.
  - destruct (find f l) as [z|].
    + destruct IH as [A [B C]]. split; auto. split; auto. intros y [->|Hy] Q; [congruence|auto].
    + intros y [->|Hy]; auto.
Qed.
