(** General purpose list / sum lemmas used by all other files. Nothing here
    models code. *)
From Coq Require Import List Arith ZArith Lia Bool Permutation.
Import ListNotations.

(** ** Sums *)
Definition nsum (l : list nat) : nat := fold_right Nat.add 0 l.
Definition zsum (l : list Z) : Z := fold_right Z.add 0%Z l.

Lemma nsum_app l1 l2 : nsum (l1 ++ l2) = nsum l1 + nsum l2.
Proof. induction l1; simpl; lia. Qed.
Lemma zsum_app l1 l2 : zsum (l1 ++ l2) = (zsum l1 + zsum l2)%Z.
Proof. induction l1; simpl; lia. Qed.

Lemma nsum_map_add {A} (f g : A -> nat) l :
  nsum (map (fun x => f x + g x) l) = nsum (map f l) + nsum (map g l).
Proof. induction l; simpl; lia. Qed.
Lemma zsum_map_add {A} (f g : A -> Z) l :
  zsum (map (fun x => f x + g x)%Z l) = (zsum (map f l) + zsum (map g l))%Z.
Proof. induction l; simpl; lia. Qed.
Lemma zsum_map_mul {A} c (f : A -> Z) l :
  zsum (map (fun x => c * f x)%Z l) = (c * zsum (map f l))%Z.
Proof. induction l; simpl; lia. Qed.
Lemma nsum_map_0 {A} (f : A -> nat) l :
  (forall x, In x l -> f x = 0) -> nsum (map f l) = 0.
Proof. induction l; simpl; intros H; auto. rewrite H by auto. apply IHl; auto. Qed.
Lemma zsum_map_0 {A} (f : A -> Z) l :
  (forall x, In x l -> f x = 0%Z) -> zsum (map f l) = 0%Z.
Proof. induction l; simpl; intros H; auto. rewrite H by auto. rewrite IHl; auto. Qed.

Lemma zsum_swap {A B} (f : A -> B -> Z) la lb :
  zsum (map (fun a => zsum (map (f a) lb)) la) =
  zsum (map (fun b => zsum (map (fun a => f a b) la)) lb).
Proof.
  induction la; simpl.
  - rewrite zsum_map_0; auto.
  - rewrite IHla. rewrite <- zsum_map_add. reflexivity.
Qed.
Lemma nsum_swap {A B} (f : A -> B -> nat) la lb :
  nsum (map (fun a => nsum (map (f a) lb)) la) =
  nsum (map (fun b => nsum (map (fun a => f a b) la)) lb).
Proof.
  induction la; simpl.
  - rewrite nsum_map_0; auto.
  - rewrite IHla. rewrite <- nsum_map_add. reflexivity.
Qed.

Lemma zsum_perm l1 l2 : Permutation l1 l2 -> zsum l1 = zsum l2.
Proof. induction 1; simpl; lia. Qed.
Lemma nsum_perm l1 l2 : Permutation l1 l2 -> nsum l1 = nsum l2.
Proof. induction 1; simpl; lia. Qed.

Lemma zsum_concat ll : zsum (concat ll) = zsum (map zsum ll).
Proof. induction ll; simpl; auto. rewrite zsum_app. lia. Qed.
Lemma nsum_concat ll : nsum (concat ll) = nsum (map nsum ll).
Proof. induction ll; simpl; auto. rewrite nsum_app. lia. Qed.

(** sum over a list with exactly one non-zero element *)
Lemma nsum_map_single {A} (f : A -> nat) l a :
  NoDup l -> In a l -> (forall x, In x l -> x <> a -> f x = 0) ->
  nsum (map f l) = f a.
Proof.
  induction l as [|b l IH]; simpl; [tauto|].
  intros ND [->|Hin] H; inversion ND; subst.
  - rewrite nsum_map_0; [lia|]. intros x Hx. apply H; auto. congruence.
  - rewrite H; [|auto|congruence]. simpl. apply IH; auto.
Qed.
Lemma zsum_map_single {A} (f : A -> Z) l a :
  NoDup l -> In a l -> (forall x, In x l -> x <> a -> f x = 0%Z) ->
  zsum (map f l) = f a.
Proof.
  induction l as [|b l IH]; simpl; [tauto|].
  intros ND [->|Hin] H; inversion ND; subst.
  - rewrite zsum_map_0; [lia|]. intros x Hx. apply H; auto. congruence.
  - rewrite H; [|auto|congruence]. simpl. apply IH; auto.
Qed.

Lemma nsum_le_in l x : In x l -> x <= nsum l.
Proof. induction l; simpl; [tauto|]. intros [->|H]; [lia|]. apply IHl in H. lia. Qed.

Lemma nsum_map_le {A} (f g : A -> nat) l :
  (forall x, In x l -> f x <= g x) -> nsum (map f l) <= nsum (map g l).
Proof.
  induction l; simpl; auto. intros H.
  pose proof (H a (or_introl eq_refl)). assert (nsum (map f l) <= nsum (map g l)) by auto. lia.
Qed.

Lemma nsum_map_const {A} (c : nat) (l : list A) :
  nsum (map (fun _ => c) l) = length l * c.
Proof. induction l; simpl; lia. Qed.

(** ** Counting occurrences of box ids *)
Definition count (x : nat) (l : list nat) : nat := count_occ Nat.eq_dec l x.
Arguments count : simpl never.

Lemma count_nil x : count x [] = 0.
Proof. reflexivity. Qed.
Lemma count_app x l1 l2 : count x (l1 ++ l2) = count x l1 + count x l2.
Proof. unfold count. apply count_occ_app. Qed.
Lemma count_cons x y l : count x (y :: l) = (if Nat.eqb x y then 1 else 0) + count x l.
Proof.
  unfold count. simpl. destruct (Nat.eq_dec y x), (Nat.eqb_spec x y); subst; lia || congruence.
Qed.
Lemma count_concat x ll : count x (concat ll) = nsum (map (count x) ll).
Proof. induction ll; simpl; auto. rewrite count_app. lia. Qed.
Lemma count_In x l : In x l <-> 0 < count x l.
Proof. unfold count. rewrite (count_occ_In Nat.eq_dec). lia. Qed.
Lemma count_notIn x l : ~ In x l <-> count x l = 0.
Proof. unfold count. apply count_occ_not_In. Qed.
Lemma NoDup_count l : NoDup l <-> forall x, count x l <= 1.
Proof. unfold count. apply NoDup_count_occ. Qed.
Lemma count_NoDup_In l x : NoDup l -> In x l -> count x l = 1.
Proof. intros H1 H2. apply count_In in H2. rewrite NoDup_count in H1. specialize (H1 x). lia. Qed.
Lemma count_filter x (p : nat -> bool) l :
  count x (filter p l) = if p x then count x l else 0.
Proof.
  induction l; simpl; [destruct (p x); reflexivity|].
  destruct (p a) eqn:E; rewrite ?(count_cons x a); rewrite IHl;
  destruct (Nat.eqb_spec x a) as [e|e]; try (rewrite <- e in E; rewrite E; lia);
  destruct (p x); lia.
Qed.
Lemma count_perm x l1 l2 : Permutation l1 l2 -> count x l1 = count x l2.
Proof. intros H. unfold count. rewrite Permutation_count_occ in H. apply H. Qed.

(** sum of an integer-valued function over a list, regrouped by value *)
Lemma zsum_map_by_count (f : nat -> Z) l n :
  (forall x, In x l -> x < n) ->
  zsum (map f l) = zsum (map (fun x => (Z.of_nat (count x l) * f x)%Z) (seq 0 n)).
Proof.
  induction l as [|a l IH]; intros H.
  - symmetry. apply zsum_map_0. intros. rewrite count_nil. lia.
  - change (map f (a :: l)) with (f a :: map f l).
    change (zsum (f a :: map f l)) with (f a + zsum (map f l))%Z.
    rewrite IH by (intros; apply H; right; auto).
    erewrite map_ext with (g := fun x => ((if Nat.eqb x a then f x else 0) +
                                  Z.of_nat (count x l) * f x)%Z)
      (f := fun x => (Z.of_nat (count x (a :: l)) * f x)%Z).
    + rewrite zsum_map_add. f_equal.
      rewrite (zsum_map_single _ _ a).
      * rewrite Nat.eqb_refl. reflexivity.
      * apply seq_NoDup.
      * apply in_seq. specialize (H a (or_introl eq_refl)). lia.
      * intros x _ Hne. destruct (Nat.eqb_spec x a); congruence.
    + intros x. rewrite count_cons. destruct (Nat.eqb x a); lia.
Qed.

(** ** Misc list lemmas *)
Lemma NoDup_app_intro {A} (l1 l2 : list A) :
  NoDup l1 -> NoDup l2 -> (forall x, In x l1 -> ~ In x l2) -> NoDup (l1 ++ l2).
Proof.
  induction l1; simpl; auto. intros H1 H2 H. inversion H1; subst. constructor.
  - rewrite in_app_iff. intros [?|?]; auto. eapply H; eauto.
  - apply IHl1; auto.
Qed.

Lemma NoDup_concat_intro {A} (ll : list (list A)) :
  (forall l, In l ll -> NoDup l) ->
  (forall i j x, i < length ll -> j < length ll -> i <> j ->
     In x (nth i ll []) -> In x (nth j ll []) -> False) ->
  NoDup (concat ll).
Proof.
  induction ll as [|l ll IH]; simpl; intros H1 H2; [constructor|].
  apply NoDup_app_intro.
  - auto.
  - apply IH; auto. intros i j x Hi Hj Hij Hx Hy.
    apply (H2 (S i) (S j) x); simpl; auto; lia.
  - intros x Hx Hc. apply in_concat in Hc. destruct Hc as [l' [Hl' Hx']].
    apply (In_nth _ _ []) in Hl'. destruct Hl' as [k [Hk Hk']].
    apply (H2 0 (S k) x); simpl; auto; try lia. rewrite Hk'. auto.
Qed.

Lemma NoDup_map_inj {A B} (f : A -> B) l :
  (forall x y, In x l -> In y l -> f x = f y -> x = y) -> NoDup l -> NoDup (map f l).
Proof.
  induction l; simpl; intros H ND; [constructor|]. inversion ND; subst. constructor.
  - rewrite in_map_iff. intros [y [Hy Hin]]. apply H in Hy; auto. congruence.
  - apply IHl; auto.
Qed.

Lemma nth_map_seq {A} (f : nat -> A) n i d : i < n -> nth i (map f (seq 0 n)) d = f i.
Proof.
  intros H. rewrite (nth_indep _ d (f 0)) by (rewrite map_length, seq_length; auto).
  rewrite map_nth. rewrite seq_nth; auto.
Qed.

Lemma NoDup_incl_length_seq l n : NoDup l -> (forall x, In x l -> x < n) -> length l <= n.
Proof.
  intros ND H. rewrite <- (seq_length n 0). apply NoDup_incl_length; auto.
  intros x Hx. apply in_seq. specialize (H x Hx). lia.
Qed.

Lemma concat_map_ext {A B} (f g : A -> list B) l :
  (forall x, In x l -> f x = g x) -> concat (map f l) = concat (map g l).
Proof. intros H. f_equal. apply map_ext_in. auto. Qed.

Lemma forallb_false_exists {A} (f : A -> bool) l :
  forallb f l = false -> exists x, In x l /\ f x = false.
Proof.
  induction l; simpl; [discriminate|]. destruct (f a) eqn:E; simpl; intros H.
  - destruct (IHl H) as [x [? ?]]. eauto.
  - eauto.
Qed.

Lemma in_concat_map {A B} (f : A -> list B) l y :
  In y (concat (map f l)) <-> exists x, In x l /\ In y (f x).
Proof.
  rewrite in_concat. split.
  - intros [l' [H1 H2]]. apply in_map_iff in H1. destruct H1 as [x [<- Hx]]. eauto.
  - intros [x [H1 H2]]. exists (f x). split; auto. apply in_map; auto.
Qed.

(** ** CSR list-of-lists *)
(** Running totals, as produced by an exclusive prefix sum with a final total. *)
Fixpoint prefix_from (acc : nat) (l : list nat) : list nat :=
  acc :: match l with [] => [] | x :: l' => prefix_from (acc + x) l' end.

Lemma prefix_from_length acc l : length (prefix_from acc l) = S (length l).
Proof. revert acc; induction l; simpl; auto. Qed.

Lemma prefix_from_nth acc l i d : i <= length l ->
  nth i (prefix_from acc l) d = acc + nsum (firstn i l).
Proof.
  revert acc i; induction l; intros acc [|i] H; simpl in *; try lia.
  rewrite IHl by lia. lia.
Qed.

Lemma skipn_concat_nth {A} (ll : list (list A)) i :
  i <= length ll ->
  skipn (nsum (firstn i (map (@length A) ll))) (concat ll) = concat (skipn i ll).
Proof.
  revert i; induction ll; intros [|i] H; simpl in *; auto; try lia.
  rewrite skipn_app. rewrite skipn_all2 by lia. simpl.
  replace (length a + _ - length a) with (nsum (firstn i (map (@length A) ll))) by lia.
  apply IHll. lia.
Qed.

Lemma skipn_nth_cons {A} (l : list A) i d : i < length l ->
  skipn i l = nth i l d :: skipn (S i) l.
Proof.
  revert i; induction l; intros [|i] H; simpl in *; auto; try lia.
  rewrite IHl by lia. reflexivity.
Qed.

Lemma nsum_firstn_S l i : i < length l -> nsum (firstn (S i) l) = nsum (firstn i l) + nth i l 0.
Proof.
  revert i; induction l; intros [|i] H; simpl in *; try lia.
  rewrite <- Nat.add_assoc, <- IHl by lia. reflexivity.
Qed.
