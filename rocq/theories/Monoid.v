(** Commutative monoids: values that can be added. *)
From Coq Require Import List Arith ZArith Lia Bool Permutation.
From Verif Require Import Base.
Import ListNotations.

(** ** Values that can be added: multipole expansions, local expansions, potentials.
    (coefficient vectors of floats in the code; here addition is exact) *)
Record cmonoid := mkMonoid {
  carrier :> Type;
  e0 : carrier;
  op : carrier -> carrier -> carrier;
  op_assoc : forall a b c, op a (op b c) = op (op a b) c;
  op_comm : forall a b, op a b = op b a;
  op_0 : forall a, op e0 a = a
}.
Arguments e0 {_}. Arguments op {_}.
Definition msum {X : cmonoid} (l : list X) : X := fold_right op e0 l.

(** the integers *)
Definition Zm : cmonoid := mkMonoid Z 0%Z Z.add Z.add_assoc Z.add_comm Z.add_0_l.
Canonical Zm.

(** ** Sums in a commutative monoid *)
Section Sums.
Context {X : cmonoid}.
Lemma op_0_r (a : X) : op a e0 = a.
Proof. rewrite op_comm. apply op_0. Qed.
Lemma op_swap (a b c d : X) : op (op a b) (op c d) = op (op a c) (op b d).
Proof.
  rewrite <- !op_assoc. f_equal. rewrite !op_assoc. f_equal. apply op_comm.
Qed.
Lemma msum_app (l l' : list X) : msum (l ++ l') = op (msum l) (msum l').
Proof. induction l; simpl; [rewrite op_0; auto|]. rewrite IHl, op_assoc. auto. Qed.
Lemma msum_map_ext {A} (f g : A -> X) l : (forall x, In x l -> f x = g x) -> msum (map f l) = msum (map g l).
Proof. intros. f_equal. apply map_ext_in. auto. Qed.
Lemma msum_map_op {A} (f g : A -> X) l :
  msum (map (fun x => op (f x) (g x)) l) = op (msum (map f l)) (msum (map g l)).
Proof. induction l; simpl; [rewrite op_0; auto|]. rewrite IHl. apply op_swap. Qed.
Lemma msum_map_0 {A} (f : A -> X) l : (forall x, In x l -> f x = e0) -> msum (map f l) = e0.
Proof. induction l; simpl; intros H; auto. rewrite H by auto. rewrite IHl, op_0; auto. Qed.
Lemma msum_swap {A B} (f : A -> B -> X) la lb :
  msum (map (fun a => msum (map (f a) lb)) la) = msum (map (fun b => msum (map (fun a => f a b) la)) lb).
Proof.
  induction la; simpl.
  - rewrite msum_map_0; auto.
  - rewrite IHla. rewrite <- msum_map_op. reflexivity.
Qed.
Lemma msum_map_single {A} (f : A -> X) l a :
  NoDup l -> In a l -> (forall x, In x l -> x <> a -> f x = e0) -> msum (map f l) = f a.
Proof.
  induction l as [|b l IH]; simpl; [tauto|].
  intros ND [->|Hin] H; inversion ND; subst.
  - rewrite msum_map_0; [apply op_0_r|]. intros x Hx. apply H; auto. congruence.
  - rewrite H; [|auto|congruence]. rewrite op_0. apply IH; auto.
Qed.
Lemma msum_perm (l l' : list X) : Permutation l l' -> msum l = msum l'.
Proof.
  induction 1; simpl; try congruence.
  rewrite !op_assoc. f_equal. apply op_comm.
Qed.
Lemma msum_map_concat {A} (f : A -> X) ll : msum (map f (concat ll)) = msum (map (fun l => msum (map f l)) ll).
Proof. induction ll; simpl; auto. rewrite map_app, msum_app, IHll. auto. Qed.
Lemma fold_op {A} (f : A -> X) l a : fold_left (fun a x => op a (f x)) l a = op a (msum (map f l)).
Proof.
  revert a. induction l; intros b; simpl; [rewrite op_0_r; auto|]. rewrite IHl, op_assoc. auto.
Qed.

(** n-fold sum *)
Definition nrep (n : nat) (v : X) : X := msum (repeat v n).
Lemma nrep_add n m v : nrep (n + m) v = op (nrep n v) (nrep m v).
Proof. unfold nrep. rewrite repeat_app. apply msum_app. Qed.
Lemma nrep_0 n : nrep n e0 = e0.
Proof. unfold nrep. induction n; simpl; auto. rewrite op_0. auto. Qed.
Lemma nrep_1 v : nrep 1 v = v.
Proof. unfold nrep. simpl. apply op_0_r. Qed.

Lemma msum_by_count (f : nat -> X) l n : (forall x, In x l -> x < n) ->
  msum (map f l) = msum (map (fun x => nrep (count x l) (f x)) (seq 0 n)).
Proof.
  induction l as [|a l IH]; intros H.
  - symmetry. apply msum_map_0. intros. rewrite count_nil. reflexivity.
  - change (msum (map f (a :: l))) with (op (f a) (msum (map f l))).
    rewrite IH by (intros; apply H; right; auto).
    rewrite (msum_map_ext (fun x => nrep (count x (a :: l)) (f x))
      (fun x => op (if Nat.eqb x a then f x else e0) (nrep (count x l) (f x)))).
    + rewrite msum_map_op. f_equal. rewrite (msum_map_single _ _ a).
      * rewrite Nat.eqb_refl. reflexivity.
      * apply seq_NoDup.
      * apply in_seq. specialize (H a (or_introl eq_refl)). lia.
      * intros x _ Hne. destruct (Nat.eqb_spec x a); congruence.
    + intros x _. rewrite count_cons. rewrite nrep_add. f_equal.
      destruct (Nat.eqb x a); [apply nrep_1|reflexivity].
Qed.
Lemma msum_filter {A} (q : A -> bool) (f : A -> X) l :
  msum (map f (filter q l)) = msum (map (fun x => if q x then f x else e0) l).
Proof. induction l as [|x l IH]; simpl; auto. destruct (q x); simpl; rewrite IH; auto. rewrite op_0. auto. Qed.
End Sums.

Lemma msum_hom {X Y : cmonoid} (h : X -> Y) : h e0 = e0 -> (forall a b, h (op a b) = op (h a) (h b)) ->
  forall l, h (msum l) = msum (map h l).
Proof. intros H0 H1 l. induction l; simpl; auto. rewrite H1, IHl. auto. Qed.

