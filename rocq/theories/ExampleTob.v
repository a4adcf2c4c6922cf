(** Concrete histories of trees of boxes used as non-vacuity witnesses. *)
From Coq Require Import List Arith ZArith NArith Lia Bool Permutation.
From Verif Require Import Base Tree TreeOfBoxes SpecTob TobFacts TobCoarsen.
Import ListNotations.

Definition get_ok (t : tob) (r : result tob) : tob := match r with Ok x => x | _ => t end.
Definition is_ok (r : result tob) : bool := match r with Ok _ => true | _ => false end.
Lemma get_ok_eq t r : is_ok r = true -> r = Ok (get_ok t r).
Proof. destruct r; simpl; congruence. Qed.

Fixpoint insert (key : nat -> nat) (x : nat) (l : list nat) : list nat :=
  match l with
  | [] => [x]
  | y :: l' => if key x <=? key y then x :: l else y :: insert key x l'
  end.
(** an argsort that reverses ties relative to a stable sort *)
Definition isort (n : nat) (key : nat -> nat) : list nat := fold_left (fun l x => insert key x l) (seq 0 n) [].

Definition check_order (n : nat) (key : nat -> nat) (o : list nat) : bool :=
  (length o =? n) && forallb (fun x => existsb (Nat.eqb x) o) (seq 0 n) &&
  forallb (fun i => key (nth i o 0) <=? key (nth (S i) o 0)) (seq 0 (n - 1)).
Lemma check_order_ok n key o : check_order n key o = true -> argsort_ok n key o.
Proof.
  unfold check_order. rewrite !andb_true_iff, Nat.eqb_eq, !forallb_forall. intros [[H1 H2] H3]. split.
  - apply Permutation_sym, NoDup_Permutation_bis; [apply seq_NoDup|rewrite seq_length; lia|].
    intros x Hx. apply H2 in Hx. apply existsb_exists in Hx. destruct Hx as [y [Hy E]]. apply Nat.eqb_eq in E. congruence.
  - intros i j Hij Hj. apply (sorted_steps (fun i => key (nth i o 0)) n); auto.
    intros k Hk. apply Nat.leb_le. apply H3. apply in_seq. lia.
Qed.

Definition flags_of (l : list nat) (b : nat) : bool := existsb (Nat.eqb b) l.
Definition step (s : nat) (rf cf : list nat) (t : tob) : tob :=
  let u := get_ok t (unsorted_result s (flags_of rf) (flags_of cf) true t) in
  get_ok t (refine_and_coarsen s (isort (tn u) (tlevel u)) (flags_of rf) (flags_of cf) true t).
Definition step_ok (s L : nat) (rf cf : list nat) (t : tob) : bool :=
  let u := get_ok t (unsorted_result s (flags_of rf) (flags_of cf) true t) in
  forallb (fun b => negb (flags_of rf b) || (tlevel t b <? L)) (seq 0 (tn t)) &&
  is_ok (unsorted_result s (flags_of rf) (flags_of cf) true t) &&
  check_order (tn u) (tlevel u) (isort (tn u) (tlevel u)) &&
  is_ok (refine_and_coarsen s (isort (tn u) (tlevel u)) (flags_of rf) (flags_of cf) true t).
Lemma step_reachable s L rf cf t : reachable s L t -> step_ok s L rf cf t = true -> reachable s L (step s rf cf t).
Proof.
  unfold step_ok. rewrite !andb_true_iff, forallb_forall. intros R [[[H1 H2] H3] H4].
  set (u := get_ok t (unsorted_result s (flags_of rf) (flags_of cf) true t)) in *.
  apply (reach_step s L t u _ (flags_of rf) (flags_of cf) true (isort (tn u) (tlevel u))); auto.
  - intros b Hb Hrf. specialize (H1 b ltac:(apply in_seq; lia)). rewrite Hrf in H1. simpl in H1.
    apply Nat.ltb_lt; auto.
  - apply get_ok_eq; eauto.
  - apply check_order_ok; eauto.
  - apply get_ok_eq; auto.
Qed.

(** 2D: root on [0,64)^2; refine the root, then two of its children, then a level-2 box together
    with a level-1 box while coarsening the children of another level-1 box. *)
Definition exr : tob := match make_root 2 (fun _ => 0%Z) (fun _ => 64%Z) with Some t => t | None => mkTob 0 0 0 (fun _ _ => 0%Z) (fun _ => 0%Z) (fun _ _ => 0) (fun _ => 0) (fun _ => 0%N) None end.
Definition ext1 : tob := step 127 [0] [] exr.
Definition ext2 : tob := step 127 [1; 3] [] ext1.
Definition ext3 : tob := step 127 [7; 2] [9] ext2.
