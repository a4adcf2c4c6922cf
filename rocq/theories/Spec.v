(** Specification vocabulary: geometric and ancestry notions used to state the
    traversal properties.  Independent of the traversal model. *)
From Coq Require Import List Arith ZArith Lia Bool.
From Verif Require Import Base Tree.
Import ListNotations.

(** A point (integer coordinates in the tree's unit) in the closed box b. *)
Definition in_closed_box (t : tree) (b : nat) (x : nat -> Z) : Prop :=
  forall i, i < dim t -> (Z.abs (x i - box_center t b i) <= box_rad t b)%Z.

(** Two boxes touch: their closed boxes have a common point. *)
Definition touching (t : tree) (a b : nat) : Prop :=
  exists x, in_closed_box t a x /\ in_closed_box t b x.

(** Same-level boxes at most [n] boxes apart: centers at most n box widths apart
    along each axis. *)
Definition within_n_boxes (t : tree) (n : nat) (a b : nat) : Prop :=
  box_level t a = box_level t b /\
  forall i, i < dim t ->
    (Z.abs (box_center t a i - box_center t b i) <= Z.of_nat n * (2 * box_rad t a))%Z.

(** The box itself, its parent, its grandparent, ..., the root. *)
Fixpoint chain_fuel (t : tree) (fuel b : nat) : list nat :=
  b :: match fuel with 0 => [] | S f => chain_fuel t f (box_parent t b) end.
Definition ancestors_or_self (t : tree) (b : nat) : list nat :=
  chain_fuel t (box_level t b) b.
