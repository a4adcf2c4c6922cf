(** When the precision of the arithmetic suffices for a tree. *)
From Coq Require Import Arith ZArith Reals.
From Flocq Require Import Core.
From Verif Require Import Tree TravFloat.

(** The precision resolves the smallest boxes of the tree: the rounding error of a coordinate,
    2^-prec times the largest magnitude, times a small factor, is below the radius of a box on the
    deepest level. *)
Definition precise_enough (prec : Z) (t : tree) (n : nat) (G : float_geometry R) : Prop :=
  exists K, (2 * f_extent G <= K)%R /\ (forall i, (i < dim t)%nat -> Rabs (f_root_center G i) + 2 * f_extent G <= K)%R /\
  ((4 * INR (nlevels t) + 4 * INR n + 20) * (bpow radix2 (- prec) * K) < f_extent G * bpow radix2 (- Z.of_nat (nlevels t)))%R.
(** numbers a tree in that format can have *)
Definition geometry_ok (prec : Z) (G : float_geometry R) : Prop :=
  generic_format radix2 (FLX_exp prec) (f_extent G) /\ (0 < f_extent G)%R /\ (0 <= f_stick_out G)%R.
