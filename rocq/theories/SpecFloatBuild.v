(** Vocabulary for trees built in floating-point arithmetic. *)
From Coq Require Import List Arith ZArith Reals.
From Flocq Require Import Core.
From Verif Require Import Tree TreeBuild Floats FloatBuild.
Import ListNotations.

(** the size of the smallest cube around the particles *)
Definition spread_of (axes : list (list R)) (s : R) : Prop :=
  (exists xs x y, In xs axes /\ In x xs /\ In y xs /\ x - y = s)%R /\
  (forall xs x y, In xs axes -> In x xs -> In y xs -> x - y <= s)%R.
(** [n] particles with [prec] binary digits, not all at the same place, whose coordinates exceed their
    spread by a factor of at most 2^(prec-16), as in C75 *)
Record resolvable (prec : Z) (huge : R) (axes : list (list R)) (n : nat) : Prop := {
  rs_dim : 0 < length axes;
  rs_count : forall a, a < length axes -> length (nth a axes []) = n;
  rs_some : 0 < n;
  rs_huge : forall xs x, In xs axes -> In x xs -> (Rabs x <= huge)%R;
  rs_spread : exists s, spread_of axes s /\ (0 < s)%R /\
    forall xs x, In xs axes -> In x xs -> (Rabs x <= bpow radix2 (prec - 16) * s)%R
}.
(** the tree builder ran with the Morton numbers of floating-point particles without extents *)
Definition runs_on (A : arith) (of_int : Z -> num A) (to_int : num A -> Z) (axes : list (list (num A))) (inp : input) : Prop :=
  idim inp = length axes /\ ext inp = None /\
  forall u level, u < npart inp -> level <= 29 -> morton_number inp u level = f_morton_number A of_int to_int axes u level.
