(** What the array returned by the space invader query should hold, in real numbers. *)
From Coq Require Import ZArith Reals SpecFloat.
Local Open Scope R_scope.

(** the number [v] times 2^[e] *)
Definition two_to (e : Z) : R := if (0 <=? e)%Z then IZR (2 ^ e) else / IZR (2 ^ (- e)).
Definition scaled_int (v e : Z) : R := IZR v * two_to e.
(** the value of a finite floating-point number *)
Definition float_value (x : spec_float) : option R :=
  match x with
  | S754_zero _ => Some 0
  | S754_finite s m e => Some (scaled_int (if s then Z.neg m else Z.pos m) e)
  | _ => None
  end.
(** numbers of single precision *)
Definition single_number (x : R) : Prop :=
  exists m e, x = scaled_int m e /\ (Z.abs m < 2 ^ 24)%Z /\ (-149 <= e <= 104)%Z.
(** [y] is a number of single precision and no other is closer to [x] *)
Definition nearest_single (x y : R) : Prop :=
  single_number y /\ forall z, single_number z -> Rabs (y - x) <= Rabs (z - x).
(** the largest number of single precision and half of its distance to the next power of two *)
Definition single_range (x : R) : Prop := Rabs x < scaled_int (2 ^ 25 - 1) 103.
