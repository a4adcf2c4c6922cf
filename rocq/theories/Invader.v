(** Space invader query: boxtree/area_query.py (613-650, 1012-1049) with the distances stored as
    bit patterns of IEEE 754 single precision numbers.  Numbers are Coq's SpecFloat. *)
From Coq Require Import List ZArith Bool SpecFloat.
From Verif Require Import Base Tree AreaQuery.
Import ListNotations.
Local Open Scope Z_scope.

(** area_query.py:649 (float) max_dist: the distance of [d] units of 2^[unit_exp], rounded to single
    precision.  Simplification: coordinates and their differences are exact in coord_t. *)
Definition to_single (unit_exp d : Z) : spec_float := binary_normalize 24 128 d unit_exp false.

(** as_int of OpenCL C: sign, eight bits of exponent, 23 bits of fraction, read as a signed number.
    The payload of a NaN is that of the canonical one. *)
Definition fields (exponent fraction : Z) : Z := exponent * 2 ^ 23 + fraction.
Definition with_sign (s : bool) (z : Z) : Z := if s then z - 2 ^ 31 else z.
Definition as_int (x : spec_float) : Z :=
  match x with
  | S754_zero s => with_sign s (fields 0 0)
  | S754_infinity s => with_sign s (fields 255 0)
  | S754_nan => fields 255 (2 ^ 22)
  | S754_finite s m e => with_sign s (if 2 ^ 23 <=? Z.pos m then fields (e + 150) (Z.pos m - 2 ^ 23) else fields 0 (Z.pos m))
  end.
(** the float with a bit pattern whose sign bit is clear *)
Definition of_int (z : Z) : spec_float :=
  let k := z / 2 ^ 23 in
  let f := z mod 2 ^ 23 in
  if k =? 255 then (if f =? 0 then S754_infinity false else S754_nan)
  else if k =? 0 then match f with Z.pos m => S754_finite false m (-149) | _ => S754_zero false end
  else S754_finite false (Z.to_pos (2 ^ 23 + f)) (k - 150).

(** area_query.py:1038-1043 astype: single precision to a coordinate type *)
Definition to_coord (prec emax : Z) (x : spec_float) : spec_float :=
  match x with
  | S754_finite s m e => binary_normalize prec emax (if s then Z.neg m else Z.pos m) e false
  | _ => x
  end.

(** area_query.py:1012-1049: the atomic updates of all work items, and the array that is returned
    when they take effect in the order [schedule] *)
Definition query_updates (t : tree) (bbox_min : nat -> Z) (unit_exp : Z) (balls : list ball) : option (list (nat * Z)) :=
  invader_updates t bbox_min (fun d => as_int (to_single unit_exp d)) balls.
Definition query_result (prec emax : Z) (schedule : list (nat * Z)) (b : nat) : spec_float :=
  to_coord prec emax (of_int (run_updates schedule b)).
