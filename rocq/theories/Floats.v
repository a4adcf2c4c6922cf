(** Floating-point computation of the root box and of scaled coordinates: boxtree/tree_build.py
    (462-476) and boxtree/tree_build_kernels.py (247-470), written for an arbitrary arithmetic.
    Two instances: IEEE 754 numbers (Coq's SpecFloat, computable) and real numbers that are
    rounded to nearest after every operation (Flocq, unbounded exponents). *)
From Coq Require Import List ZArith Bool Reals SpecFloat.
From Flocq Require Import Core.
Import ListNotations.

Record arith := mkArith {
  num : Type;
  add : num -> num -> num;
  sub : num -> num -> num;
  mul : num -> num -> num;
  div : num -> num -> num;
  ltb : num -> num -> bool;
  top_num : num;                 (* DBL_MAX or FLT_MAX *)
  bottom_num : num;              (* -DBL_MAX or -FLT_MAX *)
  stretch : num                  (* 1 + ROOT_EXTENT_STRETCH_FACTOR, tree_build.py:101 *)
}.

Section Formulas.
Variable A : arith.
(** min and max of OpenCL C *)
Definition f_min (a b : num A) : num A := if ltb A b a then b else a.
Definition f_max (a b : num A) : num A := if ltb A a b then b else a.
(** bounding_box.py:64-98 on one axis, particle by particle *)
Definition axis_min (xs : list (num A)) : num A := fold_left f_min xs (top_num A).
Definition axis_max (xs : list (num A)) : num A := fold_left f_max xs (bottom_num A).
(** tree_build.py:464-466; [axes]: the coordinates on each axis.  The factor 1.0001 is a number of
    the coordinate type. *)
Definition axis_extent (xs : list (num A)) : num A := sub A (axis_max xs) (axis_min xs).
Definition float_root_extent (axes : list (list (num A))) : num A :=
  match axes with
  | [] => top_num A
  | xs :: axes => mul A (fold_left f_max (map axis_extent axes) (axis_extent xs)) (stretch A)
  end.
(** tree_build.py:474-476 *)
Definition box_top (axes : list (list (num A))) (xs : list (num A)) : num A := add A (axis_min xs) (float_root_extent axes).
(** tree_build_kernels.py:358-359, 373-375: the scaled coordinate of [x] on the axis [xs] *)
Definition scaled (axes : list (list (num A))) (xs : list (num A)) (x : num A) : num A :=
  div A (sub A x (axis_min xs)) (sub A (box_top axes xs) (axis_min xs)).
End Formulas.

(** IEEE 754 numbers; 1.0001 is rounded correctly *)
Definition ieee (prec emax : Z) : arith :=
  let of_int n := binary_normalize prec emax n 0 false in
  {| num := spec_float; add := SFadd prec emax; sub := SFsub prec emax; mul := SFmul prec emax; div := SFdiv prec emax;
     ltb := SFltb; top_num := S754_finite false (Z.to_pos (2 ^ prec - 1)) (emax - prec);
     bottom_num := S754_finite true (Z.to_pos (2 ^ prec - 1)) (emax - prec);
     stretch := SFdiv prec emax (of_int 10001%Z) (of_int 10000%Z) |}.
(** tree_build_kernels.py:373-375: (unsigned) (scaled * (1U << (1 + level))) *)
Definition truncate (x : spec_float) : Z :=
  match x with
  | S754_finite false m e => if (0 <=? e)%Z then (Z.pos m * 2 ^ e)%Z else (Z.pos m / 2 ^ (- e))%Z
  | _ => 0%Z
  end.
Definition bits (prec emax : Z) (axes : list (list spec_float)) (xs : list spec_float) (x : spec_float) (level : nat) : Z :=
  truncate (SFmul prec emax (scaled (ieee prec emax) axes xs x) (binary_normalize prec emax (2 ^ Z.of_nat (1 + level)) 0 false)).
(** tree_build_kernels.py:441-445: the digits of the Morton number of the particle with index [i]
    at a level, one per axis *)
Definition morton_digits (prec emax : Z) (axes : list (list spec_float)) (i level : nat) : list bool :=
  map (fun xs => Z.odd (bits prec emax axes xs (nth i xs S754_nan) level)) axes.

(** real numbers rounded to nearest even with [prec] digits *)
Definition rounded (prec : Z) (huge : R) : arith :=
  let rnd := round radix2 (FLX_exp prec) ZnearestE in
  {| num := R; add x y := rnd (x + y)%R; sub x y := rnd (x - y)%R; mul x y := rnd (x * y)%R; div x y := rnd (x / y)%R;
     ltb := Rlt_bool; top_num := huge; bottom_num := (- huge)%R; stretch := rnd (10001 / 10000)%R |}.
