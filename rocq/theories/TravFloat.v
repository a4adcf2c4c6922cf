(** The geometric tests of the traversal builder (boxtree/traversal.py) in floating-point arithmetic,
    on box centers that are themselves computed in floating point (boxtree/tree_build_kernels.py).
    Two instances: IEEE 754 numbers (computable) and rounded real numbers.
    Every operation is rounded on its own; contraction into fused multiply-adds is not modelled. *)
From Coq Require Import List Arith ZArith Bool Reals SpecFloat.
From Flocq Require Import Core.
From Verif Require Import Base Tree Traversal TravRounded Floats.
Import ListNotations.

(** operations used besides those of Floats.v *)
Record trav_arith := mkTA {
  base :> arith;
  abs : num base -> num base;        (* fabs *)
  leb : num base -> num base -> bool;
  root : num base -> num base;       (* sqrt *)
  of_int : Z -> num base;            (* conversion of an integer to coord_t *)
  mach_eps : num base                (* traversal.py:228 COORD_T_MACH_EPS *)
}.

(** what the floating-point tests read besides the tree structure *)
Record float_geometry (num : Type) := mkFG {
  f_extent : num;                    (* tree.root_extent *)
  f_root_center : nat -> num;        (* center of box 0 on each axis, tree_build.py:585-588 *)
  f_stick_out : num;                 (* tree.stick_out_factor *)
  f_bb_min : nat -> nat -> num;      (* box_target_bounding_box_min of a box on an axis *)
  f_bb_max : nat -> nat -> num
}.
Arguments f_extent {num}. Arguments f_root_center {num}. Arguments f_stick_out {num}.
Arguments f_bb_min {num}. Arguments f_bb_max {num}.

Section Tests.
Variable A : trav_arith.
Variable t : tree.
Variable G : float_geometry (num A).
Variable crit : sep_crit.
Let n0 := of_int A 0. Let n1 := of_int A 1. Let n2 := of_int A 2. Let n3 := of_int A 3. Let n8 := of_int A 8.

(** traversal.py:234-235; also tree_build_kernels.py:696 with level + 1 = 1 + new_level.  The shift is
    exact (level <= 29, see C25). *)
Definition f_rad (level : nat) : num A :=
  div A (mul A (f_extent G) n1) (of_int A (2 ^ Z.of_nat (level + 1))).
(** the Morton number under which a box was created as a child of its parent *)
Definition morton_of (b : nat) : nat :=
  match find (fun m => box_child t m (box_parent t b) =? b) (seq 0 (nchildren t)) with Some m => m | None => 0 end.
(** tree_build_kernels.py:695-705: parent center plus or minus the radius; [k] levels below the root *)
Fixpoint f_center_at (k : nat) (b axis : nat) : num A :=
  match k with
  | 0 => f_root_center G axis
  | S k => let c := f_center_at k (box_parent t b) axis in
    if Nat.testbit (morton_of b) (dim t - 1 - axis) then add A c (f_rad (box_level t b)) else sub A c (f_rad (box_level t b))
  end.
Definition f_center (b axis : nat) : num A := f_center_at (box_level t b) b axis.

(** max over the axes of [f], starting from 0 (fmax) *)
Definition f_max_axes (f : nat -> num A) : num A := fold_left (fun acc i => f_max A acc (f i)) (seq 0 (dim t)) n0.
(** traversal.py:296-302, 963-969 *)
Definition f_linf (a b : nat) : num A := f_max_axes (fun i => abs A (sub A (f_center a i) (f_center b i))).
(** traversal.py:279-305 *)
Definition f_adjacent (n a la b lb : nat) : bool :=
  let target_rad := f_rad la in
  let source_rad := f_rad lb in
  let rad_sum := add A (mul A (add A (mul A n2 (sub A (of_int A (Z.of_nat n)) n1)) n1) target_rad) source_rad in
  let slack := add A rad_sum (f_min A target_rad source_rad) in
  leb A (f_linf a b) slack.
(** traversal.py:933-972 *)
Definition f_far_bigger (a la b lb : nat) : bool :=
  let target_rad := f_rad la in
  let source_rad := f_rad lb in
  let allowed := add A (mul A (mul A n3 (add A n1 (f_stick_out G))) target_rad) source_rad in
  leb A (mul A allowed (sub A n1 (mul A n8 (mach_eps A)))) (f_linf a b).
(** traversal.py:709-819; tgt_stickout_l_inf_rad: traversal.py:622-623; tgt_ext_center and
    tgt_radii_vec: traversal.py:177-198 *)
Definition f_far_smaller (a c : nat) : bool :=
  let source_rad := f_rad (box_level t c) in
  let stickout_rad := mul A (add A n1 (f_stick_out G)) (f_rad (box_level t a)) in
  let bound := mul A (sub A n2 (mul A n8 (mach_eps A))) source_rad in
  match crit with
  | static_linf =>
      leb A bound (f_max_axes (fun i =>
        sub A (sub A (abs A (sub A (f_center a i) (f_center c i))) stickout_rad) source_rad))
  | precise_linf =>
      let half := div A n1 n2 in
      leb A bound (f_max_axes (fun i =>
        sub A (sub A (abs A (sub A (mul A half (add A (f_bb_min G a i) (f_bb_max G a i))) (f_center c i)))
                     (mul A half (sub A (f_bb_max G a i) (f_bb_min G a i)))) source_rad))
  | static_l2 =>
      let sq x := mul A x x in
      let d2 := fold_left (fun acc i => add A acc (sq (sub A (f_center a i) (f_center c i)))) (seq 0 (dim t)) n0 in
      leb A bound (sub A (sub A (root A d2) (mul A (root A (of_int A (Z.of_nat (dim t)))) stickout_rad)) source_rad)
  end.
Definition float_decisions : decisions :=
  {| adjacent := f_adjacent; far_smaller := f_far_smaller; far_bigger := f_far_bigger |}.
End Tests.

(** the traversal as the kernels build it in floating-point arithmetic *)
Definition build_traversal_in (A : trav_arith) (G : float_geometry (num A)) (t : tree) (P : trav_params) : option traversal :=
  build_traversal_by (float_decisions A t G (from_sep_smaller_crit (extents P))) t P.

(** IEEE 754 numbers: single precision is [ieee_trav 24 128], double precision [ieee_trav 53 1024] *)
Definition ieee_trav (prec emax : Z) : trav_arith :=
  {| base := ieee prec emax; abs := SFabs; leb := SFleb; root := SFsqrt prec emax;
     of_int := fun z => binary_normalize prec emax z 0 false;
     mach_eps := binary_normalize prec emax 1 (1 - prec) false |}.
(** real numbers rounded to nearest even with [prec] digits *)
Definition rounded_trav (prec : Z) : trav_arith :=
  let rnd := round radix2 (FLX_exp prec) ZnearestE in
  {| base := rounded prec 0; abs := Rabs; leb := fun x y => Rle_bool x y; root := fun x => rnd (R_sqrt.sqrt x);
     of_int := fun z => rnd (IZR z); mach_eps := bpow radix2 (1 - prec) |}.
