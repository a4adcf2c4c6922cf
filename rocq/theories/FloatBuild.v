(** Floating-point Morton numbers of particles and the geometry of the root box:
    boxtree/tree_build_kernels.py (358-375, 440-453) and boxtree/tree_build.py (462-476, 585-588),
    written for an arbitrary arithmetic with conversions from and to integers. *)
From Coq Require Import List Arith ZArith Bool Reals SpecFloat.
From Flocq Require Import Core.
From Verif Require Import Base Tree TreeBuild Floats TravFloat.
Import ListNotations.

Section FloatBuild.
Variable A : arith.
Variable of_int : Z -> num A.            (* conversion of an integer to coord_t *)
Variable to_int : num A -> Z.            (* conversion to unsigned *)
Variable axes : list (list (num A)).     (* the coordinates of the particles on each axis *)

Definition coordinate (u a : nat) : num A := nth u (nth a axes []) (of_int 0).
(** tree_build_kernels.py:373-375 {ax}_bits.  The shift is exact (level <= 29, see C25). *)
Definition f_particle_bits (u level a : nat) : Z :=
  to_int (mul A (scaled A axes (nth a axes []) (coordinate u a)) (of_int (2 ^ Z.of_nat (1 + level)))).
(** tree_build_kernels.py:440-453 level_morton_number, particles without extent *)
Definition f_morton_number (u level : nat) : nat :=
  fold_left (fun acc a => Nat.lor acc (Nat.shiftl (if Z.odd (f_particle_bits u level a) then 1 else 0)
                                                  (length axes - 1 - a)))
            (seq 0 (length axes)) 0.
(** tree_build.py:464-476 root_extent and bounding box, 585-588 the center of the root box.  There are
    no target extents. *)
Definition root_geometry : float_geometry (num A) :=
  {| f_extent := float_root_extent A axes;
     f_root_center := fun a => let lo := axis_min A (nth a axes []) in
       add A lo (div A (sub A (box_top A axes (nth a axes [])) lo) (of_int 2));
     f_stick_out := of_int 0; f_bb_min := fun _ _ => of_int 0; f_bb_max := fun _ _ => of_int 0 |}.

(** The same particles for the exact model of the tree builder (TreeBuild.v): coordinates in units of
    2^-30 of the root box, cut off to integers. *)
Definition on_grid (inp : input) : input :=
  {| idim := length axes; npart := npart inp; nsrc := nsrc inp; same := same inp;
     coord := fun u a => f_particle_bits u 29 a; ext := None; weight := weight inp; max_weight := max_weight inp;
     bbox_min := fun _ => 0%Z; bbox_max := fun _ => (2 ^ 30)%Z; build_kind := build_kind inp;
     nlevels_max := nlevels_max inp; skip_prune := skip_prune inp; nboxes_guess := nboxes_guess inp;
     lr_lookbehind := lr_lookbehind inp |}.
End FloatBuild.

(** IEEE 754 numbers *)
Definition ieee_of_int (prec emax z : Z) : spec_float := binary_normalize prec emax z 0 false.
(** rounded real numbers; scaled coordinates are not negative, so that truncation is the floor *)
Definition real_of_int (prec z : Z) : R := round radix2 (FLX_exp prec) ZnearestE (IZR z).
