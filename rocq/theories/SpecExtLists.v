(** Specification vocabulary for the interaction lists of targets with extents: the separation
    criteria in real numbers, as documented in traversal.py. *)
From Coq Require Import List Arith ZArith Reals Bool.
From Verif Require Import Base Tree Spec Traversal.
Import ListNotations.
Local Open Scope R_scope.

(** stick_out_factor and the machine epsilon *)
Definition stick_out (ex : extent_info) : R := IZR (stick_out_num ex) / IZR (stick_out_den ex).
Definition mach_eps (ex : extent_info) : R := IZR (eps_num ex) / IZR (eps_den ex).
Definition center (t : tree) (b i : nat) : R := IZR (box_center t b i).
Definition radius (t : tree) (b : nat) : R := IZR (box_rad t b).
(** center and radius, along axis i, of the bounding box of the targets of T with their extents *)
Definition bbox_center (ex : extent_info) (T i : nat) : R := IZR (tgt_ext_center2 ex T i) / 2.
Definition bbox_radius (ex : extent_info) (T i : nat) : R := IZR (tgt_ext_radius2 ex T i) / 2.
(** Euclidean distance of the centers *)
Definition center_dist (t : tree) (a b : nat) : R :=
  sqrt (fold_right Rplus 0 (map (fun i => (center t a i - center t b i) * (center t a i - center t b i)) (seq 0 (dim t)))).

(** From the targets of T, the center of the source box B is at a distance of 3 times the radius
    of B - that is, T and B are two radii of B apart: traversal.py:716-806 *)
Definition separated_smaller (t : tree) (ex : extent_info) (T B : nat) : Prop :=
  let rB := radius t B in let gap := (2 - 8 * mach_eps ex) * rB in
  match from_sep_smaller_crit ex with
  | static_linf => exists i, (i < dim t)%nat /\
      gap <= Rabs (center t T i - center t B i) - (1 + stick_out ex) * radius t T - rB
  | precise_linf => exists i, (i < dim t)%nat /\
      gap <= Rabs (bbox_center ex T i - center t B i) - bbox_radius ex T i - rB
  | static_l2 =>
      gap <= center_dist t T B - sqrt (INR (dim t)) * ((1 + stick_out ex) * radius t T) - rB
  end.
(** From the center of the target box A (which sticks out), the source box s is at a distance of 3
    times the radius of A: traversal.py:942-971 *)
Definition separated_bigger (t : tree) (ex : extent_info) (A s : nat) : Prop :=
  exists i, (i < dim t)%nat /\
    (3 * ((1 + stick_out ex) * radius t A) + radius t s) * (1 - 8 * mach_eps ex) <=
    Rabs (center t A i - center t s i).

(** The multipole expansion of B is evaluated at the targets of T: not adjacent, separated, and
    enough sources to be worth it (from_sep_smaller_min_nsources_cumul) *)
Definition through_multipole (t : tree) (ex : extent_info) (T B : nat) : Prop :=
  ~ touching t T B /\ separated_smaller t ex T B /\
  (from_sep_smaller_min_nsources_cumul ex <= box_source_counts_cumul ex B)%nat.
(** T or the box above it of the same level as s is a colleague of s: s is neither well separated
    from T (list 2 of T or of a box above) nor beyond *)
Definition colleague_above (t : tree) (n T s : nat) : Prop :=
  exists C, In C (ancestors_or_self t T) /\ C <> s /\ within_n_boxes t n C s.
