(** Specification vocabulary for the separation of expansion centers from sources and targets. *)
From Coq Require Import List Arith ZArith Lia Bool.
From Verif Require Import Base Tree Spec Traversal.
Import ListNotations.

(** squared Euclidean distance of two points *)
Definition dist2 (d : nat) (x y : nat -> Z) : Z :=
  zsum (map (fun i => (x i - y i) * (x i - y i))%Z (seq 0 d)).
(** the distance of [x] and [y] in the maximum norm is at least num/den *)
Definition apart_linf (d : nat) (x y : nat -> Z) (num den : Z) : Prop :=
  exists i, i < d /\ (num <= den * Z.abs (x i - y i))%Z.
(** the Euclidean distance of [x] and [y] is at least num/den (both nonnegative) *)
Definition apart_l2 (d : nat) (x y : nat -> Z) (num den : Z) : Prop :=
  (num * num <= den * den * dist2 d x y)%Z.

(** ** Where the targets of a box may be, including their extents
    The box enlarged by the factor 1 + stick_out_factor ... *)
Definition in_enlarged (t : tree) (ex : extent_info) (b : nat) (p : nat -> Z) : Prop :=
  forall i, i < dim t ->
    (stick_out_den ex * Z.abs (p i - box_center t b i) <= (stick_out_den ex + stick_out_num ex) * box_rad t b)%Z.
(** ... the ball around that cube ... *)
Definition in_enlarged_ball (t : tree) (ex : extent_info) (b : nat) (p : nat -> Z) : Prop :=
  let r := ((stick_out_den ex + stick_out_num ex) * box_rad t b)%Z in
  (stick_out_den ex * stick_out_den ex * dist2 (dim t) p (box_center t b) <= Z.of_nat (dim t) * (r * r))%Z.
(** ... or the bounding box of the targets with their extents. *)
Definition in_target_bbox (t : tree) (ex : extent_info) (b : nat) (p : nat -> Z) : Prop :=
  forall i, i < dim t -> (Z.abs (2 * p i - tgt_ext_center2 ex b i) <= tgt_ext_radius2 ex b i)%Z.

(** the region that the chosen from_sep_smaller_crit is about *)
Definition target_region (t : tree) (ex : extent_info) (b : nat) (p : nat -> Z) : Prop :=
  match from_sep_smaller_crit ex with
  | static_linf => in_enlarged t ex b p
  | precise_linf => in_target_bbox t ex b p
  | static_l2 => in_enlarged_ball t ex b p
  end.
