(** Specification vocabulary for area queries.  Independent of the area query model. *)
From Coq Require Import List Arith ZArith NArith Lia Bool.
From Verif Require Import Base Tree Spec.
Import ListNotations.

(** a box without children *)
Definition leaf (t : tree) (b : nat) : Prop := forall m, m < nchildren t -> box_child t m b = 0.

(** the flags HAS_SOURCE_CHILD_BOXES / HAS_TARGET_CHILD_BOXES tell which boxes have children *)
Definition flags_tell_leaves (t : tree) : Prop := forall b, b < nboxes t ->
  (has_source_child t b = false /\ has_target_child t b = false <-> leaf t b).

(** the l-infinity ball has a point in common with the closed box *)
Definition ball_meets_box (t : tree) (c : nat -> Z) (r : Z) (b : nat) : Prop :=
  exists x, in_closed_box t b x /\ forall i, i < dim t -> (Z.abs (x i - c i) <= r)%Z.

(** a box is a peer of [b] if it touches b, is at least as large as b, and has no child with
    both properties *)
Definition touching_and_not_smaller (t : tree) (b p : nat) : Prop :=
  touching t b p /\ box_level t p <= box_level t b.
Definition peer (t : tree) (b p : nat) : Prop :=
  touching_and_not_smaller t b p /\
  forall m, m < nchildren t -> box_child t m p <> 0 -> ~ touching_and_not_smaller t b (box_child t m p).

(** the lower corner of the root box is [bmin] *)
Definition lower_corner (t : tree) (bmin : nat -> Z) : Prop :=
  forall i, i < dim t -> bmin i = (box_center t 0 i - box_rad t 0)%Z.

(** The tree builder stretches the particles' bounding box by the factor 1 + 1/10000 away from
    its lower corner.  The box has a point in the unstretched cube. *)
Definition meets_unstretched (t : tree) (b : nat) : Prop :=
  exists x, in_closed_box t b x /\
    forall i, i < dim t -> (10001 * (x i - (box_center t 0 i - box_rad t 0)) <= 10000 * root_extent t)%Z.

(** [v] is the l-infinity distance of two points *)
Definition linf_distance (d : nat) (x y : nat -> Z) (v : Z) : Prop :=
  (forall i, i < d -> (Z.abs (x i - y i) <= v)%Z) /\ exists i, i < d /\ Z.abs (x i - y i) = v.
(** [v] is the largest distance of the center of a box to the center of a ball meeting the box,
    and 0 if no ball meets the box.  [c j] and [r j] are the center and the radius of ball [j]. *)
Definition furthest_ball (t : tree) (nballs : nat) (c : nat -> nat -> Z) (r : nat -> Z) (b : nat) (v : Z) : Prop :=
  (v = 0%Z /\ forall j, j < nballs -> ~ ball_meets_box t (c j) (r j) b) \/
  ((exists j, j < nballs /\ ball_meets_box t (c j) (r j) b /\ linf_distance (dim t) (c j) (box_center t b) v) /\
   forall j w, j < nballs -> ball_meets_box t (c j) (r j) b -> linf_distance (dim t) (c j) (box_center t b) w -> (w <= v)%Z).
