(** Specification vocabulary for translation and rotation classes. *)
From Coq Require Import List Arith ZArith Lia Bool.
From Verif Require Import Base Tree Traversal.
Import ListNotations.

(** entry [k] of from_sep_siblings_lists is the source box [B] in the list of the target box [A] *)
Definition list2_pair (tr : traversal) (k A B : nat) : Prop :=
  exists i, i < length (target_or_target_parent_boxes tr) /\
    nth i (starts (from_sep_siblings tr)) 0 <= k < nth (S i) (starts (from_sep_siblings tr)) 0 /\
    A = nth i (target_or_target_parent_boxes tr) 0 /\ B = nth k (lists (from_sep_siblings tr)) 0.
(** the translation from [B] to [A] *)
Definition translation (t : tree) (A B : nat) (i : nat) : Z := (box_center t A i - box_center t B i)%Z.

(** [w] is the shortest integer vector that has the direction of [v] *)
Definition direction (d : nat) (v w : nat -> Z) : Prop :=
  (exists g : Z, (0 < g)%Z /\ forall i, i < d -> v i = (g * w i)%Z) /\
  (forall g : Z, (0 < g)%Z -> (forall i, i < d -> (g | w i)%Z) -> g = 1%Z).
Definition squared_norm (d : nat) (v : nat -> Z) : Z := zsum (map (fun i => v i * v i)%Z (seq 0 d)).
(** the angles of two vectors with the last axis have the same cosine (squared, with sign) *)
Definition same_angle_with_last_axis (d : nat) (v w : nat -> Z) : Prop :=
  (v (d - 1)%nat * Z.abs (v (d - 1)%nat) * squared_norm d w = w (d - 1)%nat * Z.abs (w (d - 1)%nat) * squared_norm d v)%Z.
