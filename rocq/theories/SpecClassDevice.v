(** What it means that a device holds list 2 of a traversal and the boxes of its tree, and the
    classes of its entries. *)
From Coq Require Import List Arith ZArith Bool.
From Verif Require Import Base Tree Traversal Classes SpecClasses Device ClassDevice.
Import ListNotations.

(** array [a] has exactly [n] elements, the k-th being [f k] *)
Definition elements (d : device carr) (a : carr) (n : nat) (f : nat -> Z) : Prop :=
  size d a = Z.of_nat n /\ forall k, k < n -> cells d a (Z.of_nat k) = f k.
Definition numbers (d : device carr) (a : carr) (l : list nat) : Prop := elements d a (length l) (fun k => Z.of_nat (nth k l 0)).
(** the arguments of translation_class_finder (translation_classes.py:352-367); [aligned]: aligned_nboxes *)
Record device_has_list2 (t : tree) (tr : traversal) (aligned : nat) (d : device carr) : Prop := {
  h_lists : numbers d SibLists (lists (from_sep_siblings tr));
  h_starts : numbers d SibStarts (starts (from_sep_siblings tr));
  h_targets : numbers d SibTargets (target_or_target_parent_boxes tr);
  (* the array may be longer than needed: without pruning box_levels stays as allocated, tree_build.py:1387-1413 *)
  h_levels : (Z.of_nat (nboxes t) <= size d BoxLevels)%Z /\ forall b, b < nboxes t -> cells d BoxLevels (Z.of_nat b) = Z.of_nat (box_level t b);
  h_aligned : nboxes t <= aligned;
  h_centers : size d BoxCenters = Z.of_nat (dim t * aligned) /\
    forall a b, a < dim t -> b < nboxes t -> cells d BoxCenters (Z.of_nat (a * aligned + b)) = box_center t b a
}.
Definition class_arguments (t : tree) (n : nat) (tr : traversal) (aligned : nat) : class_scalars := {|
  c_dim := dim t; c_root_extent := root_extent t; c_nlevels := nlevels t; c_aligned := aligned; c_n := n;
  c_targets := length (target_or_target_parent_boxes tr); c_entries := length (lists (from_sep_siblings tr)) |}.
(** the lists are those of the target boxes, and of boxes of the tree; levels are below nlevels *)
Record list2_fits (t : tree) (tr : traversal) : Prop := {
  f_rows : exists rows, from_sep_siblings tr = csr_of rows /\ length rows = length (target_or_target_parent_boxes tr);
  f_sources : forall b, In b (lists (from_sep_siblings tr)) -> b < nboxes t;
  f_targets : forall b, In b (target_or_target_parent_boxes tr) -> b < nboxes t;
  f_levels : forall b, b < nboxes t -> box_level t b < nlevels t
}.
(** a class, or -1 *)
Definition as_entry (c : option nat) : Z := match c with Some k => Z.of_nat k | None => (-1)%Z end.
(** list 2 has box [B] in the list of box [A] although they are on different levels, or their centers
    are more than 2 n + 1 box widths apart (rounded to whole widths) in some direction *)
Definition no_class (t : tree) (n A B : nat) : Prop :=
  box_level t A <> box_level t B \/
  exists i, i < dim t /\ (2 * Z.of_nat n + 1 < Z.abs (rint (translation t A B i) (2 * level_to_rad t (box_level t B))))%Z.
