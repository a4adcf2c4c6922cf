(** How the arrays of tree and traversal reach the search for rotation classes, and how the result
    reaches the FMM.  Read together with SpecDeviceChain.v. *)
From Coq Require Import List Arith ZArith.
From Verif Require Import Base Tree Traversal TreeBuild Kernel Device BuildDevice BuildDeviceEnd ListBuilder TravDevice Layout FmmLib ClassDevice SpecDeviceEnd.
Import ListNotations.

(** an array of one device is that of another *)
Definition same_contents {A B} (d : device A) (x : A) (e : device B) (y : B) : Prop :=
  size d x = size e y /\ forall k, cells d x k = cells e y k.
(** translation_classes.py:352-367: arrays of the tree (on [e]) and of the traversal (on [v]) *)
Record passed_to_classes (e : device parray) (v : device varr) (d : device carr) : Prop := {
  pc_lists : same_contents d SibLists v (Lists SepSiblings);
  pc_starts : same_contents d SibStarts v (ListBuilder.Starts SepSiblings);
  pc_targets : same_contents d SibTargets v (Lists TargetOrParentBoxes);
  pc_levels : same_contents d ClassDevice.BoxLevels e (Kept Levels);
  pc_centers : same_contents d ClassDevice.BoxCenters e CenterTable
}.
(** numbers passed along: sizes are those of the arrays; aligned_nboxes is tree_build.py:1621 *)
Definition class_numbers (t : tree) (n : nat) (v : device varr) : class_scalars := {|
  c_dim := dim t; c_root_extent := root_extent t; c_nlevels := nlevels t; c_aligned := (nboxes t + 31) / 32 * 32; c_n := n;
  c_targets := Z.to_nat (size v (Lists TargetOrParentBoxes)); c_entries := Z.to_nat (size v (Lists SepSiblings)) |}.
(** rotation_classes.py:187-196, pyfmmlib_integration.py:81-116: the wrangler gets the classes and the angles *)
Record read_classes {ang : Type} (d : device carr) (angles : list ang) (rd : rotation_data ang) : Prop := {
  rc_size : length (rotation_lists rd) = Z.to_nat (size d DenseClasses);
  rc_lists : forall k c, k < length (rotation_lists rd) -> cells d DenseClasses (Z.of_nat k) = Z.of_nat c -> nth k (rotation_lists rd) None = Some c;
  rc_angles : rotation_angles rd = angles
}.
