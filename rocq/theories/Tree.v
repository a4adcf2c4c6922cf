(** The box tree as read by the traversal / area query kernels. *)
From Coq Require Import List Arith ZArith NArith Lia Bool.
From Verif Require Import Base.
Import ListNotations.

(** ** Box flags: boxtree/tree.py:109-145 (class box_flags_enum) *)
Definition IS_SOURCE_BOX : N := 1.
Definition IS_TARGET_BOX : N := 2.
Definition HAS_SOURCE_CHILD_BOXES : N := 4.
Definition HAS_TARGET_CHILD_BOXES : N := 8.
Definition IS_LEAF_BOX : N := 16.

(** C expression [flags & mask] used as a condition *)
Definition flag (flags mask : N) : bool := negb (N.eqb (N.land flags mask) 0).

(** ** The arrays of a tree
    boxtree/tree.py:298-520 (class Tree; box_* arrays).  Simplifications:
    arrays are functions (reads are proved in range separately), coordinates
    are exact integers in a unit that makes all centers and radii integral. *)
Record tree := mkTree {
  dim : nat;
  nlevels : nat;
  nboxes : nat;
  root_extent : Z;
  box_center : nat -> nat -> Z;       (* box id -> axis -> coordinate *)
  box_level : nat -> nat;
  box_parent : nat -> nat;            (* box_parent_ids; root: 0 *)
  box_child : nat -> nat -> nat;      (* morton nr -> box id -> child id, 0 = none *)
  box_flags : nat -> N
}.

Definition nchildren (t : tree) : nat := 2 ^ dim t.

(** traversal.py:234-235  LEVEL_TO_RAD(level) = root_extent * 1 / (1 << (level+1)).
    The shift is taken to be exact here (it is for level <= 29, see C25 in PropsBuild.v). *)
Definition level_to_rad (t : tree) (level : nat) : Z :=
  (root_extent t / 2 ^ Z.of_nat (level + 1))%Z.

Definition box_rad (t : tree) (b : nat) : Z := level_to_rad t (box_level t b).

Definition is_source t b := flag (box_flags t b) IS_SOURCE_BOX.
Definition is_target t b := flag (box_flags t b) IS_TARGET_BOX.
Definition has_source_child t b := flag (box_flags t b) HAS_SOURCE_CHILD_BOXES.
Definition has_target_child t b := flag (box_flags t b) HAS_TARGET_CHILD_BOXES.

(** sign of axis [i] for the child with morton number [m]; axis 0 is the most
    significant bit: tree_build_kernels.py:397-410 (morton number),
    tree_build_kernels.py:690-705 (center of child),
    tree_of_boxes.py:110-116 (_vec_of_signs). *)
Definition morton_sign (d m i : nat) : Z :=
  if Nat.testbit m (d - 1 - i) then 1%Z else (-1)%Z.

(** ** What every tree handed to the traversal builder satisfies.
    (Established for trees of boxes in TobThm.v, see also C47, and for particle trees in BuildThm.v.) *)
Record wf_tree (t : tree) : Prop := {
  wf_nboxes : 0 < nboxes t;
  wf_extent_pos : (0 < root_extent t)%Z;
  (* unit of length: all radii down to the deepest level are integral *)
  wf_extent_div : (2 ^ Z.of_nat (nlevels t) | root_extent t)%Z;
  wf_root_level : box_level t 0 = 0;
  wf_root_parent : box_parent t 0 = 0;
  wf_level_lt : forall b, b < nboxes t -> box_level t b < nlevels t;
  wf_child_lt : forall m b, b < nboxes t -> m < nchildren t -> box_child t m b < nboxes t;
  wf_child : forall m b, b < nboxes t -> m < nchildren t -> box_child t m b <> 0 ->
     box_parent t (box_child t m b) = b /\
     box_level t (box_child t m b) = S (box_level t b) /\
     forall i, i < dim t ->
       box_center t (box_child t m b) i =
       (box_center t b i + morton_sign (dim t) m i * box_rad t (box_child t m b))%Z;
  wf_child_inj : forall m m' b, b < nboxes t -> m < nchildren t -> m' < nchildren t ->
     box_child t m b <> 0 -> box_child t m b = box_child t m' b -> m = m';
  wf_parent : forall b, 0 < b -> b < nboxes t ->
     box_parent t b < nboxes t /\
     exists m, m < nchildren t /\ box_child t m (box_parent t b) = b
}.

(** Flags cover the tree structure: a box above a source (target) box says so.  The
    converse is not required: the particle tree builder sets both HAS_*_CHILD_BOXES flags
    on every box that was split (tree_build_kernels.py:1256). *)
Record wf_flags (t : tree) : Prop := {
  wf_has_source_child : forall m b, b < nboxes t -> m < nchildren t -> box_child t m b <> 0 ->
    is_source t (box_child t m b) = true \/ has_source_child t (box_child t m b) = true ->
    has_source_child t b = true;
  wf_has_target_child : forall m b, b < nboxes t -> m < nchildren t -> box_child t m b <> 0 ->
    is_target t (box_child t m b) = true \/ has_target_child t (box_child t m b) = true ->
    has_target_child t b = true
}.
