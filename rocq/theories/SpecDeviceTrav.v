(** What it means that the device holds the arguments of the traversal builder, and a traversal. *)
From Coq Require Import List Arith ZArith NArith Bool.
From Verif Require Import Tree Traversal Device ListBuilder TravDevice.
Import ListNotations.

(** array [a] has at least [n] elements, the k-th being [f k] *)
Definition starts_with (d : device varr) (a : varr) (n : nat) (f : nat -> Z) : Prop :=
  (z n <= size d a)%Z /\ forall k, k < n -> cells d a (z k) = f k.
(** array [a] has [rows] rows of 32 * ceil(n/32) elements (tree_build.py:1621), of which the
    first [n] are those of [f] *)
Definition has_rows (d : device varr) (a : varr) (rows n : nat) (f : nat -> nat -> Z) : Prop :=
  let stride := (n + 31) / 32 * 32 in
  (z (rows * stride) <= size d a)%Z /\ forall r k, r < rows -> k < n -> cells d a (z (r * stride + k)) = f r k.
(** a mask: the elements are zero exactly where [f] is false *)
Definition mask_is (d : device varr) (a : varr) (n : nat) (f : nat -> bool) : Prop :=
  (z n <= size d a)%Z /\ forall k, k < n -> (cells d a (z k) = 0%Z <-> f k = false).

(** The arrays of the tree read by the traversal builder (boxtree/tree.py:298-520,
    traversal.py:1985-2026).  [source_mask], [parent_mask]: the optional masks are given; the boxes
    of a traversal without masks are not masked. *)
Record device_has_arguments (t : tree) (P : trav_params) (source_mask parent_mask : bool) (d : device varr) : Prop := {
  a_centers : has_rows d (Base BoxCenters) (dim t) (nboxes t) (fun a b => box_center t b a);
  a_children : has_rows d (Base BoxChildren) (2 ^ dim t) (nboxes t) (fun m b => z (box_child t m b));
  a_levels : starts_with d (Base BoxLevels) (nboxes t) (fun b => z (box_level t b));
  a_parents : starts_with d (Base BoxParents) (nboxes t) (fun b => z (box_parent t b));
  a_flags : starts_with d (Base BoxFlags) (nboxes t) (fun b => Z.of_N (box_flags t b));
  a_level_starts : starts_with d (Base LevelStartBoxNrs) (nlevels t) (fun l => z (level_start_box_nrs P l));
  a_source_mask : if source_mask then mask_is d (Base SourceMask) (nboxes t) (source_boxes_mask P)
                  else forall b, b < nboxes t -> source_boxes_mask P b = true;
  a_parent_mask : if parent_mask then mask_is d (Base SourceParentMask) (nboxes t) (source_parent_boxes_mask P)
                  else forall b, b < nboxes t -> source_parent_boxes_mask P b = true;
  (* the bounding boxes of the targets, read with precise_linf only: twice their centers and radii are those of the parameters *)
  a_extents : targets_have_extent (extents P) = true -> from_sep_smaller_crit (extents P) = precise_linf ->
    exists lo hi : nat -> nat -> Z,
      has_rows d (Base TargetMin) (dim t) (nboxes t) (fun a b => lo b a) /\ has_rows d (Base TargetMax) (dim t) (nboxes t) (fun a b => hi b a) /\
      forall a b, a < dim t -> b < nboxes t ->
        tgt_ext_center2 (extents P) b a = (lo b a + hi b a)%Z /\ tgt_ext_radius2 (extents P) b a = (hi b a - lo b a)%Z;
  a_counts : targets_have_extent (extents P) = true ->
    starts_with d (Base SourceCounts) (nboxes t) (fun b => z (box_source_counts_cumul (extents P) b))
}.
(** arguments that are not arrays *)
Definition scalar_arguments (t : tree) (P : trav_params) (source_mask parent_mask : bool) : scalars := {|
  s_dim := dim t; s_nlevels := nlevels t; s_nboxes := nboxes t; s_root_extent := root_extent t;
  s_n_away := well_sep_is_n_away P; s_sources_are_targets := sources_are_targets P; s_source_mask := source_mask; s_parent_mask := parent_mask;
  s_ext := targets_have_extent (extents P); s_stick_num := stick_out_num (extents P); s_stick_den := stick_out_den (extents P);
  s_eps_num := eps_num (extents P); s_eps_den := eps_den (extents P); s_crit := from_sep_smaller_crit (extents P);
  s_min_nsources := from_sep_smaller_min_nsources_cumul (extents P) |}.

(** array [a] holds exactly the numbers of [l] *)
Definition array_is (d : device varr) (a : varr) (l : list nat) : Prop :=
  size d a = z (length l) /\ forall k, k < length l -> cells d a (z k) = z (nth k l 0).
(** starts and lists of [l] are those of [c] *)
Definition lists_are (d : device varr) (l : lname) (c : csr) : Prop :=
  array_is d (Starts l) (starts c) /\ array_is d (Lists l) (lists c).

(** The arrays of the FMMTraversalInfo returned (traversal.py:2296-2345). *)
Record device_has_traversal (P : trav_params) (tr : traversal) (d : device varr) : Prop := {
  o_source_boxes : array_is d (Lists SourceBoxes) (source_boxes tr);
  o_source_parent_boxes : array_is d (Lists SourceParentBoxes) (source_parent_boxes tr);
  o_target_boxes : array_is d (Lists (if sources_are_targets P then SourceBoxes else TargetBoxes)) (target_boxes tr);
  o_target_or_parent_boxes : array_is d (Lists TargetOrParentBoxes) (target_or_target_parent_boxes tr);
  o_same_level : lists_are d SameLevel (same_level_non_well_sep_boxes tr);
  o_neighbors : lists_are d NeighborSources (neighbor_source_boxes tr);
  o_sep_siblings : lists_are d SepSiblings (from_sep_siblings tr);
  o_sep_smaller : forall lev boxes c, nth_error (from_sep_smaller_by_level tr) lev = Some (boxes, c) ->
    array_is d (Base (SepSmallerTargets lev)) boxes /\ lists_are d (SepSmaller lev) c;
  o_close_smaller : forall c, from_sep_close_smaller tr = Some c -> lists_are d SepCloseSmaller c;
  o_bigger : lists_are d SepBigger (from_sep_bigger tr);
  o_close_bigger : forall c, from_sep_close_bigger tr = Some c -> lists_are d SepCloseBigger c
}.
(** the level starts, which the host keeps *)
Definition starts_of (tr : traversal) : host_result :=
  mkResult (level_start_source_box_nrs tr) (level_start_source_parent_box_nrs tr) (level_start_target_box_nrs tr)
    (level_start_target_or_target_parent_box_nrs tr).
