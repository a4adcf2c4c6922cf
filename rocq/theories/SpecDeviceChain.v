(** Handing the tree from the tree builder to the traversal builder. *)
From Coq Require Import List Arith ZArith NArith Bool.
From Verif Require Import Tree Traversal Device ListBuilder TravDevice SpecDeviceTrav TreeBuild BuildDevice BuildDeviceEnd.
Notation extents := Traversal.extents.

(** [x] is the array [y]: tree_build.py:1832-1875 puts the arrays of the tree builder into the
    Tree, from which traversal.py:1985-2026 takes them *)
Definition same_array (d : device varr) (x : varr) (e : device parray) (y : parray) : Prop :=
  size d x = size e y /\ forall k, cells d x k = cells e y k.
Record passed_on (inp : input) (level_starts : list nat) (e : device parray) (d : device varr) : Prop := {
  p_centers : same_array d (Base BoxCenters) e CenterTable;
  p_children : same_array d (Base BoxChildren) e ChildTable;
  p_levels : same_array d (Base BoxLevels) e (Kept Levels);
  p_parents : same_array d (Base BoxParents) e (Kept Parents);
  p_flags : same_array d (Base BoxFlags) e Flags;
  p_target_min : same_array d (Base TravDevice.TargetMin) e (target_min inp);
  p_target_max : same_array d (Base TravDevice.TargetMax) e (target_max inp);
  p_counts : same_array d (Base TravDevice.SourceCounts) e (source_counts inp);
  (* tree_build.py:1847 *)
  p_level_starts : array_is d (Base LevelStartBoxNrs) level_starts
}.
(** the parameters of the traversal are those of the tree: traversal.py:1972-2026 *)
Record parameters_of (inp : input) (B : built) (P : trav_params) : Prop := {
  q_n_away : 1 <= well_sep_is_n_away P;
  q_same : sources_are_targets P = same inp;
  q_mask : forall b, source_boxes_mask P b = true;
  q_parent_mask : forall b, source_parent_boxes_mask P b = true;
  q_level_starts : forall l, level_start_box_nrs P l = nth l (b_level_starts B) 0;
  q_center : forall b a, tgt_ext_center2 (extents P) b a = (b_target_bbox_min B b a + b_target_bbox_max B b a)%Z;
  q_radius : forall b a, tgt_ext_radius2 (extents P) b a = (b_target_bbox_max B b a - b_target_bbox_min B b a)%Z;
  q_counts : forall b, box_source_counts_cumul (extents P) b = b_source_cumul B b
}.
