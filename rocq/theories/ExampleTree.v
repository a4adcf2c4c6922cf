(** Concrete trees used as non-vacuity witnesses. *)
From Coq Require Import List Arith ZArith NArith.
From Verif Require Import Base Tree Traversal.
Import ListNotations.

(** A 2D tree with 5 levels and 29 boxes: two uniform refinements, then one level-2 box and
    one of its children refined.  Leaves are a mix of source-only, target-only and both;
    box 8 (not a leaf) owns particles itself, as happens with particle extents. *)
Definition ex_levels : list nat := [0; 1; 1; 1; 1; 2; 2; 2; 2; 2; 2; 2; 2; 2; 2; 2; 2; 2; 2; 2; 2; 3; 3; 3; 3; 4; 4; 4; 4].
Definition ex_cx : list Z := [16; 8; 8; 24; 24; 4; 4; 12; 12; 4; 4; 12; 12; 20; 20; 28; 28; 20; 20; 28; 28; 10; 10; 14; 14; 9; 9; 11; 11]%Z.
Definition ex_cy : list Z := [16; 8; 24; 8; 24; 4; 12; 4; 12; 20; 28; 20; 28; 4; 12; 4; 12; 20; 28; 20; 28; 10; 14; 10; 14; 9; 11; 9; 11]%Z.
Definition ex_par : list nat := [0; 0; 0; 0; 0; 1; 1; 1; 1; 2; 2; 2; 2; 3; 3; 3; 3; 4; 4; 4; 4; 8; 8; 8; 8; 21; 21; 21; 21].
Definition ex_children : list (list nat) :=
  [[1; 2; 3; 4]; [5; 6; 7; 8]; [9; 10; 11; 12]; [13; 14; 15; 16]; [17; 18; 19; 20]; [0; 0; 0; 0]; [0; 0; 0; 0]; [0; 0; 0; 0]; [21; 22; 23; 24]; [0; 0; 0; 0]; [0; 0; 0; 0]; [0; 0; 0; 0]; [0; 0; 0; 0]; [0; 0; 0; 0]; [0; 0; 0; 0]; [0; 0; 0; 0]; [0; 0; 0; 0]; [0; 0; 0; 0]; [0; 0; 0; 0]; [0; 0; 0; 0]; [0; 0; 0; 0]; [25; 26; 27; 28]; [0; 0; 0; 0]; [0; 0; 0; 0]; [0; 0; 0; 0]; [0; 0; 0; 0]; [0; 0; 0; 0]; [0; 0; 0; 0]; [0; 0; 0; 0]].
Definition ex_flags : list N := [12; 12; 12; 12; 12; 17; 18; 19; 15; 16; 19; 19; 18; 17; 19; 18; 19; 17; 18; 19; 19; 12; 19; 19; 18; 17; 19; 18; 19]%N.
Definition ex_tree : tree := {|
  dim := 2; nlevels := 5; nboxes := 29; root_extent := 32;
  box_center := fun b i => nth b (match i with 0 => ex_cx | _ => ex_cy end) 0%Z;
  box_level := fun b => nth b ex_levels 0;
  box_parent := fun b => nth b ex_par 0;
  box_child := fun m b => nth m (nth b ex_children []) 0;
  box_flags := fun b => nth b ex_flags 0%N
|}.
Definition ex_level_starts (l : nat) : nat := nth l [0; 1; 5; 21; 25; 29] 29.

(** parameters: no extents / extents with stick-out factor 1/4 *)
Definition ex_extent (have : bool) (crit : sep_crit) (minsrc : nat) : extent_info := {|
  targets_have_extent := have; stick_out_num := 1; stick_out_den := 4;
  eps_num := 1; eps_den := 2^52; from_sep_smaller_crit := crit;
  tgt_ext_center2 := fun b i => (2 * box_center ex_tree b i)%Z;
  tgt_ext_radius2 := fun b i => (2 * box_rad ex_tree b)%Z;
  box_source_counts_cumul := fun b => if is_source ex_tree b then 3 else 7;
  from_sep_smaller_min_nsources_cumul := minsrc
|}.
Definition ex_params (n : nat) (ex : extent_info) : trav_params := {|
  well_sep_is_n_away := n; extents := ex; sources_are_targets := false;
  source_boxes_mask := fun _ => true; source_parent_boxes_mask := fun _ => true;
  level_start_box_nrs := ex_level_starts
|}.
