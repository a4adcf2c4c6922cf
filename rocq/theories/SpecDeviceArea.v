(** What it means that the device holds the arguments of an area query. *)
From Coq Require Import List Arith ZArith NArith Bool.
From Verif Require Import Tree Traversal Device ListBuilder TravDevice SpecDeviceTrav AreaQuery.
Import ListNotations.

(** The arrays of the tree read by the kernels (boxtree/tree.py:298-520, area_query.py:786-795). *)
Record device_has_boxes (t : tree) (d : device varr) : Prop := {
  q_centers : has_rows d (Base BoxCenters) (dim t) (nboxes t) (fun a b => box_center t b a);
  q_children : has_rows d (Base BoxChildren) (2 ^ dim t) (nboxes t) (fun m b => z (box_child t m b));
  q_levels : starts_with d (Base BoxLevels) (nboxes t) (fun b => z (box_level t b));
  q_flags : starts_with d (Base BoxFlags) (nboxes t) (fun b => Z.of_N (box_flags t b))
}.
(** the balls: center and radius of each *)
Definition device_has_balls (t : tree) (balls : list ball) (d : device varr) : Prop :=
  (forall a, a < dim t -> starts_with d (Base (BallCoord a)) (length balls) (fun j => fst (nth j balls (fun _ => 0%Z, 0%Z)) a)) /\
  starts_with d (Base BallRadii) (length balls) (fun j => snd (nth j balls (fun _ => 0%Z, 0%Z))).
(** the arguments that are not arrays; those of the traversal builder alone are immaterial *)
Definition query_scalars (t : tree) : scalars := {|
  s_dim := dim t; s_nlevels := nlevels t; s_nboxes := nboxes t; s_root_extent := root_extent t;
  s_n_away := 1; s_sources_are_targets := false; s_source_mask := false; s_parent_mask := false; s_ext := false;
  s_stick_num := 0; s_stick_den := 1; s_eps_num := 0; s_eps_den := 1; s_crit := static_linf; s_min_nsources := 0 |}.
(** entries [starts[j]] up to [starts[j+1]] of the lists of [l] *)
Definition entries_of (d : device varr) (l : lname) (j : nat) : list nat :=
  let s := Z.to_nat (cells d (Starts l) (z j)) in let e := Z.to_nat (cells d (Starts l) (z (j + 1))) in
  map (fun k => Z.to_nat (cells d (Lists l) (z k))) (seq s (e - s)).
