(** What it means that the device of a rank holds the global tree, the traversal and the boxes of the
    rank, and the tree the rank works on. *)
From Coq Require Import List Arith ZArith NArith Bool.
From Verif Require Import Base Tree Traversal Fmm Partition LocalTree Device DistDevice.
Import ListNotations.

(** array [a] has exactly [n] elements, the k-th being [f k] *)
Definition array_holds (d : device darr) (a : darr) (n : nat) (f : nat -> Z) : Prop :=
  size d a = Z.of_nat n /\ forall k, k < n -> cells d a (Z.of_nat k) = f k.
Definition list_holds (d : device darr) (a : darr) (l : list nat) : Prop :=
  array_holds d a (length l) (fun k => Z.of_nat (nth k l 0)).
(** a mask of [n] boxes: 1 for the boxes in it, 0 for the others *)
Definition mask_holds (d : device darr) (a : darr) (n : nat) (m : nat -> bool) : Prop :=
  array_holds d a n (fun b => if m b then 1%Z else 0%Z).
(** a CSR list of lists *)
Definition lists_hold (d : device darr) (l : dlist) (c : csr) : Prop :=
  list_holds d (ListStarts l) (starts c) /\ list_holds d (ListEntries l) (lists c).

(** sources or targets of the tree *)
Definition count_of (p : particles) (s : side) : nat := match s with Sources => nsources p | Targets => ntargets p end.
Definition starts_of (p : particles) (s : side) : nat -> nat := match s with Sources => box_source_starts p | Targets => box_target_starts p end.
Definition counts_of (p : particles) (s : side) : nat -> nat := match s with Sources => box_source_counts_nonchild p | Targets => box_target_counts_nonchild p end.

(** The arguments of generate_local_tree (local_tree.py:316-318) on the device.  [cumul s b]: number of
    sources or targets in box [b] and below; [coords s i a]: coordinate [a] of particle [i];
    [radii]: those of the targets, if they have extents. *)
Record device_has_global (t : tree) (p : particles) (cumul : side -> nat -> nat) (have_extent : bool) (tr : traversal) (boxes : list nat)
    (coords : side -> nat -> nat -> Z) (radii : nat -> Z) (d : device darr) : Prop := {
  g_boxes : list_holds d RespBoxes boxes;
  g_parents : array_holds d ParentIds (nboxes t) (fun b => Z.of_nat (box_parent t b));
  g_flags : array_holds d Flags (nboxes t) (fun b => Z.of_N (box_flags t b));
  g_target_boxes : list_holds d TargetList (target_boxes tr);
  g_target_parents : list_holds d TargetOrParentList (target_or_target_parent_boxes tr);
  g_neighbors : lists_hold d Neighbors (neighbor_source_boxes tr);
  g_siblings : lists_hold d Siblings (from_sep_siblings tr);
  g_bigger : lists_hold d Bigger (from_sep_bigger tr);
  g_smaller : forall lev, lev < nlevels t ->
    list_holds d (SmallerList lev) (fst (nth lev (from_sep_smaller_by_level tr) ([], csr_of []))) /\
    lists_hold d (Smaller lev) (snd (nth lev (from_sep_smaller_by_level tr) ([], csr_of [])));
  g_close_smaller : forall c, from_sep_close_smaller tr = Some c -> lists_hold d CloseSmaller c;
  g_close_bigger : forall c, from_sep_close_bigger tr = Some c -> lists_hold d CloseBigger c;
  g_starts : forall s, array_holds d (PStarts s) (nboxes t) (fun b => Z.of_nat (starts_of p s b));
  g_counts : forall s, array_holds d (PCounts s) (nboxes t) (fun b => Z.of_nat (counts_of p s b));
  g_cumul : forall s, array_holds d (PCumul s) (nboxes t) (fun b => Z.of_nat (cumul s b));
  g_coords : forall s a, a < dim t -> array_holds d (PCoord s a) (count_of p s) (fun i => coords s i a);
  g_radii : have_extent = true -> array_holds d (PRadii Targets) (ntargets p) radii
}.
(** arguments that are not arrays, and lengths of arrays *)
Definition dist_arguments (t : tree) (p : particles) (have_extent : bool) (tr : traversal) (boxes : list nat) : dist_scalars := {|
  ds_nboxes := nboxes t; ds_nlevels := nlevels t; ds_dim := dim t; ds_have_extent := have_extent;
  ds_nresp := length boxes; ds_ntargets_boxes := length (target_boxes tr); ds_nparents_boxes := length (target_or_target_parent_boxes tr);
  ds_nsmaller := fun lev => length (fst (nth lev (from_sep_smaller_by_level tr) ([], csr_of [])));
  ds_close_smaller := match from_sep_close_smaller tr with Some _ => true | None => false end;
  ds_close_bigger := match from_sep_close_bigger tr with Some _ => true | None => false end;
  ds_particles := count_of p |}.
(** the ranges of the boxes lie within the particles *)
Definition ranges_inside (t : tree) (p : particles) (cumul : side -> nat -> nat) : Prop :=
  forall s b, b < nboxes t -> counts_of p s b <= cumul s b /\ starts_of p s b + cumul s b <= count_of p s.

(** The device holds the tree [l] of the rank: the masks of its boxes, its particles, where each of
    its boxes finds them, and its box flags.  The number of targets in a box and below is the number
    of local targets whose index in the global tree is in the global range of the box. *)
Definition local_index (l : local_tree) (s : side) : list nat := match s with Sources => lt_src_idx l | Targets => lt_tgt_idx l end.
Record device_has_local (t : tree) (p : particles) (cumul : side -> nat -> nat) (have_extent : bool)
    (coords : side -> nat -> nat -> Z) (radii : nat -> Z) (l : local_tree) (d : device darr) : Prop := {
  l_responsible : mask_holds d RespMask (nboxes t) (bm_responsible (lt_masks l));
  l_ancestor : mask_holds d AncMask (nboxes t) (bm_ancestor (lt_masks l));
  l_point_src : mask_holds d PointMask (nboxes t) (bm_point_src (lt_masks l));
  l_multipole_src : mask_holds d MpoleMask (nboxes t) (bm_multipole_src (lt_masks l));
  l_starts : forall s, array_holds d (LStarts s) (nboxes t) (fun b => Z.of_nat (starts_of (lt_particles l) s b));
  l_counts : forall s, array_holds d (LCounts s) (nboxes t) (fun b => Z.of_nat (counts_of (lt_particles l) s b));
  l_cumul : forall s, array_holds d (LCumul s) (nboxes t) (fun b =>
    Z.of_nat (length (filter (fun i => (starts_of p s b <=? i) && (i <? starts_of p s b + cumul s b)) (local_index l s))));
  l_coords : forall s a, a < dim t -> array_holds d (LCoord s a) (length (local_index l s)) (fun k => coords s (nth k (local_index l s) 0) a);
  l_radii : have_extent = true -> array_holds d (LRadii Targets) (length (lt_tgt_idx l)) (fun k => radii (nth k (lt_tgt_idx l) 0));
  l_flags : array_holds d LFlags (nboxes t) (fun b => Z.of_N (box_flags (lt_tree l) b))
}.
