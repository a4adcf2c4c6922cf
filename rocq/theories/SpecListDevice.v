(** What it means that a device holds a tree, flags of its targets, linked point sources and lists of
    filtered targets. *)
From Coq Require Import List Arith ZArith Bool.
From Verif Require Import Base Tree Traversal Fmm ParticleLists SpecLists Device ListBuilder ListDevice.
Import ListNotations.

(** array [a] has exactly [n] elements, the k-th being [f k] *)
Definition array_holds (d : device parr) (a : parr) (n : nat) (f : nat -> Z) : Prop :=
  size d a = Z.of_nat n /\ forall k, k < n -> cells d a (Z.of_nat k) = f k.

(** The arguments of link_point_sources.  [cumul b]: number of sources in box [b] and below;
    [points u a]: coordinate [a] of the point source that has the number [u] for the user. *)
Record device_has_sources (t : tree) (p : particles) (cumul pss : nat -> nat) (points : nat -> nat -> Z) (d : device parr) : Prop := {
  s_point_starts : array_holds d (Base PointStarts) (nsources p + 1) (fun u => Z.of_nat (pss u));
  s_points : forall a, a < dim t -> array_holds d (Base (PointCoord a)) (pss (nsources p)) (fun u => points u a);
  s_ids : array_holds d (Base SourceIds) (nsources p) (fun i => Z.of_nat (user_source_ids p i));
  s_starts : array_holds d (Base BoxSources) (nboxes t) (fun b => Z.of_nat (box_source_starts p b));
  s_counts : array_holds d (Base BoxSourceCounts) (nboxes t) (fun b => Z.of_nat (box_source_counts_nonchild p b));
  s_cumul : array_holds d (Base BoxSourceCumul) (nboxes t) (fun b => Z.of_nat (cumul b))
}.
(** the attributes of the tree with linked point sources *)
Record device_has_linked (t : tree) (p : particles) (l : linked) (d : device parr) : Prop := {
  l_d_starts : array_holds d (Base LinkStarts) (nsources p) (fun i => Z.of_nat (l_starts l i));
  l_d_counts : array_holds d (Base LinkCounts) (nsources p) (fun i => Z.of_nat (l_counts l i));
  l_d_ids : array_holds d (Base PointIds) (l_npoint_sources l) (fun k => Z.of_nat (l_user_ids l k));
  l_d_points : forall a, a < dim t -> array_holds d (Base (LinkedCoord a)) (l_npoint_sources l) (fun k => l_point_sources l k a);
  l_d_box_starts : array_holds d (Base BoxPoints) (nboxes t) (fun b => Z.of_nat (l_box_starts l b));
  l_d_box_counts : array_holds d (Base BoxPointCounts) (nboxes t) (fun b => Z.of_nat (l_box_counts_nonchild l b));
  l_d_box_cumul : array_holds d (Base BoxPointCumul) (nboxes t) (fun b => Z.of_nat (l_box_counts_cumul l b))
}.

(** The arguments of the methods of ParticleListFilter.  A target takes part if its flag is not zero. *)
Record device_has_targets (t : tree) (p : particles) (targets : nat -> nat -> Z) (flags : nat -> bool) (d : device parr) : Prop := {
  t_ids : array_holds d (Base TargetIds) (ntargets p) (fun j => Z.of_nat (sorted_target_ids p j));
  t_targets : forall a, a < dim t -> array_holds d (Base (TargetCoord a)) (ntargets p) (fun k => targets k a);
  t_starts : array_holds d (Base BoxTargets) (nboxes t) (fun b => Z.of_nat (box_target_starts p b));
  t_counts : array_holds d (Base BoxTargetCounts) (nboxes t) (fun b => Z.of_nat (box_target_counts_nonchild p b));
  t_flags_size : size d (Base UserFlags) = Z.of_nat (ntargets p);
  t_flags : forall j, j < ntargets p -> (flags j = true <-> cells d (Base UserFlags) (Z.of_nat j) <> 0%Z)
}.
(** lists in user order: target_starts and target_lists *)
Definition device_has_user_lists (c : csr) (d : device parr) : Prop :=
  array_holds d (Starts FiltTgtList) (length (starts c)) (fun b => Z.of_nat (nth b (starts c) 0)) /\
  array_holds d (Lists FiltTgtList) (length (lists c)) (fun k => Z.of_nat (nth k (lists c) 0)).
(** the attributes of lists in tree order *)
Record device_has_filtered (t : tree) (f : filtered_lists) (d : device parr) : Prop := {
  f_d_unfiltered : array_holds d (Base FromFilteredCut) (f_nfiltered f) (fun k => Z.of_nat (f_unfiltered f k));
  f_d_targets : forall a, a < dim t -> array_holds d (Base (FilteredCoord a)) (f_nfiltered f) (fun k => f_targets f k a);
  f_d_starts : array_holds d (Base FilteredStarts) (nboxes t) (fun b => Z.of_nat (f_box_starts f b));
  f_d_counts : array_holds d (Base FilteredCounts) (nboxes t) (fun b => Z.of_nat (f_box_counts f b))
}.
