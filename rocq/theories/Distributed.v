(** Model of a distributed FMM evaluation: boxtree/distributed/__init__.py, calculation.py and
    fmm.py:342-532 as run by all ranks of a communicator. *)
From Coq Require Import List Arith ZArith NArith Lia Bool.
From Verif Require Import Base Tree Traversal Fmm Partition LocalTree.
From Verif Require TreeBuild Comm.
Import ListNotations.

(** calculation.py:85-107 distribute_source_weights: what rank [r] receives of the weights, which
    are in tree order; the message passing is not modelled *)
Definition local_weights {A} (src_idx : list nat) (w : nat -> A) : nat -> A := fun k => w (nth k src_idx 0).

(** calculation.py:109-145 gather_potential_results on the root rank: the results of the ranks are
    stored one after the other; [old]: the uninitialised array *)
Definition gather_potentials {A} (size : nat) (tgt_idx : nat -> list nat) (potentials : nat -> nat -> A) (old : nat -> A) : nat -> A :=
  fold_left (fun g r => TreeBuild.scatter (map (fun k => (nth k (tgt_idx r) 0, potentials r k)) (seq 0 (length (tgt_idx r)))) g)
    (seq 0 size) old.

(** fmm.py:412-425 on one rank: form and coarsen multipole expansions *)
Definition rank_multipoles (l : local_tree) (trl : traversal) (w : array) : array :=
  coarsen_multipoles (lt_tree l) (level_start_source_parent_box_nrs trl) (source_parent_boxes trl)
    (form_multipoles (lt_particles l) (source_boxes trl) (local_weights (lt_src_idx l) w)).
(** fmm.py:427-520 on one rank, given its multipole expansions after communicate_mpoles *)
Definition rank_potentials (l : local_tree) (trl : traversal) (mpoles w : array) : array :=
  fmm_potentials (lt_tree l) (lt_particles l) trl (fun _ => mpoles) (local_weights (lt_src_idx l) w).

(** calculation.py:318-324 contributing_boxes before the exchange *)
Definition contributing_boxes (l : local_tree) : mask :=
  fun b => bm_ancestor (lt_masks l) b || bm_responsible (lt_masks l) b.

Section Run.
Variable t : tree.                         (* the global tree *)
Variable p : particles.
Variables source_cumul target_cumul : nat -> nat.
Variable P : trav_params.                  (* how traversals are built *)
Variable tr : traversal.                   (* the global traversal *)
Variable size : nat.                       (* number of ranks *)
Variable boxes : nat -> list nat.          (* responsible boxes of each rank *)
Variable merge : bool.                     (* generate_local_travs(merge_close_lists=...) *)

(** __init__.py:216-262: local trees and traversals of all ranks *)
Definition local_setup (loc : nat -> local_tree) (trl : nat -> traversal) : Prop :=
  forall r, r < size ->
    generate_local_tree t p source_cumul target_cumul (targets_have_extent (extents P)) tr (boxes r) = Some (loc r) /\
    generate_local_travs P (loc r) merge = Some (trl r).

(** fmm.py:342-532 with calculation.py:437-453: the result on the root rank, if [mpoles r] are the
    expansions of rank [r] after the exchange *)
Definition gathered_result (loc : nat -> local_tree) (trl : nat -> traversal) (mpoles : nat -> array)
    (old weights : array) : array :=
  let w := reorder_sources p weights in
  reorder_potentials p
    (gather_potentials size (fun r => lt_tgt_idx (loc r)) (fun r => rank_potentials (loc r) (trl r) (mpoles r) w) old).

(** A complete execution with the exchange of calculation.py:271-416 (Comm.v): any interleaving of
    the ranks.  [rendezvous]: do sends complete only when received? *)
Definition distributed_execution (rendezvous : bool) (weights result : array) : Prop :=
  exists loc trl st n old,
    local_setup loc trl /\
    Comm.reachable size (nboxes t) (nlevels t) (level_start_box_nrs P)
      (box_to_user_ranks (nboxes t) size (fun r => bm_multipole_src (lt_masks (loc r)))) rendezvous
      (Comm.start (X := Monoid.Zm) size (fun r => rank_multipoles (loc r) (trl r) (reorder_sources p weights)) (fun r => contributing_boxes (loc r)))
      st n /\
    Comm.all_done size st /\
    result = gathered_result loc trl (fun r => Comm.pr_mpoles (Comm.procs st r)) old weights.

(** The same with communicate_mpoles_via_allreduce, calculation.py:288-294 *)
Definition allreduce_execution (weights result : array) : Prop :=
  exists loc trl old,
    local_setup loc trl /\
    result = gathered_result loc trl
      (fun _ b => zsum (map (fun r => rank_multipoles (loc r) (trl r) (reorder_sources p weights) b) (seq 0 size))) old weights.
End Run.
