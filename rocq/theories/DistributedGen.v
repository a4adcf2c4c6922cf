(** Model of a distributed FMM evaluation with an arbitrary expansion wrangler:
    boxtree/distributed/__init__.py, calculation.py and fmm.py:342-532 as run by all ranks of a
    communicator, with the wrangler of FmmGen.v on each rank. *)
From Coq Require Import List Arith ZArith NArith Lia Bool.
From Verif Require Import Base Tree Traversal Fmm Partition LocalTree Distributed Monoid FmmGen.
From Verif Require TreeBuild Comm.
Import ListNotations.

Section Gen.
Context {Wt : Type} {M L V : cmonoid} (R : routines Wt M L V).

(** The numerical routines on a rank: its particles k are the particles src_idx[k] and
    tgt_idx[k] of the global tree (local_tree.py:351-359, [fetch_local]); the box centers, levels
    and numbers are those of the global tree. *)
Definition local_routines (l : local_tree) : routines Wt M L V :=
  let src k := nth k (lt_src_idx l) 0 in
  let tgt k := nth k (lt_tgt_idx l) 0 in
  {| p2m := fun lev b k => p2m R lev b (src k); m2m := m2m R; m2l := m2l R;
     m2p := fun lev b k => m2p R lev b (tgt k); p2l := fun lev b k => p2l R lev b (src k);
     l2l := l2l R; l2p := fun lev b k => l2p R lev b (tgt k);
     p2p := fun i j => p2p R (tgt i) (src j); finalize := finalize R |}.

(** fmm.py:412-425 on one rank: form and coarsen multipole expansions *)
Definition rank_multipoles_gen (l : local_tree) (trl : traversal) (starts : nat -> nat) (w : nat -> Wt) : storage M :=
  coarsen_multipoles_gen _ _ _ _ (local_routines l) (lt_tree l) starts
    (level_start_source_parent_box_nrs trl) (source_parent_boxes trl)
    (form_multipoles_gen _ _ _ _ (local_routines l) (lt_tree l) (lt_particles l) starts
       (level_start_source_box_nrs trl) (source_boxes trl) (local_weights (lt_src_idx l) w)).
(** fmm.py:427-520 on one rank, given its multipole expansions after communicate_mpoles *)
Definition rank_potentials_gen (l : local_tree) (trl : traversal) (starts : nat -> nat) (mpoles : storage M)
    (w : nat -> Wt) : nat -> V :=
  potentials_gen _ _ _ _ (local_routines l) (lt_tree l) (lt_particles l) starts trl (fun _ => mpoles)
    (local_weights (lt_src_idx l) w).

(** The expansions as the exchange reads and updates them: multipole_expansions_view of the level
    of a box, at the box number minus the first box number of the level (calculation.py:160-168,
    187-200) *)
Definition of_box (t : tree) (starts : nat -> nat) (s : storage M) (b : nat) : M := view_get starts s (box_level t b) b.
Definition to_storage (starts : nat -> nat) (m : nat -> M) : storage M := fun lev k => m (starts lev + k).

Variable t : tree.
Variable p : particles.
Variables source_cumul target_cumul : nat -> nat.
Variable P : trav_params.
Variable tr : traversal.
Variable size : nat.
Variable boxes : nat -> list nat.
Variable merge : bool.
Let starts := level_start_box_nrs P.

(** fmm.py:342-532 with calculation.py:85-145: the result on the root rank, if [mpoles r] are the
    expansions of rank [r] after the exchange *)
Definition gathered_result_gen (loc : nat -> local_tree) (trl : nat -> traversal) (mpoles : nat -> nat -> M)
    (old : nat -> V) (weights : nat -> Wt) : nat -> V :=
  let w := fun k => weights (user_source_ids p k) in
  let pot := gather_potentials size (fun r => lt_tgt_idx (loc r))
    (fun r => rank_potentials_gen (loc r) (trl r) starts (to_storage starts (mpoles r)) w) old in
  fun j => finalize R (pot (sorted_target_ids p j)).

(** what the ranks start the exchange with *)
Definition initial_multipoles (loc : nat -> local_tree) (trl : nat -> traversal) (weights : nat -> Wt) (r : nat) : nat -> M :=
  of_box t starts (rank_multipoles_gen (loc r) (trl r) starts (fun k => weights (user_source_ids p k))).

(** A complete execution with the exchange of calculation.py:271-416 (Comm.v): any interleaving of
    the ranks. *)
Definition distributed_execution_gen (rendezvous : bool) (weights : nat -> Wt) (result : nat -> V) : Prop :=
  exists loc trl st n old,
    local_setup t p source_cumul target_cumul P tr size boxes merge loc trl /\
    Comm.reachable size (nboxes t) (nlevels t) starts
      (box_to_user_ranks (nboxes t) size (fun r => bm_multipole_src (lt_masks (loc r)))) rendezvous
      (Comm.start size (initial_multipoles loc trl weights) (fun r => contributing_boxes (loc r))) st n /\
    Comm.all_done size st /\
    result = gathered_result_gen loc trl (fun r => Comm.pr_mpoles (Comm.procs st r)) old weights.

(** The same with communicate_mpoles_via_allreduce, calculation.py:288-294 *)
Definition allreduce_execution_gen (weights : nat -> Wt) (result : nat -> V) : Prop :=
  exists loc trl old,
    local_setup t p source_cumul target_cumul P tr size boxes merge loc trl /\
    result = gathered_result_gen loc trl
      (fun _ b => msum (map (fun r => initial_multipoles loc trl weights r b) (seq 0 size))) old weights.
End Gen.
