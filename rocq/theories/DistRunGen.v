(** Model of repeated distributed evaluations: the program of DistRun.v with the driver of fmm.py
    and an arbitrary expansion wrangler on every rank (DistributedGen.v). *)
From Coq Require Import List Arith ZArith NArith Lia Bool.
From Verif Require Import Base Tree Traversal Fmm Partition LocalTree Distributed Monoid FmmGen DistributedGen DistRun.
From Verif Require TreeBuild Comm.
Import ListNotations.

Section Gen.
Context {Wt : Type} {M L V : cmonoid} (R : routines Wt M L V).
Variable t : tree.
Variable p : particles.
Variable P : trav_params.
Variable size : nat.
Variable loc : nat -> local_tree.
Variable trl : nat -> traversal.
Let starts := level_start_box_nrs P.

(** fmm.py:389-394, calculation.py:90-94: the source weights of evaluation [e], in tree order, cut
    down to the sources of rank [r].  Simplification: a message is a function of the local particle
    number instead of an array of known length. *)
Definition sent_weights (weights : nat -> nat -> Wt) (e r : nat) : nat -> Wt :=
  local_weights (lt_src_idx (loc r)) (fun k => weights e (user_source_ids p k)).
(** fmm.py:396-421 on rank [r], with the weights it received *)
Definition run_upward (r : nat) (w : nat -> Wt) : nat -> M :=
  of_box t starts
    (coarsen_multipoles_gen _ _ _ _ (local_routines R (loc r)) (lt_tree (loc r)) starts
      (level_start_source_parent_box_nrs (trl r)) (source_parent_boxes (trl r))
      (form_multipoles_gen _ _ _ _ (local_routines R (loc r)) (lt_tree (loc r)) (lt_particles (loc r)) starts
         (level_start_source_box_nrs (trl r)) (source_boxes (trl r)) w)).
(** fmm.py:423-518 on rank [r], with its expansions after the exchange *)
Definition run_evaluate (r : nat) (w : nat -> Wt) (m : nat -> M) : nat -> V :=
  potentials_gen _ _ _ _ (local_routines R (loc r)) (lt_tree (loc r)) (lt_particles (loc r)) starts (trl r)
    (fun _ => to_storage starts m) w.
(** calculation.py:133-138, fmm.py:520-530: the root rank assembles what it received; [empty] is
    the contents of np.empty, [junk] that of a potentials array nothing was received into *)
Definition assembled (empty junk : nat -> V) (got : nat -> option (nat -> V)) (j : nat) : V :=
  finalize R (gather_potentials size (fun r => lt_tgt_idx (loc r))
    (fun r => match got r with Some v => v | None => junk end) empty (sorted_target_ids p j)).

(** states of [nevals] evaluations with the source weights [weights 0], [weights 1], .. *)
Definition run_state : Type := @state M (nat -> Wt) (nat -> V).
Definition repeated_execution (rendezvous : bool) (nevals : nat) (weights : nat -> nat -> Wt)
    (left_over : nat -> Comm.proc M) : run_state -> nat -> Prop :=
  run_reachable size (nboxes t) (nlevels t) starts
    (box_to_user_ranks (nboxes t) size (fun r => bm_multipole_src (lt_masks (loc r)))) rendezvous
    (fun r => contributing_boxes (loc r)) nevals (sent_weights weights) run_upward run_evaluate (run_start left_over).
Definition repeated_step (rendezvous : bool) (nevals : nat) (weights : nat -> nat -> Wt) : run_state -> run_state -> Prop :=
  run_step size (nboxes t) (nlevels t) starts
    (box_to_user_ranks (nboxes t) size (fun r => bm_multipole_src (lt_masks (loc r)))) rendezvous
    (fun r => contributing_boxes (loc r)) nevals (sent_weights weights) run_upward run_evaluate.
End Gen.
