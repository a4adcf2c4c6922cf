(** Specification vocabulary for FMM evaluation: what the particle data of a tree satisfies. *)
From Coq Require Import List Arith ZArith Lia Bool Permutation.
From Verif Require Import Base Tree Fmm.
Import ListNotations.

(** Every index below [n] belongs to the own range [start b, start b + cnt b) of exactly
    one box. *)
Definition owned_once (t : tree) (start cnt : nat -> nat) (n : nat) : Prop :=
  Permutation (concat (map (fun b => seq (start b) (cnt b)) (seq 0 (nboxes t)))) (seq 0 n).

Record wf_particles (t : tree) (p : particles) : Prop := {
  wf_user_source_ids : Permutation (map (user_source_ids p) (seq 0 (nsources p))) (seq 0 (nsources p));
  wf_sorted_target_ids : forall j, j < ntargets p -> sorted_target_ids p j < ntargets p;
  wf_sources_owned : owned_once t (box_source_starts p) (box_source_counts_nonchild p) (nsources p);
  wf_targets_owned : owned_once t (box_target_starts p) (box_target_counts_nonchild p) (ntargets p);
  wf_source_flag : forall b, b < nboxes t -> 0 < box_source_counts_nonchild p b -> is_source t b = true;
  wf_target_flag : forall b, b < nboxes t -> 0 < box_target_counts_nonchild p b -> is_target t b = true
}.

(** all source weights *)
Definition total_weight (p : particles) (weights : nat -> Z) : Z :=
  zsum (map weights (seq 0 (nsources p))).
