(** Specification vocabulary for post-processing of particle trees. *)
From Coq Require Import List Arith ZArith Lia Bool Permutation.
From Verif Require Import Base Tree Fmm SpecFmm.
Import ListNotations.

(** The particle numbering of a tree: the two id arrays are permutations and each tree-order index
    is in exactly one box's own range. *)
Record numbered (t : tree) (p : particles) : Prop := {
  nb_sources : Permutation (map (user_source_ids p) (seq 0 (nsources p))) (seq 0 (nsources p));
  nb_targets : Permutation (map (sorted_target_ids p) (seq 0 (ntargets p))) (seq 0 (ntargets p));
  nb_own_sources : owned_once t (box_source_starts p) (box_source_counts_nonchild p) (nsources p);
  nb_own_targets : owned_once t (box_target_starts p) (box_target_counts_nonchild p) (ntargets p)
}.
Definition own_source (p : particles) (b k : nat) : Prop :=
  box_source_starts p b <= k < box_source_starts p b + box_source_counts_nonchild p b.
Definition own_target (p : particles) (b k : nat) : Prop :=
  box_target_starts p b <= k < box_target_starts p b + box_target_counts_nonchild p b.

(** user source [u] has the user point sources point_source_starts[u] .. point_source_starts[u+1]-1 *)
Definition points_of (pss : nat -> nat) (u : nat) : list nat := seq (pss u) (pss (S u) - pss u).
(** point_source_starts is a valid starts array for [n] sources *)
Definition valid_starts (pss : nat -> nat) (n : nat) : Prop := pss 0 = 0 /\ forall u, u < n -> pss u <= pss (S u).
