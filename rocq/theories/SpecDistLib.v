(** Specification of distributed evaluation with pyfmmlib: how the caller's dipoles are passed. *)
From Coq Require Import List Arith.
From Verif Require Import Base Tree Fmm LocalTree.
Import ListNotations.

(** The argument of the shared-memory wrangler for given dipole directions of the caller's sources:
    an array with one column for each source, in the caller's order. *)
Definition caller_dipoles {D} (t : tree) (p : particles) (dipoles : option (nat -> D)) : option (nat * nat * (nat -> D)) :=
  match dipoles with Some d => Some (dim t, nsources p, d) | None => None end.
(** The argument on a rank: one column for each of its sources, in the order of its local tree.  Its
    source i is the source number src_idx[i] of the global tree (C39). *)
Definition rank_dipoles {D} (t : tree) (p : particles) (l : local_tree) (dipoles : option (nat -> D)) : option (nat * nat * (nat -> D)) :=
  match dipoles with
  | Some d => Some (dim t, length (lt_src_idx l), fun i => d (user_source_ids p (nth i (lt_src_idx l) 0)))
  | None => None
  end.
(** The argument for the tree of all particles: in the order of that tree. *)
Definition tree_dipoles {D} (t : tree) (p : particles) (dipoles : option (nat -> D)) : option (nat * nat * (nat -> D)) :=
  match dipoles with Some d => Some (dim t, nsources p, fun i => d (user_source_ids p i)) | None => None end.
