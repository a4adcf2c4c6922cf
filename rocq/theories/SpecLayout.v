(** Specification: boxes numbered by level. *)
(** The boxes of level l are numbered level_starts l, ..., level_starts (l+1) - 1. *)
Definition level_ranges (nboxes nlevels : nat) (level_starts : nat -> nat) : Prop :=
  level_starts 0 = 0 /\ level_starts nlevels = nboxes /\ forall l, l < nlevels -> level_starts l <= level_starts (l + 1).
Definition on_level (level_starts : nat -> nat) (level b : nat) : Prop :=
  level_starts level <= b < level_starts (level + 1).

