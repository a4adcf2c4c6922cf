(** Specification vocabulary for the entry of TreeBuilder. *)
From Coq Require Import List Arith ZArith Lia Bool.
From Verif Require Import Base Tree Fmm TreeBuild BuildFront SpecBuild.
Import ListNotations.
Local Open Scope Z_scope.

(** the particles a reduction combines *)
Fixpoint elements (r : reduction) : list nat :=
  match r with Neutral => [] | Element i => [i] | Combine l r => elements l ++ elements r end.
Definition reduces (r : reduction) (n : nat) : Prop := forall i, In i (elements r) <-> (i < n)%nat.

(** ** What the user passes *)
(** all sources, then all targets if they are separate *)
Definition user_count (a : args) : nat := (a_nsources a + match a_targets a with Some (n, _) => n | None => 0 end)%nat.
Definition user_point (a : args) (u : nat) (p : nat -> Z) : Prop :=
  ((u < a_nsources a)%nat /\ p = a_particles a u) \/
  exists n tg, a_targets a = Some (n, tg) /\ (a_nsources a <= u < a_nsources a + n)%nat /\ p = tg (u - a_nsources a)%nat.
Definition user_radius (a : args) (u : nat) (rho : Z) : Prop :=
  ((u < a_nsources a)%nat /\ rho = match a_source_radii a with Some (_, f) => f u | None => 0 end) \/
  exists n tg, a_targets a = Some (n, tg) /\ (a_nsources a <= u < a_nsources a + n)%nat /\
    rho = match a_target_radii a with Some (_, f) => f (u - a_nsources a)%nat | None => 0 end.

(** Coordinates and radii are floats of the coordinate type, written as multiples of a unit in
    which the stretched root box and its first 30 halvings are integral. *)
Definition unit_length : Z := 10000 * 2 ^ 30.
Record user_floats (a : args) : Prop := {
  uf_point : forall u p ax, user_point a u p -> (unit_length | p ax);
  uf_radius : forall u rho, user_radius a u rho -> (unit_length | rho) /\ 0 <= rho;
  uf_range : forall u p rho ax, user_point a u p -> user_radius a u rho -> - a_huge a <= p ax - rho /\ p ax + rho <= a_huge a
}.
(** not all particles coincide, or one has a positive radius *)
Definition spread (a : args) : Prop :=
  exists u p rho u' p' rho' ax, user_point a u p /\ user_radius a u rho /\ user_point a u' p' /\ user_radius a u' rho' /\
    (ax < a_dim a)%nat /\ p ax - rho < p' ax + rho'.
