(** Vocabulary for trees of boxes with levels of fixed width and for meshes of their leaves. *)
From Coq Require Import List Arith ZArith NArith Lia Bool.
From Verif Require Import Base Tree TreeOfBoxes SpecTob TobLevels.
Import ListNotations.

(** Trees obtained from a root by any number of accepted calls that never refine a box on level [L] or
    deeper, with levels of [w] binary digits. *)
Inductive reachable_in (w sentinel L : nat) : tob -> Prop :=
| reach_in_root d lo hi t : 1 <= d -> make_root d lo hi = Some t -> reachable_in w sentinel L t
| reach_in_step t t1 t' rf cf err order :
    reachable_in w sentinel L t ->
    (forall b, b < tn t -> rf b = true -> tlevel t b < L) ->
    unsorted_result_in w sentinel rf cf err t = Ok t1 -> argsort_ok (tn t1) (tlevel t1) order ->
    refine_and_coarsen_in w sentinel order rf cf err t = Ok t' ->
    reachable_in w sentinel L t'.

(** all corners of the cube [-1, 1]^d, each once *)
Definition corner_signs (d : nat) (nodes : list (nat -> Z)) : Prop :=
  length nodes = 2 ^ d /\
  (forall s, In s nodes -> forall a, a < d -> s a = 1%Z \/ s a = (-1)%Z) /\
  (forall f : nat -> bool, exists j, j < 2 ^ d /\ forall a, a < d -> nth j nodes (fun _ => 0%Z) a = if f a then 1%Z else (-1)%Z).
(** the vertices of an element *)
Definition element (M : mesh) (e : nat) : list (nat -> Z) :=
  map (fun v => nth v (vertices M) (fun _ => 0%Z)) (nth e (vertex_indices M) []).
(** [x] lies between the smallest and the largest coordinates of the points, the upper bound excluded *)
Definition spanned (d : nat) (points : list (nat -> Z)) (x : nat -> Z) : Prop :=
  forall a, a < d -> (exists v, In v points /\ (v a <= x a)%Z) /\ (exists v, In v points /\ (x a < v a)%Z).
