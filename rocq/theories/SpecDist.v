(** Specification vocabulary for distributed evaluation. *)
From Coq Require Import List Arith ZArith Lia Bool Permutation.
From Verif Require Import Base Tree.
Import ListNotations.

(** Nested ranges: the own range of a box is the beginning of its cumulative range and the ranges
    of its non-empty children follow. *)
Record nested_ranges (t : tree) (st cnt cumul : nat -> nat) : Prop := {
  nr_own : forall b, b < nboxes t -> cnt b <= cumul b;
  nr_child : forall m b, b < nboxes t -> m < nchildren t -> box_child t m b <> 0 -> 0 < cumul (box_child t m b) ->
    st b + cnt b <= st (box_child t m b) /\ st (box_child t m b) + cumul (box_child t m b) <= st b + cumul b
}.

(** Every box is assigned to exactly one of the ranks 0 .. size-1. *)
Definition every_box_once (t : tree) (size : nat) (boxes : nat -> list nat) : Prop :=
  Permutation (concat (map boxes (seq 0 size))) (seq 0 (nboxes t)).

(** [idx] lists in increasing order the indices below [n] that belong to the own range of a box in
    [mask]; with starts [st'] and counts [cnt'] into [idx] a box in [mask] has the same entries as
    before and the other boxes have none. *)
Record restricted (t : tree) (mask : nat -> bool) (st cnt : nat -> nat) (n : nat) (idx : list nat) (st' cnt' : nat -> nat) : Prop := {
  rs_increasing : forall i j, i < j -> j < length idx -> nth i idx 0 < nth j idx 0;
  rs_kept : forall i, In i idx <-> i < n /\ exists b, b < nboxes t /\ mask b = true /\ st b <= i < st b + cnt b;
  rs_range : forall b, b < nboxes t -> mask b = true -> st' b + cnt' b <= length idx;
  rs_box : forall b, b < nboxes t -> mask b = true -> map (fun k => nth k idx 0) (seq (st' b) (cnt' b)) = seq (st b) (cnt b);
  rs_empty : forall b, mask b = false -> cnt' b = 0
}.
