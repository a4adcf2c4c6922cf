(** Specification vocabulary for traversal objects: how an FMM driver reads the
    interaction lists, and how often a (target box, source box) pair is accounted for. *)
From Coq Require Import List Arith ZArith Lia Bool.
From Verif Require Import Base Tree Spec Traversal.
Import ListNotations.

(** All entries found under box [b] in a CSR list whose rows are indexed by [boxes]. *)
Definition entries (boxes : list nat) (c : csr) (b : nat) : list nat :=
  concat (map (fun i => if nth i boxes 0 =? b then csr_get c i else [])
              (seq 0 (length boxes))).

Definition list1_of tr T := entries (target_boxes tr) (neighbor_source_boxes tr) T.
Definition list2_of tr A := entries (target_or_target_parent_boxes tr) (from_sep_siblings tr) A.
Definition list3_level_of tr l T :=
  let p := nth l (from_sep_smaller_by_level tr) ([], csr_of []) in entries (fst p) (snd p) T.
Definition list3_of tr T :=
  concat (map (fun p => entries (fst p) (snd p) T) (from_sep_smaller_by_level tr)).
Definition list4_of tr A := entries (target_or_target_parent_boxes tr) (from_sep_bigger tr) A.
Definition list3_close_of tr T :=
  match from_sep_close_smaller tr with
  | Some c => entries (target_boxes tr) c T | None => [] end.
Definition list4_close_of tr T :=
  match from_sep_close_bigger tr with
  | Some c => entries (target_boxes tr) c T | None => [] end.

(** How often the sources of box [S] reach the targets of box [T] through the lists:
    - directly (list 1, close list 3, close list 4 of T),
    - via multipole-to-local (list 2) from a box containing S to a box containing T,
    - via evaluation of a multipole (list 3 of T) of a box containing S,
    - via a local expansion formed from S (list 4) at a box containing T. *)
Definition coverage (t : tree) (tr : traversal) (T S : nat) : nat :=
  count S (list1_of tr T) + count S (list3_close_of tr T) + count S (list4_close_of tr T)
  + nsum (map (fun A => nsum (map (fun B => count B (list2_of tr A)) (ancestors_or_self t S)))
              (ancestors_or_self t T))
  + nsum (map (fun B => count B (list3_of tr T)) (ancestors_or_self t S))
  + nsum (map (fun A => count S (list4_of tr A)) (ancestors_or_self t T)).

(** Parameters as they come out of a tree: with sources_are_targets the target boxes are the
    source boxes - of a local tree of the distributed code, the source boxes of the rank. *)
Definition wf_params (t : tree) (P : trav_params) : Prop :=
  1 <= well_sep_is_n_away P /\
  (sources_are_targets P = true -> forall b, b < nboxes t ->
     is_target t b = is_source t b && source_boxes_mask P b).

(** Extent parameters: stick-out factor >= 0, 0 <= machine epsilon <= 1/12. *)
Definition wf_extent (ex : extent_info) : Prop :=
  (0 <= stick_out_num ex /\ 0 < stick_out_den ex /\ 0 <= eps_num ex /\
   12 * eps_num ex <= eps_den ex /\ 0 < eps_den ex)%Z.
