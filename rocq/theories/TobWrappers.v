(** Model of the functions of boxtree/tree_of_boxes.py that only refine or only coarsen. *)
From Coq Require Import List Arith.
From Verif Require Import Base Tree TreeOfBoxes SpecTob.
Import ListNotations.

(** tree_of_boxes.py:371-374: no flags given *)
Definition no_flags (b : nat) : bool := false.
(** tree_of_boxes.py:122-128 *)
Definition refine_tree_of_boxes (sentinel : nat) (argsort : list nat) (rf : nat -> bool) (t : tob) : result tob :=
  refine_and_coarsen sentinel argsort rf no_flags true t.
(** tree_of_boxes.py:141-152 *)
Definition coarsen_tree_of_boxes (sentinel : nat) (argsort : list nat) (cf : nat -> bool) (err : bool) (t : tob) : result tob :=
  refine_and_coarsen sentinel argsort no_flags cf err t.

(** [n] calls of uniformly_refine_tree_of_boxes (tree_of_boxes.py:131-138) lead from [t] to [t'];
    np.argsort may break ties in any way *)
Inductive uniformly_refined (sentinel : nat) : nat -> tob -> tob -> Prop :=
| uniform_none t : uniformly_refined sentinel 0 t t
| uniform_more n t t1 u order t' :
    uniformly_refined sentinel n t t1 ->
    unsorted_result sentinel (is_leaf t1) no_flags true t1 = Ok u -> argsort_ok (tn u) (tlevel u) order ->
    uniformly_refine sentinel order t1 = Ok t' ->
    uniformly_refined sentinel (S n) t t'.
