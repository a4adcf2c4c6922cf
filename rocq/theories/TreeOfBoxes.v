(** Model of boxtree/tree_of_boxes.py: creating, refining, coarsening a tree of boxes. *)
From Coq Require Import List Arith ZArith NArith Lia Bool.
From Verif Require Import Base Tree Traversal.
Import ListNotations.

(** boxtree/tree.py:154-289 (class TreeOfBoxes). Arrays are functions together with the
    box count; coordinates are integers in a unit making all centers integral.
    [parent_ids]: -1 = none; [level_starts]: None after any refinement. *)
Record tob := mkTob {
  tdim : nat;
  tn : nat;                                (* nboxes *)
  textent : Z;                             (* root_extent *)
  tcenter : nat -> nat -> Z;
  tparent : nat -> Z;                      (* box_parent_ids *)
  tchild : nat -> nat -> nat;              (* box_child_ids[m, b] *)
  tlevel : nat -> nat;                     (* box_levels *)
  tflags : nat -> N;                       (* box_flags *)
  tlevel_starts : option (list nat)        (* level_start_box_nrs *)
}.

Definition tnch (t : tob) : nat := 2 ^ tdim t.

(** np.all(box_child_ids == 0, axis=0) *)
Definition all_zero (d : nat) (child : nat -> nat -> nat) (b : nat) : bool :=
  forallb (fun m => child m b =? 0) (seq 0 (2 ^ d)).

(** tree_of_boxes.py:67-85 _compute_tob_box_flags *)
Definition compute_flags (d : nat) (child : nat -> nat -> nat) (b : nat) : N :=
  let f := N.lor IS_SOURCE_BOX IS_TARGET_BOX in
  if all_zero d child b then N.lor f IS_LEAF_BOX
  else N.lor f (N.lor HAS_SOURCE_CHILD_BOXES HAS_TARGET_CHILD_BOXES).

(** tob.box_flags & IS_LEAF_BOX != 0 *)
Definition is_leaf (t : tob) (b : nat) : bool := flag (tflags t b) IS_LEAF_BOX.

(** tree_of_boxes.py:88-107 _resized_array (growing case): old entries, then zeros *)
Definition resized {A} (old_size : nat) (zero : A) (arr : nat -> A) : nat -> A :=
  fun b => if b <? old_size then arr b else zero.

(** results of the operations *)
Inductive result (A : Type) := Ok (x : A) | ValueError | RuntimeError.
Arguments Ok {A}. Arguments ValueError {A}. Arguments RuntimeError {A}.

Definition flagged (n : nat) (flags : nat -> bool) : list nat := filter flags (seq 0 n).
Definition any (n : nat) (p : nat -> bool) : bool := existsb p (seq 0 n).

(** position of b in l (for the scatter assignment box_children[:, refine_parents] = ...) *)
Fixpoint index_of (b : nat) (l : list nat) : option nat :=
  match l with
  | [] => None
  | x :: l' => if x =? b then Some 0 else option_map S (index_of b l')
  end.

(** tree_of_boxes.py:155-217 *)
Definition apply_refine (rf : nat -> bool) (t : tob) : result tob :=
  if any (tn t) (fun b => rf b && negb (is_leaf t b)) then ValueError
  else
    let parents := flagged (tn t) rf in
    if length parents =? 0 then Ok t
    else
      let d := tdim t in
      let nch := tnch t in
      let n := tn t in
      let n_new := n + length parents * nch in
      (* np.repeat(refine_parents, nchildren)[i - n] *)
      let parent_of i := nth ((i - n) / nch) parents 0 in
      let level i := if i <? n then tlevel t i else tlevel t (parent_of i) + 1 in
      let child m b := match index_of b parents with
                       | Some j => (n + nch * j) + m
                       | None => resized n 0 (tchild t m) b
                       end in
      Ok {| tdim := d; tn := n_new; textent := textent t;
            tcenter := fun i a =>
              if i <? n then tcenter t i a
              else (tcenter t (parent_of i) a
                    + textent t * morton_sign d ((i - n) mod nch) a / 2 ^ Z.of_nat (1 + level i))%Z;
            tparent := fun i => if i <? n then tparent t i else Z.of_nat (parent_of i);
            tchild := child;
            tlevel := level;
            tflags := compute_flags d child;
            tlevel_starts := None |}.

(** tree_of_boxes.py:220-282; [sentinel] = np.iinfo(box_levels.dtype).max *)
Definition apply_coarsen (sentinel : nat) (cf : nat -> bool) (err : bool) (t : tob) : result tob :=
  if any (tn t) (fun b => cf b && negb (is_leaf t b)) then ValueError
  else if any (tn t) (fun b => cf b && (tparent t b <? 0)%Z) then ValueError
  else
    let sources := flagged (tn t) cf in
    if length sources =? 0 then Ok t
    else
      let parent b := Z.to_nat (tparent t b) in
      let exec b := forallb (fun m => is_leaf t (tchild t m (parent b))) (seq 0 (tnch t)) in
      if existsb (fun b => negb (exec b)) sources && err then RuntimeError
      else
        let parents := map parent (filter exec sources) in
        let peers := concat (map (fun m => map (tchild t m) parents) (seq 0 (tnch t))) in
        let deleted b := existsb (Nat.eqb b) peers in
        let child m b := if existsb (Nat.eqb b) parents then 0 else tchild t m b in
        Ok {| tdim := tdim t; tn := tn t; textent := textent t; tcenter := tcenter t;
              tparent := fun b => if deleted b then (-1)%Z else tparent t b;
              tchild := child;
              tlevel := fun b => if deleted b then sentinel else tlevel t b;
              tflags := compute_flags (tdim t) child;
              tlevel_starts := None |}.

(** np.any(np.diff(box_levels) < 0) *)
Definition has_descent (n : nat) (level : nat -> nat) : bool :=
  existsb (fun i => level (S i) <? level i) (seq 0 (n - 1)).

(** tree_of_boxes.py:285-323; [argsort] is the permutation returned by np.argsort *)
Definition sort_by_level (argsort : list nat) (t : tob) : tob :=
  if negb (has_descent (tn t) (tlevel t)) then t
  else
    let old i := nth i argsort 0 in
    let rev := reverse_index argsort (tn t) in
    let old_to_new b := nth b rev 0 in
    let child m b := let c := tchild t m (old b) in if c =? 0 then 0 else old_to_new c in
    {| tdim := tdim t; tn := tn t; textent := textent t;
       tcenter := fun b => tcenter t (old b);
       tparent := fun b => let p := tparent t (old b) in
                  if (0 <=? p)%Z then Z.of_nat (old_to_new (Z.to_nat p)) else p;
       tchild := child;
       tlevel := fun b => tlevel t (old b);
       tflags := compute_flags (tdim t) child;
       tlevel_starts := None |}.

(** tree_of_boxes.py:326-348 *)
Definition sort_and_prune (sentinel : nat) (argsort : list nat) (t0 : tob) : tob :=
  let t := sort_by_level argsort t0 in
  let n_stale := length (filter (fun b => tlevel t b =? sentinel) (seq 0 (tn t))) in
  {| tdim := tdim t; tn := tn t - n_stale; textent := textent t; tcenter := tcenter t;
     tparent := tparent t; tchild := tchild t; tlevel := tlevel t;
     tflags := compute_flags (tdim t) (tchild t); tlevel_starts := None |}.

Definition bind {A B} (r : result A) (f : A -> result B) : result B :=
  match r with Ok x => f x | ValueError => ValueError | RuntimeError => RuntimeError end.

(** tree_of_boxes.py:351-385 *)
Definition refine_and_coarsen (sentinel : nat) (argsort : list nat) (rf cf : nat -> bool)
           (err : bool) (t : tob) : result tob :=
  if any (tn t) (fun b => rf b && cf b) then ValueError
  else
    bind (apply_refine rf t) (fun t1 =>
    bind (apply_coarsen sentinel (resized (tn t) false cf) err t1) (fun t2 =>
    Ok (sort_and_prune sentinel argsort t2))).

(** the tree handed to argsort in refine_and_coarsen *)
Definition unsorted_result (sentinel : nat) (rf cf : nat -> bool) (err : bool) (t : tob) : result tob :=
  bind (apply_refine rf t) (apply_coarsen sentinel (resized (tn t) false cf) err).

(** tree_of_boxes.py:131-139 *)
Definition uniformly_refine (sentinel : nat) (argsort : list nat) (t : tob) : result tob :=
  refine_and_coarsen sentinel argsort (is_leaf t) (fun _ => false) true t.

(** tree_of_boxes.py:392-460; the bounding box must be square (exact equality instead of
    np.allclose); None = single_valued raises *)
Definition make_root (d : nat) (lo hi : nat -> Z) : option tob :=
  if forallb (fun a => (hi a - lo a =? hi 0%nat - lo 0%nat)%Z) (seq 0 d) then
    Some {| tdim := d; tn := 1; textent := (hi 0%nat - lo 0%nat)%Z;
            tcenter := fun _ a => ((lo a + hi a) / 2)%Z;
            tparent := fun _ => (-1)%Z;
            tchild := fun _ _ => 0;
            tlevel := fun _ => 0;
            tflags := compute_flags d (fun _ _ => 0);
            tlevel_starts := Some [0] |}
  else None.
