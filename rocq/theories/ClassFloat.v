(** Translation classes (boxtree/translation_classes.py) in floating-point arithmetic, on the box
    centers of TravFloat.v.  The kernel is that of Classes.v; the normalized vectors and the recorded
    distances are computed with rounding. *)
From Coq Require Import List Arith ZArith Bool Reals SpecFloat.
From Flocq Require Import Core.
From Verif Require Import Base Tree Traversal Tools Classes Floats TravFloat.
Import ListNotations.

Section Float.
Variable A : trav_arith.
Variable nearest : num A -> Z.                 (* rint, and the conversion to an integer *)
Variable t : tree.
Variable G : float_geometry (num A).
(** translation_classes.py:71-85 *)
Definition f_vector (source target i : nat) : Z :=
  let diam := mul A (of_int A 2) (f_rad A G (box_level t source)) in
  nearest (div A (sub A (f_center A t G target i) (f_center A t G source i)) diam).
(** translation_classes.py:144-186, as class_item of Classes.v *)
Definition f_class_item (n : nat) (per_level : bool) (c : csr) (ttpb : list nat) (i : nat) : option nat :=
  let source := nth i (lists c) 0 in
  match bsearch (fun j => Z.of_nat (nth j (starts c) 0)) (1 + length ttpb) (Z.of_nat i) with
  | Some (Some itarget) =>
    let target := nth itarget ttpb 0 in
    if negb (box_level t source =? box_level t target) then None else
    match translation_class (dim t) n (f_vector source target) with
    | None => None
    | Some cls => Some (if per_level then cls + box_level t source * nclasses_per_level n (dim t) else cls)
    end
  | _ => None
  end.
(** translation_classes.py:324-373; [None] is the ValueError *)
Definition f_compute_classes (n : nat) (per_level : bool) (tr : traversal) : option (list bool * list nat) :=
  let c := from_sep_siblings tr in
  let nclasses := nclasses_per_level n (dim t) * (if per_level then nlevels t else 1) in
  option_map (fun cls => (map (fun k => existsb (Nat.eqb k) cls) (seq 0 nclasses), cls))
             (run_all (f_class_item n per_level c (target_or_target_parent_boxes tr)) (seq 0 (length (lists c)))).
(** translation_classes.py:417-418: one column.  numpy computes single precision products and quotients
    in double precision, where they are exact, and rounds when it stores them: the same value as
    rounding the product, because the divisor is a power of two. *)
Definition f_distance (n i : nat) (axis : nat) : num A :=
  let N := nclasses_per_level n (dim t) in
  div A (mul A (of_int A (class_to_vector n (dim t) (i mod N) axis)) (f_extent G)) (of_int A (2 ^ Z.of_nat (i / N))).
(** translation_classes.py:376-438; the dense numbering is that of Classes.v (class_step); the columns
    of the distances are recorded for the class with that number *)
Record f_class_info := mkFCI {
  fi_classes : list (option nat);
  fi_dist : nat -> option (nat -> num A);
  fi_starts : nat -> option nat
}.
Definition f_class_step (n : nat) (st : class_state * (nat -> option (nat -> num A))) (iu : nat * bool) : class_state * (nat -> option (nat -> num A)) :=
  (class_step t n (fst st) iu, if snd iu then set (snd st) (cs_count (fst st)) (f_distance n (fst iu)) else snd st).
Definition f_translation_classes (n : nat) (per_level : bool) (tr : traversal) : option f_class_info :=
  match f_compute_classes n per_level tr with
  | None => None
  | Some (used, cls) =>
    let (st, dist) := fold_left (f_class_step n) (combine (seq 0 (length used)) used) (mkCS 0 None (fun _ => None) (fun _ => None) (fun _ => None), fun _ => None) in
    Some {| fi_classes := map (cs_map st) cls; fi_dist := dist; fi_starts := set (cs_starts st) (nlevels t) (cs_count st) |}
  end.
(** rotation_classes.py:163-196, as rotation_classes of Classes.v *)
Definition f_rotation_classes (angle : Type) (angle_eqb : angle -> angle -> bool) (angle_of : Z -> Z -> angle)
    (n : nat) (tr : traversal) : option (list (option nat) * list angle) :=
  match f_compute_classes n false tr with
  | None => None
  | Some (used, cls) =>
    match compute_rotation_classes angle angle_eqb angle_of n (dim t) (filter (fun k => nth k used false) (seq 0 (length used))) with
    | None => None
    | Some (angles, m) =>
      if length angles <=? 2 ^ (dim t - 1) * (2 * n + 1) ^ dim t then Some (map m cls, angles) else None
    end
  end.
End Float.
Arguments fi_classes {A}. Arguments fi_dist {A}. Arguments fi_starts {A}.

(** rint of an IEEE 754 number; 0 for infinities and NaN, whose conversion to an integer is undefined *)
Definition sf_nearest (x : spec_float) : Z :=
  match x with
  | S754_finite s m e =>
    let v := if (0 <=? e)%Z then (Z.pos m * 2 ^ e)%Z else rint (Z.pos m) (2 ^ (- e)) in
    if s then (- v)%Z else v
  | _ => 0%Z
  end.
