(** Model of boxtree/translation_classes.py and boxtree/rotation_classes.py.  Coordinates are exact
    integers; class numbers do not overflow 32-bit integers. *)
From Coq Require Import List Arith ZArith Lia Bool.
From Verif Require Import Base Tree Traversal Tools.
Import ListNotations.

(** ** Translation vectors *)
(** rint: round to the nearest integer, ties to even ([0 < den]) *)
Definition rint (num den : Z) : Z :=
  let q := (num / den)%Z in let r := (num mod den)%Z in
  if (2 * r <? den)%Z then q else if (den <? 2 * r)%Z then (q + 1)%Z else if Z.even q then q else (q + 1)%Z.
(** translation_classes.py:71-85 *)
Definition normalized_vector (t : tree) (level : nat) (source_center target_center : nat -> Z) (i : nat) : Z :=
  rint (target_center i - source_center i) (2 * level_to_rad t level).
(** translation_classes.py:104-123; [None] is -1 *)
Definition translation_class (d n : nat) (vec : nat -> Z) : option nat :=
  let dim_bound := (2 * Z.of_nat n + 1)%Z in
  if forallb (fun i => (- dim_bound <=? vec i) && (vec i <=? dim_bound))%Z (seq 0 d) then
    let base := 4 * n + 3 in
    Some (fst (fold_left (fun rm i => (fst rm + Z.to_nat (2 * Z.of_nat n + 1 + vec i) * snd rm, snd rm * base)) (seq 0 d) (0, 1)))
  else None.
(** translation_classes.py:303-305 *)
Definition nclasses_per_level (n d : nat) : nat := (4 * n + 3) ^ d.
(** translation_classes.py:307-322 (a vector as a function of the axis) *)
Definition class_to_vector (n d cls : nat) (i : nat) : Z :=
  let base := 4 * n + 3 in
  let digits := fst (fold_left (fun rc _ => (fst rc ++ [snd rc mod base], snd rc / base)) (seq 0 d) ([], cls)) in
  (Z.of_nat (nth i digits 0%nat) - (2 * Z.of_nat n + 1))%Z.

(** ** translation_classes.py:128-186: one work item; [None] sets the error flag (or is a read
    outside of the lists) *)
Definition class_item (t : tree) (n : nat) (per_level : bool) (c : csr) (ttpb : list nat) (i : nat) : option nat :=
  let source := nth i (lists c) 0 in
  match bsearch (fun j => Z.of_nat (nth j (starts c) 0)) (1 + length ttpb) (Z.of_nat i) with
  | Some (Some itarget) =>
    let target := nth itarget ttpb 0 in
    if negb (box_level t source =? box_level t target) then None else
    match translation_class (dim t) n (normalized_vector t (box_level t source) (box_center t source) (box_center t target)) with
    | None => None
    | Some cls => Some (if per_level then cls + box_level t source * nclasses_per_level n (dim t) else cls)
    end
  | _ => None
  end.
(** translation_classes.py:324-373; [None] is the ValueError.  Result: is_used and the lists *)
Definition compute_translation_classes (t : tree) (n : nat) (per_level : bool) (tr : traversal) : option (list bool * list nat) :=
  let c := from_sep_siblings tr in
  let nclasses := nclasses_per_level n (dim t) * (if per_level then nlevels t else 1) in
  option_map (fun cls => (map (fun k => existsb (Nat.eqb k) cls) (seq 0 nclasses), cls))
             (run_all (class_item t n per_level c (target_or_target_parent_boxes tr)) (seq 0 (length (lists c)))).

(** ** translation_classes.py:378-438
    Entries of np.empty arrays that are not written are [None]. *)
Record class_state := mkCS {
  cs_count : nat;
  cs_prev : option nat;
  cs_starts : nat -> option nat;
  cs_map : nat -> option nat;                    (* None is the fill value -1 *)
  cs_dist : nat -> option (nat -> Z)             (* column *)
}.
Definition set {A} (f : nat -> option A) (k : nat) (v : A) : nat -> option A := fun j => if j =? k then Some v else f j.
(** 404-418 *)
Definition class_step (t : tree) (n : nat) (st : class_state) (iu : nat * bool) : class_state :=
  let (i, used) := iu in
  let N := nclasses_per_level n (dim t) in
  let level := i / N in
  let new_level := match cs_prev st with Some l => negb (l =? level) | None => true end in
  let starts := if new_level then set (cs_starts st) level (cs_count st) else cs_starts st in
  if negb used then mkCS (cs_count st) (Some level) starts (cs_map st) (cs_dist st)
  else mkCS (S (cs_count st)) (Some level) starts (set (cs_map st) i (cs_count st))
         (set (cs_dist st) (cs_count st) (fun a => class_to_vector n (dim t) (i mod N) a * root_extent t / 2 ^ Z.of_nat level)%Z).
Record class_info := mkCI {
  ci_classes : list (option nat);                (* from_sep_siblings_translation_classes *)
  ci_shape : nat * nat;                          (* shape of ..._class_to_distance_vector *)
  ci_dist : nat -> option (nat -> Z);            (* its columns *)
  ci_starts : nat -> option nat                  (* ..._classes_level_starts *)
}.
Definition translation_classes (t : tree) (n : nat) (per_level : bool) (tr : traversal) : option class_info :=
  match compute_translation_classes t n per_level tr with
  | None => None
  | Some (used, cls) =>
    let st := fold_left (class_step t n) (combine (seq 0 (length used)) used) (mkCS 0 None (fun _ => None) (fun _ => None) (fun _ => None)) in
    Some {| ci_classes := map (cs_map st) cls; ci_shape := (dim t, length used); ci_dist := cs_dist st;
            ci_starts := set (cs_starts st) (nlevels t) (cs_count st) |}
  end.
(** translation_classes.py:239-241: len of a two-dimensional array is its first dimension *)
Definition ci_nclasses (ci : class_info) : nat := fst (ci_shape ci).

(** ** Rotation classes *)
(** rotation_classes.py:102-112 *)
Definition vec_gcd (d : nat) (vec : nat -> Z) : Z :=
  fold_left (fun g i => Z.gcd g (Z.abs (vec i))) (seq 1 (d - 1)) (Z.abs (vec 0)).
Section Rotation.
(** np.arccos(vec[-1] / np.linalg.norm(vec)) as a function of vec[-1] and the squared norm, with
    values in some type with decidable equality (floating point numbers as dictionary keys) *)
Variable angle : Type.
Variable angle_eqb : angle -> angle -> bool.
Variable angle_of : Z -> Z -> angle.
Definition norm2 (d : nat) (vec : nat -> Z) : Z := zsum (map (fun i => vec i * vec i)%Z (seq 0 d)).
(** 130-149; [None] is the assertion *)
Definition class_angle (n d cls : nat) : option angle :=
  let vec := class_to_vector n d cls in
  let g := vec_gcd d vec in
  let vec := fun i => (vec i / g)%Z in
  if (norm2 d vec =? 0)%Z then None else Some (angle_of (vec (d - 1)) (norm2 d vec)).
Fixpoint index_of (x : angle) (l : list angle) : option nat :=
  match l with
  | [] => None
  | y :: l => if angle_eqb y x then Some 0 else option_map S (index_of x l)
  end.
(** 114-161: [angles] and the map from translation classes (None: -1).  angle_to_rot_class maps
    each element of [angles] to its position. *)
Definition rotation_step (n d : nat) (st : option (list angle * (nat -> option nat))) (cls : nat) :=
  match st with
  | None => None
  | Some (angles, m) =>
    match class_angle n d cls with
    | None => None
    | Some a =>
      match index_of a angles with
      | Some r => Some (angles, set m cls r)
      | None => Some (angles ++ [a], set m cls (length angles))
      end
    end
  end.
Definition compute_rotation_classes (n d : nat) (used : list nat) : option (list angle * (nat -> option nat)) :=
  fold_left (rotation_step n d) used (Some ([], fun _ => None)).
(** 163-196; [None] is a ValueError or a failed assertion *)
Definition rotation_classes (t : tree) (n : nat) (tr : traversal) : option (list (option nat) * list angle) :=
  match compute_translation_classes t n false tr with
  | None => None
  | Some (used, cls) =>
    match compute_rotation_classes n (dim t) (filter (fun k => nth k used false) (seq 0 (length used))) with
    | None => None
    | Some (angles, m) =>
      if length angles <=? 2 ^ (dim t - 1) * (2 * n + 1) ^ dim t then Some (map m cls, angles) else None
    end
  end.
End Rotation.
