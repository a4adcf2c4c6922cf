(** boxtree/translation_classes.py and rotation_classes.py as they run on the device: the kernel
    that finds the class of each entry of list 2 as loads and stores of concurrent work items, and
    the host programs around it.  The arithmetic on private variables is that of Classes.v and
    Tools.v, applied to the values that were loaded. *)
From Coq Require Import List Arith ZArith NArith Bool.
From Verif Require Import Base Tree Traversal Tools Classes Kernel Device.
Import ListNotations.

(** The arrays: from_sep_siblings_lists, from_sep_siblings_starts, target_or_target_parent_boxes,
    box_centers (axis-major, rows of aligned_nboxes), box_levels; translation_classes,
    translation_class_is_used, error_flag; the map from classes to dense classes and its result *)
Inductive carr := SibLists | SibStarts | SibTargets | BoxCenters | BoxLevels | Classes | IsUsed | ErrorFlag | ClassMap | DenseClasses.
Definition carr_eq (a b : carr) : {a = b} + {a <> b}.
Proof. decide equality. Defined.
Notation citem := (item carr).
Notation chost := (host carr).
Notation z := Z.of_nat.

(** arguments that are not arrays (translation_classes.py:352-367), and lengths *)
Record class_scalars := mkClassScalars {
  c_dim : nat; c_root_extent : Z; c_nlevels : nat; c_aligned : nat;   (* aligned_nboxes *)
  c_n : nat;                                                          (* well_sep_is_n_away *)
  c_targets : nat; c_entries : nat                                    (* lengths of lists *)
}.
(** root_extent and dimensions, as Classes.v wants them *)
Definition scalar_tree (S : class_scalars) : tree := {|
  dim := c_dim S; nlevels := c_nlevels S; nboxes := 0; root_extent := c_root_extent S;
  box_center _ _ := 0%Z; box_level _ := 0; box_parent _ := 0; box_child _ _ := 0; box_flags _ := 0%N |}.

(** tools.py:594-630 bsearch in array [a] of [len] elements.  The loop has no bound in the code;
    running out of [fuel] is modelled as an access outside of the array. *)
Fixpoint search (a : carr) (fuel len : nat) (v : Z) (l r : nat) (next : Z -> citem) : citem :=
  match fuel with
  | 0 => Load a (-1) (fun _ => Finish)
  | Datatypes.S fuel' =>
      let i := l + (r - l) / 2 in
      Load a (z i) (fun x =>
      if (x <=? v)%Z then
        if i =? len - 1 then next (z i)
        else Load a (z i + 1) (fun y => if (v <? y)%Z then next (z i) else search a fuel' len v i r next)
      else search a fuel' len v l i next)
  end.
Definition bsearch_in (a : carr) (len : nat) (v : Z) (next : Z -> citem) : citem :=
  Load a 0 (fun x => if (v <? x)%Z then next (-1)%Z else search a (S len) len v 0 len next).

Section Program.
Variable S : class_scalars.
Variable per_level : bool.                     (* is_translation_per_level *)
(** traversal.py:186-190 load_center *)
Definition load_center (b : Z) (next : (nat -> Z) -> citem) : citem :=
  load_all (map (fun i => (BoxCenters, z (i * c_aligned S) + b)%Z) (seq 0 (c_dim S))) (fun cs => next (fun i => nth i cs 0%Z)).
(** atomic_or(error_flag, 1).  The flags are 0 or 1 and the old value is not used, so atomic_or with
    1 is a store of 1 (here and below). *)
Definition raise_error : citem := Store ErrorFlag 0 1%Z Finish.
(** translation_classes.py:144-186; box_levels[source_box_id] is loaded once *)
Definition class_kernel (i : nat) : citem :=
  Load SibLists (z i) (fun source =>
  bsearch_in SibStarts (1 + c_targets S) (z i) (fun itarget =>
  Load SibTargets itarget (fun target =>
  Load BoxLevels source (fun ls =>
  Load BoxLevels target (fun lt =>
  if negb (ls =? lt)%Z then raise_error else
  load_center source (fun sc =>
  load_center target (fun tc =>
  match translation_class (c_dim S) (c_n S) (normalized_vector (scalar_tree S) (Z.to_nat ls) sc tc) with
  | None => raise_error
  | Some cls =>
    let c := if per_level then (z cls + ls * z (nclasses_per_level (c_n S) (c_dim S)))%Z else z cls in
    Store Classes (z i) c (Store IsUsed c 1%Z Finish)
  end))))))).

(** translation_classes.py:343-347 *)
Definition nclasses : nat := nclasses_per_level (c_n S) (c_dim S) * (if per_level then c_nlevels S else 1).
(** translation_classes.py:404, rotation_classes.py:174: to_numpy, the whole array is transferred to the host *)
Fixpoint read_back {R} (a : carr) (l : list nat) (next : list Z -> chost R) : chost R :=
  match l with
  | [] => next []
  | k :: l' => Peek a (z k) (fun v => read_back a l' (fun vs => next (v :: vs)))
  end.
(** translation_classes.py:324-373 compute_translation_classes; [failed]: the ValueError; [next] gets
    translation_class_is_used (transferred by both callers) *)
Definition find_classes {R} (failed : chost R) (next : list bool -> chost R) : chost R :=
  Alloc Classes (z (c_entries S)) (Alloc IsUsed (z nclasses) (Alloc ErrorFlag 1
  (Launch (c_entries S) class_kernel
  (Peek ErrorFlag 0 (fun e => if (e =? 0)%Z then read_back IsUsed (seq 0 nclasses) (fun vs => next (map (fun v => negb (v =? 0)%Z) vs)) else failed))))).
(** translation_classes.py:422-424, rotation_classes.py:187-189: from_numpy(m)[translation_classes_lists]; [None] is -1 *)
Definition through_map {R} (m : nat -> option nat) (next : chost R) : chost R :=
  Alloc ClassMap (z nclasses) (Assign ClassMap 0 (map (fun k => match m k with Some c => z c | None => (-1)%Z end) (seq 0 nclasses))
  (Alloc DenseClasses (z (c_entries S))
  (Launch (c_entries S) (fun i => Load Classes (z i) (fun c => Load ClassMap c (fun v => Store DenseClasses (z i) v Finish))) next))).
End Program.

(** translation_classes.py:376-438; [None]: ValueError.  The result on the host: distances and level
    starts (copied to the device afterwards) *)
Definition translation_program (S : class_scalars) (per_level : bool) : chost (option ((nat -> option (nat -> Z)) * (nat -> option nat))) :=
  find_classes S per_level (Ret None) (fun used =>
  let st := fold_left (class_step (scalar_tree S) (c_n S)) (combine (seq 0 (length used)) used) (mkCS 0 None (fun _ => None) (fun _ => None) (fun _ => None)) in
  through_map S per_level (cs_map st) (Ret (Some (cs_dist st, set (cs_starts st) (c_nlevels S) (cs_count st))))).
(** rotation_classes.py:163-196; [None]: ValueError or failed assertion.  The result: the angles *)
Definition rotation_program (angle : Type) (angle_eqb : angle -> angle -> bool) (angle_of : Z -> Z -> angle) (S : class_scalars) : chost (option (list angle)) :=
  find_classes S false (Ret None) (fun used =>
  match compute_rotation_classes angle angle_eqb angle_of (c_n S) (c_dim S) (filter (fun k => nth k used false) (seq 0 (length used))) with
  | None => Ret None
  | Some (angles, m) =>
    if length angles <=? 2 ^ (c_dim S - 1) * (2 * c_n S + 1) ^ c_dim S then through_map S false m (Ret (Some angles)) else Ret None
  end).
