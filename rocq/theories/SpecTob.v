(** Specification vocabulary for trees of boxes. *)
From Coq Require Import List Arith ZArith NArith Lia Bool Permutation.
From Verif Require Import Base Tree TreeOfBoxes.
Import ListNotations.

(** Following a path of child numbers downwards from box b. *)
Fixpoint follow (t : tob) (b : nat) (path : list nat) : option nat :=
  match path with
  | [] => Some b
  | m :: path' =>
    if (m <? 2 ^ tdim t) && negb (tchild t m b =? 0) then follow t (tchild t m b) path' else None
  end.
(** the box at a path from the root / whether the tree has a box there *)
Definition box_at (t : tob) (path : list nat) : option nat := follow t 0 path.
Definition has_box (t : tob) (path : list nat) : Prop := exists b, box_at t path = Some b.

Definition leaf (t : tob) (b : nat) : Prop := forall m, m < 2 ^ tdim t -> tchild t m b = 0.

(** half-open box (level l has width root_extent / 2^l) *)
Definition in_box (t : tob) (b : nat) (x : nat -> Z) : Prop :=
  forall a, a < tdim t ->
    (tcenter t b a - textent t / 2 ^ Z.of_nat (tlevel t b + 1) <= x a <
     tcenter t b a + textent t / 2 ^ Z.of_nat (tlevel t b + 1))%Z.

(** What a well-formed tree of boxes is. *)
Record wf_tob (t : tob) : Prop := {
  wt_nonempty : 0 < tn t;
  wt_root : tlevel t 0 = 0 /\ tparent t 0 = (-1)%Z;
  (* children *)
  wt_child : forall m b, b < tn t -> m < 2 ^ tdim t -> tchild t m b <> 0 ->
     tchild t m b < tn t /\
     tparent t (tchild t m b) = Z.of_nat b /\
     tlevel t (tchild t m b) = S (tlevel t b) /\
     forall a, a < tdim t -> tcenter t (tchild t m b) a =
        (tcenter t b a + morton_sign (tdim t) m a * (textent t / 2 ^ Z.of_nat (tlevel t (tchild t m b) + 1)))%Z;
  wt_full : forall b, b < tn t -> leaf t b \/ (forall m, m < 2 ^ tdim t -> tchild t m b <> 0);
  wt_inj : forall m m' b, b < tn t -> m < 2 ^ tdim t -> m' < 2 ^ tdim t ->
     tchild t m b <> 0 -> tchild t m b = tchild t m' b -> m = m';
  (* every other box is its parent's child *)
  wt_parent : forall b, 0 < b -> b < tn t ->
     exists p m, p < tn t /\ m < 2 ^ tdim t /\ tparent t b = Z.of_nat p /\ tchild t m p = b;
  (* sorted by level *)
  wt_sorted : forall b b', b <= b' -> b' < tn t -> tlevel t b <= tlevel t b';
  (* flags *)
  wt_flags : forall b, b < tn t ->
     flag (tflags t b) IS_SOURCE_BOX = true /\ flag (tflags t b) IS_TARGET_BOX = true /\
     (flag (tflags t b) IS_LEAF_BOX = true <-> leaf t b) /\
     (flag (tflags t b) HAS_SOURCE_CHILD_BOXES = true <-> ~ leaf t b) /\
     (flag (tflags t b) HAS_TARGET_CHILD_BOXES = true <-> ~ leaf t b)
}.

(** What np.argsort guarantees: a permutation of the indices that sorts the keys; nothing
    is assumed about ties. *)
Definition argsort_ok (n : nat) (key : nat -> nat) (order : list nat) : Prop :=
  Permutation order (seq 0 n) /\
  forall i j, i <= j -> j < n -> key (nth i order 0) <= key (nth j order 0).

(** Trees obtained from a root by any number of accepted refine/coarsen calls that never
    refine a box on level [L] or deeper; [sentinel] is the largest value of the level dtype. *)
Inductive reachable (sentinel L : nat) : tob -> Prop :=
| reach_root d lo hi t : 1 <= d -> make_root d lo hi = Some t -> reachable sentinel L t
| reach_step t t1 t' rf cf err order :
    reachable sentinel L t ->
    (forall b, b < tn t -> rf b = true -> tlevel t b < L) ->
    unsorted_result sentinel rf cf err t = Ok t1 -> argsort_ok (tn t1) (tlevel t1) order ->
    refine_and_coarsen sentinel order rf cf err t = Ok t' ->
    reachable sentinel L t'.

(** The unit of length is fine enough for boxes down to level [L]. *)
Definition fine_unit (L : nat) (t : tob) : Prop :=
  (0 < textent t)%Z /\ (2 ^ Z.of_nat (L + 1) | textent t)%Z.

(** The boxes, by path, which a request creates and removes. *)
Definition created (t : tob) (rf : nat -> bool) (path : list nat) : Prop :=
  exists q m b, path = q ++ [m] /\ m < 2 ^ tdim t /\ box_at t q = Some b /\ rf b = true.
Definition removed (t : tob) (rf cf : nat -> bool) (path : list nat) : Prop :=
  exists q m, path = q ++ [m] /\ m < 2 ^ tdim t /\
    (exists m' b, m' < 2 ^ tdim t /\ box_at t (q ++ [m']) = Some b /\ cf b = true) /\
    (forall m', m' < 2 ^ tdim t ->
       exists b, box_at t (q ++ [m']) = Some b /\ leaf t b /\ rf b = false).

(** Two trees are the same up to the numbering of boxes. *)
Definition same_boxes (t t' : tob) : Prop :=
  tdim t = tdim t' /\ textent t = textent t' /\ tn t = tn t' /\
  (forall path, has_box t path <-> has_box t' path) /\
  (forall path b b', box_at t path = Some b -> box_at t' path = Some b' ->
     tlevel t b = tlevel t' b' /\ (forall a, a < tdim t -> tcenter t b a = tcenter t' b' a) /\
     tflags t b = tflags t' b').

(** When a request is rejected. *)
Definition bad_request (t : tob) (rf cf : nat -> bool) : Prop :=
  exists b, b < tn t /\
    ((rf b = true /\ cf b = true) \/ (rf b = true /\ ~ leaf t b) \/
     (cf b = true /\ ~ leaf t b) \/ (cf b = true /\ b = 0)).
(** a flagged box has a sibling that is not a leaf or is being refined *)
Definition coarsening_ignored (t : tob) (rf cf : nat -> bool) : Prop :=
  exists p m m', p < tn t /\ m < 2 ^ tdim t /\ m' < 2 ^ tdim t /\
    tchild t m p <> 0 /\ cf (tchild t m p) = true /\
    (~ leaf t (tchild t m' p) \/ rf (tchild t m' p) = true).

(** The arrays handed to the traversal builder, with the root's parent id as given.
    boxtree/tree.py:262-264 (nlevels). *)
Definition tob_nlevels (t : tob) : nat := S (list_max (map (tlevel t) (seq 0 (tn t)))).
Definition tree_of_tob (t : tob) (root_parent : nat) : tree := {|
  dim := tdim t; nlevels := tob_nlevels t; nboxes := tn t; root_extent := textent t;
  box_center := tcenter t; box_level := tlevel t;
  box_parent := fun b => if b =? 0 then root_parent else Z.to_nat (tparent t b);
  box_child := tchild t; box_flags := tflags t |}.
