(** What it means that the device holds a finished tree, and the whole of a tree build. *)
From Coq Require Import List Arith ZArith NArith.
From Verif Require Import Tree Fmm TreeBuild Kernel Device BuildDevice BuildDeviceEnd.

Notation z := Z.of_nat.
(** array [a] has [n] elements, the k-th being [f k] *)
Definition holds (d : device parray) (a : parray) (n : nat) (f : nat -> Z) : Prop :=
  size d a = z n /\ forall k, k < n -> cells d a (z k) = f k.
(** array [a] has at least [n] elements, the k-th being [f k] *)
Definition holds_first (d : device parray) (a : parray) (n : nat) (f : nat -> Z) : Prop :=
  (z n <= size d a)%Z /\ forall k, k < n -> cells d a (z k) = f k.
(** array [a] has rows of 32 * ceil(n/32) elements (tree_build.py:1621), of which the first
    [n] are those of [f] *)
Definition holds_rows (d : device parray) (a : parray) (rows n : nat) (f : nat -> nat -> Z) : Prop :=
  let stride := (n + 31) / 32 * 32 in
  size d a = z (rows * stride) /\ forall r k, r < rows -> k < n -> cells d a (z (r * stride + k)) = f r k.

(** The arrays passed to the constructor of Tree (tree_build.py:1832-1875). *)
Record device_has_tree (inp : input) (B : built) (d : device parray) : Prop := {
  t_sources : forall a, a < idim inp -> holds d (Sources a) (nsources (b_particles B)) (fun k => b_sources B k a);
  t_targets : forall a, a < idim inp -> holds d (target_points inp a) (ntargets (b_particles B)) (fun k => b_targets B k a);
  t_source_radii : ext inp <> None -> holds d SourceRadii (nsources (b_particles B)) (b_source_radii B);
  t_target_radii : ext inp <> None -> holds d TargetRadii (ntargets (b_particles B)) (b_target_radii B);
  t_source_ids : holds d (source_ids inp) (nsources (b_particles B)) (fun k => z (user_source_ids (b_particles B) k));
  t_target_ids : holds d SortedTargets (ntargets (b_particles B)) (fun k => z (sorted_target_ids (b_particles B) k));
  t_source_starts : holds_first d (source_starts inp) (nboxes (b_tree B)) (fun b => z (box_source_starts (b_particles B) b));
  t_source_nonchild : holds d source_nonchild (nboxes (b_tree B)) (fun b => z (box_source_counts_nonchild (b_particles B) b));
  t_source_cumul : holds_first d (source_counts inp) (nboxes (b_tree B)) (fun b => z (b_source_cumul B b));
  t_target_starts : holds_first d (target_starts inp) (nboxes (b_tree B)) (fun b => z (box_target_starts (b_particles B) b));
  t_target_nonchild : holds d (target_nonchild inp) (nboxes (b_tree B)) (fun b => z (box_target_counts_nonchild (b_particles B) b));
  t_target_cumul : holds_first d (target_counts inp) (nboxes (b_tree B)) (fun b => z (b_target_cumul B b));
  t_parents : holds_first d (Kept Parents) (nboxes (b_tree B)) (fun b => z (box_parent (b_tree B) b));
  t_levels : holds_first d (Kept Levels) (nboxes (b_tree B)) (fun b => z (box_level (b_tree B) b));
  t_children : holds_rows d ChildTable (2 ^ idim inp) (nboxes (b_tree B)) (fun m b => z (box_child (b_tree B) m b));
  t_centers : holds_rows d CenterTable (idim inp) (nboxes (b_tree B)) (fun a b => box_center (b_tree B) b a);
  t_flags : holds d Flags (nboxes (b_tree B)) (fun b => Z.of_N (box_flags (b_tree B) b));
  t_source_min : holds_rows d SourceMin (idim inp) (nboxes (b_tree B)) (fun a b => b_source_bbox_min B b a);
  t_source_max : holds_rows d SourceMax (idim inp) (nboxes (b_tree B)) (fun a b => b_source_bbox_max B b a);
  t_target_min : holds_rows d (target_min inp) (idim inp) (nboxes (b_tree B)) (fun a b => b_target_bbox_min B b a);
  t_target_max : holds_rows d (target_max inp) (idim inp) (nboxes (b_tree B)) (fun a b => b_target_bbox_max B b a)
}.

(** A whole build on the device: what it leaves behind, or the error raised. *)
Inductive built_on (inp : input) (d : device array) : (nat * list nat * device parray) + error -> Prop :=
| built_tree h d1 n lstart d2 :
    completes array array_eq (level_loop_program inp) d (Left h) d1 ->
    completes parray parray_eq (finish_program inp h) (carry d1) (n, lstart) d2 ->
    built_on inp d (inl (n, lstart, d2))
| built_error e d1 :
    completes array array_eq (level_loop_program inp) d (Raised e) d1 -> built_on inp d (inr e).
(** Nothing is accessed out of bounds and every launch ends, in the loop and after it. *)
Definition safe_build (inp : input) (d : device array) : Prop :=
  safe array array_eq (level_loop_program inp) d /\
  forall h d1, completes array array_eq (level_loop_program inp) d (Left h) d1 ->
    safe parray parray_eq (finish_program inp h) (carry d1).
