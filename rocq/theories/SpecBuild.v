(** Specification vocabulary for the particle tree builder: the inputs TreeBuilder accepts and
    what a user reads off the returned Tree. *)
From Coq Require Import List Arith ZArith Lia Bool Permutation.
From Verif Require Import Base Tree Fmm SpecFmm TreeBuild.
Import ListNotations.

(** ** Inputs
    What TreeBuilder.__call__ validates (tree_build.py:225-448) or computes itself, apart from
    geometry.  [v_guess] is the assertion of tree_build.py:544. *)
Record valid_input (inp : input) : Prop := {
  v_npart : 0 < npart inp;
  v_nsrc : nsrc inp <= npart inp;
  v_same : same inp = true -> nsrc inp = npart inp;
  v_ext : have_extent inp = true -> same inp = false;
  v_weight : forall u, u < npart inp -> (0 <= weight inp u <= max_weight inp)%Z;
  v_max : (0 < max_weight inp <= INT_MAX)%Z;
  v_guess : 0 < nboxes_guess inp
}.

(** The root box is a cube of positive size, in a unit of length in which its first 30
    halvings are integral, and every particle lies in the half-open root cell.  (The automatic
    bounding box is stretched on the upper side for this, tree_build.py:454-470.) *)
Record valid_geometry (inp : input) : Prop := {
  v_dim : 0 < idim inp;
  v_cube : forall a, a < idim inp -> (bbox_max inp a - bbox_min inp a = the_root_extent inp)%Z;
  v_pos : (0 < the_root_extent inp)%Z;
  v_unit : (2 ^ 30 | the_root_extent inp)%Z;
  v_inside : forall u a, u < npart inp -> a < idim inp -> (bbox_min inp a <= coord inp u a < bbox_max inp a)%Z
}.

(** User numbering: sources are 0..nsrc-1; targets follow unless they are the sources. *)
Definition first_target (inp : input) : nat := if same inp then 0 else nsrc inp.
Definition num_targets (inp : input) : nat := if same inp then npart inp else npart inp - nsrc inp.

(** ** Reading the tree *)
(** the half-open cube of a box *)
Definition in_cell (t : tree) (b : nat) (x : nat -> Z) : Prop :=
  forall a, a < dim t -> (box_center t b a - box_rad t b <= x a < box_center t b a + box_rad t b)%Z.
Definition leaf_box (t : tree) (b : nat) : Prop := forall m, m < nchildren t -> box_child t m b = 0.
(** two boxes share at least a corner *)
Definition boxes_touch (t : tree) (b c : nat) : Prop :=
  forall a, a < dim t -> (Z.abs (box_center t b a - box_center t c a) <= box_rad t b + box_rad t c)%Z.
(** [c] is [b] or below it *)
Inductive below (t : tree) (b : nat) : nat -> Prop :=
| below_self : below t b b
| below_child c m : below t b c -> m < nchildren t -> box_child t m c <> 0 -> below t b (box_child t m c).

(** index ranges of the built tree *)
Definition own_sources (B : built) (b k : nat) : Prop :=
  box_source_starts (b_particles B) b <= k < box_source_starts (b_particles B) b + box_source_counts_nonchild (b_particles B) b.
Definition own_targets (B : built) (b k : nat) : Prop :=
  box_target_starts (b_particles B) b <= k < box_target_starts (b_particles B) b + box_target_counts_nonchild (b_particles B) b.
Definition all_sources (B : built) (b k : nat) : Prop :=
  box_source_starts (b_particles B) b <= k < box_source_starts (b_particles B) b + b_source_cumul B b.
Definition all_targets (B : built) (b k : nat) : Prop :=
  box_target_starts (b_particles B) b <= k < box_target_starts (b_particles B) b + b_target_cumul B b.

(** refine weight of the selected particles in a box and its descendants; [sel] is over user
    numbers *)
Definition in_range (s c k : nat) : bool := (s <=? k) && (k <? s + c).
Definition box_weight_of (inp : input) (B : built) (sel : nat -> bool) (b : nat) : Z :=
  (zsum (map (weight inp) (filter sel (map (user_source_ids (b_particles B))
     (filter (in_range (box_source_starts (b_particles B) b) (b_source_cumul B b)) (seq 0 (nsrc inp))))))
   + if same inp then 0 else
     zsum (map (weight inp) (filter sel (map (fun j => nsrc inp + j)%nat
       (filter (fun j => in_range (box_target_starts (b_particles B) b) (b_target_cumul B b)
                                  (sorted_target_ids (b_particles B) j)) (seq 0 (npart inp - nsrc inp)))))))%Z.
(** ... of all of them *)
Definition box_weight (inp : input) (B : built) (b : nat) : Z := box_weight_of inp B (fun _ => true) b.

(** ** Extents ("linf" norm): the cube of half-width [rho] around [x] stays within the cube with
    center [c] and radius [r], enlarged by the stick-out factor *)
Definition fits_linf (e : extents) (d : nat) (c : nat -> Z) (r : Z) (x : nat -> Z) (rho : Z) : Prop :=
  forall a, a < d ->
    (sof_den e * c a - (sof_den e + sof_num e) * r <= sof_den e * (x a - rho) /\
     sof_den e * (x a + rho) < sof_den e * c a + (sof_den e + sof_num e) * r)%Z.
(** "l2" norm: sqrt(|x - c|^2) + rho < sqrt(d) * r * (1 + stick-out factor), squared twice *)
Definition fits_l2 (e : extents) (d : nat) (c : nat -> Z) (r : Z) (x : nat -> Z) (rho : Z) : Prop :=
  let dist2 := zsum (map (fun a => (sof_den e * (x a - c a)) * (sof_den e * (x a - c a)))%Z (seq 0 d)) in
  let rho' := (sof_den e * rho)%Z in
  let r' := ((sof_den e + sof_num e) * r)%Z in
  let K := (Z.of_nat d * r' * r' - dist2 - rho' * rho')%Z in
  (0 < K /\ 4 * rho' * rho' * dist2 < K * K)%Z.
Definition fits (e : extents) (d : nat) (c : nat -> Z) (r : Z) (x : nat -> Z) (rho : Z) : Prop :=
  match extent_norm e with Linf => fits_linf e d c r x rho | L2 => fits_l2 e d c r x rho end.
(** center of the octant [m] of a box, whether or not the tree has that child *)
Definition octant_center (t : tree) (b m a : nat) : Z :=
  (box_center t b a + morton_sign (dim t) m a * (box_rad t b / 2))%Z.

(** ** The combinations of arguments for which the builder keeps its promises
    (the complementary combinations are the subject of the [_refuted] theorems) *)
(** level restriction and particles with extents are not combined *)
Definition not_restricted_with_extents (inp : input) : Prop :=
  build_kind inp = LevelRestricted -> ext inp = None.
(** pruning, non-adaptive refinement and particles with extents are not combined *)
Definition levels_stay_populated (inp : input) : Prop :=
  skip_prune inp = true \/ build_kind inp <> NonAdaptive \/ ext inp = None.
