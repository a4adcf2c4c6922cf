(** The entry of TreeBuilder.__call__: argument checks (boxtree/tree_build.py:222-448), bounding
    box reduction (boxtree/bounding_box.py:46-170), choice of the root box
    (boxtree/tree_build.py:452-508) and the first size guess (tree_build.py:537-544).

    Lengths are integers in an arbitrary unit; [one] is the length 1.0 in that unit.  Argument
    checks on dtypes and on unknown strings are not modelled: the types here exclude them. *)
From Coq Require Import List Arith ZArith Lia Bool.
From Verif Require Import Base Tree Fmm TreeBuild.
Import ListNotations.

(** ** Bounding box reduction *)
(** A parallel reduction combines the mapped elements in some bracketing, with any number of
    neutral elements (pyopencl ReductionKernel: per work group, then over the groups). *)
Inductive reduction := Neutral | Element (i : nat) | Combine (l r : reduction).
Section BBox.
(** DBL_MAX or FLT_MAX *)
Variable huge : Z.
Variable x : nat -> nat -> Z.   (* particle -> axis *)
Variable radii : nat -> Z.
(** bounding_box.py:64-73 bbox_neutral *)
Definition bbox_neutral : (nat -> Z) * (nat -> Z) := (fun _ => huge, fun _ => (- huge)%Z).
(** bounding_box.py:75-89 bbox_from_particle *)
Definition bbox_from_particle (i : nat) : (nat -> Z) * (nat -> Z) := (fun a => (x i a - radii i)%Z, fun a => (x i a + radii i)%Z).
(** bounding_box.py:91-98 agg_bbox *)
Definition agg_bbox (p q : (nat -> Z) * (nat -> Z)) : (nat -> Z) * (nat -> Z) :=
  (fun a => Z.min (fst p a) (fst q a), fun a => Z.max (snd p a) (snd q a)).
Fixpoint find_bbox (r : reduction) : (nat -> Z) * (nat -> Z) :=
  match r with
  | Neutral => bbox_neutral
  | Element i => bbox_from_particle i
  | Combine l r => agg_bbox (find_bbox l) (find_bbox r)
  end.
End BBox.

(** ** Arguments of TreeBuilder.__call__ (tree_build.py:145-161) *)
Record args := mkArgs {
  a_dim : nat;
  a_nsources : nat;                          (* len(particles[0]) *)
  a_particles : nat -> nat -> Z;
  a_targets : option (nat * (nat -> nat -> Z));
  a_source_radii : option (nat * (nat -> Z));   (* length, values *)
  a_target_radii : option (nat * (nat -> Z));
  a_stick_out : option (Z * Z);              (* numerator, denominator *)
  a_norm : option norm;
  a_max_particles : option Z;
  a_weights : option (nat -> Z);
  a_max_weight : option Z;
  a_bbox : option (nat -> Z * Z);            (* axis -> (min, max) *)
  a_kind : kind;
  a_skip_prune : bool;
  a_nboxes_guess : option nat;
  a_lookbehind : nat;
  a_nlevels_max : nat;
  a_huge : Z;                                (* largest float of the coordinate type *)
  a_one : Z                                  (* the length 1.0 *)
}.
Inductive front_error :=
  RadiiWithoutTargets | SourceRadiiShape | TargetRadiiShape | NoStickOut | TwoLimits | NoLimit
| LimitNotPositive | LimitOverflow | WeightTooLarge | NegativeWeight | NoParticles
| BBoxEmpty | BBoxTooSmall | BBoxNotSquare | NoBoxes.

Section Front.
Variable a : args.
(** bracketing chosen by the device *)
Variable r : reduction.

(** tree_build.py:258-264 *)
Definition shared : bool := match a_targets a with None => true | _ => false end.
Definition ntargets_arg : nat := match a_targets a with Some (n, _) => n | None => 0 end.
Definition nsrcntgts : nat := a_nsources a + ntargets_arg.
(** tree_build.py:338-377 combine_srcntgt_arrays; shared particles are used as they are *)
Definition srcntgts (u ax : nat) : Z :=
  match a_targets a with
  | Some (_, tg) => if u <? a_nsources a then a_particles a u ax else tg (u - a_nsources a) ax
  | None => a_particles a u ax
  end.
Definition have_radii : bool :=
  match a_source_radii a, a_target_radii a with None, None => false | _, _ => true end.
Definition srcntgt_radii (u : nat) : Z :=
  if u <? a_nsources a then match a_source_radii a with Some (_, f) => f u | None => 0%Z end
  else match a_target_radii a with Some (_, f) => f (u - a_nsources a) | None => 0%Z end.

Definition shape_ok (n : nat) (o : option (nat * (nat -> Z))) : bool := match o with Some (m, _) => m =? n | None => true end.

(** tree_build.py:402-422: weights and their limit *)
Definition limits : (nat -> Z) * Z + front_error :=
  match a_max_particles a, a_weights a, a_max_weight a with
  | Some _, Some _, Some _ => inr TwoLimits
  | Some m, _, _ => inl (fun _ => 1%Z, m)
  | None, Some w, Some m => inl (w, m)
  | None, _, _ => inr NoLimit
  end.

(** tree_build.py:454-457: radii take part only if given *)
Definition bbox_auto : (nat -> Z) * (nat -> Z) :=
  find_bbox (a_huge a) srcntgts (if have_radii then srcntgt_radii else fun _ => 0%Z) r.
(** tree_build.py:101 ROOT_EXTENT_STRETCH_FACTOR = 1e-4; 459-473 *)
Definition max_extent : Z :=
  fold_left Z.max (map (fun ax => (snd bbox_auto ax - fst bbox_auto ax)%Z) (seq 1 (a_dim a - 1))) (snd bbox_auto 0%nat - fst bbox_auto 0%nat)%Z.
Definition stretched_extent : Z := (max_extent * 10001 / 10000)%Z.
(** tree_build.py:474-506 *)
Definition root_box : (nat -> Z) * (nat -> Z) + front_error :=
  match a_bbox a with
  | None => inl (fst bbox_auto, fun ax => (fst bbox_auto ax + stretched_extent)%Z)
  | Some b =>
    let lo ax := fst (b ax) in let hi ax := snd (b ax) in let axes := seq 0 (a_dim a) in
    if negb (forallb (fun ax => lo ax <? hi ax)%Z axes) then inr BBoxEmpty
    else if negb (forallb (fun ax => (lo ax <=? fst bbox_auto ax) && (snd bbox_auto ax <=? hi ax))%Z axes) then inr BBoxTooSmall
    else if negb (forallb (fun ax => (10 ^ 15 * Z.abs ((hi ax - lo ax) - (hi 0%nat - lo 0%nat)) <? a_one a))%Z axes) then inr BBoxNotSquare
    else inl (lo, hi)
  end.

(** tree_build.py:537-544 *)
Definition first_guess (maxw total : Z) : nat :=
  match a_nboxes_guess a with
  | Some g => g
  | None => Z.to_nat (2 ^ Z.of_nat (a_dim a) * ((maxw + total - 1) / maxw))
  end.

(** The checks in the order of the code.  [LimitOverflow]: the limit is passed as an int32
    kernel argument (tree_build_kernels.py:155, 1521).  [NoParticles]: the maximum of an
    empty weight array (tree_build.py:428). *)
Definition front : input + front_error :=
  let n := nsrcntgts in
  if have_radii && shared then inr RadiiWithoutTargets
  else if negb (shape_ok (a_nsources a) (a_source_radii a)) then inr SourceRadiiShape
  else if negb (shape_ok ntargets_arg (a_target_radii a)) then inr TargetRadiiShape
  else if have_radii && match a_stick_out a with None => true | _ => false end then inr NoStickOut
  else match limits with
  | inr e => inr e
  | inl (w, maxw) =>
    if negb (0 <? maxw)%Z then inr LimitNotPositive
    else if n =? 0 then inr NoParticles
    else if negb (forallb (fun u => w u <=? maxw)%Z (seq 0 n)) then inr WeightTooLarge
    else if negb (forallb (fun u => 0 <=? w u)%Z (seq 0 n)) then inr NegativeWeight
    else match root_box with
    | inr e => inr e
    | inl (lo, hi) =>
      let guess := first_guess maxw (zsum (map w (seq 0 n))) in
      if negb (0 <? guess) then inr NoBoxes
      else if negb (maxw <=? INT_MAX)%Z then inr LimitOverflow
      else inl {| idim := a_dim a; npart := n; nsrc := a_nsources a; same := shared; coord := srcntgts;
             ext := if have_radii then
                      match a_stick_out a with
                      | Some (sn, sd) => Some (mkExtents srcntgt_radii sn sd (match a_norm a with Some nm => nm | None => Linf end))
                      | None => None
                      end
                    else None;
             weight := w; max_weight := maxw; bbox_min := lo; bbox_max := hi; build_kind := a_kind a;
             nlevels_max := a_nlevels_max a; skip_prune := a_skip_prune a; nboxes_guess := guess; lr_lookbehind := a_lookbehind a |}
    end
  end.
(** TreeBuilder.__call__ *)
Definition tree_builder : built + (front_error + error) :=
  match front with
  | inr e => inr (inl e)
  | inl inp => match build_tree inp with inl B => inl B | inr e => inr (inr e) end
  end.
End Front.
