(** Specification of the use of pyfmmlib: what is assumed about its routines, which arguments
    belong to a box, and what it means that rotation data fit a traversal. *)
From Coq Require Import List Arith ZArith Lia Bool QArith Qcanon.
From Verif Require Import Base Tree Spec Traversal SpecTraversal SpecClasses Fmm FmmGen SpecFmmGen Layout FmmLib.
Import ListNotations.
Local Open Scope nat_scope.

(** The routines are additive: in the sources they are given and in the expansions. *)
Record linear_library {pt str ang rmat : Type} {M L V : cmonoid} (lib : library pt str ang rmat M L V) : Prop := {
  formmp_sum : forall f xs ws, length xs = length ws ->
    formmp lib f xs ws = msum (map (fun xw => formmp lib f [fst xw] [snd xw]) (combine xs ws));
  formta_sum : forall f xs ws, length xs = length ws ->
    formta lib f xs ws = msum (map (fun xw => formta lib f [fst xw] [snd xw]) (combine xs ws));
  potall_sum : forall xs ws y, length xs = length ws ->
    potall lib xs ws y = msum (map (fun xw => potall lib [fst xw] [snd xw] y) (combine xs ws));
  mpmp_0 : forall r f f', mpmp lib r f e0 f' = e0;
  mpmp_op : forall r f f' a b, mpmp lib r f (op a b) f' = op (mpmp lib r f a f') (mpmp lib r f b f');
  mploc_0 : forall o r f f', mploc lib o r f e0 f' = e0;
  mploc_op : forall o r f f' a b, mploc lib o r f (op a b) f' = op (mploc lib o r f a f') (mploc lib o r f b f');
  mpeval_0 : forall f y, mpeval lib f e0 y = e0;
  mpeval_op : forall f y a b, mpeval lib f (op a b) y = op (mpeval lib f a y) (mpeval lib f b y);
  locloc_0 : forall r f f', locloc lib r f e0 f' = e0;
  locloc_op : forall r f f' a b, locloc lib r f (op a b) f' = op (locloc lib r f a f') (locloc lib r f b f');
  taeval_0 : forall f y, taeval lib f e0 y = e0;
  taeval_op : forall f y a b, taeval lib f (op a b) y = op (taeval lib f a y) (taeval lib f b y)
}.

(** [lib] computes the potential of a kernel exactly.  [multipole f m s]: with the center, scaling
    and order in f, m is a multipole expansion of the potential of the sources s; likewise
    [local].  Whoever reads an expansion must pass the center, scaling and order with which it was
    made.  If rotation matrices are passed to mploc they have to be those of the angle of the
    translation, and large enough.  Scaling factors have to be positive. *)
Record exact_library {pt str ang rmat : Type} {M L V : cmonoid} (lib : library pt str ang rmat M L V)
    (angle : pt -> pt -> ang) (kern : pt -> pt -> str -> V) (multipole : frame pt -> M -> list (pt * str) -> Prop)
    (local : frame pt -> L -> list (pt * str) -> Prop) : Prop := {
  ex_formmp : forall f x w, (0 < fr_rscale f)%Qc -> multipole f (formmp lib f [x] [w]) [(x, w)];
  ex_mpmp : forall r f m s f', (0 < fr_rscale f)%Qc -> (0 < fr_rscale f')%Qc -> multipole f m s -> multipole f' (mpmp lib r f m f') s;
  ex_mploc : forall o r f m s f', (0 < fr_rscale f)%Qc -> (0 < fr_rscale f')%Qc -> multipole f m s ->
    (forall ro, o = Some ro ->
       let a := angle (fr_center f) (fr_center f') in
       rot_f ro = rotmat_builder lib (rot_ldm ro) a /\ rot_b ro = rotmat_builder lib (rot_ldm ro) (negated lib a) /\
       rot_nterms ro = fr_order f' /\ rot_nterms1 ro = fr_order f /\ fr_order f <= rot_ldm ro) ->
    local f' (mploc lib o r f m f') s;
  ex_mpeval : forall f m s y, (0 < fr_rscale f)%Qc -> multipole f m s -> mpeval lib f m y = msum (map (fun xw => kern y (fst xw) (snd xw)) s);
  ex_formta : forall f x w, (0 < fr_rscale f)%Qc -> local f (formta lib f [x] [w]) [(x, w)];
  ex_locloc : forall r f l s f', (0 < fr_rscale f)%Qc -> (0 < fr_rscale f')%Qc -> local f l s -> local f' (locloc lib r f l f') s;
  ex_taeval : forall f l s y, (0 < fr_rscale f)%Qc -> local f l s -> taeval lib f l y = msum (map (fun xw => kern y (fst xw) (snd xw)) s);
  ex_potall : forall x w y, potall lib [x] [w] y = kern y x w
}.

(** The rotation data name, for every entry of list 2, the angle of that translation. *)
Definition rotation_data_fits {ang : Type} (tr : traversal) (angle_between : nat -> nat -> ang) (rd : rotation_data ang) : Prop :=
  length (rotation_lists rd) = length (lists (from_sep_siblings tr)) /\
  forall k A B, list2_pair tr k A B ->
    exists r, nth k (rotation_lists rd) None = Some r /\ nth_error (rotation_angles rd) r = Some (angle_between B A).

Section Frames.
Context {pt Wt D ang rmat : Type} {M L V : cmonoid}.
Notation str := (strength Wt D).
Variable lib : library pt str ang rmat M L V.
Variable wr : wrangler ang D.
Variable t : tree.
Variables box_centers sources targets : nat -> pt.
Variable angle_between : nat -> nat -> ang.
Variable finish : V -> V.

Definition order_of (b : nat) : nat := nth (box_level t b) (wr_level_orders wr) 0.
(** center, scaling factor and order that belong to box b *)
Definition box_frame (b : nat) : frame pt := mkFrame (box_centers b) (level_to_rscale wr (box_level t b)) (order_of b).
(** matrices for the translation from box A to box B *)
Definition box_rotation (A B : nat) : option (rotation rmat) :=
  if (Z.of_nat (order_of B) <=? rotmat_order wr)%Z
  then let ldm := Z.to_nat (rotmat_order wr) in
       Some (mkRot ldm (order_of B) (order_of A) (rotmat_builder lib ldm (angle_between A B))
                   (rotmat_builder lib ldm (negated lib (angle_between A B))))
  else None.
(** The routines of a wrangler that passes, for every box, what belongs to that box.  (The levels,
    which are also passed in FmmGen.v, are not used.) *)
Definition box_routines : routines str M L V := {|
  p2m := fun _ b j w => formmp lib (box_frame b) [sources j] [w];
  m2m := fun _ c _ b m => mpmp lib (radius_arg wr (box_level t b)) (box_frame c) m (box_frame b);
  m2l := fun _ src tgt m => mploc lib (box_rotation src tgt) (radius_arg wr (box_level t tgt)) (box_frame src) m (box_frame tgt);
  m2p := fun _ b i m => mpeval lib (box_frame b) m (targets i);
  p2l := fun _ b j w => formta lib (box_frame b) [sources j] [w];
  l2l := fun _ src _ tgt l => locloc lib (radius_arg wr (box_level t tgt)) (box_frame src) l (box_frame tgt);
  l2p := fun _ b i l => taeval lib (box_frame b) l (targets i);
  p2p := fun i j w => potall lib [sources j] [w] (targets i);
  finalize := finish |}.
End Frames.

(** The strength of the caller's source u: its weight, or its weight and dipole direction. *)
Definition user_strength {Wt D} (k : kernel) (dim : nat) (complex_dipole : Wt -> D -> Wt) (weights : nat -> Wt)
    (dipoles : option (nat -> D)) (u : nat) : strength Wt D :=
  match dipoles with
  | None => Charge (weights u)
  | Some d => match k, dim with
              | LAPLACE, 2 => ComplexDipole (complex_dipole (weights u) (d u))
              | _, _ => Dipole (weights u) (d u)
              end
  end.

(** Scaling factors: the size of the box times the wave number, at most 1; inverted for the Laplace
    kernel in three dimensions. *)
Definition documented_rscale (k : kernel) (dim : nat) (box_size wave_number r : Qc) : Prop :=
  let s := (match k with LAPLACE => box_size | HELMHOLTZ => box_size * wave_number end)%Qc in
  exists m, (m = s \/ m = 1%Qc) /\ (m <= s)%Qc /\ (m <= 1)%Qc /\ (0 < m)%Qc /\
    match dim, k with
    | 3, LAPLACE => (r * m = 1)%Qc
    | _, _ => r = m
    end.

(** Arguments with which the wrangler can be made: one of fmm_level_to_order and order (none is
    needed without levels), a nonzero Helmholtz parameter exactly for the Helmholtz kernel, matching
    dimensions, and a dipole vector with one column for each source. *)
Definition acceptable {D} (k : kernel) (indep_dim t_dim t_nlevels t_nsources : nat) (helmholtz_k : option Qc)
    (fmm_level_to_order : option (nat -> nat)) (order : option nat) (dipole_vec : option (nat * nat * (nat -> D))) : Prop :=
  (order = None \/ fmm_level_to_order = None) /\ (order <> None \/ fmm_level_to_order <> None \/ t_nlevels = 0) /\
  match k with
  | LAPLACE => helmholtz_k = None \/ helmholtz_k = Some 0%Qc
  | HELMHOLTZ => exists a, helmholtz_k = Some a /\ a <> 0%Qc
  end /\
  indep_dim = t_dim /\ (forall rows cols d, dipole_vec = Some (rows, cols, d) -> rows = t_dim /\ cols = t_nsources).
(** [dipoles] are the dipole directions of the caller's sources and [given] is the argument that
    describes them, in the caller's order or in the order of the tree. *)
Definition describes_dipoles {D} (user_source_ids : nat -> nat) (already_reordered : bool)
    (given : option (nat * nat * (nat -> D))) (dipoles : option (nat -> D)) : Prop :=
  match given, dipoles with
  | None, None => True
  | Some (_, _, d), Some u => forall i, d i = u (if already_reordered then user_source_ids i else i)
  | _, _ => False
  end.
(** The factors of the fundamental solutions that pyfmmlib leaves out. *)
Definition with_factor {V : cmonoid} (times : factor -> V -> V) (real_part : V -> V) (k : kernel) (dim : nat) (v : V) : option V :=
  match dim, k with
  | 2, LAPLACE => Some (times MinusOneOver2Pi (real_part v))
  | 2, HELMHOLTZ => Some (times One v)
  | 3, _ => Some (times OneOver4Pi v)
  | _, _ => None
  end.
