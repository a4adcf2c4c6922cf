(** Specification of the evaluating routines: what pyfmmlib documents about their results, and the
    libraries that compute the potential and one component of its gradient. *)
From Coq Require Import List Arith ZArith Lia Bool String.
From Verif Require Import Base Tree Traversal Fmm FmmGen Layout FmmLib FmmGrad.
Import ListNotations.
Local Open Scope string_scope.
Local Open Scope list_scope.
Local Open Scope nat_scope.

(** The routines of pyfmmlib, by kernel, dimension, stage and kind of sources. *)
Definition documented_routine (k : kernel) (three_dimensional dipoles : bool) (s : stage) : string :=
  match s, three_dimensional, k with
  | FormMultipoles, false, LAPLACE => if dipoles then "l2dformmp_dp" else "l2dformmp"
  | FormMultipoles, false, HELMHOLTZ => if dipoles then "h2dformmp_dp" else "h2dformmp"
  | FormMultipoles, true, LAPLACE => if dipoles then "l3dformmp_dp" else "l3dformmp"
  | FormMultipoles, true, HELMHOLTZ => if dipoles then "h3dformmp_dp" else "h3dformmp"
  | CoarsenMultipoles, false, LAPLACE => "l2dmpmp_vec"
  | CoarsenMultipoles, false, HELMHOLTZ => "h2dmpmp_vec"
  | CoarsenMultipoles, true, LAPLACE => "l3dmpmpquadu_vec"
  | CoarsenMultipoles, true, HELMHOLTZ => "h3dmpmpquadu_vec"
  | MultipoleToLocal false, false, LAPLACE => "l2dmploc_imany"
  | MultipoleToLocal false, false, HELMHOLTZ => "h2dmploc_imany"
  | MultipoleToLocal false, true, LAPLACE => "l3dmplocquadu_imany"
  | MultipoleToLocal false, true, HELMHOLTZ => "h3dmplocquadu_imany"
  | MultipoleToLocal true, false, LAPLACE => "l2dmploc2_trunc_imany"
  | MultipoleToLocal true, false, HELMHOLTZ => "h2dmploc2_trunc_imany"
  | MultipoleToLocal true, true, LAPLACE => "l3dmplocquadu2_trunc_imany"
  | MultipoleToLocal true, true, HELMHOLTZ => "h3dmplocquadu2_trunc_imany"
  | FormLocals, false, LAPLACE => if dipoles then "l2dformta_dp_imany" else "l2dformta_imany"
  | FormLocals, false, HELMHOLTZ => if dipoles then "h2dformta_dp_imany" else "h2dformta_imany"
  | FormLocals, true, LAPLACE => if dipoles then "l3dformta_dp_imany" else "l3dformta_imany"
  | FormLocals, true, HELMHOLTZ => if dipoles then "h3dformta_dp_imany" else "h3dformta_imany"
  | RefineLocals, false, LAPLACE => "l2dlocloc_vec"
  | RefineLocals, false, HELMHOLTZ => "h2dlocloc_vec"
  | RefineLocals, true, LAPLACE => "l3dloclocquadu_vec"
  | RefineLocals, true, HELMHOLTZ => "h3dloclocquadu_vec"
  | EvalDirect, false, LAPLACE => if dipoles then "lpotgrad2dall_dp_vec" else "lpotgrad2dall_vec"
  | EvalDirect, false, HELMHOLTZ => if dipoles then "hpotgrad2dall_dp_vec" else "hpotgrad2dall_vec"
  | EvalDirect, true, LAPLACE => if dipoles then "lpotfld3dall_dp_vec" else "lpotfld3dall_vec"
  | EvalDirect, true, HELMHOLTZ => if dipoles then "hpotfld3dall_dp_vec" else "hpotfld3dall_vec"
  | EvalMultipoles, false, LAPLACE => "l2dmpeval_vec"
  | EvalMultipoles, false, HELMHOLTZ => "h2dmpeval_vec"
  | EvalMultipoles, true, LAPLACE => "l3dmpeval_vec"
  | EvalMultipoles, true, HELMHOLTZ => "h3dmpeval_vec"
  | EvalLocals, false, LAPLACE => "l2dtaeval_vec"
  | EvalLocals, false, HELMHOLTZ => "h2dtaeval_vec"
  | EvalLocals, true, LAPLACE => "l3dtaeval_vec"
  | EvalLocals, true, HELMHOLTZ => "h3dtaeval_vec"
  end.
(** The sources play a role in these stages only. *)
Definition sees_sources (s : stage) : bool := match s with FormMultipoles | FormLocals | EvalDirect => true | _ => false end.

(** The library in which evaluation gives component c of the gradient instead of the potential. *)
Definition derivative {pt str ang rmat : Type} {M L V : cmonoid} (lib : library pt str ang rmat M L V)
    (dpotall : nat -> list pt -> list str -> pt -> V) (dmpeval : nat -> frame pt -> M -> pt -> V) (dtaeval : nat -> frame pt -> L -> pt -> V)
    (c : nat) : library pt str ang rmat M L V :=
  {| formmp := formmp lib; mpmp := mpmp lib; mploc := mploc lib; mpeval := dmpeval c; formta := formta lib; locloc := locloc lib;
     taeval := dtaeval c; potall := dpotall c; rotmat_builder := rotmat_builder lib; negated := negated lib |}.

(** What the routines return if the potential is that of [lib] and the gradient is given by the
    three functions: in two dimensions potential and gradient, in three the potential and the field,
    which is minus the gradient.  The gradient is only promised if it was asked for. *)
Record returns_potential_and_gradient {pt str ang rmat : Type} {M L V : cmonoid} (dim : nat) (neg : V -> V)
    (raw : raw_library pt str M L V) (lib : library pt str ang rmat M L V)
    (dpotall : nat -> list pt -> list str -> pt -> V) (dmpeval : nat -> frame pt -> M -> pt -> V) (dtaeval : nat -> frame pt -> L -> pt -> V)
    : Prop := {
  rt_potgrad2 : dim = 2 -> forall b h xs ws y, fst (fst (potgrad2 raw b h xs ws y)) = potall lib xs ws y /\
    (b = true -> forall c, c < dim -> snd (fst (potgrad2 raw b h xs ws y)) c = dpotall c xs ws y);
  rt_potfld3 : dim = 3 -> forall b xs ws y, fst (potfld3 raw b xs ws y) = potall lib xs ws y /\
    (b = true -> forall c, c < dim -> snd (potfld3 raw b xs ws y) c = neg (dpotall c xs ws y));
  rt_mpeval2 : dim = 2 -> forall b h f m y, fst (fst (mpeval2 raw b h f m y)) = mpeval lib f m y /\
    (b = true -> forall c, c < dim -> snd (fst (mpeval2 raw b h f m y)) c = dmpeval c f m y);
  rt_mpeval3 : dim = 3 -> forall b f m y, fst (fst (mpeval3 raw b f m y)) = mpeval lib f m y /\
    (b = true -> forall c, c < dim -> snd (fst (mpeval3 raw b f m y)) c = neg (dmpeval c f m y));
  rt_taeval2 : dim = 2 -> forall b h f m y, fst (fst (taeval2 raw b h f m y)) = taeval lib f m y /\
    (b = true -> forall c, c < dim -> snd (fst (taeval2 raw b h f m y)) c = dtaeval c f m y);
  rt_taeval3 : dim = 3 -> forall b f m y, fst (fst (taeval3 raw b f m y)) = taeval lib f m y /\
    (b = true -> forall c, c < dim -> snd (fst (taeval3 raw b f m y)) c = neg (dtaeval c f m y))
}.
(** No routine reports an error. *)
Definition no_errors {pt str : Type} {M L V : cmonoid} (raw : raw_library pt str M L V) : Prop :=
  (forall b f m y, snd (mpeval3 raw b f m y) = 0%Z) /\ (forall b f l y, snd (taeval3 raw b f l y) = 0%Z).

(** Number of quadrature nodes for the projection to an expansion of the given order: 2.5 times the
    order, rounded down, but at least 6. *)
Definition quadrature_size (order n : nat) : Prop :=
  (order <= 2 /\ n = 6) \/ (2 < order /\ 2 * n <= 5 * order < 2 * n + 2).
