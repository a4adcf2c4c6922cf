(** Model of the data layout of the pyfmmlib wrangler: expansions in one flat array, choice of
    the order of precomputed rotation matrices, output arrays
    (boxtree/pyfmmlib_integration.py). *)
From Coq Require Import List Arith ZArith Lia Bool.
From Verif Require Import Base.
Import ListNotations.

(** ** Expansions *)
Inductive kernel := LAPLACE | HELMHOLTZ.                          (* 125-128 *)

(** number of coefficients, product(expansion_shape(order)): 613-623, 459-468.  None: the
    ValueError *)
Definition expansion_size (dim : nat) (k : kernel) (order : nat) : option nat :=
  match dim, k with
  | 2, LAPLACE => Some (order + 1)
  | 2, HELMHOLTZ => Some (2 * order + 1)
  | 3, _ => Some ((2 * order + 1) * (order + 1))
  | _, _ => None
  end.

(** _expansions_level_starts: 442-454.  [sizes lev] is order_to_size(level_orders[lev]) *)
Definition expansions_level_starts (nlevels : nat) (level_start_box_nrs sizes : nat -> nat) : list nat :=
  fold_left (fun result lev =>
      let lev_nboxes := level_start_box_nrs (lev + 1) - level_start_box_nrs lev in
      result ++ [last result 0 + sizes lev * lev_nboxes])
    (seq 0 nlevels) [0].

(** An expansion array is a flat array of coefficients (of any type). *)
Section Views.
Context {C : Type}.
Variables (nlevels : nat) (level_start_box_nrs sizes : nat -> nat).
Notation els := (expansions_level_starts nlevels level_start_box_nrs sizes).

(** multipole_expansion_zeros, local_expansion_zeros: 625-642 *)
Definition expansion_zeros (zero : C) : list C := repeat zero (last els 0).

(** multipole_expansions_view, local_expansions_view: 474-492.  The view is the part
    expn_start:expn_stop of the array, reshaped; None if the reshape fails (numpy requires the
    sizes to agree).  The result is the first box of the level, and the position of the view. *)
Definition expansions_view (level : nat) : option (nat * nat) :=
  let box_start := level_start_box_nrs level in
  let box_stop := level_start_box_nrs (level + 1) in
  let expn_start := nth level els 0 in
  let expn_stop := nth (level + 1) els 0 in
  if expn_stop - expn_start =? (box_stop - box_start) * sizes level then Some (box_start, expn_start)
  else None.
(** where view[ibox - level_start_ibox] keeps coefficient c (row-major reshape; index tuples of
    one expansion are flattened to c) *)
Definition coefficient_index (level ibox c : nat) : option nat :=
  match expansions_view level with
  | Some (level_start_ibox, expn_start) => Some (expn_start + (ibox - level_start_ibox) * sizes level + c)
  | None => None
  end.

(** view[ibox - level_start_ibox] read as a vector, and assigned: 716, 763-764, 967-968 ... *)
Definition expansion_get (a : list C) (level ibox : nat) : option (list C) :=
  match expansions_view level with
  | Some (level_start_ibox, expn_start) =>
      Some (firstn (sizes level) (skipn (expn_start + (ibox - level_start_ibox) * sizes level) a))
  | None => None
  end.
Definition expansion_set (a : list C) (level ibox : nat) (v : list C) : option (list C) :=
  match expansions_view level with
  | Some (level_start_ibox, expn_start) =>
      let at_ := expn_start + (ibox - level_start_ibox) * sizes level in
      if length v =? sizes level then Some (firstn at_ a ++ v ++ skipn (at_ + sizes level) a)
      else None                                        (* shapes do not match *)
  | None => None
  end.
End Views.

(** ** m2l_rotation_matrices: 557-607; the order for which matrices are precomputed (-1: none).
    The matrices themselves are not modelled. *)
Definition mem_estimate (nangles order : nat) : nat := 8 * ((order + 1) * (order + 1)) * (2 * order + 1) * nangles.  (* 578-583 *)
(** sorted(l, reverse=True): insertion sort *)
Fixpoint insert_desc (x : nat) (l : list nat) : list nat :=
  match l with
  | [] => [x]
  | y :: l' => if y <=? x then x :: l else y :: insert_desc x l'
  end.
Definition sort_desc (l : list nat) : list nat := fold_right insert_desc [] l.
Definition rotation_matrix_order (supports_optimized_m2l : bool) (nangles cutoff : nat) (level_orders : list nat) : Z :=
  if negb supports_optimized_m2l then (-1)%Z
  else if nangles =? 0 then (-1)%Z
  else match find (fun order => mem_estimate nangles order <? cutoff) (sort_desc level_orders) with
       | Some order => Z.of_nat order
       | None => (-1)%Z
       end.
(** whether level lev uses the precomputed matrices: 849 *)
Definition uses_rotations (rotmat_order : Z) (level_order : nat) : bool := (Z.of_nat level_order <=? rotmat_order)%Z.

(** ** Output arrays: 644-664 *)
(** A numpy array, by its shape; a gradient output is a one-dimensional object array whose
    entries are arrays (obj_array.new_1d). *)
Inductive nparray := Numeric (shape : list nat) | Object1D (entries : list nparray).
Definition ndim (a : nparray) : nat := match a with Numeric s => length s | Object1D _ => 1 end.
(** a[i, j, ...] with k indices: IndexError (None) if there are more indices than dimensions *)
Definition index_ok (a : nparray) (k : nat) : bool := k <=? ndim a.

(** output_zeros: 644-657 *)
Definition output_zeros (ifgrad : bool) (dim ntargets : nat) : nparray :=
  if ifgrad then Object1D (repeat (Numeric [ntargets]) (1 + dim)) else Numeric [ntargets].
(** add_potgrad_onto_output: 659-664; false: IndexError.  output[0, slice] and output[1:, slice]
    use two indices. *)
Definition add_potgrad_onto_output (ifgrad : bool) (output : nparray) : bool :=
  if ifgrad then index_ok output 2 else index_ok output 1.
(** The loop of eval_direct over target boxes (788-819), as far as it can fail here:
    [counts] are the target counts of the boxes. *)
Definition eval_direct_runs (ifgrad : bool) (dim ntargets : nat) (counts : list nat) : bool :=
  let output := output_zeros ifgrad dim ntargets in
  forallb (fun cnt => if cnt =? 0 then true else add_potgrad_onto_output ifgrad output) counts.
(** reorder_potentials: 672-674, potentials[sorted_target_ids]; false: IndexError *)
Definition reorder_potentials_runs (potentials : nparray) (sorted_target_ids : list nat) : bool :=
  let n := match potentials with Numeric (n :: _) => n | Numeric [] => 0 | Object1D l => length l end in
  forallb (fun i => i <? n) sorted_target_ids.
