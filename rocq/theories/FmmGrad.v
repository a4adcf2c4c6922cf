(** Model of the part of boxtree/pyfmmlib_integration.py that FmmLib.v takes for granted: which
    routine of pyfmmlib is called, what its results mean, the errors it reports, and the output
    arrays, with and without gradients (ifgrad). *)
From Coq Require Import List Arith ZArith Lia Bool QArith Qcanon String Ascii DecimalString.
From Verif Require Import Base Tree Traversal Fmm FmmGen Layout FmmLib.
Import ListNotations.
Local Open Scope string_scope.
Local Open Scope list_scope.
Local Open Scope nat_scope.

(** The exceptions.  [LibraryOutOfBounds]: see FmmLib.v.  [OtherShape] stands for what happens if
    the output array has a shape that output_zeros does not give; no theorem depends on it. *)
Inductive py_error := IndexError | RuntimeError | ValueError | TypeError | KeyError | NotImplemented | LibraryOutOfBounds | OtherShape.

(** a loop whose body may raise an exception *)
Fixpoint fold_err {A B : Type} (f : B -> A -> py_error + B) (l : list A) (b : B) : py_error + B :=
  match l with
  | [] => inr b
  | x :: l' => match f b x with inl e => inl e | inr b' => fold_err f l' b' end
  end.

(** ** Names of routines *)
(** 143-148 *)
Definition eqn_letter (k : kernel) : string := match k with LAPLACE => "l" | HELMHOLTZ => "h" end.
(** name % dim, for a name in which every % belongs to a %d; only the first one is replaced *)
Fixpoint percent_d (name : string) (dim : nat) : string :=
  match name with
  | String "%" (String "d" rest) => NilZero.string_of_uint (Nat.to_uint dim) ++ rest
  | String c rest => String c (percent_d rest dim)
  | EmptyString => EmptyString
  end%string.
(** 154-156 *)
Definition get_routine (k : kernel) (dim : nat) (name suffix : string) : string :=
  (eqn_letter k ++ percent_d name dim ++ suffix)%string.
(** 158-159 *)
Definition get_vec_routine (k : kernel) (dim : nat) (name : string) : string := get_routine k dim name "_vec".
(** 161-167 *)
Definition translation_routine_name (k : kernel) (dim : nat) (name vec_suffix : string) : string :=
  let suffix := if dim =? 3 then "quadu" else "" in
  get_routine k dim name (suffix ++ vec_suffix)%string.
Definition dp_suffix (use_dipoles : bool) : string := if use_dipoles then "_dp" else "".
(** 193-229 *)
Definition direct_eval_routine_name (k : kernel) (dim : nat) (use_dipoles : bool) : py_error + string :=
  match dim with
  | 2 => inr (get_vec_routine k dim ("potgrad%ddall" ++ dp_suffix use_dipoles)%string)
  | 3 => inr (get_vec_routine k dim ("potfld%ddall" ++ dp_suffix use_dipoles)%string)
  | _ => inl ValueError
  end.
(** 231-267 *)
Definition expn_eval_routine_name (k : kernel) (dim : nat) (expn_kind : string) : py_error + string :=
  match dim with
  | 2 | 3 => inr (get_routine k dim ("%dd" ++ expn_kind ++ "eval")%string "_vec")
  | _ => inl ValueError
  end.
(** The stages of the FMM and the routines they ask for. *)
Inductive stage :=
| FormMultipoles | CoarsenMultipoles | MultipoleToLocal (rotations : bool) | FormLocals | RefineLocals
| EvalDirect | EvalMultipoles | EvalLocals.
(** 682-683, 727, 842-854, 988-989, 1066, 786, 944, 1114 *)
Definition stage_routine (k : kernel) (dim : nat) (use_dipoles : bool) (s : stage) : py_error + string :=
  match s with
  | FormMultipoles => inr (get_routine k dim ("%ddformmp" ++ dp_suffix use_dipoles)%string "")
  | CoarsenMultipoles => inr (translation_routine_name k dim "%ddmpmp" "_vec")
  | MultipoleToLocal rotations => inr (translation_routine_name k dim "%ddmploc" (if rotations then "2_trunc_imany" else "_imany"))
  | FormLocals => inr (get_routine k dim ("%ddformta" ++ dp_suffix use_dipoles)%string "_imany")
  | RefineLocals => inr (translation_routine_name k dim "%ddlocloc" "_vec")
  | EvalDirect => direct_eval_routine_name k dim use_dipoles
  | EvalMultipoles => expn_eval_routine_name k dim "mp"
  | EvalLocals => expn_eval_routine_name k dim "ta"
  end.

(** ** Translations *)
(** legewhts(nquad): only the number of nodes is kept *)
Inductive kwarg (X : Type) := Given (x : X) | Nterms (n : nat) | Xnodes (nquad : nat) | Wts (nquad : nat).
Arguments Given {_}. Arguments Nterms {_}. Arguments Xnodes {_}. Arguments Wts {_}.
(** a dict: the first entry with a key counts *)
Definition dict (X : Type) := list (string * kwarg X).
Definition dict_get {X} (d : dict X) (key : string) : option (kwarg X) :=
  option_map snd (find (fun kv => String.eqb (fst kv) key) d).
Definition dict_pop {X} (d : dict X) (key : string) : dict X := filter (fun kv => negb (String.eqb (fst kv) key)) d.
Definition dict_update {X} (d new : dict X) : dict X := new ++ d.
(** 404-425; int(2.5*order) is exact *)
Definition projection_quad_extra_kwargs {X} (k : kernel) (dim : nat) (level_orders : list nat) (level order : option nat)
  : py_error + dict X :=
  let extra order :=
    match dim, k with
    | 3, HELMHOLTZ => let nquad := Nat.max 6 (5 * order / 2) in [("xnodes", Xnodes nquad); ("wts", Wts nquad)]
    | _, _ => []
    end in
  match level, order with
  | None, None | Some _, Some _ => inl TypeError
  | Some level, None => match nth_error level_orders level with Some order => inr (extra order) | None => inl IndexError end
  | None, Some order => inr (extra order)
  end.
(** 169-191: [rout2], [rout3] are the routine in two and in three dimensions; ier has one entry for
    each translation *)
Definition translation_wrapper {X Y : Type} (k : kernel) (dim : nat) (level_orders : list nat)
    (rout2 : dict X -> Y) (rout3 : dict X -> Y * list Z) (kwargs : dict X) : py_error + Y :=
  if dim =? 2 then inr (rout2 (dict_pop kwargs "level_for_projection"))
  else
    let kwargs := dict_pop kwargs "level_for_projection" in
    match dict_get kwargs "nterms2" with
    | Some (Nterms nterms2) =>
      match projection_quad_extra_kwargs k dim level_orders None (Some nterms2) with
      | inl e => inl e
      | inr extra =>
        let '(val, ier) := rout3 (dict_update kwargs extra) in
        if existsb (fun i => negb (i =? 0)%Z) ier then inl RuntimeError else inr val
      end
    | Some _ => inl TypeError
    | None => inl KeyError
    end.

(** ** Evaluation *)
(** What the evaluating routines return, for one target: the potential, the derivatives (component
    number), the Hessian, the error code.  [b] and [h] are ifgrad (or iffld) and ifhess. *)
Record raw_library (pt str : Type) (M L V : cmonoid) := mkRaw {
  potgrad2 : forall b h : bool, list pt -> list str -> pt -> V * (nat -> V) * (nat -> V);
  potfld3 : forall b : bool, list pt -> list str -> pt -> V * (nat -> V);
  mpeval2 : forall b h : bool, frame pt -> M -> pt -> V * (nat -> V) * (nat -> V);
  mpeval3 : forall b : bool, frame pt -> M -> pt -> V * (nat -> V) * Z;
  taeval2 : forall b h : bool, frame pt -> L -> pt -> V * (nat -> V) * (nat -> V);
  taeval3 : forall b : bool, frame pt -> L -> pt -> V * (nat -> V) * Z }.
Arguments mkRaw {_ _ _ _ _}. Arguments potgrad2 {_ _ _ _ _}. Arguments potfld3 {_ _ _ _ _}. Arguments mpeval2 {_ _ _ _ _}.
Arguments mpeval3 {_ _ _ _ _}. Arguments taeval2 {_ _ _ _ _}. Arguments taeval3 {_ _ _ _ _}.

(** Results for the targets of a box: potentials and gradients, by target and by component and
    target.  The scalar 0 which the code uses for "no gradient" is the zero function. *)
Definition potgrad (V : Type) := ((nat -> V) * (nat -> nat -> V))%type.

(** An output array.  [Flat]: one number for each target.  [Objects]: a one-dimensional array whose
    entries are arrays.  [Rows]: a two-dimensional array with the given number of rows, as a
    subclass may provide. *)
Inductive output (V : Type) := Flat (a : nat -> V) | Objects (l : list (nat -> V)) | Rows (n : nat) (a : nat -> nat -> V).
Arguments Flat {_}. Arguments Objects {_}. Arguments Rows {_}.

Section Eval.
Context {pt str : Type} {M L V : cmonoid}.
Variable raw : raw_library pt str M L V.
Variable neg : V -> V.
Variable dim : nat.                                  (* tree_indep.dim *)
Variable ifgrad : bool.                              (* tree_indep.ifgrad *)
Variable targets : nat -> pt.

(** 198-206 and 236-244 *)
Definition wrapper2 (rout : pt -> V * (nat -> V) * (nat -> V)) : potgrad V :=
  let pot := fun i => fst (fst (rout (targets i))) in
  let grad := fun c i => snd (fst (rout (targets i))) c in
  let grad := if negb ifgrad then fun _ _ => e0 else grad in
  (pot, grad).
(** 217-222; the same in 252-260 *)
Definition wrapper3 (rout : pt -> V * (nat -> V)) : potgrad V :=
  let pot := fun i => fst (rout (targets i)) in
  let grad := if ifgrad then fun c i => neg (snd (rout (targets i)) c) else fun _ _ => e0 in
  (pot, grad).
(** 193-229 *)
Definition direct_ev (srcs : list pt) (strs : list str) : py_error + potgrad V :=
  match dim with
  | 2 => inr (wrapper2 (potgrad2 raw ifgrad false srcs strs))
  | 3 => inr (wrapper3 (potfld3 raw ifgrad srcs strs))
  | _ => inl ValueError
  end.
(** 231-267 for one of the two kinds; [tgts] are the targets of the box *)
Definition expn_ev {E : Type} (ev2 : forall b h : bool, frame pt -> E -> pt -> V * (nat -> V) * (nat -> V))
    (ev3 : forall b : bool, frame pt -> E -> pt -> V * (nat -> V) * Z) (tgts : list nat) (f : frame pt) (x : E) : py_error + potgrad V :=
  match dim with
  | 2 => inr (wrapper2 (ev2 ifgrad false f x))
  | 3 => let rout := ev3 ifgrad f x in
         if existsb (fun i => negb (snd (rout (targets i)) =? 0)%Z) tgts then inl RuntimeError
         else inr (wrapper3 (fun y => fst (rout y)))
  | _ => inl ValueError
  end.
(** whether the getter raises: 229, 267 *)
Definition no_routine : bool := negb ((dim =? 2) || (dim =? 3)).

(** 644-657: obj_array.new_1d makes a one-dimensional array of the given arrays *)
Definition output_zeros : output V :=
  if ifgrad then Objects (map (fun _ => fun _ => e0) (seq 0 (1 + dim))) else Flat (fun _ => e0).
(** 659-664: an array with one axis cannot be indexed with two indices.  For an array with two axes
    grad has as many components as there are rows below the first. *)
Definition add_potgrad_onto_output (out : output V) (start cnt : nat) (pg : potgrad V) : py_error + output V :=
  if ifgrad then
    match out with
    | Flat _ | Objects _ => inl IndexError
    | Rows n a => inr (Rows n (fun r => out_add (a r) start cnt (match r with 0 => fst pg | S c => snd pg c end)))
    end
  else
    match out with
    | Flat a => inr (Flat (out_add a start cnt (fst pg)))
    | Objects _ | Rows _ _ => inl OtherShape
    end.
(** tgt_pot + tmp_pot, tgt_grad + tmp_grad *)
Definition potgrad_add (a b : potgrad V) : potgrad V :=
  (fun i => op (fst a i) (fst b i), fun c i => op (snd a c i) (snd b c i)).
Definition potgrad_zero : potgrad V := (fun _ => e0, fun _ _ => e0).
End Eval.

Section Driver.
Variables (pt Wt D ang rmat : Type) (M L V : cmonoid).
Notation str := (strength Wt D).
Variable lib : library pt str ang rmat M L V.        (* used for everything but evaluation *)
Variable raw : raw_library pt str M L V.
Variable neg : V -> V.
Variable ifgrad : bool.
Variable wr : wrangler ang D.
Variable complex_dipole : Wt -> D -> Wt.
Variable times : factor -> V -> V.
Variable real_part : V -> V.
Variable t : tree.
Variable p : particles.
Variable starts : nat -> nat.
Variables box_centers sources targets : nat -> pt.
Notation orders l := (nth l (wr_level_orders wr) 0).
Notation dim := (wr_dim wr).
Notation tgt_count b := (box_target_counts_nonchild p b).
(** [zeros] is what output_zeros returns *)
Variable zeros : output V.

(** 777-821 *)
Definition eval_direct_pg (target_boxes : list nat) (neighbors : csr) (w : nat -> Wt) : py_error + output V :=
  if no_routine dim then inl ValueError else
  fold_err (fun out itgt =>
      let tgt_ibox := nth itgt target_boxes 0 in
      if tgt_count tgt_ibox =? 0 then inr out
      else match fold_err (fun pg src_ibox =>
                     if box_source_counts_nonchild p src_ibox =? 0 then inr pg
                     else match direct_ev raw neg dim ifgrad targets (map sources (source_slice p src_ibox))
                                  (map (source_strength wr complex_dipole w) (source_slice p src_ibox)) with
                          | inl e => inl e
                          | inr tmp => inr (potgrad_add pg tmp)
                          end)
                   (csr_get neighbors itgt) potgrad_zero with
           | inl e => inl e
           | inr pg => add_potgrad_onto_output ifgrad out (box_target_starts p tgt_ibox) (tgt_count tgt_ibox) pg
           end)
    (seq 0 (List.length target_boxes)) zeros.

(** 937-978 *)
Definition eval_multipoles_pg (by_level : list (list nat * csr)) (mpoles : storage M) : py_error + output V :=
  if no_routine dim then inl ValueError else
  fold_err (fun out lbc =>
      let isrc_level := fst lbc in let boxes := fst (snd lbc) in let ssn := snd (snd lbc) in
      let rscale := level_to_rscale wr isrc_level in
      fold_err (fun out itgt =>
          let tgt_ibox := nth itgt boxes 0 in
          if tgt_count tgt_ibox =? 0 then inr out
          else match fold_err (fun pg src_ibox =>
                         match expn_ev neg dim ifgrad targets (mpeval2 raw) (mpeval3 raw) (seq (box_target_starts p tgt_ibox) (tgt_count tgt_ibox))
                                 (mkFrame (box_centers src_ibox) rscale (orders isrc_level)) (view_get starts mpoles isrc_level src_ibox) with
                         | inl e => inl e
                         | inr tmp => inr (potgrad_add pg tmp)
                         end)
                       (csr_get ssn itgt) potgrad_zero with
               | inl e => inl e
               | inr pg => add_potgrad_onto_output ifgrad out (box_target_starts p tgt_ibox) (tgt_count tgt_ibox) pg
               end)
        (seq 0 (List.length boxes)) out)
    (combine (seq 0 (List.length by_level)) by_level) zeros.

(** 1108-1144 *)
Definition eval_locals_pg (level_starts target_boxes : list nat) (loc : storage L) : py_error + output V :=
  if no_routine dim then inl ValueError else
  fold_err (fun out lev =>
      let rscale := level_to_rscale wr lev in
      fold_err (fun out tgt_ibox =>
          if tgt_count tgt_ibox =? 0 then inr out
          else match expn_ev neg dim ifgrad targets (taeval2 raw) (taeval3 raw) (seq (box_target_starts p tgt_ibox) (tgt_count tgt_ibox))
                       (mkFrame (box_centers tgt_ibox) rscale (orders lev)) (view_get starts loc lev tgt_ibox) with
               | inl e => inl e
               | inr pg => add_potgrad_onto_output ifgrad out (box_target_starts p tgt_ibox) (tgt_count tgt_ibox) pg
               end)
        (slice target_boxes (nth lev level_starts 0) (nth (lev + 1) level_starts 0)) out)
    (seq 0 (nlevels t)) zeros.

(** potentials + result (fmm.py:441-520) *)
Definition output_plus (a b : output V) : py_error + output V :=
  match a, b with
  | Flat a, Flat b => inr (Flat (out_plus V a b))
  | Objects a, Objects b => if List.length a =? List.length b then inr (Objects (map (fun ab => out_plus V (fst ab) (snd ab)) (combine a b))) else inl ValueError
  | Rows n a, Rows m b => if n =? m then inr (Rows n (fun r => out_plus V (a r) (b r))) else inl ValueError
  | _, _ => inl OtherShape
  end.
Definition and_then {A B : Type} (a : py_error + A) (f : A -> py_error + B) : py_error + B :=
  match a with inl e => inl e | inr a => f a end.
Definition or_fail {A : Type} (a : option A) : py_error + A := match a with Some a => inr a | None => inl LibraryOutOfBounds end.
Definition add_result (pot : output V) (r : py_error + output V) : py_error + output V := and_then r (output_plus pot).

(** fmm.py:389-520, tree order; form_multipoles etc. as in FmmLib.v *)
Definition potentials_pg (tr : traversal) (w : nat -> Wt) : py_error + output V :=
  let mpoles := form_multipoles_lib lib wr complex_dipole t p starts box_centers sources (level_start_source_box_nrs tr) (source_boxes tr) w in
  let mpoles := coarsen_multipoles_lib lib wr t starts box_centers (level_start_source_parent_box_nrs tr) (source_parent_boxes tr) mpoles in
  and_then (eval_direct_pg (target_boxes tr) (neighbor_source_boxes tr) w) (fun pot =>
  and_then (or_fail (multipole_to_local_lib lib wr t starts box_centers (level_start_target_or_target_parent_box_nrs tr)
          (target_or_target_parent_boxes tr) (from_sep_siblings tr) mpoles)) (fun loc =>
  and_then (add_result pot (eval_multipoles_pg (from_sep_smaller_by_level tr) mpoles)) (fun pot =>
  and_then (match from_sep_close_smaller tr with
            | Some c => add_result pot (eval_direct_pg (target_boxes tr) c w) | None => inr pot end) (fun pot =>
  and_then (or_fail (form_locals_lib lib wr complex_dipole t p starts box_centers sources (level_start_target_or_target_parent_box_nrs tr)
            (target_or_target_parent_boxes tr) (from_sep_bigger tr) w)) (fun local_result =>
  let loc := storage_plus L loc local_result in
  and_then (match from_sep_close_bigger tr with
            | Some c => add_result pot (eval_direct_pg (target_boxes tr) c w) | None => inr pot end) (fun pot =>
  let loc := refine_locals_lib lib wr t starts box_centers (level_start_target_or_target_parent_box_nrs tr) (target_or_target_parent_boxes tr) loc in
  add_result pot (eval_locals_pg (level_start_target_box_nrs tr) (target_boxes tr) loc))))))).

(** 672-674: the index array is applied to the first axis *)
Definition reorder_potentials (out : output V) : py_error + output V :=
  match out with
  | Flat a => inr (Flat (fun j => a (sorted_target_ids p j)))
  | Objects l => match run_all (fun j => nth_error l (sorted_target_ids p j)) (seq 0 (ntargets p)) with
                 | Some l' => inr (Objects l') | None => inl IndexError end
  | Rows n a => if forallb (fun j => sorted_target_ids p j <? n) (seq 0 (ntargets p))
                then inr (Rows (ntargets p) (fun j => a (sorted_target_ids p j))) else inl IndexError
  end.
(** 1146-1162; .real of an array of objects is that array *)
Definition finalize_pg (out : output V) : py_error + output V :=
  match scale_factor wr with
  | None => inl NotImplemented
  | Some f =>
    let re := fun v => match wr_kernel wr, wr_dim wr with LAPLACE, 2 => real_part v | _, _ => v end in
    match out with
    | Flat a => inr (Flat (fun j => times f (re (a j))))
    | Objects l => inr (Objects (map (fun a j => times f (a j)) l))
    | Rows n a => inr (Rows n (fun r j => times f (re (a r j))))
    end
  end.
(** fmm.py:342-532: the result in the caller's order, for the caller's weights *)
Definition drive_fmm_pg (tr : traversal) (weights : nat -> Wt) : py_error + output V :=
  and_then (potentials_pg tr (fun k => weights (user_source_ids p k))) (fun pot =>
  and_then (reorder_potentials pot) finalize_pg).
End Driver.
Arguments eval_direct_pg {_ _ _ _ _ _ _}. Arguments eval_multipoles_pg {_ _ _ _ _ _ _}. Arguments eval_locals_pg {_ _ _ _ _ _ _}.
Arguments potentials_pg {_ _ _ _ _ _ _ _}. Arguments drive_fmm_pg {_ _ _ _ _ _ _ _}. Arguments reorder_potentials {_}.
Arguments finalize_pg {_ _ _}. Arguments output_plus {_}.
