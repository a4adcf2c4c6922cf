(** Model of boxtree/pyfmmlib_integration.py with the error codes of all routines of pyfmmlib
    (FmmGrad.v has those of the evaluating routines only). *)
From Coq Require Import List Arith ZArith NArith Lia Bool QArith Qcanon.
From Verif Require Import Base Tree Traversal Fmm FmmGen Layout FmmLib FmmGrad.
Import ListNotations.
Local Open Scope nat_scope.

(** The error codes returned together with the results.  Translations return one in three
    dimensions only.  The vectorized routines (mploc, formta) keep the largest code of each target
    box ("these get max'd": 900-903), starting from 0; their codes are not negative. *)
Record codes (pt str rmat : Type) (M L : cmonoid) := mkCodes {
  formmp_ier : frame pt -> list pt -> list str -> Z;
  mpmp_ier : option Qc -> frame pt -> M -> frame pt -> Z;
  mploc_ier : option (rotation rmat) -> option Qc -> frame pt -> M -> frame pt -> N;
  formta_ier : frame pt -> list pt -> list str -> N;
  locloc_ier : option Qc -> frame pt -> L -> frame pt -> Z }.
Arguments mkCodes {_ _ _ _ _}. Arguments formmp_ier {_ _ _ _ _}. Arguments mpmp_ier {_ _ _ _ _}. Arguments mploc_ier {_ _ _ _ _}.
Arguments formta_ier {_ _ _ _ _}. Arguments locloc_ier {_ _ _ _ _}.

Definition Nmax : cmonoid := mkMonoid N 0%N N.max N.max_assoc N.max_comm N.max_0_l.

Section Errors.
Variables (pt Wt D ang rmat : Type) (M L V : cmonoid).
Notation str := (strength Wt D).
Variable lib : library pt str ang rmat M L V.
Variable ier : codes pt str rmat M L.
Variable raw : raw_library pt str M L V.
Variable neg : V -> V.
Variable ifgrad : bool.
Variable wr : wrangler ang D.
Variable complex_dipole : Wt -> D -> Wt.
Variable times : factor -> V -> V.
Variable real_part : V -> V.
Variable t : tree.
Variable p : particles.
Variable starts : nat -> nat.
Variables box_centers sources targets : nat -> pt.
Notation orders l := (nth l (wr_level_orders wr) 0).
Notation dim := (wr_dim wr).
Notation level_to_rscale := (level_to_rscale wr).
Notation radius_arg := (radius_arg wr).
Notation rotmat_order := (rotmat_order wr).
Notation source_strength := (source_strength wr complex_dipole).

(** 706-714 *)
Definition checked {X : Type} (code : Z) (v : X) : py_error + X := if (code =? 0)%Z then inr v else inl RuntimeError.
(** 169-191: a translation (see translation_wrapper in FmmGrad.v) *)
Definition checked3 {X : Type} (code : Z) (v : X) : py_error + X := if dim =? 2 then inr v else checked code v.

(** 676-718 *)
Definition form_multipoles_err (level_starts source_boxes : list nat) (w : nat -> Wt) : py_error + storage M :=
  fold_err (fun mpoles lev =>
    let rscale := level_to_rscale lev in
    fold_err (fun mpoles src_ibox =>
        if box_source_counts_nonchild p src_ibox =? 0 then inr mpoles
        else
          let f := mkFrame (box_centers src_ibox) rscale (orders lev) in
          let xs := map sources (source_slice p src_ibox) in let ws := map (source_strength w) (source_slice p src_ibox) in
          and_then (checked (formmp_ier ier f xs ws) (formmp lib f xs ws)) (fun mpole => inr (view_set starts mpoles lev src_ibox mpole)))
      (slice source_boxes (nth lev level_starts 0) (nth (lev + 1) level_starts 0)) mpoles)
    (seq 0 (nlevels t)) no_expansions.

(** 720-775 *)
Definition coarsen_multipoles_err (level_starts source_parent_boxes : list nat) (mpoles : storage M) : py_error + storage M :=
  fold_err (fun mpoles source_level =>
      let target_level := source_level - 1 in
      let source_rscale := level_to_rscale source_level in
      let target_rscale := level_to_rscale target_level in
      fold_err (fun mpoles ibox =>
          fold_err (fun mpoles m =>
              let child := box_child t m ibox in
              if child =? 0 then inr mpoles
              else
                let f := mkFrame (box_centers child) source_rscale (orders source_level) in
                let x := view_get starts mpoles source_level child in
                let f' := mkFrame (box_centers ibox) target_rscale (orders target_level) in
                and_then (checked3 (mpmp_ier ier (radius_arg target_level) f x f') (mpmp lib (radius_arg target_level) f x f'))
                  (fun new_mp => inr (view_add starts mpoles target_level ibox new_mp)))
            (seq 0 (nchildren t)) mpoles)
        (slice source_parent_boxes (nth target_level level_starts 0) (nth (target_level + 1) level_starts 0)) mpoles)
    (rev (seq 3 (nlevels t - 3))) mpoles.

(** The routines that compute the codes of the vectorized calls: the arguments are those of the
    calls themselves. *)
Definition code_library : library pt str ang rmat M Nmax V :=
  @mkLib pt str ang rmat M Nmax V (formmp lib) (mpmp lib) (mploc_ier ier : _ -> _ -> _ -> _ -> _ -> Nmax) (mpeval lib) (formta_ier ier : _ -> _ -> _ -> Nmax)
    (fun _ _ _ _ => e0) (fun _ _ _ => e0) (potall lib) (rotmat_builder lib) (negated lib).
(** 183, 1051 *)
Definition any_error (ier : list N) : bool := existsb (fun i => negb (i =? 0)%N) ier.

(** 842-929: the array ier of one level, as m2l_level_lib (FmmLib.v) computes expn2 *)
Definition m2l_level_codes (level_starts ttpb : list nat) (c : csr) (mpoles : storage M) (lev : nat) : option (list N) :=
  let lstart := nth lev level_starts 0 in let lstop := nth (lev + 1) level_starts 0 in
  let lists := lists c in
  let starts_on_lvl := slice (Traversal.starts c) lstart (lstop + 1) in
  match (if uses_rotations rotmat_order (orders lev)
         then match wr_rotation_data wr with
              | Some rd =>
                if length (rotation_lists rd) =? length lists
                then Some (Some (Z.to_nat rotmat_order, orders lev, orders lev,
                     map (rotmat_builder lib (Z.to_nat rotmat_order)) (rotation_angles rd),
                     map (fun a => rotmat_builder lib (Z.to_nat rotmat_order) (negated lib a)) (rotation_angles rd),
                     map (fun r => match r with Some r => Z.of_nat r | None => (-1)%Z end) (rotation_lists rd),
                     starts_on_lvl))
                else None
              | None => None
              end
         else Some None) with
  | None => None
  | Some rot =>
    let ntgt_boxes := lstop - lstart in
    let nsrc_boxes_per_tgt_box := map (fun k => nth (lstart + k + 1) (Traversal.starts c) 0 - nth (lstart + k) (Traversal.starts c) 0) (seq 0 ntgt_boxes) in
    let nsrc_boxes := nsum nsrc_boxes_per_tgt_box in
    run_all (mploc_imany code_library rot (match radius_arg lev with Some r => Some (repeat r ntgt_boxes) | None => None end)
             (repeat (level_to_rscale lev) nsrc_boxes) (map Z.of_nat (seq 0 nsrc_boxes)) (prefix_from 0 nsrc_boxes_per_tgt_box)
             (read_array (nboxes t) box_centers) (map Z.of_nat lists) starts_on_lvl
             (read_array (starts (lev + 1) - starts lev) (mpoles lev)) (orders lev)
                (map (fun b => Z.of_nat b - Z.of_nat (starts lev))%Z lists) starts_on_lvl
             (repeat (level_to_rscale lev) ntgt_boxes) (map box_centers (slice ttpb lstart lstop)) (repeat (@e0 Nmax) ntgt_boxes) (orders lev)) (seq 0 ntgt_boxes)
  end.
(** 835-933: one level *)
Definition m2l_level_err (level_starts ttpb : list nat) (c : csr) (mpoles : storage M) (loc : storage L) (lev : nat) : py_error + storage L :=
  if nth lev level_starts 0 =? nth (lev + 1) level_starts 0 then inr loc else
  and_then (or_fail (m2l_level_codes level_starts ttpb c mpoles lev)) (fun ier =>
  and_then (or_fail (m2l_level_lib lib wr t starts box_centers level_starts ttpb c mpoles loc lev)) (fun loc' =>
  if negb (dim =? 2) && any_error ier then inl RuntimeError else inr loc')).
(** 823-935 *)
Definition multipole_to_local_err (level_starts ttpb : list nat) (c : csr) (mpoles : storage M) : py_error + storage L :=
  fold_err (m2l_level_err level_starts ttpb c mpoles) (seq 0 (nlevels t)) no_expansions.

(** 1009-1046: the array ier of one level, as form_locals_level_lib (FmmLib.v) computes expn *)
Definition form_locals_level_codes (level_starts ttpb : list nat) (c : csr) (w : nat -> Wt) (lev : nat) : option (list N) :=
  let lev_start := nth lev level_starts 0 in let lev_stop := nth (lev + 1) level_starts 0 in
  let lists := lists c in
  let sources_offsets := map (fun b => Z.of_nat (box_source_starts p b)) lists in
  let centers_offsets := slice ttpb lev_start lev_stop in
  let sources_starts := slice (Traversal.starts c) lev_start (1 + lev_stop) in
  run_all (formta_imany code_library (level_to_rscale lev) (nsources p) sources sources_offsets sources_starts
           (source_strength w) sources_offsets sources_starts
           (read_array (nboxes t) (box_source_counts_nonchild p)) (map Z.of_nat lists) sources_starts
           (read_array (nboxes t) box_centers) (map Z.of_nat centers_offsets) (orders lev)) (seq 0 (length centers_offsets)).
(** 1009-1056: one level; formta has an error code in two dimensions, too *)
Definition form_locals_level_err (level_starts ttpb : list nat) (c : csr) (w : nat -> Wt) (loc : storage L) (lev : nat) : py_error + storage L :=
  if nth lev level_starts 0 =? nth (lev + 1) level_starts 0 then inr loc else
  and_then (or_fail (form_locals_level_codes level_starts ttpb c w lev)) (fun ier =>
  and_then (or_fail (form_locals_level_lib lib wr complex_dipole t p starts box_centers sources level_starts ttpb c w loc lev)) (fun loc' =>
  if any_error ier then inl RuntimeError else inr loc')).
(** 980-1058 *)
Definition form_locals_err (level_starts ttpb : list nat) (c : csr) (w : nat -> Wt) : py_error + storage L :=
  fold_err (form_locals_level_err level_starts ttpb c w) (seq 0 (nlevels t)) no_expansions.

(** 1060-1106 *)
Definition refine_locals_err (level_starts ttpb : list nat) (loc : storage L) : py_error + storage L :=
  fold_err (fun loc target_lev =>
      let source_lev := target_lev - 1 in
      let source_rscale := level_to_rscale source_lev in
      let target_rscale := level_to_rscale target_lev in
      fold_err (fun loc tgt_ibox =>
          let src_ibox := box_parent t tgt_ibox in
          let f := mkFrame (box_centers src_ibox) source_rscale (orders source_lev) in
          let x := view_get starts loc source_lev src_ibox in
          let f' := mkFrame (box_centers tgt_ibox) target_rscale (orders target_lev) in
          and_then (checked3 (locloc_ier ier (radius_arg target_lev) f x f') (locloc lib (radius_arg target_lev) f x f'))
            (fun tmp_loc_exp => inr (view_add starts loc target_lev tgt_ibox tmp_loc_exp)))
        (slice ttpb (nth target_lev level_starts 0) (nth (target_lev + 1) level_starts 0)) loc)
    (seq 1 (nlevels t - 1)) loc.

Variable zeros : output V.
Notation eval_direct_pg := (eval_direct_pg raw neg ifgrad wr complex_dipole p sources targets zeros).
(** fmm.py:389-520, tree order *)
Definition potentials_err (tr : traversal) (w : nat -> Wt) : py_error + output V :=
  and_then (form_multipoles_err (level_start_source_box_nrs tr) (source_boxes tr) w) (fun mpoles =>
  and_then (coarsen_multipoles_err (level_start_source_parent_box_nrs tr) (source_parent_boxes tr) mpoles) (fun mpoles =>
  and_then (eval_direct_pg (target_boxes tr) (neighbor_source_boxes tr) w) (fun pot =>
  and_then (multipole_to_local_err (level_start_target_or_target_parent_box_nrs tr)
          (target_or_target_parent_boxes tr) (from_sep_siblings tr) mpoles) (fun loc =>
  and_then (add_result V pot (eval_multipoles_pg raw neg ifgrad wr p starts box_centers targets zeros (from_sep_smaller_by_level tr) mpoles)) (fun pot =>
  and_then (match from_sep_close_smaller tr with
            | Some c => add_result V pot (eval_direct_pg (target_boxes tr) c w) | None => inr pot end) (fun pot =>
  and_then (form_locals_err (level_start_target_or_target_parent_box_nrs tr)
            (target_or_target_parent_boxes tr) (from_sep_bigger tr) w) (fun local_result =>
  let loc := storage_plus L loc local_result in
  and_then (match from_sep_close_bigger tr with
            | Some c => add_result V pot (eval_direct_pg (target_boxes tr) c w) | None => inr pot end) (fun pot =>
  and_then (refine_locals_err (level_start_target_or_target_parent_box_nrs tr) (target_or_target_parent_boxes tr) loc) (fun loc =>
  add_result V pot (eval_locals_pg raw neg ifgrad wr t p starts box_centers targets zeros (level_start_target_box_nrs tr) (target_boxes tr) loc)))))))))).
(** fmm.py:342-532 *)
Definition drive_fmm_err (tr : traversal) (weights : nat -> Wt) : py_error + output V :=
  and_then (potentials_err tr (fun k => weights (user_source_ids p k))) (fun pot =>
  and_then (reorder_potentials p pot) (finalize_pg wr times real_part)).
End Errors.
Arguments code_library {_ _ _ _ _ _ _ _}. Arguments form_multipoles_err {_ _ _ _ _ _ _ _}. Arguments coarsen_multipoles_err {_ _ _ _ _ _ _ _}.
Arguments m2l_level_codes {_ _ _ _ _ _ _ _}. Arguments m2l_level_err {_ _ _ _ _ _ _ _}. Arguments multipole_to_local_err {_ _ _ _ _ _ _ _}.
Arguments form_locals_level_codes {_ _ _ _ _ _ _ _}. Arguments form_locals_level_err {_ _ _ _ _ _ _ _}. Arguments form_locals_err {_ _ _ _ _ _ _ _}.
Arguments refine_locals_err {_ _ _ _ _ _ _ _}. Arguments potentials_err {_ _ _ _ _ _ _ _}. Arguments drive_fmm_err {_ _ _ _ _ _ _ _}.
