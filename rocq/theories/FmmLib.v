(** Model of boxtree/pyfmmlib_integration.py with the arguments that are really passed to
    pyfmmlib: centers, scaling factors, orders, radii, rotation matrices, slices of particles and
    the arrays of offsets and starts of the vectorized routines.  What pyfmmlib computes from
    them is a parameter.  Expansions are stored as in FmmGen.v; numbers are exact. *)
From Coq Require Import List Arith ZArith Lia Bool QArith Qcanon Qcabs.
From Verif Require Import Base Tree Traversal Fmm FmmGen Layout.
Import ListNotations.
Local Open Scope nat_scope.

(** ** The constructor *)
(** arguments of a pyfmmlib routine describing one expansion: center, rscale and nterms (for an
    expansion that is read, the number of terms is taken from the shape of the array) *)
Record frame (pt : Type) := mkFrame { fr_center : pt; fr_rscale : Qc; fr_order : nat }.
Arguments mkFrame {_}. Arguments fr_center {_}. Arguments fr_rscale {_}. Arguments fr_order {_}.

(** FMMLibRotationDataInterface: 59-116.  The classes are offsets into the array of angles (None: -1). *)
Record rotation_data (ang : Type) := mkRotData { rotation_lists : list (option nat); rotation_angles : list ang }.
Arguments mkRotData {_}. Arguments rotation_lists {_}. Arguments rotation_angles {_}.

Record wrangler (ang D : Type) := mkWrangler {
  wr_kernel : kernel; wr_dim : nat; wr_nlevels : nat; wr_root_extent : Qc; wr_rscale_factor : Qc;
  wr_level_orders : list nat; wr_rotation_data : option (rotation_data ang); wr_cutoff : nat;
  wr_dipole_vec : option (nat -> D) }.
Arguments mkWrangler {_ _}. Arguments wr_kernel {_ _}. Arguments wr_dim {_ _}. Arguments wr_nlevels {_ _}.
Arguments wr_root_extent {_ _}. Arguments wr_rscale_factor {_ _}. Arguments wr_level_orders {_ _}.
Arguments wr_rotation_data {_ _}. Arguments wr_cutoff {_ _}. Arguments wr_dipole_vec {_ _}.

Inductive ctor_error := BothOrders | KForLaplace | KMissing | DimMismatch | NoOrder | DipoleShape.

(** 283-385.  [helmholtz_k] is the absolute value of the argument; [fmm_level_to_order] is given the
    level; a dipole vector comes with its shape; [user_source_ids] is that of the tree.  The
    warnings are not modelled. *)
Definition make_wrangler {ang D} (k : kernel) (indep_dim : nat) (t_dim t_nlevels t_nsources : nat) (root_extent : Qc)
    (user_source_ids : nat -> nat) (helmholtz_k : option Qc) (fmm_level_to_order : option (nat -> nat)) (order : option nat)
    (dipole_vec : option (nat * nat * (nat -> D))) (dipoles_already_reordered : bool) (cutoff : nat)
    (rot : option (rotation_data ang)) : ctor_error + wrangler ang D :=
  let nonzero := match helmholtz_k with Some a => if Qc_eq_dec a 0 then false else true | None => false end in
  match order, fmm_level_to_order with
  | Some _, Some _ => inl BothOrders                                                      (* 301-303 *)
  | _, _ =>
  let fmm_level_to_order := match order with Some o => Some (fun _ => o) | None => fmm_level_to_order end in   (* 305-311 *)
  match (match k with
         | LAPLACE => if nonzero then inl KForLaplace else inr (1%Qc)                      (* 315-323 *)
         | HELMHOLTZ => if nonzero then inr (match helmholtz_k with Some a => Qcabs a | None => 0%Qc end)
                        else inl KMissing                                                 (* 325-332 *)
         end) with
  | inl e => inl e
  | inr rscale_factor =>
  if negb (indep_dim =? t_dim) then inl DimMismatch                                       (* 341-343 *)
  else match (match fmm_level_to_order with
              | Some f => Some (map f (seq 0 t_nlevels))
              | None => if t_nlevels =? 0 then Some [] else None                           (* calling None *)
              end) with                                                                   (* 345-347 *)
  | None => inl NoOrder
  | Some level_orders =>
  let mk := mkWrangler k t_dim t_nlevels root_extent rscale_factor level_orders rot cutoff in
  match dipole_vec with                                                                   (* 376-385 *)
  | None => inr (mk None)
  | Some (rows, cols, d) =>
      if (rows =? t_dim) && (cols =? t_nsources)
      then inr (mk (Some (if dipoles_already_reordered then d else fun i => d (user_source_ids i))))
      else inl DipoleShape
  end end end end.

(** ** pyfmmlib *)
(** rotation matrices for one translation: ldm, nterms, nterms1, rotmatf, rotmatb (856-866) *)
Record rotation (rmat : Type) := mkRot { rot_ldm : nat; rot_nterms : nat; rot_nterms1 : nat; rot_f : rmat; rot_b : rmat }.
Arguments mkRot {_}. Arguments rot_ldm {_}. Arguments rot_nterms {_}. Arguments rot_nterms1 {_}. Arguments rot_f {_}. Arguments rot_b {_}.

(** strength of one source: get_source_kwargs, 496-512 *)
Inductive strength (Wt D : Type) := Charge (w : Wt) | ComplexDipole (c : Wt) | Dipole (w : Wt) (d : D).
Arguments Charge {_ _}. Arguments ComplexDipole {_ _}. Arguments Dipole {_ _}.

(** The routines, for one kernel and dimension (zk is the same in all calls).  The optional number
    is the radius.  %ddformmp and %ddformta get sources and strengths. *)
Record library (pt str ang rmat : Type) (M L V : cmonoid) := mkLib {
  formmp : frame pt -> list pt -> list str -> M;
  mpmp : option Qc -> frame pt -> M -> frame pt -> M;
  mploc : option (rotation rmat) -> option Qc -> frame pt -> M -> frame pt -> L;
  mpeval : frame pt -> M -> pt -> V;
  formta : frame pt -> list pt -> list str -> L;
  locloc : option Qc -> frame pt -> L -> frame pt -> L;
  taeval : frame pt -> L -> pt -> V;
  potall : list pt -> list str -> pt -> V;
  rotmat_builder : nat -> ang -> rmat;
  negated : ang -> ang }.
Arguments formmp {_ _ _ _ _ _ _}. Arguments mpmp {_ _ _ _ _ _ _}. Arguments mploc {_ _ _ _ _ _ _}. Arguments mpeval {_ _ _ _ _ _ _}.
Arguments formta {_ _ _ _ _ _ _}. Arguments locloc {_ _ _ _ _ _ _}. Arguments taeval {_ _ _ _ _ _ _}. Arguments potall {_ _ _ _ _ _ _}.
Arguments rotmat_builder {_ _ _ _ _ _ _}. Arguments negated {_ _ _ _ _ _ _}.

(** An argument of a vectorized routine (suffix _imany) consists of an array, offsets into it and
    starts into the offsets: call number i gets array[offsets[k]] for starts[i] <= k < starts[i+1]
    and adds up the results.  Nothing is checked there: reading outside of one of the arrays is
    [None] here, and so are rows of different length for the arguments of one call. *)
Definition read_array {X} (n : nat) (a : nat -> X) (o : Z) : option X :=
  if (0 <=? o)%Z && (o <? Z.of_nat n)%Z then Some (a (Z.to_nat o)) else None.
Definition arg_row {X} (read : Z -> option X) (offsets : list Z) (starts : list nat) (i : nat) : option (list X) :=
  match nth_error starts i, nth_error starts (S i) with
  | Some a, Some b => if (a <=? b) && (b <=? length offsets) then run_all read (slice offsets a b) else None
  | _, _ => None
  end.
(** array[offset:offset+count]; nothing is read if count is 0 *)
Definition read_slice {X} (n : nat) (a : nat -> X) (oc : Z * nat) : option (list X) :=
  let '(o, c) := oc in
  if c =? 0 then Some []
  else if (0 <=? o)%Z && (o + Z.of_nat c <=? Z.of_nat n)%Z then Some (map a (seq (Z.to_nat o) c)) else None.

Section Lib.
Variables (pt Wt D ang rmat : Type) (M L V : cmonoid).
Notation str := (strength Wt D).
Variable lib : library pt str ang rmat M L V.
Variable wr : wrangler ang D.
(** -w * (d[0] + 1j*d[1]) *)
Variable complex_dipole : Wt -> D -> Wt.
(** multiplication by a factor of finalize_potentials, and the real part *)
Inductive factor := MinusOneOver2Pi | One | OneOver4Pi.
Variable times : factor -> V -> V.
Variable real_part : V -> V.
Variable t : tree.
Variable p : particles.
Variable starts : nat -> nat.                        (* tree.level_start_box_nrs *)
Variables box_centers sources targets : nat -> pt.   (* columns of tree.box_centers, sources, targets *)
Notation orders l := (nth l (wr_level_orders wr) 0).

(** 393-402 *)
Definition level_to_rscale (level : nat) : Qc :=
  let result := (wr_root_extent wr * / Qcpower (Q2Qc 2) level * wr_rscale_factor wr)%Qc in
  let result := if Qclt_le_dec 1 (Qcabs result) then 1%Qc else result in
  match wr_dim wr, wr_kernel wr with
  | 3, LAPLACE => (1 / result)%Qc
  | _, _ => result
  end.

(** 496-512; [w] is src_weights *)
Definition source_strength (w : nat -> Wt) (i : nat) : str :=
  match wr_dipole_vec wr with
  | None => Charge (w i)
  | Some d => match wr_kernel wr, wr_dim wr with
              | LAPLACE, 2 => ComplexDipole (complex_dipole (w i) (d i))
              | _, _ => Dipole (w i) (d i)
              end
  end.
(** the "radius" of translations: 755-756, 893-896, 1087-1088 *)
Definition radius_arg (level : nat) : option Qc :=
  match wr_dim wr, wr_kernel wr with
  | 3, HELMHOLTZ => Some (wr_root_extent wr * / Qcpower (Q2Qc 2) level)%Qc
  | _, _ => None
  end.
(** 557-607: order of the rotation matrices *)
Definition rotmat_order : Z :=
  match wr_rotation_data wr with
  | Some rd => rotation_matrix_order (wr_dim wr =? 3) (length (rotation_angles rd)) (wr_cutoff wr) (wr_level_orders wr)
  | None => (-1)%Z
  end.

(** 676-718 *)
Definition form_multipoles_lib (level_starts source_boxes : list nat) (w : nat -> Wt) : storage M :=
  fold_left (fun mpoles lev =>
    let rscale := level_to_rscale lev in
    fold_left (fun mpoles src_ibox =>
        if box_source_counts_nonchild p src_ibox =? 0 then mpoles
        else view_set starts mpoles lev src_ibox
               (formmp lib (mkFrame (box_centers src_ibox) rscale (orders lev))
                  (map sources (source_slice p src_ibox)) (map (source_strength w) (source_slice p src_ibox))))
      (slice source_boxes (nth lev level_starts 0) (nth (lev + 1) level_starts 0)) mpoles)
    (seq 0 (nlevels t)) no_expansions.

(** 720-775 *)
Definition coarsen_multipoles_lib (level_starts source_parent_boxes : list nat) (mpoles : storage M) : storage M :=
  fold_left (fun mpoles source_level =>
      let target_level := source_level - 1 in
      let source_rscale := level_to_rscale source_level in
      let target_rscale := level_to_rscale target_level in
      fold_left (fun mpoles ibox =>
          let parent_center := box_centers ibox in
          fold_left (fun mpoles m =>
              let child := box_child t m ibox in
              if child =? 0 then mpoles
              else
                let child_center := box_centers child in
                view_add starts mpoles target_level ibox
                  (mpmp lib (radius_arg target_level)
                     (mkFrame child_center source_rscale (orders source_level)) (view_get starts mpoles source_level child)
                     (mkFrame parent_center target_rscale (orders target_level))))
            (seq 0 (nchildren t)) mpoles)
        (slice source_parent_boxes (nth target_level level_starts 0) (nth (target_level + 1) level_starts 0)) mpoles)
    (rev (seq 3 (nlevels t - 3))) mpoles.

(** 777-821 *)
Definition eval_direct_lib (target_boxes : list nat) (neighbors : csr) (w : nat -> Wt) : nat -> V :=
  fold_left (fun out itgt =>
      let tgt_ibox := nth itgt target_boxes 0 in
      out_add out (box_target_starts p tgt_ibox) (box_target_counts_nonchild p tgt_ibox)
        (fun i => fold_left (fun pot src_ibox =>
                     if box_source_counts_nonchild p src_ibox =? 0 then pot
                     else op pot (potall lib (map sources (source_slice p src_ibox))
                                    (map (source_strength w) (source_slice p src_ibox)) (targets i)))
                   (csr_get neighbors itgt) e0))
    (seq 0 (length target_boxes)) (fun _ => e0).

(** *** The vectorized multipole-to-local routine *)
(** %ddmploc..._imany for call number i.  The arguments with three components are array, offsets
    and starts; expn2 is added onto. *)
Definition mploc_imany (rot : option (nat * nat * nat * list rmat * list rmat * list Z * list nat))
    (radius : option (list Qc))
    (rscale1 : list Qc) (rscale1_offsets : list Z) (rscale1_starts : list nat)
    (center1 : Z -> option pt) (center1_offsets : list Z) (center1_starts : list nat)
    (expn1 : Z -> option M) (expn1_order : nat) (expn1_offsets : list Z) (expn1_starts : list nat)
    (rscale2 : list Qc) (center2 : list pt) (expn2 : list L) (nterms2 : nat) (i : nat) : option L :=
  match arg_row (read_array (length rscale1) (fun k => nth k rscale1 0%Qc)) rscale1_offsets rscale1_starts i,
        arg_row center1 center1_offsets center1_starts i,
        arg_row expn1 expn1_offsets expn1_starts i,
        nth_error rscale2 i, nth_error center2 i, nth_error expn2 i with
  | Some rs, Some cs, Some xs, Some r2, Some c2, Some x2 =>
    match (match rot with
           | None => Some (map (fun _ => None) rs)
           | Some (ldm, nterms, nterms1, rotmatf, rotmatb, rot_offsets, rot_starts) =>
             match arg_row (fun o => read_array (length rotmatf) (fun k => nth_error rotmatf k) o) rot_offsets rot_starts i,
                   arg_row (fun o => read_array (length rotmatb) (fun k => nth_error rotmatb k) o) rot_offsets rot_starts i with
             | Some fs, Some bs => Some (map (fun fb => match fb with
                                                        | (Some f, Some b) => Some (mkRot ldm nterms nterms1 f b)
                                                        | _ => None end) (combine fs bs))
             | _, _ => None
             end
           end),
          (match radius with Some l => option_map Some (nth_error l i) | None => Some None end) with
    | Some rots, Some rad =>
      if (length cs =? length rs) && (length xs =? length rs) && (length rots =? length rs)
      then Some (op x2 (msum (map (fun q => let '(((r, c), x), o) := q in
                   mploc lib o rad (mkFrame c r expn1_order) x (mkFrame c2 r2 nterms2))
                 (combine (combine (combine rs cs) xs) rots))))
      else None
    | _, _ => None
    end
  | _, _, _, _, _, _ => None
  end.

(** 835-933: one level.  [None]: a failed assertion or an access out of bounds. *)
Definition m2l_level_lib (level_starts ttpb : list nat) (c : csr) (mpoles : storage M) (loc : storage L) (lev : nat)
  : option (storage L) :=
  let lstart := nth lev level_starts 0 in let lstop := nth (lev + 1) level_starts 0 in
  if lstart =? lstop then Some loc else
  let lists := lists c in
  let starts_on_lvl := slice (Traversal.starts c) lstart (lstop + 1) in
  let use_rot := uses_rotations rotmat_order (orders lev) in
  match (if use_rot
         then match wr_rotation_data wr with
              | Some rd =>
                if length (rotation_lists rd) =? length lists                              (* 851 *)
                then Some (Some (Z.to_nat rotmat_order, orders lev, orders lev,
                     map (rotmat_builder lib (Z.to_nat rotmat_order)) (rotation_angles rd),
                     map (fun a => rotmat_builder lib (Z.to_nat rotmat_order) (negated lib a)) (rotation_angles rd),
                     map (fun r => match r with Some r => Z.of_nat r | None => (-1)%Z end) (rotation_lists rd),
                     starts_on_lvl))
                else None
              | None => None
              end
         else Some None) with
  | None => None
  | Some rot =>
    let lev_nboxes := starts (lev + 1) - starts lev in
    let source_level_start_ibox := starts lev in
    let ntgt_boxes := lstop - lstart in
    let tgt_ibox_vec := slice ttpb lstart lstop in
    let nsrc_boxes_per_tgt_box := map (fun k => nth (lstart + k + 1) (Traversal.starts c) 0 - nth (lstart + k) (Traversal.starts c) 0) (seq 0 ntgt_boxes) in
    let nsrc_boxes := nsum nsrc_boxes_per_tgt_box in
    let src_boxes_starts := prefix_from 0 nsrc_boxes_per_tgt_box in
    let rscale := level_to_rscale lev in
    let rscale1 := repeat rscale nsrc_boxes in
    let rscale1_offsets := map Z.of_nat (seq 0 nsrc_boxes) in
    let radius := match radius_arg lev with Some r => Some (repeat r ntgt_boxes) | None => None end in
    let rscale2 := repeat rscale ntgt_boxes in
    let expn2 := repeat (@e0 L) ntgt_boxes in
    match run_all (mploc_imany rot radius
             rscale1 rscale1_offsets src_boxes_starts
             (read_array (nboxes t) box_centers) (map Z.of_nat lists) starts_on_lvl
             (read_array lev_nboxes (mpoles lev)) (orders lev)
                (map (fun b => Z.of_nat b - Z.of_nat source_level_start_ibox)%Z lists) starts_on_lvl
             rscale2 (map box_centers tgt_ibox_vec) expn2 (orders lev)) (seq 0 ntgt_boxes) with
    | Some expn2 => Some (fold_left (fun loc bx => view_add starts loc lev (fst bx) (snd bx)) (combine tgt_ibox_vec expn2) loc)
    | None => None
    end
  end.
Fixpoint fold_opt {A B} (f : B -> A -> option B) (l : list A) (b : B) : option B :=
  match l with [] => Some b | x :: l' => match f b x with Some b' => fold_opt f l' b' | None => None end end.
(** 823-935 *)
Definition multipole_to_local_lib (level_starts ttpb : list nat) (c : csr) (mpoles : storage M) : option (storage L) :=
  fold_opt (m2l_level_lib level_starts ttpb c mpoles) (seq 0 (nlevels t)) no_expansions.

(** 937-978 *)
Definition eval_multipoles_lib (by_level : list (list nat * csr)) (mpoles : storage M) : nat -> V :=
  fold_left (fun out lbc =>
      let isrc_level := fst lbc in let boxes := fst (snd lbc) in let ssn := snd (snd lbc) in
      let rscale := level_to_rscale isrc_level in
      fold_left (fun out itgt =>
          let tgt_ibox := nth itgt boxes 0 in
          out_add out (box_target_starts p tgt_ibox) (box_target_counts_nonchild p tgt_ibox)
            (fun i => fold_left (fun pot src_ibox =>
                         op pot (mpeval lib (mkFrame (box_centers src_ibox) rscale (orders isrc_level))
                                   (view_get starts mpoles isrc_level src_ibox) (targets i)))
                       (csr_get ssn itgt) e0))
        (seq 0 (length boxes)) out)
    (combine (seq 0 (length by_level)) by_level) (fun _ => e0).

(** *** The vectorized formation of local expansions *)
(** %ddformta..._imany for call number i.  The strengths (one array, or two for dipoles, with the
    same offsets and starts: 1028-1036) are one array of strengths here. *)
Definition formta_imany (rscale : Qc) (nsources_total : nat)
    (srcs : nat -> pt) (sources_offsets : list Z) (sources_starts : list nat)
    (strengths : nat -> str) (strengths_offsets : list Z) (strengths_starts : list nat)
    (nsources : Z -> option nat) (nsources_offsets : list Z) (nsources_starts : list nat)
    (centers : Z -> option pt) (centers_offsets : list Z) (nterms : nat) (i : nat) : option L :=
  match arg_row (fun o => Some o) sources_offsets sources_starts i,
        arg_row (fun o => Some o) strengths_offsets strengths_starts i,
        arg_row nsources nsources_offsets nsources_starts i,
        match nth_error centers_offsets i with Some o => centers o | None => None end with
  | Some ss, Some qs, Some ns, Some c =>
    if (length qs =? length ss) && (length ns =? length ss) then
      match run_all (read_slice nsources_total srcs) (combine ss ns),
            run_all (read_slice nsources_total strengths) (combine qs ns) with
      | Some xs, Some ws => Some (msum (map (fun xw => formta lib (mkFrame c rscale nterms) (fst xw) (snd xw)) (combine xs ws)))
      | _, _ => None
      end
    else None
  | _, _, _, _ => None
  end.
(** 1009-1056: one level *)
Definition form_locals_level_lib (level_starts ttpb : list nat) (c : csr) (w : nat -> Wt) (loc : storage L) (lev : nat)
  : option (storage L) :=
  let lev_start := nth lev level_starts 0 in let lev_stop := nth (lev + 1) level_starts 0 in
  if lev_start =? lev_stop then Some loc else
  let lists := lists c in
  let sources_offsets := map (fun b => Z.of_nat (box_source_starts p b)) lists in
  let nsources_offsets := map Z.of_nat lists in
  let centers_offsets := slice ttpb lev_start lev_stop in
  let rscale := level_to_rscale lev in
  let sources_starts := slice (Traversal.starts c) lev_start (1 + lev_stop) in
  match run_all (formta_imany rscale (nsources p) sources sources_offsets sources_starts
           (source_strength w) sources_offsets sources_starts
           (read_array (nboxes t) (box_source_counts_nonchild p)) nsources_offsets sources_starts
           (read_array (nboxes t) box_centers) (map Z.of_nat centers_offsets) (orders lev)) (seq 0 (length centers_offsets)) with
  | Some expn => Some (fold_left (fun loc bx => view_set starts loc lev (fst bx) (snd bx)) (combine centers_offsets expn) loc)
  | None => None
  end.
(** 980-1058 *)
Definition form_locals_lib (level_starts ttpb : list nat) (c : csr) (w : nat -> Wt) : option (storage L) :=
  fold_opt (form_locals_level_lib level_starts ttpb c w) (seq 0 (nlevels t)) no_expansions.

(** 1060-1106 *)
Definition refine_locals_lib (level_starts ttpb : list nat) (loc : storage L) : storage L :=
  fold_left (fun loc target_lev =>
      let source_lev := target_lev - 1 in
      let source_rscale := level_to_rscale source_lev in
      let target_rscale := level_to_rscale target_lev in
      fold_left (fun loc tgt_ibox =>
          let tgt_center := box_centers tgt_ibox in
          let src_ibox := box_parent t tgt_ibox in
          let src_center := box_centers src_ibox in
          view_add starts loc target_lev tgt_ibox
            (locloc lib (radius_arg target_lev)
               (mkFrame src_center source_rscale (orders source_lev)) (view_get starts loc source_lev src_ibox)
               (mkFrame tgt_center target_rscale (orders target_lev))))
        (slice ttpb (nth target_lev level_starts 0) (nth (target_lev + 1) level_starts 0)) loc)
    (seq 1 (nlevels t - 1)) loc.

(** 1108-1144 *)
Definition eval_locals_lib (level_starts target_boxes : list nat) (loc : storage L) : nat -> V :=
  fold_left (fun out lev =>
      let rscale := level_to_rscale lev in
      fold_left (fun out tgt_ibox =>
          out_add out (box_target_starts p tgt_ibox) (box_target_counts_nonchild p tgt_ibox)
            (fun i => taeval lib (mkFrame (box_centers tgt_ibox) rscale (orders lev)) (view_get starts loc lev tgt_ibox) (targets i)))
        (slice target_boxes (nth lev level_starts 0) (nth (lev + 1) level_starts 0)) out)
    (seq 0 (nlevels t)) (fun _ => e0).

(** 1146-1162; [None]: NotImplementedError *)
Definition scale_factor : option factor :=
  match wr_kernel wr, wr_dim wr with
  | LAPLACE, 2 => Some MinusOneOver2Pi
  | HELMHOLTZ, 2 => Some One
  | _, 3 => Some OneOver4Pi
  | _, _ => None
  end.
Definition finalize_potentials (v : V) : option V :=
  match scale_factor with
  | None => None
  | Some f =>
    let v := match wr_kernel wr, wr_dim wr with LAPLACE, 2 => real_part v | _, _ => v end in
    Some (times f v)
  end.

(** fmm.py:389-520, tree order *)
Definition potentials_lib (tr : traversal) (w : nat -> Wt) : option (nat -> V) :=
  let mpoles := form_multipoles_lib (level_start_source_box_nrs tr) (source_boxes tr) w in
  let mpoles := coarsen_multipoles_lib (level_start_source_parent_box_nrs tr) (source_parent_boxes tr) mpoles in
  let pot := eval_direct_lib (target_boxes tr) (neighbor_source_boxes tr) w in
  match multipole_to_local_lib (level_start_target_or_target_parent_box_nrs tr)
          (target_or_target_parent_boxes tr) (from_sep_siblings tr) mpoles with
  | None => None
  | Some loc =>
    let pot := out_plus V pot (eval_multipoles_lib (from_sep_smaller_by_level tr) mpoles) in
    let pot := match from_sep_close_smaller tr with
               | Some c => out_plus V pot (eval_direct_lib (target_boxes tr) c w) | None => pot end in
    match form_locals_lib (level_start_target_or_target_parent_box_nrs tr)
            (target_or_target_parent_boxes tr) (from_sep_bigger tr) w with
    | None => None
    | Some local_result =>
      let loc := storage_plus L loc local_result in
      let pot := match from_sep_close_bigger tr with
                 | Some c => out_plus V pot (eval_direct_lib (target_boxes tr) c w) | None => pot end in
      let loc := refine_locals_lib (level_start_target_or_target_parent_box_nrs tr) (target_or_target_parent_boxes tr) loc in
      Some (out_plus V pot (eval_locals_lib (level_start_target_box_nrs tr) (target_boxes tr) loc))
    end
  end.

(** fmm.py:342-532: the potential at target j in the caller's order, for the caller's weights *)
Definition drive_fmm_lib (tr : traversal) (weights : nat -> Wt) (j : nat) : option V :=
  match potentials_lib tr (fun k => weights (user_source_ids p k)) with
  | Some pot => finalize_potentials (pot (sorted_target_ids p j))
  | None => None
  end.
End Lib.
Arguments level_to_rscale {_ _}. Arguments radius_arg {_ _}. Arguments rotmat_order {_ _}. Arguments source_strength {_ _ _}.
Arguments form_multipoles_lib {_ _ _ _ _ _ _ _}. Arguments coarsen_multipoles_lib {_ _ _ _ _ _ _ _}. Arguments eval_direct_lib {_ _ _ _ _ _ _ _}.
Arguments mploc_imany {_ _ _ _ _ _ _ _}. Arguments m2l_level_lib {_ _ _ _ _ _ _ _}. Arguments multipole_to_local_lib {_ _ _ _ _ _ _ _}.
Arguments eval_multipoles_lib {_ _ _ _ _ _ _ _}. Arguments formta_imany {_ _ _ _ _ _ _ _}. Arguments form_locals_level_lib {_ _ _ _ _ _ _ _}.
Arguments form_locals_lib {_ _ _ _ _ _ _ _}. Arguments refine_locals_lib {_ _ _ _ _ _ _ _}. Arguments eval_locals_lib {_ _ _ _ _ _ _ _}.
Arguments potentials_lib {_ _ _ _ _ _ _ _}. Arguments drive_fmm_lib {_ _ _ _ _ _ _ _}. Arguments finalize_potentials {_ _ _}. Arguments scale_factor {_ _}.
