(** Model of the FMM driver (boxtree/fmm.py) with an expansion wrangler whose expansions are
    stored and translated as in boxtree/pyfmmlib_integration.py (class
    FMMLibExpansionWrangler); the numerical routines themselves are parameters. *)
From Coq Require Import List Arith ZArith Lia Bool.
From Verif Require Import Base Tree Traversal Fmm.
From Verif Require Export Monoid.
Import ListNotations.

(** ** The numerical routines of a wrangler.  Positions, box centers, expansion orders, scaling
    factors and kernel parameters are determined by the box number, the level and the particle
    number that are passed here instead.
    [p2m lev b j w]: multipole expansion of box b (level lev) due to source j of strength w
    (%ddformmp, pyfmmlib_integration.py:706-711: the routine is given all sources of a box, its
    result is the sum over them);
    [m2m sl c tl b]: %ddmpmp (760-770); [m2l lev src tgt]: %ddmploc (911-931);
    [m2p lev b i]: value of a multipole expansion at target i (mpeval, 964-970);
    [p2l lev b j w]: %ddformta (1038-1049); [l2l sl p tl b]: %ddlocloc (1091-1101);
    [l2p lev b i]: taeval (1131-1138); [p2p i j w]: direct evaluation (810-813);
    [finalize]: finalize_potentials (1146-1164). *)
Record routines (Wt : Type) (M L V : cmonoid) := mkRoutines {
  p2m : nat -> nat -> nat -> Wt -> M;
  m2m : nat -> nat -> nat -> nat -> M -> M;
  m2l : nat -> nat -> nat -> M -> L;
  m2p : nat -> nat -> nat -> M -> V;
  p2l : nat -> nat -> nat -> Wt -> L;
  l2l : nat -> nat -> nat -> nat -> L -> L;
  l2p : nat -> nat -> nat -> L -> V;
  p2p : nat -> nat -> Wt -> V;
  finalize : V -> V
}.
Arguments p2m {_ _ _ _}. Arguments m2m {_ _ _ _}. Arguments m2l {_ _ _ _}. Arguments m2p {_ _ _ _}.
Arguments p2l {_ _ _ _}. Arguments l2l {_ _ _ _}. Arguments l2p {_ _ _ _}. Arguments p2p {_ _ _ _}.
Arguments finalize {_ _ _ _}.

(** ** Storage of expansions: pyfmmlib_integration.py:442-492.  Level [lev] has its own part of
    the array, in which expansion number k belongs to box level_start_box_nrs[lev] + k; the
    layout within one flat array is modelled in Layout.v. *)
Definition storage (X : Type) := nat -> nat -> X.   (* level, slot *)
Definition view_get {X} (starts : nat -> nat) (s : storage X) (lev b : nat) : X :=
  s lev (b - starts lev).
Definition view_set {X} (starts : nat -> nat) (s : storage X) (lev b : nat) (v : X) : storage X :=
  fun lev' k => if (lev' =? lev) && (k =? b - starts lev) then v else s lev' k.
Definition view_add {X : cmonoid} starts (s : storage X) lev b (v : X) : storage X :=
  view_set starts s lev b (op (view_get starts s lev b) v).
(** multipole_expansion_zeros, local_expansion_zeros: 625-642 *)
Definition no_expansions {X : cmonoid} : storage X := fun _ _ => e0.

(** output[start:start+cnt] += pot, for a vector pot: 659-664 (ifgrad = False) *)
Definition out_add {X : cmonoid} (out : nat -> X) (start cnt : nat) (pot : nat -> X) : nat -> X :=
  fold_left (fun out i => fun j => if j =? i then op (out i) (pot i) else out j) (seq start cnt) out.

Section Wrangler.
Variables (Wt : Type) (M L V : cmonoid) (R : routines Wt M L V).
Variable t : tree.
Variable p : particles.
Variable starts : nat -> nat.                        (* tree.level_start_box_nrs *)

(** self._get_source_slice, self._get_target_slice: 516-524 *)
Definition source_slice (b : nat) : list nat := seq (box_source_starts p b) (box_source_counts_nonchild p b).

(** pyfmmlib_integration.py:676-718 *)
Definition form_multipoles_gen (level_starts source_boxes : list nat) (w : nat -> Wt) : storage M :=
  fold_left (fun mpoles lev =>
    fold_left (fun mpoles b =>
        if box_source_counts_nonchild p b =? 0 then mpoles
        else view_set starts mpoles lev b (msum (map (fun j => p2m R lev b j (w j)) (source_slice b))))
      (slice source_boxes (nth lev level_starts 0) (nth (lev + 1) level_starts 0)) mpoles)
    (seq 0 (nlevels t)) no_expansions.

(** 750-773 *)
Definition coarsen_box_gen (source_level target_level : nat) (mpoles : storage M) (b : nat) : storage M :=
  fold_left (fun mpoles m =>
      let child := box_child t m b in
      if child =? 0 then mpoles
      else view_add starts mpoles target_level b
             (m2m R source_level child target_level b (view_get starts mpoles source_level child)))
    (seq 0 (nchildren t)) mpoles.
(** 720-775 *)
Definition coarsen_multipoles_gen (level_starts source_parent_boxes : list nat) (mpoles : storage M)
  : storage M :=
  fold_left (fun mpoles source_level =>
      let target_level := source_level - 1 in
      fold_left (coarsen_box_gen source_level target_level)
        (slice source_parent_boxes (nth target_level level_starts 0)
                                   (nth (target_level + 1) level_starts 0)) mpoles)
    (rev (seq 3 (nlevels t - 3))) mpoles.

(** what the sources of box [src] do directly at target i: 808-815 *)
Definition direct_from (w : nat -> Wt) (i src : nat) : V :=
  msum (map (fun j => p2p R i j (w j)) (source_slice src)).
(** 777-821 *)
Definition eval_direct_gen (target_boxes : list nat) (neighbors : csr) (w : nat -> Wt) : nat -> V :=
  fold_left (fun out itgt =>
      let b := nth itgt target_boxes 0 in
      out_add out (box_target_starts p b) (box_target_counts_nonchild p b)
        (fun i => fold_left (fun pot src =>
                     if box_source_counts_nonchild p src =? 0 then pot
                     else op pot (direct_from w i src))
                   (csr_get neighbors itgt) e0))
    (seq 0 (length target_boxes)) (fun _ => e0).

(** 823-935; the vectorized routine adds up the translations of one row *)
Definition multipole_to_local_gen (level_starts ttpb : list nat) (c : csr) (mpoles : storage M) : storage L :=
  fold_left (fun loc lev =>
      let lstart := nth lev level_starts 0 in
      let tgt_ibox_vec := slice ttpb lstart (nth (lev + 1) level_starts 0) in
      fold_left (fun loc k =>
          let b := nth k tgt_ibox_vec 0 in
          view_add starts loc lev b
            (msum (map (fun src => m2l R lev src b (view_get starts mpoles lev src))
                       (csr_get c (lstart + k)))))
        (seq 0 (length tgt_ibox_vec)) loc)
    (seq 0 (nlevels t)) no_expansions.

(** 937-978 *)
Definition eval_multipoles_gen (by_level : list (list nat * csr)) (mpoles : storage M) : nat -> V :=
  fold_left (fun out lbc =>
      let isrc_level := fst lbc in let boxes := fst (snd lbc) in let ssn := snd (snd lbc) in
      fold_left (fun out itgt =>
          let b := nth itgt boxes 0 in
          out_add out (box_target_starts p b) (box_target_counts_nonchild p b)
            (fun i => fold_left (fun pot src =>
                         op pot (m2p R isrc_level src i (view_get starts mpoles isrc_level src)))
                       (csr_get ssn itgt) e0))
        (seq 0 (length boxes)) out)
    (combine (seq 0 (length by_level)) by_level) (fun _ => e0).

(** 980-1058 *)
Definition form_locals_gen (level_starts ttpb : list nat) (c : csr) (w : nat -> Wt) : storage L :=
  fold_left (fun loc lev =>
      let lstart := nth lev level_starts 0 in
      let centers_offsets := slice ttpb lstart (nth (lev + 1) level_starts 0) in
      fold_left (fun loc k =>
          let b := nth k centers_offsets 0 in
          view_set starts loc lev b
            (msum (map (fun src => msum (map (fun j => p2l R lev b j (w j)) (source_slice src)))
                       (csr_get c (lstart + k)))))
        (seq 0 (length centers_offsets)) loc)
    (seq 0 (nlevels t)) no_expansions.

(** 1060-1106 *)
Definition refine_locals_gen (level_starts ttpb : list nat) (loc : storage L) : storage L :=
  fold_left (fun loc target_lev =>
      let source_lev := target_lev - 1 in
      fold_left (fun loc b =>
          let src := box_parent t b in
          view_add starts loc target_lev b
            (l2l R source_lev src target_lev b (view_get starts loc source_lev src)))
        (slice ttpb (nth target_lev level_starts 0) (nth (target_lev + 1) level_starts 0)) loc)
    (seq 1 (nlevels t - 1)) loc.

(** 1108-1144 *)
Definition eval_locals_gen (level_starts target_boxes : list nat) (loc : storage L) : nat -> V :=
  fold_left (fun out lev =>
      fold_left (fun out b =>
          out_add out (box_target_starts p b) (box_target_counts_nonchild p b)
            (fun i => l2p R lev b i (view_get starts loc lev b)))
        (slice target_boxes (nth lev level_starts 0) (nth (lev + 1) level_starts 0)) out)
    (seq 0 (nlevels t)) (fun _ => e0).

(** potentials + result, local_exps + local_result (fmm.py:441-520) *)
Definition out_plus (a b : nat -> V) : nat -> V := fun i => op (a i) (b i).
Definition storage_plus (a b : storage L) : storage L := fun lev k => op (a lev k) (b lev k).

(** fmm.py:389-520, with the effect of communicate_mpoles as a parameter; tree order *)
Definition potentials_gen (tr : traversal) (communicate : storage M -> storage M) (w : nat -> Wt) : nat -> V :=
  let mpoles := form_multipoles_gen (level_start_source_box_nrs tr) (source_boxes tr) w in
  let mpoles := coarsen_multipoles_gen (level_start_source_parent_box_nrs tr) (source_parent_boxes tr) mpoles in
  let mpoles := communicate mpoles in
  let pot := eval_direct_gen (target_boxes tr) (neighbor_source_boxes tr) w in
  let loc := multipole_to_local_gen (level_start_target_or_target_parent_box_nrs tr)
               (target_or_target_parent_boxes tr) (from_sep_siblings tr) mpoles in
  let pot := out_plus pot (eval_multipoles_gen (from_sep_smaller_by_level tr) mpoles) in
  let pot := match from_sep_close_smaller tr with
             | Some c => out_plus pot (eval_direct_gen (target_boxes tr) c w) | None => pot end in
  let loc := storage_plus loc (form_locals_gen (level_start_target_or_target_parent_box_nrs tr)
               (target_or_target_parent_boxes tr) (from_sep_bigger tr) w) in
  let pot := match from_sep_close_bigger tr with
             | Some c => out_plus pot (eval_direct_gen (target_boxes tr) c w) | None => pot end in
  let loc := refine_locals_gen (level_start_target_or_target_parent_box_nrs tr)
               (target_or_target_parent_boxes tr) loc in
  out_plus pot (eval_locals_gen (level_start_target_box_nrs tr) (target_boxes tr) loc).

(** fmm.py:342-532; reorder_sources, reorder_potentials: pyfmmlib_integration.py:668-674 *)
Definition drive_fmm_gen (tr : traversal) (weights : nat -> Wt) : nat -> V :=
  fun j => finalize R (potentials_gen tr (fun m => m) (fun k => weights (user_source_ids p k))
                         (sorted_target_ids p j)).
End Wrangler.
