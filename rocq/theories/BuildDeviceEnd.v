(** The part of TreeBuilder.__call__ after the level loop (boxtree/tree_build.py:1273-1803) as
    a host program, and its kernels as programs of single loads and stores.  Conventions as in
    BuildDevice.v. *)
From Coq Require Import List Arith ZArith NArith Lia Bool.
From Verif Require Import Base Tree Walk Traversal TreeBuild Kernel Device BuildDevice.
Import ListNotations.

(** Arrays: those of the level loop, and the ones created afterwards *)
Inductive parray :=
| Kept (a : array)
| Nonchild                         (* box_srcntgt_counts_nonchild *)
| SrcIds | NewIds                  (* src_box_id, dst_box_id *)
| NPost                            (* nboxes_post_prune_dev *)
| Pruned                           (* result of gappy_copy_and_map *)
| In1 | Flag1 | Out1               (* data inside a scan *)
| SourceNumbers                    (* source_numbers *)
| SourceIds | TargetIds            (* user_source_ids, srcntgt_target_ids *)
| SortedTargets                    (* sorted_target_ids *)
| SourceStarts | SourceCounts | SourceNonchild   (* box_source_{starts, counts_cumul, counts_nonchild} *)
| TargetStarts | TargetCounts | TargetNonchild   (* box_target_{starts, counts_cumul, counts_nonchild} *)
| Sources (a : nat) | Targets (a : nat)          (* sources, targets, one array per axis *)
| SourceRadii | TargetRadii        (* source_radii, target_radii *)
| ChildTable                       (* box_child_ids, shape (2**dimensions, aligned_nboxes) *)
| CenterTable                      (* box_centers, shape (dimensions, aligned_nboxes) *)
| Flags                            (* box_flags *)
| SourceMin | SourceMax            (* box_source_bounding_box_{min, max} *)
| TargetMin | TargetMax.           (* box_target_bounding_box_{min, max} *)
Definition parray_eq (a b : parray) : {a = b} + {a <> b}.
Proof. decide equality; solve [apply Nat.eq_dec|apply array_eq]. Defined.

Notation pprog := (item parray).
Notation endprogram := (host parray).

(** The arrays of the level loop stay where they are. *)
Definition carry (d : device array) : device parray :=
  mkDevice (fun x => match x with Kept a => cells d a | _ => fun _ => 0%Z end)
           (fun x => match x with Kept a => size d a | _ => 0%Z end).

Section Kernels.
Variable inp : input.
Notation nch := (nchild inp).
Notation np := (npart inp).
Notation z := Z.of_nat.

Definition p_overrun : pprog := Load Pruned (-1)%Z (fun _ => Finish).

(** *** Non-child counts: tree_build_kernels.py:979-1007 *)
Definition extract_item (highest : Z) (i : nat) : pprog :=
  if (highest <=? z i)%Z then Store Nonchild (z i) 0%Z Finish
  else Load (Kept Counts) (z i) (fun c =>
    if (c =? 0)%Z then Store Nonchild (z i) 0%Z Finish
    else Load (Kept (BoxBin (Cnt 0))) (z i) (fun v => Store Nonchild (z i) v Finish)).

(** *** find_prune_indices: tree_build_kernels.py:1690-1718 *)
Definition prune_input (i : nat) : pprog :=
  Load (Kept Counts) (z i) (fun c => Store In1 (z i) (bool_z (negb (c =? 0)%Z)) Finish).
Definition one_scan : scan parray := mkScan Flag1 [(In1, Out1, Z.add)].
Definition prune_output (n : nat) (i : nat) : pprog :=
  Load Out1 (z i) (fun it =>
  let last := if (i + 1 =? n)%nat then Store NPost 0%Z it Finish else Finish in
  Load (Kept Counts) (z i) (fun c =>
  if (c =? 0)%Z then last
  else Store NewIds (z i) (it - 1)%Z (Store SrcIds (it - 1)%Z (z i) last))).

(** *** gappy_copy_and_map with src_indices: tools.py:415-534; map_values: tools.py:540-590 *)
Definition take_item (a : parray) (map_values : bool) (i : nat) : pprog :=
  Load SrcIds (z i) (fun s =>
  Load a s (fun v =>
  (fun body => if map_values then Load NewIds v body else body v) (fun v' => Store Pruned (z i) v' Finish))).
Definition remap_item (i : nat) : pprog :=
  Load (Kept BoxIds) (z i) (fun v => Load NewIds v (fun v' => Store (Kept BoxIds) (z i) v' Finish)).

(** *** find_level_box_counts: tree_build_kernels.py:1724-1742 *)
Definition levels_input (i : nat) : pprog :=
  (fun body => if i =? 0 then body 1%Z
               else Load (Kept Levels) (z i) (fun l1 =>
                    Load (Kept Levels) (z i - 1)%Z (fun l0 => body (bool_z (negb (l1 =? l0)%Z)))))
  (fun flag => Store Flag1 (z i) flag (Store In1 (z i) 1%Z Finish)).
Definition levels_output (n : nat) (i : nat) : pprog :=
  let put := Load Out1 (z i) (fun it => Load (Kept Levels) (z i) (fun l => Store (Kept LevelUsed) l it Finish)) in
  if (i + 1 =? n)%nat then put
  else Load (Kept Levels) (z i) (fun l0 =>
       Load (Kept Levels) (z i + 1)%Z (fun l1 => if (l0 =? l1)%Z then Finish else put)).

(** *** Splitting sources from targets *)
(** reverse_index_array: tools.py:81-109 *)
Definition reverse_item (i : nat) : pprog :=
  Load (Kept UserIds) (z i) (fun u => Store SortedTargets u (z i) Finish).
(** source_counter: tree_build_kernels.py:1764-1782; prev_item is the result of the scan for
    the index before *)
Definition counter_input (i : nat) : pprog :=
  Load (Kept UserIds) (z i) (fun u => Store In1 (z i) (bool_z (u <? z (nsrc inp))%Z) Finish).
Definition counter_output (i : nat) : pprog :=
  match i with
  | 0 => Store SourceNumbers 0%Z 0%Z Finish
  | S j => Load Out1 (z j) (fun it => Store SourceNumbers (z i) it Finish)
  end.
(** source_and_target_index_finder: tree_build_kernels.py:1013-1164.  Running out of fuel, here
    the number of boxes, is an [overrun]. *)
Fixpoint starts_walk (fuel : nat) (i source_nr : Z) (start box : Z) (next : pprog) : pprog :=
  match fuel with
  | 0 => p_overrun
  | S f =>
    if (i =? start)%Z then
      Store SourceStarts box source_nr (
      Store TargetStarts box (i - source_nr)%Z (
      Load (Kept Parents) box (fun p =>
      if (p =? box)%Z then next
      else Load (Kept Starts) p (fun s => starts_walk f i source_nr s p next))))
    else next
  end.
Fixpoint counts_walk (fuel : nat) (i source_nr is_source : Z) (start count box : Z) (next : pprog) : pprog :=
  match fuel with
  | 0 => p_overrun
  | S f =>
    if (i + 1 =? start + count)%Z then
      Load SourceNumbers start (fun n0 =>
      Store SourceCounts box (source_nr + is_source - n0)%Z (
      Store TargetCounts box (i - source_nr + 1 - is_source - (start - n0))%Z (
      Load (Kept Parents) box (fun p =>
      if (p =? box)%Z then next
      else Load (Kept Starts) p (fun s =>
           Load (Kept Counts) p (fun c => counts_walk f i source_nr is_source s c p next))))))
    else next
  end.
Definition finder_item (nboxes : nat) (i : nat) : pprog :=
  Load SourceNumbers (z i) (fun nr =>
  Load (Kept BoxIds) (z i) (fun b =>
  Load (Kept Starts) b (fun start =>
  Load (Kept Counts) b (fun count =>
  Load (Kept UserIds) (z i) (fun u =>
  let is_source := bool_z (u <? z (nsrc inp))%Z in
  starts_walk (S nboxes) (z i) nr start b (
  (fun body =>
     if have_extent inp then
       Load Nonchild b (fun nonchild =>
       if (z i + 1 =? start + nonchild)%Z then
         Load SourceNumbers start (fun n0 =>
         Store SourceNonchild b (nr + is_source - n0)%Z (
         Store TargetNonchild b (z i - nr + 1 - is_source - (start - n0))%Z body))
       else body)
     else body) (
  counts_walk (S nboxes) (z i) nr is_source start count b (
  if (u <? z (nsrc inp))%Z then Store SourceIds nr u Finish
  else Store TargetIds (z i - nr)%Z u (Store SortedTargets (u - z (nsrc inp))%Z (z i - nr)%Z Finish))))))))).

(** *** srcntgt_permuter: tree_build_kernels.py:1170-1188; cl_array.take for the radii *)
Definition permute_item (ids : parray) (to : nat -> parray) (i : nat) : pprog :=
  Load ids (z i) (fun u =>
  for_each (axes inp) (fun a nx => Load (Kept (Coords a)) u (fun x => Store (to a) (z i) x nx)) Finish).
Definition radii_item (ids to : parray) (i : nat) : pprog :=
  Load ids (z i) (fun u => Load (Kept Radii) u (fun r => Store to (z i) r Finish)).

(** *** Rows of the tables: tree_build.py:1638-1670 *)
Definition row_item (a table : parray) (row aligned : nat) (i : nat) : pprog :=
  Load a (z i) (fun v => Store table (z (row * aligned + i)) v Finish).

(** *** Box info: tree_build_kernels.py:1192-1305.  With [same], the arrays of the targets are
    those of the sources. *)
Section Info.
Variables (source_counts target_counts source_nonchild target_nonchild : parray).
Definition zmask (c : Z) (m f : N) : N := if (c =? 0)%Z then f else N.lor f m.
Definition info_item (i : nat) : pprog :=
  Load (Kept Counts) (z i) (fun count =>
  (fun body => if have_extent inp
               then Load source_nonchild (z i) (fun ns => Load target_nonchild (z i) (fun nt => body ns nt))
               else body 0%Z 0%Z) (fun ns nt =>
  Load (Kept HasChildren) (z i) (fun has =>
  if (has =? 0)%Z then
    if same inp then
      Store source_nonchild (z i) count (
      Store Flags (z i) (Z.of_N (zmask count (N.lor IS_SOURCE_BOX IS_TARGET_BOX) 0)) Finish)
    else
      Load source_counts (z i) (fun sc =>
      Store source_nonchild (z i) sc (
      Store target_nonchild (z i) (count - sc)%Z (
      Store Flags (z i) (Z.of_N (zmask (count - sc) IS_TARGET_BOX (zmask sc IS_SOURCE_BOX 0))) Finish)))
  else
    let f0 := HAS_SOURCE_OR_TARGET_CHILD_BOXES in
    let own f := zmask nt IS_TARGET_BOX (zmask ns IS_SOURCE_BOX f) in
    if same inp then
      Store Flags (z i) (Z.of_N (own (zmask (count - (ns + nt)) HAS_SOURCE_OR_TARGET_CHILD_BOXES f0))) Finish
    else
      Load source_counts (z i) (fun sc =>
      Load target_counts (z i) (fun tc =>
      Store Flags (z i)
        (Z.of_N (own (zmask (tc - nt) HAS_TARGET_CHILD_BOXES (zmask (sc - ns) HAS_SOURCE_CHILD_BOXES f0)))) Finish))))).
End Info.

(** *** Box extents: tree_build_kernels.py:1311-1399.  [radii]: None if enable_radii is false;
    the Python code passes enable_radii for the kind of particles that has extents, here radii
    are loaded for both kinds if one of them has extents (they are zero for the other). *)
Section Extents.
Variable aligned : nat.
Variables (starts counts : parray) (parts : nat -> parray) (radii : option parray) (bmin bmax : parray).
(** all coordinates: (min, max) per axis *)
Definition widen (acc : list (Z * Z)) (xs : list (Z * Z)) : list (Z * Z) :=
  map (fun p => (Z.min (fst (fst p)) (fst (snd p)), Z.max (snd (fst p)) (snd (snd p)))) (combine acc xs).
Fixpoint own_loop (n : nat) (i : Z) (acc : list (Z * Z)) (next : list (Z * Z) -> pprog) : pprog :=
  match n with
  | 0 => next acc
  | S n' =>
    (fun body => match radii with Some a => Load a i body | None => body 0%Z end) (fun r =>
    load_all (map (fun a => (parts a, i)) (axes inp)) (fun xs =>
    own_loop n' (i + 1)%Z (widen acc (map (fun x => ((x - r)%Z, (x + r)%Z)) xs)) next))
  end.
Fixpoint child_loop (ms : list nat) (b : Z) (acc : list (Z * Z)) (next : list (Z * Z) -> pprog) : pprog :=
  match ms with
  | [] => next acc
  | m :: ms' =>
    Load ChildTable (z (m * aligned) + b)%Z (fun c =>
    if (c =? 0)%Z then child_loop ms' b acc next
    else
      load_all (map (fun a => (bmin, (z (a * aligned) + c)%Z)) (axes inp)) (fun lo =>
      load_all (map (fun a => (bmax, (z (a * aligned) + c)%Z)) (axes inp)) (fun hi =>
      child_loop ms' b (widen acc (combine lo hi)) next)))
  end.
Definition extents_item (first : nat) (i : nat) : pprog :=
  let b := z (first + i) in
  load_all (map (fun a => (CenterTable, (z (a * aligned) + b)%Z)) (axes inp)) (fun xc =>
  Load starts b (fun s =>
  Load counts b (fun c =>
  own_loop (Z.to_nat c) s (map (fun x => (x, x)) xc) (fun acc1 =>
  child_loop (seq 0 nch) b acc1 (fun acc2 =>
  for_each (axes inp) (fun a nx =>
    Store bmin (z (a * aligned) + b)%Z (fst (nth a acc2 (0, 0)%Z)) (
    Store bmax (z (a * aligned) + b)%Z (snd (nth a acc2 (0, 0)%Z)) nx)) Finish))))).
End Extents.
End Kernels.

Section Host.
Variable inp : input.
Notation nch := (nchild inp).
Notation np := (npart inp).
Notation z := Z.of_nat.

(** tree_build.py:1281-1300 *)
Definition extract_program {R} (lstart : list nat) (next : endprogram R) : endprogram R :=
  let nboxes := last lstart 0 in
  if have_extent inp then
    Alloc Nonchild (z nboxes) (
    Launch nboxes (extract_item (z (nth (length lstart - 2) lstart 0))) next)
  else next.

(** a scan with one component *)
Definition scan_program {R} (n : nat) (input output : nat -> pprog) (next : endprogram R) : endprogram R :=
  Alloc In1 (z n) (Alloc Out1 (z n) (Alloc Flag1 (z n) (
  Launch n input (Scan one_scan (Launch n output next))))).

(** tree_build.py:1330-1392: src_box_id and dst_box_id; gives nboxes_post_prune *)
Definition find_pruned {R} (lstart used : list nat) (next : nat -> endprogram R) : endprogram R :=
  let nboxes := last lstart 0 in
  if negb (skip_prune inp) then
    Alloc SrcIds (z nboxes) (Alloc NewIds (z nboxes) (Alloc NPost 1%Z (
    scan_program nboxes prune_input (prune_output nboxes) (
    Peek NPost 0%Z (fun v => next (Z.to_nat v))))))
  else
    let ns := prefix_from 0 used in
    Alloc SrcIds (z nboxes) (Alloc NewIds (z nboxes) (
    each (seq 0 (length used)) (fun l nx =>
      Assign SrcIds (z (nth l ns 0)) (map z (seq (nth l lstart 0) (nth l used 0))) (
      Assign NewIds (z (nth l lstart 0)) (map z (seq (nth l ns 0) (nth l used 0))) nx)) (
    next (last ns 0)))).

Definition take_program {R} (n : nat) (a : parray) (mapped : bool) (next : endprogram R) : endprogram R :=
  Alloc Pruned (z n) (Launch n (take_item a mapped) (Move Pruned a next)).
Fixpoint peek_all {R} (a : parray) (n k : nat) (next : list nat -> endprogram R) : endprogram R :=
  match n with
  | 0 => next []
  | S n' => Peek a (z k) (fun v => peek_all a n' (S k) (fun vs => next (Z.to_nat v :: vs)))
  end.
(** tree_build.py:1394-1461; gives nboxes_post_prune and level_start_box_nrs *)
Definition prune_program {R} (lstart used : list nat) (next : nat -> list nat -> endprogram R) : endprogram R :=
  if negb (skip_prune inp) || level_restrict inp then
    find_pruned lstart used (fun n =>
    take_program n (Kept Starts) false (
    take_program n (Kept Counts) false (
    Launch np remap_item (
    take_program n (Kept Parents) true (
    take_program n (Kept Levels) false (
    (fun nx => if have_extent inp then take_program n Nonchild false nx else nx) (
    take_program n (Kept HasChildren) false (
    each (seq 0 nch) (fun m nx => take_program n (Kept (Children m)) true nx) (
    each (axes inp) (fun a nx => take_program n (Kept (Centers a)) false nx) (
    scan_program n levels_input (levels_output n) (
    peek_all (Kept LevelUsed) (length used) 0 (fun cs =>
    let ls := prefix_from 0 cs in
    Assign (Kept LevelStarts) 0%Z (map z ls) (next n ls)))))))))))))
  else next (last lstart 0) lstart.

(** tree_build.py:1465-1566.  With targets = None the arrays of sources and targets are those
    of all particles. *)
Definition source_ids : parray := if same inp then Kept UserIds else SourceIds.
Definition target_ids : parray := if same inp then Kept UserIds else TargetIds.
Definition source_starts : parray := if same inp then Kept Starts else SourceStarts.
Definition target_starts : parray := if same inp then Kept Starts else TargetStarts.
Definition source_counts : parray := if same inp then Kept Counts else SourceCounts.
Definition target_counts : parray := if same inp then Kept Counts else TargetCounts.
Definition source_nonchild : parray := SourceNonchild.
Definition target_nonchild : parray := if same inp then SourceNonchild else TargetNonchild.
Definition target_points : nat -> parray := if same inp then Sources else Targets.
Definition target_min : parray := if same inp then SourceMin else TargetMin.
Definition target_max : parray := if same inp then SourceMax else TargetMax.
Definition n_targets : nat := if same inp then np else np - nsrc inp.
Definition split_program {R} (n : nat) (next : endprogram R) : endprogram R :=
  if same inp then
    Alloc SortedTargets (z np) (Launch np reverse_item next)
  else
    Alloc SourceNumbers (z np) (
    scan_program np (counter_input inp) counter_output (
    Alloc SourceIds (z (nsrc inp)) (
    Alloc TargetIds (z (np - nsrc inp)) (
    Alloc SortedTargets (z (np - nsrc inp)) (
    Alloc SourceStarts (z n) (Alloc SourceCounts (z n) (Alloc TargetStarts (z n) (Alloc TargetCounts (z n) (
    (fun nx => if have_extent inp then Alloc SourceNonchild (z n) (Alloc TargetNonchild (z n) nx) else nx) (
    Launch np (finder_item inp n) next)))))))))).

(** tree_build.py:1568-1605 *)
Definition permute_program {R} (next : endprogram R) : endprogram R :=
  each (axes inp) (fun a nx => Alloc (Sources a) (z (nsrc inp)) nx) (
  Launch (nsrc inp) (permute_item inp source_ids Sources) (
  if same inp then next
  else
    each (axes inp) (fun a nx => Alloc (Targets a) (z (np - nsrc inp)) nx) (
    Launch (np - nsrc inp) (permute_item inp target_ids Targets) (
    if have_extent inp then
      Alloc SourceRadii (z (nsrc inp)) (Launch (nsrc inp) (radii_item source_ids SourceRadii) (
      Alloc TargetRadii (z (np - nsrc inp)) (Launch (np - nsrc inp) (radii_item target_ids TargetRadii) next)))
    else next)))).

(** tree_build.py:1621-1658 *)
Definition aligned_nboxes (n : nat) : nat := (n + 31) / 32 * 32.
Definition gather_program {R} (n : nat) (next : endprogram R) : endprogram R :=
  let al := aligned_nboxes n in
  Alloc ChildTable (z (nch * al)) (Alloc CenterTable (z (idim inp * al)) (
  each (seq 0 nch) (fun m nx => Launch n (row_item (Kept (Children m)) ChildTable m al) nx) (
  each (axes inp) (fun a nx => Launch n (row_item (Kept (Centers a)) CenterTable a al) nx) next))).

(** tree_build.py:1664-1724 *)
Definition info_program {R} (n : nat) (next : endprogram R) : endprogram R :=
  Alloc Flags (z n) (
  (fun nx => if have_extent inp then nx
             else Alloc SourceNonchild (z n) (if same inp then nx else Alloc TargetNonchild (z n) nx)) (
  Launch n (info_item inp source_counts target_counts source_nonchild target_nonchild) next)).

(** tree_build.py:1730-1803 *)
Definition radii_of (a : parray) : option parray := if have_extent inp then Some a else None.
Definition extents_program {R} (n : nat) (lstart : list nat) (next : endprogram R) : endprogram R :=
  let al := aligned_nboxes n in
  Alloc SourceMin (z (idim inp * al)) (Alloc SourceMax (z (idim inp * al)) (
  (fun nx => if same inp then nx
             else Alloc TargetMin (z (idim inp * al)) (Alloc TargetMax (z (idim inp * al)) nx)) (
  each (rev (seq 0 (length lstart - 1))) (fun l nx =>
    let first := nth l lstart 0 in
    let count := nth (l + 1) lstart 0 - first in
    Launch count (extents_item inp al source_starts source_nonchild Sources (radii_of SourceRadii) SourceMin SourceMax first) (
    if same inp then nx
    else Launch count (extents_item inp al target_starts target_nonchild Targets (radii_of TargetRadii) TargetMin TargetMax first) nx))
  next))).

(** tree_build.py:1273-1803; gives nboxes_post_prune and level_start_box_nrs *)
Definition finish_program (h : hstate) : endprogram (nat * list nat) :=
  extract_program (h_lstart h) (
  prune_program (h_lstart h) (h_used h) (fun n lstart =>
  split_program n (
  permute_program (
  gather_program n (
  info_program n (
  extents_program n lstart (
  Ret (n, lstart)))))))).
End Host.
