(** boxtree/tree.py:772-949 (link_point_sources) and 1057-1239 (ParticleListFilter) as they run on the
    OpenCL device: the kernels of boxtree/tree_build_kernels.py:1870-2021 as programs of single loads
    and stores, launched by the host programs of the methods.  Their results are those of
    ParticleLists.v.

    Operations of pyopencl on whole arrays (fill, take, multi_put, indexing with an array of indices on
    either side of an assignment) are kernels with one work item per element.  A slice is a copy.  A
    scan kernel is a launch that evaluates input_expr and is_segment_start_expr, the scan, and a launch
    that runs output_statement.  Not in the model: array element types (integers are unbounded), the
    assertions of the debug mode. *)
From Coq Require Import List Arith ZArith Bool.
From Verif Require Import Base Kernel Device ListBuilder.
Import ListNotations.

(** ** Arrays *)
Inductive parray :=
(* arguments: of link_point_sources, and the arrays of the tree *)
| PointStarts | PointCoord (axis : nat)
| SourceIds | BoxSources | BoxSourceCounts | BoxSourceCumul
| TargetIds | TargetCoord (axis : nat) | BoxTargets | BoxTargetCounts
| UserFlags                                          (* flags *)
(* link_point_sources *)
| NPoints | LinkStarts | LinkCounts                  (* npoint_sources_dev, tree_order_point_source_{starts,counts} *)
| UserStarts                                         (* tree_order_index_user_point_source_starts *)
| PointIds | Boundaries | Ones                       (* user_point_source_ids, source_boundaries, ones *)
| LinkedCoord (axis : nat) | BoxPoints | BoxPointCounts | BoxPointCumul
(* ParticleListFilter *)
| UserIds | Arange                                   (* user_target_ids *)
| TreeFlags | FromUnfiltered | FromFiltered | NFiltered | FromFilteredCut
| FilteredCoord (axis : nat) | FilteredStarts | FilteredCounts.
Definition parray_eq (a b : parray) : {a = b} + {a <> b}.
Proof. repeat decide equality. Defined.
Inductive pname := FiltTgtList.                      (* filt_tgt_list *)
Definition pname_eq (a b : pname) : {a = b} + {a <> b}.
Proof. decide equality. Defined.
Notation parr := (larr parray pname).
Definition parr_eq : forall a b : parr, {a = b} + {a <> b} := larr_eq parray pname parray_eq pname_eq.
Notation pitem := (item parr).
Notation phost := (host parr).
Notation z := Z.of_nat.

(** ** Operations on whole arrays of [n] elements *)
Definition filled {R} (n : nat) (a : parray) (v : Z) (next : phost R) : phost R :=            (* zeros(n); a.fill(v) *)
  Alloc (Base a) (z n) (Launch n (fun i => Store (Base a) (z i) v Finish) next).
Definition taken {R} (n : nat) (out src idx : parray) (next : phost R) : phost R :=           (* out = src[idx] *)
  Alloc (Base out) (z n) (Launch n (fun i => Load (Base idx) (z i) (fun j => Load (Base src) j (fun v => Store (Base out) (z i) v Finish))) next).
Definition put {R} (n : nat) (out src idx : parray) (next : phost R) : phost R :=             (* out[idx] = src *)
  Launch n (fun i => Load (Base idx) (z i) (fun j => Load (Base src) (z i) (fun v => Store (Base out) j v Finish))) next.
Definition sliced {R} (n : nat) (out src : parray) (next : phost R) : phost R :=              (* out = src[:n] *)
  Alloc (Base out) (z n) (Launch n (fun i => Load (Base src) (z i) (fun v => Store (Base out) (z i) v Finish)) next).

(** a scan with a+b over [n] items without segments: [inp i next]: input_expr, [out i item prev]:
    output_statement *)
Definition scan_kernel {R} (n : nat) (inp : nat -> (Z -> pitem) -> pitem) (out : nat -> Z -> Z -> pitem) (next : phost R) : phost R :=
  Alloc ScanIn (z n) (Alloc ScanFlag (z n) (Alloc ScanOut (z n)
  (Launch n (fun i => inp i (fun v => Store ScanIn (z i) v Finish))
  (Scan (mkScan ScanFlag [(ScanIn, ScanOut, Z.add)])
  (Launch n (fun i => Load ScanOut (z i) (fun item =>
     match i with 0 => out i item 0%Z | S i' => Load ScanOut (z i') (fun prev => out i item prev) end)) next))))).

(** ** Linked point sources *)
Section Link.
Variable ns nb dim : nat.                            (* tree.nsources, tree.nboxes, tree.dimensions *)

(** tree_build_kernels.py:1873-1899; user_source_ids[i] is loaded once *)
Definition count_points (i : nat) (next : Z -> pitem) : pitem :=
  Load (Base SourceIds) (z i) (fun u =>
  Load (Base PointStarts) (u + 1)%Z (fun e =>
  Load (Base PointStarts) u (fun s => next (e - s)%Z))).
Definition link_output (i : nat) (item prev : Z) : pitem :=
  Store (Base LinkStarts) (z i) prev
  (Store (Base LinkCounts) (z i) (item - prev)%Z
  (if S i =? ns then Store (Base NPoints) 0%Z item Finish else Finish)).
(** tree_build_kernels.py:1901-1910: the segmented scan, in place *)
Definition ids_scan {R} (n : nat) (next : phost R) : phost R :=
  Alloc ScanIn (z n) (Alloc ScanFlag (z n) (Alloc ScanOut (z n)
  (Launch n (fun i => Load (Base Boundaries) (z i) (fun f => Load (Base PointIds) (z i) (fun v => Store ScanFlag (z i) f (Store ScanIn (z i) v Finish))))
  (Scan (mkScan ScanFlag [(ScanIn, ScanOut, Z.add)])
  (Launch n (fun i => Load ScanOut (z i) (fun v => Store (Base PointIds) (z i) v Finish)) next))))).
(** tree_build_kernels.py:1912-1946 *)
Definition box_count (counts out : parray) (i : nat) (s_start ps_start : Z) (next : pitem) : pitem :=
  Load (Base counts) (z i) (fun s_count =>
  if (s_count =? 0)%Z then Store (Base out) (z i) 0%Z next
  else Load (Base LinkStarts) (s_start + s_count - 1)%Z (fun s => Load (Base LinkCounts) (s_start + s_count - 1)%Z (fun c =>
       Store (Base out) (z i) (s + c - ps_start)%Z next))).
Definition box_points (i : nat) : pitem :=
  Load (Base BoxSources) (z i) (fun s_start =>
  Load (Base LinkStarts) s_start (fun ps_start =>
  Store (Base BoxPoints) (z i) ps_start
  (box_count BoxSourceCounts BoxPointCounts i s_start ps_start
  (box_count BoxSourceCumul BoxPointCumul i s_start ps_start Finish)))).
(** tree.py:800-949; result: npoint_sources *)
Definition link_program : phost nat :=
  Alloc (Base NPoints) 1
  (Alloc (Base LinkStarts) (z ns) (Alloc (Base LinkCounts) (z ns)
  (scan_kernel ns count_points link_output
  (Peek (Base NPoints) 0%Z (fun np =>
   let n := Z.to_nat np in
   taken ns UserStarts PointStarts SourceIds
   (filled n PointIds 1%Z
   (put ns PointIds UserStarts LinkStarts
   (Alloc (Base Boundaries) (z n)
   (filled ns Ones 1%Z
   (put ns Boundaries Ones LinkStarts
   (ids_scan n
   (each (seq 0 dim) (fun a nx => taken n (LinkedCoord a) (PointCoord a) PointIds nx)
   (Alloc (Base BoxPoints) (z nb) (Alloc (Base BoxPointCumul) (z nb) (Alloc (Base BoxPointCounts) (z nb)
   (Launch nb box_points (Ret n))))))))))))))))).
End Link.

(** ** Filtered targets *)
Section Filter.
Variable nt nb dim : nat.                            (* tree.ntargets, tree.nboxes, tree.dimensions *)

(** tree.py:1084-1098 *)
Fixpoint append_flagged (n : nat) (j : Z) : gen parray pname :=
  match n with
  | 0 => GEnd
  | S n' => GLoad (Base UserIds) j (fun u => GLoad (Base UserFlags) u (fun f =>
      if (f =? 0)%Z then append_flagged n' (j + 1)%Z else GPut FiltTgtList u (append_flagged n' (j + 1)%Z)))
  end.
Definition user_order_gen (i : nat) : gen parray pname :=
  GLoad (Base BoxTargets) (z i) (fun s => GLoad (Base BoxTargetCounts) (z i) (fun c => append_flagged (Z.to_nat c) s)).
(** tree.py:1107-1146; result: nfiltered_targets *)
Definition user_order_program : phost nat :=
  Alloc (Base UserIds) (z nt)
  (Alloc (Base Arange) (z nt) (Assign (Base Arange) 0%Z (map z (seq 0 nt))
  (put nt UserIds Arange TargetIds
  (build_lists pname_eq [(FiltTgtList, false)] nb user_order_gen (fun b => Ret (num_entries (b FiltTgtList))))))).

(** tree_build_kernels.py:1954-1978 *)
Definition flag_input (i : nat) (next : Z -> pitem) : pitem :=
  Load (Base TreeFlags) (z i) (fun f => next (if (f =? 0)%Z then 0%Z else 1%Z)).
Definition filter_output (i : nat) (item prev : Z) : pitem :=
  let count := if S i =? nt then Store (Base NFiltered) 0%Z item Finish else Finish in
  Store (Base FromUnfiltered) (z i) prev
  (if (item =? prev)%Z then count else Store (Base FromFiltered) prev (z i) count).
(** tree_build_kernels.py:1980-2019 *)
Definition filter_box (nfiltered : Z) (i : nat) : pitem :=
  Load (Base BoxTargets) (z i) (fun start =>
  Load (Base BoxTargetCounts) (z i) (fun count =>
  Load (Base FromUnfiltered) start (fun filtered_start =>
  Store (Base FilteredStarts) (z i) filtered_start
  (if (0 <? count)%Z then
     let finish post_last := Store (Base FilteredCounts) (z i) (post_last - filtered_start)%Z Finish in
     if (start + count <? z nt)%Z then Load (Base FromUnfiltered) (start + count)%Z finish else finish nfiltered
   else Store (Base FilteredCounts) (z i) 0%Z Finish)))).
(** tree.py:1174-1239; result: nfiltered_targets *)
Definition tree_order_program : phost nat :=
  Alloc (Base TreeFlags) (z nt)
  (put nt TreeFlags UserFlags TargetIds
  (Alloc (Base FromUnfiltered) (z nt) (Alloc (Base FromFiltered) (z nt) (Alloc (Base NFiltered) 1
  (scan_kernel nt flag_input filter_output
  (Peek (Base NFiltered) 0%Z (fun nf =>
   let n := Z.to_nat nf in
   sliced n FromFilteredCut FromFiltered
   (each (seq 0 dim) (fun a nx => taken n (FilteredCoord a) (TargetCoord a) FromFilteredCut nx)
   (Alloc (Base FilteredStarts) (z nb) (Alloc (Base FilteredCounts) (z nb)
   (Launch nb (filter_box nf) (Ret n)))))))))))).
End Filter.
