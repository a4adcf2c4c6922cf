(** Model of boxtree/distributed/partition.py:122-357 and local_tree.py:53-284, 336-372, 408-424:
    what one rank does on its OpenCL device to set up its part of the tree.  The kernels are
    modelled as loads and stores; their results for the boxes are Partition.v and LocalTree.v.

    Operations of pyopencl on whole arrays (| & ~ + - where, indexing with an array of indices, copy)
    are kernels with one work item per element that load the operands and store the result to a
    new array.  Not in the model: array element types; the gathering of the masks of all ranks and
    their compression on the root (local_tree.py:374-406), see LocalTree.v and Tools.v. *)
From Coq Require Import List Arith ZArith NArith Lia Bool.
From Verif Require Import Base Tree Traversal Kernel Device.
Import ListNotations.

(** ** Arrays *)
(** the interaction lists used: traversal.py:1371-1530 *)
Inductive dlist := Neighbors | Siblings | Smaller (level : nat) | CloseSmaller | Bigger | CloseBigger.
Inductive side := Sources | Targets.
Inductive darr :=
(* arguments: the responsible boxes, the global tree and its traversal *)
| RespBoxes | ParentIds | Flags | TargetList | TargetOrParentList | SmallerList (level : nat)
| ListStarts (l : dlist) | ListEntries (l : dlist)
| PStarts (s : side) | PCounts (s : side) | PCumul (s : side) | PCoord (s : side) (axis : nat) | PRadii (s : side)
(* partition.py *)
| RespMask | AncMask | AncLast | AncNew | BothMask | PointMask | MpoleMask | Result
(* local_tree.py *)
| PMask (s : side) | PIndex (s : side) | ScanIn | ScanFlag | ScanOut | Zeros | IndexStarts | IndexEnds
| LCoord (s : side) (axis : nat) | LRadii (s : side) | LStarts (s : side) | LCounts (s : side) | LEnds (s : side) | LCumul (s : side) | LFlags.
Definition darr_eq (a b : darr) : {a = b} + {a <> b}.
Proof. repeat decide equality. Defined.
Notation ditem := (item darr).
Notation dhost := (host darr).
Notation z := Z.of_nat.

(** ** Operations on whole arrays of [n] elements *)
Definition elementwise {R} (n : nat) (out : darr) (operands : list darr) (f : list Z -> Z) (next : dhost R) : dhost R :=
  Alloc out (z n) (Launch n (fun i => load_all (map (fun a => (a, z i)) operands) (fun vs => Store out (z i) (f vs) Finish)) next).
Definition copy_of : list Z -> Z := fun vs => nth 0 vs 0%Z.
Definition either_of : list Z -> Z := fun vs => Z.lor (nth 0 vs 0%Z) (nth 1 vs 0%Z).               (* a | b *)
Definition and_not : list Z -> Z := fun vs => Z.land (nth 0 vs 0%Z) (Z.lnot (nth 1 vs 0%Z)).        (* a & (~b) *)
Definition sum_of : list Z -> Z := fun vs => (nth 0 vs 0 + nth 1 vs 0)%Z.
Definition difference_of : list Z -> Z := fun vs => (nth 0 vs 0 - nth 1 vs 0)%Z.
Definition where_of : list Z -> Z := fun vs => if (nth 0 vs 0 =? 0)%Z then nth 2 vs 0%Z else nth 1 vs 0%Z.
(** out = src[idx] *)
Definition indexed {R} (n : nat) (out src idx : darr) (next : dhost R) : dhost R :=
  Alloc out (z n) (Launch n (fun i => Load idx (z i) (fun j => Load src j (fun v => Store out (z i) v Finish))) next).
(** a.any(): the host looks at the elements one after the other (in the code, a reduction on the
    device whose result is transferred) *)
Fixpoint any_of {R} (a : darr) (l : list nat) (yes no : dhost R) : dhost R :=
  match l with
  | [] => no
  | k :: l' => Peek a (z k) (fun v => if (v =? 0)%Z then any_of a l' yes no else yes)
  end.
(** the whole array is transferred to the host *)
Fixpoint to_host {R} (a : darr) (l : list nat) (next : list Z -> dhost R) : dhost R :=
  match l with
  | [] => next []
  | k :: l' => Peek a (z k) (fun v => to_host a l' (fun vs => next (v :: vs)))
  end.

(** ** partition.py:139-162 add_interaction_list_boxes_kernel.  The end of the row is loaded once
    (in the code, in every round of the loop). *)
Fixpoint mark_entries (l : dlist) (dst : darr) (n : nat) (box_idx : Z) : ditem :=
  match n with
  | 0 => Finish
  | S n' => Load (ListEntries l) box_idx (fun b => Store dst b 1%Z (mark_entries l dst n' (box_idx + 1)%Z))
  end.
Definition add_boxes_item (box_list resp : darr) (l : dlist) (dst : darr) (i : nat) : ditem :=
  Load box_list (z i) (fun current_box =>
  Load resp current_box (fun r =>
    if (r =? 0)%Z then Finish else
    Load (ListStarts l) (z i) (fun s =>
    Load (ListStarts l) (z (S i)) (fun e => mark_entries l dst (Z.to_nat (e - s)) s)))).
(** partition.py:164-171 add_parent_boxes_kernel *)
Definition add_parent_item (current parent : darr) (i : nat) : ditem :=
  if i =? 0 then Finish else
  Load current (z i) (fun c => if (c =? 0)%Z then Finish else
    Load ParentIds (z i) (fun p => Store parent p 1%Z Finish)).

(** What the host knows about the arguments: numbers of boxes, levels, particles, lengths of the
    lists of boxes, which lists exist *)
Record dist_scalars := mkDist {
  ds_nboxes : nat; ds_nlevels : nat; ds_dim : nat; ds_have_extent : bool;
  ds_nresp : nat; ds_ntargets_boxes : nat; ds_nparents_boxes : nat; ds_nsmaller : nat -> nat;
  ds_close_smaller : bool; ds_close_bigger : bool;
  ds_particles : side -> nat
}.

Section Host.
Variable D : dist_scalars.
Notation nb := (ds_nboxes D).

(** partition.py:174-194 get_ancestor_boxes_mask; [stuck]: the loop has not ended after [fuel] rounds *)
Fixpoint ancestor_rounds {R} (fuel : nat) (stuck next : dhost R) : dhost R :=
  any_of AncLast (seq 0 nb)
    (match fuel with
     | 0 => stuck
     | S fuel' =>
       Alloc AncNew (z nb) (Launch nb (add_parent_item AncLast AncNew)
       (elementwise nb Result [AncNew; AncMask] and_not (Move Result AncNew
       (elementwise nb Result [AncMask; AncNew] either_of (Move Result AncMask
       (Move AncNew AncLast (ancestor_rounds fuel' stuck next)))))))
     end)
    next.
Definition ancestor_program {R} (stuck next : dhost R) : dhost R :=
  Alloc AncMask (z nb) (elementwise nb AncLast [RespMask] copy_of (ancestor_rounds (ds_nlevels D) stuck next)).

(** a launch of the kernel of lines 139-162; the number of work items is the length of its first argument *)
Definition add_boxes {R} (n : nat) (box_list resp : darr) (l : dlist) (dst : darr) (next : dhost R) : dhost R :=
  Launch n (add_boxes_item box_list resp l dst) next.
(** with [responsible_boxes_mask | ancestor_boxes_mask] *)
Definition add_boxes_both {R} (n : nat) (box_list : darr) (l : dlist) (dst : darr) (next : dhost R) : dhost R :=
  elementwise nb BothMask [RespMask; AncMask] either_of (add_boxes n box_list BothMask l dst next).

(** partition.py:197-252 get_point_src_boxes_mask *)
Definition point_program {R} (next : dhost R) : dhost R :=
  elementwise nb PointMask [RespMask] copy_of
  (add_boxes (ds_ntargets_boxes D) TargetList RespMask Neighbors PointMask
  (add_boxes_both (ds_nparents_boxes D) TargetOrParentList Bigger PointMask
  (let close_bigger := if ds_close_bigger D then add_boxes_both (ds_ntargets_boxes D) TargetList CloseBigger PointMask next else next in
   if ds_have_extent D then
     if ds_close_smaller D then add_boxes (ds_ntargets_boxes D) TargetList RespMask CloseSmaller PointMask close_bigger
     else close_bigger
   else next))).
(** partition.py:255-297 get_multipole_src_boxes_mask *)
Definition multipole_program {R} (next : dhost R) : dhost R :=
  Alloc MpoleMask (z nb)
  (add_boxes_both (ds_nparents_boxes D) TargetOrParentList Siblings MpoleMask
  (each (seq 0 (ds_nlevels D)) (fun lev nx => add_boxes (ds_nsmaller D lev) (SmallerList lev) RespMask (Smaller lev) MpoleMask nx) next)).
(** partition.py:335-357 get_box_masks *)
Definition masks_program {R} (stuck next : dhost R) : dhost R :=
  Alloc RespMask (z nb) (Launch (ds_nresp D) (fun i => Load RespBoxes (z i) (fun b => Store RespMask b 1%Z Finish))
  (ancestor_program stuck (point_program (multipole_program next)))).

(** ** local_tree.py:69-91 particle_mask_kernel; starts and counts are loaded once *)
Fixpoint mark_particles (dst : darr) (n : nat) (pid : Z) : ditem :=
  match n with
  | 0 => Finish
  | S n' => Store dst pid 1%Z (mark_particles dst n' (pid + 1)%Z)
  end.
Definition particle_mask_item (s : side) (box_mask : darr) (i : nat) : ditem :=
  Load box_mask (z i) (fun m => if (m =? 0)%Z then Finish else
    Load (PStarts s) (z i) (fun st => Load (PCounts s) (z i) (fun c => mark_particles (PMask s) (Z.to_nat c) st))).
(** local_tree.py:93-107 mask_scan_kernel *)
Definition mask_scan_program {R} (n : nat) (s : side) (next : dhost R) : dhost R :=
  Alloc ScanIn (z n) (Alloc ScanFlag (z n) (Alloc ScanOut (z n)
  (Launch n (fun i => Load (PMask s) (z i) (fun v => Store ScanIn (z i) v Finish))
  (Scan (mkScan ScanFlag [(ScanIn, ScanOut, Z.add)])
  (Launch n (fun i => Load ScanOut (z i) (fun v => Store (PIndex s) (z (S i)) v Finish)) next))))).
(** local_tree.py:124-151 fetch_local_particles *)
Definition fetch_item (s : side) (radii : bool) (i : nat) : ditem :=
  Load (PMask s) (z i) (fun m => if (m =? 0)%Z then Finish else
  Load (PIndex s) (z i) (fun des =>
    for_each (seq 0 (ds_dim D)) (fun a nx => Load (PCoord s a) (z i) (fun v => Store (LCoord s a) des v nx))
    (if radii then Load (PRadii s) (z i) (fun v => Store (LRadii s) des v Finish) else Finish))).
Definition alloc_if {R} (have : bool) (a : darr) (n : Z) (next : dhost R) : dhost R := if have then Alloc a n next else next.
(** local_tree.py:261-274: starts and counts of the boxes *)
Definition local_lists_program {R} (s : side) (box_mask : darr) (next : dhost R) : dhost R :=
  indexed nb (LStarts s) (PIndex s) (PStarts s)
  (Alloc Zeros (z nb)
  (elementwise nb (LCounts s) [box_mask; PCounts s; Zeros] where_of
  (elementwise nb (LEnds s) [PStarts s; PCumul s] sum_of
  (indexed nb IndexEnds (PIndex s) (LEnds s)
  (indexed nb IndexStarts (PIndex s) (PStarts s)
  (elementwise nb (LCumul s) [IndexEnds; IndexStarts] difference_of next)))))).
(** local_tree.py:233-257: [nlocal] is the number of local particles *)
Definition fetch_program {R} (s : side) (radii : bool) (nlocal : Z) (next : dhost R) : dhost R :=
  each (seq 0 (ds_dim D)) (fun a nx => Alloc (LCoord s a) nlocal nx)
  (alloc_if radii (LRadii s) nlocal (Launch (ds_particles D s) (fetch_item s radii) next)).
(** local_tree.py:198-284 construct_local_particles_and_lists; [next] gets particle_idx *)
Definition local_program {R} (s : side) (radii : bool) (box_mask : darr) (next : list nat -> dhost R) : dhost R :=
  let n := ds_particles D s in
  Alloc (PMask s) (z n)
  (Launch nb (particle_mask_item s box_mask)
  (Alloc (PIndex s) (z (n + 1))
  (Assign (PIndex s) (z 0) [0%Z]
  (mask_scan_program n s
  (Peek (PIndex s) (z n) (fun nlocal =>
   fetch_program s radii nlocal
   (local_lists_program s box_mask
   (to_host (PMask s) (seq 0 n) (fun vs =>
    next (filter (fun i => negb (nth i vs 0 =? 0)%Z) (seq 0 n))))))))))).

(** local_tree.py:158-185 modify_target_flags_kernel; the four updates of box_flags[i] by the same
    work item are combined to one load and one store *)
Definition modify_flags_item (i : nat) : ditem :=
  Load (LCounts Targets) (z i) (fun c =>
  Load (LCumul Targets) (z i) (fun cc =>
  Load LFlags (z i) (fun f =>
    let f := Z.land f (Z.lnot (Z.of_N IS_TARGET_BOX)) in
    let f := Z.land f (Z.lnot (Z.of_N HAS_TARGET_CHILD_BOXES)) in
    let f := if (c =? 0)%Z then f else Z.lor f (Z.of_N IS_TARGET_BOX) in
    let f := if (c <? cc)%Z then Z.lor f (Z.of_N HAS_TARGET_CHILD_BOXES) else f in
    Store LFlags (z i) f Finish))).

(** local_tree.py:336-372 and 408-424: what generate_local_tree does on the device of one rank.
    Sources have no extents (for those, line 357 reads an attribute that does not exist).  Result:
    the indices of the local sources and targets; [None]: see [ancestor_rounds]. *)
Definition local_tree_program : dhost (option (list nat * list nat)) :=
  masks_program (Ret None)
  (local_program Sources false PointMask (fun src_idx =>
   local_program Targets (ds_have_extent D) RespMask (fun tgt_idx =>
   elementwise nb LFlags [Flags] copy_of (Launch nb modify_flags_item
   (Ret (Some (src_idx, tgt_idx))))))).
End Host.
