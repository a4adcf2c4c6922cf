(** The traversal builder as it runs on the device: the kernels of boxtree/traversal.py as
    programs of single loads (and entries appended to lists, ListBuilder.v), and
    FMMTraversalBuilder.__call__ as the host program launching them (Device.v).

    Conventions as in BuildDevice.v: private variables of a work item are arguments of the program
    that follows; coordinates are integers in an arbitrary unit; the arithmetic on private
    variables (the adjacency and separation tests) is that of Traversal.v, applied to the values
    that were loaded; an access outside of a private array (the stack of the tree walk) is written
    as an access outside of a global array ([overrun]). *)
From Coq Require Import List Arith ZArith NArith Bool.
From Verif Require Import Base Tree Walk Traversal Kernel Device ListBuilder.
Import ListNotations.

(** the lists, traversal.py:1352-1640 and 2030-2040 *)
Inductive lname :=
| SourceParentBoxes | SourceBoxes | TargetOrParentBoxes | TargetBoxes
| SameLevel                         (* same_level_non_well_sep_boxes *)
| NeighborSources                   (* neighbor_source_boxes *)
| SepSiblings                       (* from_sep_siblings *)
| SepSmaller (level : nat)          (* from_sep_smaller_by_level[level] *)
| SepCloseSmaller                   (* from_sep_close_smaller *)
| SepBigger                         (* from_sep_bigger *)
| SepCloseBiggerRaw                 (* from_sep_close_bigger, indexed by target_or_target_parent_boxes *)
| SepCloseBigger                    (* from_sep_close_bigger *)
| Merged                            (* neighbor_source_boxes after merge_close_lists *)
| Peers                             (* peer_lists of area_query.py *)
| Leaves.                           (* leaves_near_ball of area_query.py *)
(** arrays of the tree (boxtree/tree.py:298-520), and intermediate ones *)
Inductive tarray :=
| BoxCenters                        (* box_centers, shape (dimensions, aligned_nboxes) *)
| BoxLevels                         (* box_levels *)
| BoxChildren                       (* box_child_ids, shape (2**dimensions, aligned_nboxes) *)
| BoxParents                        (* box_parent_ids *)
| BoxFlags                          (* box_flags *)
| LevelStartBoxNrs                  (* level_start_box_nrs *)
| SourceMask | SourceParentMask     (* source_boxes_mask, source_parent_boxes_mask *)
| TargetMin | TargetMax             (* box_target_bounding_box_min/max, shape (dimensions, aligned_nboxes) *)
| SourceCounts                      (* box_source_counts_cumul *)
| ListLevelStarts (l : lname)       (* list_level_start_box_nrs of a list of boxes *)
| SepSmallerTargets (level : nat)   (* target_boxes_sep_smaller_by_source_level[level] *)
| ReverseIndex                      (* reverse_index_array(target_or_target_parent_boxes) *)
| OutputToInput                     (* output_to_input_box *)
| NewCounts                         (* new_counts *)
| BallCoord (axis : nat)            (* ball_centers[axis] of area_query.py *)
| BallRadii                         (* ball_radii *)
| ExpandedStarts.                   (* expanded_starts *)
Definition lname_eq (a b : lname) : {a = b} + {a <> b}.
Proof. decide equality. apply Nat.eq_dec. Defined.
Definition tarray_eq (a b : tarray) : {a = b} + {a <> b}.
Proof. decide equality; solve [apply Nat.eq_dec|apply lname_eq]. Defined.
Notation varr := (larr tarray lname).
Definition varr_eq : forall a b : varr, {a = b} + {a <> b} := larr_eq tarray lname tarray_eq lname_eq.
Notation vgen := (gen tarray lname).
Notation z := Z.of_nat.

(** Arguments of the traversal builder that are not arrays, and constants compiled into the
    kernels: traversal.py:1985-2026 *)
Record scalars := mkScalars {
  s_dim : nat; s_nlevels : nat; s_nboxes : nat; s_root_extent : Z;
  s_n_away : nat;                                 (* well_sep_is_n_away *)
  s_sources_are_targets : bool;
  s_source_mask : bool; s_parent_mask : bool;     (* the masks are not None *)
  s_ext : bool;                                   (* targets_have_extent *)
  s_stick_num : Z; s_stick_den : Z; s_eps_num : Z; s_eps_den : Z;
  s_crit : sep_crit; s_min_nsources : nat
}.

Section Kernels.
Variable S : scalars.
(** traversal.py:1621 of tree_build.py: the arrays with two dimensions have rows of this length *)
Definition aligned : nat := (s_nboxes S + 31) / 32 * 32.
Definition nch : nat := 2 ^ s_dim S.
(** traversal.py:2003-2006 *)
Definition stack_room : nat := (s_nlevels S + 4) / 5 * 5.
Definition tgt_list : lname := if s_sources_are_targets S then SourceBoxes else TargetBoxes.

(** the tests of Traversal.v for a target box and a source box of which centers and levels have
    been loaded *)
Definition pair_tree (ct : nat -> Z) (lt : nat) (cs : nat -> Z) (ls : nat) : tree := {|
  dim := s_dim S; nlevels := s_nlevels S; nboxes := s_nboxes S; root_extent := s_root_extent S;
  box_center := fun b => if b =? 0 then ct else cs; box_level := fun b => if b =? 0 then lt else ls;
  box_parent := fun _ => 0; box_child := fun _ _ => 0; box_flags := fun _ => 0%N |}.
Definition near_n ct lt cs ls : bool := is_adj_nbhd (pair_tree ct lt cs ls) ct lt (s_n_away S) cs ls.
Definition near ct lt cs ls : bool := is_adj (pair_tree ct lt cs ls) ct lt cs ls.
Definition extent_scalars (center2 radius2 : nat -> Z) : extent_info := {|
  targets_have_extent := s_ext S; stick_out_num := s_stick_num S; stick_out_den := s_stick_den S;
  eps_num := s_eps_num S; eps_den := s_eps_den S; from_sep_smaller_crit := s_crit S;
  tgt_ext_center2 := fun _ => center2; tgt_ext_radius2 := fun _ => radius2;
  box_source_counts_cumul := fun _ => 0; from_sep_smaller_min_nsources_cumul := s_min_nsources S |}.

(** ** Building blocks *)
Definition overrun : vgen := GLoad (Base BoxFlags) (-1)%Z (fun _ => GEnd).
Fixpoint gloads (l : list (varr * Z)) (next : list Z -> vgen) : vgen :=
  match l with
  | [] => next []
  | (a, k) :: l' => GLoad a k (fun v => gloads l' (fun vs => next (v :: vs)))
  end.
Fixpoint gseq {X} (l : list X) (body : X -> vgen -> vgen) (after : vgen) : vgen :=
  match l with [] => after | x :: l' => body x (gseq l' body after) end.
(** traversal.py:161-175 load_center *)
Definition load_row (a : tarray) (b : Z) (next : (nat -> Z) -> vgen) : vgen :=
  gloads (map (fun i => (Base a, (z aligned * z i + b)%Z)) (seq 0 (s_dim S))) (fun vs => next (fun i => nth i vs 0%Z)).
Definition load_center (b : Z) (next : (nat -> Z) -> vgen) : vgen := load_row BoxCenters b next.
Definition load_level (b : Z) (next : nat -> vgen) : vgen := GLoad (Base BoxLevels) b (fun v => next (Z.to_nat v)).
Definition load_flags (b : Z) (next : N -> vgen) : vgen := GLoad (Base BoxFlags) b (fun v => next (Z.to_N v)).
Definition put_if (c : bool) (l : lname) (v : Z) (next : vgen) : vgen := if c then GPut l v next else next.
(** for (i = l_starts[b]; i < l_starts[b+1]; ++i) { box = l_lists[i]; ... } *)
Fixpoint entries_loop (l : lname) (n : nat) (i : Z) (body : Z -> vgen -> vgen) (after : vgen) : vgen :=
  match n with
  | 0 => after
  | Datatypes.S n' => GLoad (Lists l) i (fun v => body v (entries_loop l n' (i + 1) body after))
  end.
Definition over_list (l : lname) (b : Z) (body : Z -> vgen -> vgen) (after : vgen) : vgen :=
  GLoad (Starts l) b (fun start => GLoad (Starts l) (b + 1) (fun stop =>
  entries_loop l (Z.to_nat (stop - start)) start body after)).

(** traversal.py:98-160: the walk over the children of a box.  [visit child stack_size next] is
    what is done at a child; it goes on with [next true] if the child is pushed.  [room] is the
    length of the stack. *)
Fixpoint advance (stack : list (Z * nat)) (par : Z) (mor : nat) : option (list (Z * nat) * Z * nat) :=
  if Datatypes.S mor <? nch then Some (stack, par, Datatypes.S mor)
  else match stack with [] => None | (p, m) :: s => advance s p m end.
Fixpoint gwalk (room : nat) (visit : Z -> nat -> (bool -> vgen) -> vgen) (after : vgen) (fuel : nat) (stack : list (Z * nat)) (par : Z) (mor : nat) : vgen :=
  match fuel with
  | 0 => overrun
  | Datatypes.S fuel' =>
      GLoad (Base BoxChildren) (z mor * z aligned + par) (fun child =>
      visit child (length stack) (fun push =>
        if push then
          if length stack <? room then gwalk room visit after fuel' ((par, mor) :: stack) child 0 else overrun
        else match advance stack par mor with
             | None => after
             | Some (s, p, m) => gwalk room visit after fuel' s p m
             end))
  end.
Definition walk_room (room : nat) (start : Z) (visit : Z -> nat -> (bool -> vgen) -> vgen) (after : vgen) : vgen :=
  gwalk room visit after (nch * s_nboxes S) [] start 0.
Definition walk_from (start : Z) (visit : Z -> nat -> (bool -> vgen) -> vgen) (after : vgen) : vgen := walk_room stack_room start visit after.

(** ** The kernels *)
(** traversal.py:326-355 *)
Definition masked (has_mask : bool) (mask : tarray) (b : Z) (l : lname) (next : vgen) : vgen :=
  if has_mask then GLoad (Base mask) b (fun m => put_if (negb (m =? 0)%Z) l b next) else GPut l b next.
Definition boxes_gen (i : nat) : vgen :=
  load_flags (z i) (fun f =>
  (fun next => if flag f IS_SOURCE_BOX then masked (s_source_mask S) SourceMask (z i) SourceBoxes next else next)
  ((fun next => if flag f HAS_SOURCE_CHILD_BOXES then masked (s_parent_mask S) SourceParentMask (z i) SourceParentBoxes next else next)
  (put_if (negb (s_sources_are_targets S) && flag f IS_TARGET_BOX) TargetBoxes (z i)
  (put_if (flag f (N.lor HAS_TARGET_CHILD_BOXES IS_TARGET_BOX)) TargetOrParentBoxes (z i) GEnd)))).
(** traversal.py:398-464 *)
Definition same_level_gen (i : nat) : vgen :=
  load_center (z i) (fun center =>
  if (z i =? 0)%Z then GEnd else
  load_level (z i) (fun level =>
  walk_from 0 (fun c ssz k =>
    if (c =? 0)%Z then k false else
    load_center c (fun cc => load_level c (fun lc =>
    if near_n center level cc lc then
      if (ssz + 1 =? level) && negb (c =? z i)%Z then GPut SameLevel c (k false) else k true
    else k false))) GEnd)).
(** traversal.py:470-550 *)
Definition list1_gen (i : nat) : vgen :=
  GLoad (Lists tgt_list) (z i) (fun box =>
  load_center box (fun center => load_level box (fun level =>
  load_flags 0 (fun rf => put_if (flag rf IS_SOURCE_BOX) NeighborSources 0
  (walk_from 0 (fun c ssz k =>
    if (c =? 0)%Z then k false else
    load_center c (fun cc => load_level c (fun lc =>
    if near center level cc lc then
      load_flags c (fun f => put_if (flag f IS_SOURCE_BOX) NeighborSources c (k (flag f HAS_SOURCE_CHILD_BOXES)))
    else k false))) GEnd))))).
(** traversal.py:556-601 *)
Definition list2_gen (i : nat) : vgen :=
  GLoad (Lists TargetOrParentBoxes) (z i) (fun box =>
  load_center box (fun center => load_level box (fun level =>
  GLoad (Base BoxParents) box (fun parent =>
  if (parent =? box)%Z then GEnd else
  over_list SameLevel parent (fun nf next =>
    gseq (seq 0 nch) (fun m nx =>
      GLoad (Base BoxChildren) (z m * z aligned + nf) (fun sib =>
      if (sib =? 0)%Z then nx else
      load_center sib (fun cs => load_level sib (fun ls =>
      put_if (negb (near_n center level cs ls)) SepSiblings sib nx)))) next) GEnd)))).
(** traversal.py:607-875; [slev] = from_sep_smaller_source_level, [None] = -1 *)
Definition list3_visit_gen (ct : nat -> Z) (lt : nat) (c2 r2 : nat -> Z) (slev : option nat) (c : Z) (ssz : nat) (k : bool -> vgen) : vgen :=
  load_flags c (fun f =>
  if negb (c =? 0)%Z && flag f (N.lor IS_SOURCE_BOX HAS_SOURCE_CHILD_BOXES) then
    load_center c (fun cc => load_level c (fun lc =>
    if near ct lt cc lc then
      k (flag f HAS_SOURCE_CHILD_BOXES && (match slev with Some l => lc <=? l | None => true end))
    else
      let meets := if s_ext S then meets_sep_smaller (pair_tree ct lt cc lc) (extent_scalars c2 r2) 0 1 else true in
      let decide force_close :=
        if meets && negb force_close then
          put_if (match slev with Some l => l =? lc | None => false end) (SepSmaller (match slev with Some l => l | None => 0 end)) c (k false)
        else if s_ext S then
          put_if (flag f IS_SOURCE_BOX && (match slev with None => true | _ => false end)) SepCloseSmaller c (k (flag f HAS_SOURCE_CHILD_BOXES))
        else k false in
      if s_ext S then GLoad (Base SourceCounts) c (fun v => decide (v <? z (s_min_nsources S))%Z) else decide false))
  else k false).
Definition list3_gen (slev : option nat) (i : nat) : vgen :=
  GLoad (Lists tgt_list) (z i) (fun tgt =>
  load_center tgt (fun ct => load_level tgt (fun lt =>
  (fun go => match s_ext S, s_crit S with
             | true, precise_linf => load_row TargetMin tgt (fun mn => load_row TargetMax tgt (fun mx =>
                 go (fun a => (mn a + mx a)%Z) (fun a => (mx a - mn a)%Z)))
             | _, _ => go (fun _ => 0%Z) (fun _ => 0%Z)
             end)
  (fun c2 r2 =>
   over_list SameLevel tgt (fun nws next =>
     if (nws =? tgt)%Z then next
     else walk_from nws (list3_visit_gen ct lt c2 r2 slev) next) GEnd)))).
(** traversal.py:1028-1142 *)
Definition list4_entry_gen (ct : nat -> Z) (lt : nat) (cp : nat -> Z) (tf : N) (wl : nat) (b : Z) (next : vgen) : vgen :=
  let meets c l cb := meets_sep_bigger (pair_tree c l cb wl) (extent_scalars (fun _ => 0%Z) (fun _ => 0%Z)) c l cb wl in
  load_flags b (fun f =>
  if flag f IS_SOURCE_BOX then
    load_center b (fun cb =>
    if near ct lt cb wl then next
    else if s_ext S && negb (meets ct lt cb) then put_if (flag tf IS_TARGET_BOX) SepCloseBiggerRaw b next
    else if negb (near cp (lt - 1) cb wl) && (if 1 <? s_n_away S then wl <? lt else true) then
      put_if (s_ext S && negb (meets cp (lt - 1) cb)) SepBigger b next
    else GPut SepBigger b next)
  else next).
(** traversal.py:1014-1144 *)
Fixpoint list4_loop_gen (ct : nat -> Z) (lt : nat) (cp : nat -> Z) (tf : N) (wl : nat) (cur : Z) : vgen :=
  match wl with
  | 0 => GEnd
  | Datatypes.S wl' => over_list SameLevel cur (list4_entry_gen ct lt cp tf wl)
      (GLoad (Base BoxParents) cur (fun p => list4_loop_gen ct lt cp tf wl' p))
  end.
(** traversal.py:975-1145 *)
Definition list4_gen (i : nat) : vgen :=
  GLoad (Lists TargetOrParentBoxes) (z i) (fun tgt =>
  load_center tgt (fun ct => load_level tgt (fun lt =>
  if lt =? 0 then GEnd else
  GLoad (Base BoxParents) tgt (fun par =>
  load_center par (fun cp => load_flags tgt (fun tf =>
  if s_n_away S =? 1 then list4_loop_gen ct lt cp tf (lt - 1) par else list4_loop_gen ct lt cp tf lt tgt)))))).

(** ** Level starts: traversal.py:361-392 *)
Definition level_start_item_dev (l : lname) (i : nat) : item varr :=
  Load (Lists l) (z i) (fun box => Load (Base BoxLevels) box (fun level =>
  match i with
  | 0 => Store (Base (ListLevelStarts l)) level (z i) Finish
  | Datatypes.S i' => Load (Lists l) (z i') (fun prev => Load (Base LevelStartBoxNrs) level (fun start =>
      if (prev <? start)%Z && (start <=? box)%Z then Store (Base (ListLevelStarts l)) level (z i) Finish else Finish))
  end)).
Fixpoint peeks {R} (a : varr) (ks : list nat) (next : list Z -> host varr R) : host varr R :=
  match ks with
  | [] => next []
  | k :: ks' => Peek a (z k) (fun v => peeks a ks' (fun vs => next (v :: vs)))
  end.
(** traversal.py:2067-2098 *)
Definition level_starts_prog {R} (l : lname) (len : nat) (next : list nat -> host varr R) : host varr R :=
  Alloc (Base (ListLevelStarts l)) (z (s_nlevels S + 1))
  (Assign (Base (ListLevelStarts l)) 0 (repeat (z len) (s_nlevels S + 1))
  (Launch len (level_start_item_dev l)
  (peeks (Base (ListLevelStarts l)) (seq 0 (s_nlevels S + 1)) (fun vs =>
   let r := map Z.to_nat vs in
   next (backfill len (firstn (s_nlevels S) r) ++ skipn (s_nlevels S) r))))).

(** ** Merging of lists: traversal.py:1153-1344 *)
(** a[idx] of pyopencl arrays (take): the elements of [a] at the first [n] indices in [idx] *)
Definition take {R} (a idx res : varr) (n : nat) (next : host varr R) : host varr R :=
  Alloc res (z n) (Launch n (fun i => Load idx (z i) (fun k => Load a k (fun v => Store res (z i) v Finish))) next).
(** boxtree/tools.py:81-109 *)
Definition reverse_index_prog {R} (idx : varr) (n target_size : nat) (next : host varr R) : host varr R :=
  Alloc (Base ReverseIndex) (z target_size)
  (Launch n (fun i => Load idx (z i) (fun k => Store (Base ReverseIndex) k (z i) Finish)) next).
(** traversal.py:1190-1197: start and count of each of the input lists *)
Fixpoint input_rows (ins : list lname) (b : Z) (next : list (lname * Z * Z) -> item varr) : item varr :=
  match ins with
  | [] => next []
  | l :: r => Load (Starts l) b (fun s => Load (Starts l) (b + 1) (fun e => input_rows r b (fun rows => next ((l, s, e - s)%Z :: rows))))
  end.
(** traversal.py:1199-1208 *)
Definition merge_count_item (ins : list lname) (i : nat) : item varr :=
  Load (Base OutputToInput) (z i) (fun b => input_rows ins b (fun rows =>
  let count := Store (Base NewCounts) (z i + 1) (zsum (map snd rows)) Finish in
  if i =? 0 then Store (Base NewCounts) 0 0 count else count)).
(** traversal.py:1209-1219 *)
Fixpoint copy_row (l res : lname) (n : nat) (s cur : Z) (next : Z -> item varr) : item varr :=
  match n with
  | 0 => next cur
  | Datatypes.S n' => Load (Lists l) s (fun v => Store (Lists res) cur v (copy_row l res n' (s + 1) (cur + 1) next))
  end.
Fixpoint copy_rows (rows : list (lname * Z * Z)) (res : lname) (cur : Z) : item varr :=
  match rows with
  | [] => Finish
  | (l, s, n) :: r => copy_row l res (Z.to_nat n) s cur (fun cur' => copy_rows r res cur')
  end.
Definition merge_copy_item (ins : list lname) (res : lname) (i : nat) : item varr :=
  Load (Base OutputToInput) (z i) (fun b => input_rows ins b (fun rows =>
  Load (Starts res) (z i) (fun cur => copy_rows rows res cur))).
(** traversal.py:1310-1344; cumsum is an inclusive scan.  output_to_input_box has been found. *)
Definition merge_prog {R} (ins : list lname) (res : lname) (n : nat) (next : host varr R) : host varr R :=
  Alloc (Base NewCounts) (z n + 1)
  (Launch n (merge_count_item ins)
  (sum_scan (Base NewCounts) (fun c => c) (n + 1)
  (Alloc (Starts res) (z n + 1)
  (Launch (n + 1) (fun i => Load ScanOut (z i) (fun s => Store (Starts res) (z i) s Finish))
  (Peek (Starts res) (z n) (fun total =>
   Alloc (Lists res) total (Assign (Lists res) 0 (repeat 999999999%Z (Z.to_nat total))
  (Launch n (merge_copy_item ins res) next)))))))).

(** ** The traversal: traversal.py:2030-2291 *)
(** the four arrays of level starts, that of the targets third *)
Record host_result := mkResult {
  h_source : list nat; h_source_parent : list nat; h_target : list nat; h_target_or_parent : list nat
}.
Definition box_lists : list (lname * bool) :=
  [(SourceParentBoxes, false); (SourceBoxes, false); (TargetOrParentBoxes, false)]
  ++ (if s_sources_are_targets S then [] else [(TargetBoxes, false)]).
(** traversal.py:2238-2273 *)
Definition bigger_prog {R} (ntb nttpb : nat) (next : host varr R) : host varr R :=
  build_lists lname_eq ((SepBigger, false) :: (if s_ext S then [(SepCloseBiggerRaw, false)] else [])) nttpb list4_gen (fun _ =>
  if s_ext S then
    reverse_index_prog (Lists TargetOrParentBoxes) nttpb (s_nboxes S)
    (take (Base ReverseIndex) (Lists tgt_list) (Base OutputToInput) ntb
    (merge_prog [SepCloseBiggerRaw] SepCloseBigger ntb next))
  else next).
(** traversal.py:2207-2232 *)
Definition smaller_prog {R} (ntb : nat) (next : host varr R) : host varr R :=
  each (seq 0 (s_nlevels S)) (fun lev nx =>
    build_lists lname_eq [(SepSmaller lev, true)] ntb (list3_gen (Some lev)) (fun b =>
    take (Lists tgt_list) (Nonempty (SepSmaller lev)) (Base (SepSmallerTargets lev)) (num_lists (b (SepSmaller lev))) nx))
  (if s_ext S then build_lists lname_eq [(SepCloseSmaller, false)] ntb (list3_gen None) (fun _ => next) else next).
Definition traversal_program : host varr host_result :=
  build_lists lname_eq box_lists (s_nboxes S) boxes_gen (fun b =>
  let ntb := num_entries (b tgt_list) in
  let nttpb := num_entries (b TargetOrParentBoxes) in
  level_starts_prog SourceBoxes (num_entries (b SourceBoxes)) (fun ls =>
  level_starts_prog SourceParentBoxes (num_entries (b SourceParentBoxes)) (fun lsp =>
  level_starts_prog tgt_list ntb (fun lt =>
  level_starts_prog TargetOrParentBoxes nttpb (fun ltp =>
  build_lists lname_eq [(SameLevel, false)] (s_nboxes S) same_level_gen (fun _ =>
  build_lists lname_eq [(NeighborSources, false)] ntb list1_gen (fun _ =>
  build_lists lname_eq [(SepSiblings, false)] nttpb list2_gen (fun _ =>
  smaller_prog ntb (bigger_prog ntb nttpb (Ret (mkResult ls lsp lt ltp))))))))))).
(** traversal.py:1650-1693 merge_close_lists; output_to_input_box = arange(len(target_boxes)) *)
Definition merge_close_program (ntb : nat) : host varr unit :=
  Alloc (Base OutputToInput) (z ntb) (Assign (Base OutputToInput) 0 (map z (seq 0 ntb))
  (merge_prog [NeighborSources; SepCloseSmaller; SepCloseBigger] Merged ntb (Ret tt))).
End Kernels.
