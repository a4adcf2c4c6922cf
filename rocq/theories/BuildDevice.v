(** The level loop of the tree builder as it runs on the device: the kernels of
    boxtree/tree_build_kernels.py as programs of single loads and stores (Kernel.v), and
    TreeBuilder.__call__ (boxtree/tree_build.py:512-1233) as the host program launching them
    (Device.v).

    Conventions.  Arrays are named after the Python variables; an array of structs is one
    array per field.  Private variables of a work item are arguments of the program that
    follows.  Coordinates and sizes are integers in an arbitrary unit as in TreeBuild.v, whose
    functions are used for the arithmetic on private variables.  An access outside of a
    private array (the stack of the tree walk) is written as an access outside of a global
    array ([overrun]).  A scan is a launch evaluating the input expressions, the scan itself
    (Scan.v), and a launch running the output statements.  Debug code is left out. *)
From Coq Require Import List Arith ZArith NArith Lia Bool.
From Verif Require Import Base Tree Walk Traversal TreeBuild Kernel Device.
Import ListNotations.

(** Fields of the morton count struct, tree_build_kernels.py:158-190: [Cnt 0] is
    nonchild_srcntgts, [Cnt (S m)] is pcnt<m>, [Wt m] is pwt<m>. *)
Inductive field := Cnt (k : nat) | Wt (m : nat).

(** tree_build.py:512-647 and the arguments of the kernels (tree_build_kernels.py:1502-1546) *)
Inductive array :=
| UserIds | NewUserIds             (* user_srcntgt_ids, new_user_srcntgt_ids *)
| BoxIds | NewBoxIds               (* srcntgt_box_ids, new_srcntgt_box_ids *)
| StartFlags                       (* box_start_flags *)
| MortonNrs                        (* morton_nrs *)
| MortonBin (f : field)            (* morton_bin_counts *)
| Coords (a : nat)                 (* srcntgts, one array per axis *)
| Radii                            (* srcntgt_radii *)
| RefineWeights                    (* refine_weights *)
| SplitIds                         (* split_box_ids *)
| BoxBin (f : field)               (* box_morton_bin_counts *)
| Starts                           (* box_srcntgt_starts *)
| Counts                           (* box_srcntgt_counts_cumul *)
| Parents                          (* box_parent_ids *)
| Children (m : nat)               (* box_child_ids, one array per morton number *)
| Centers (a : nat)                (* box_centers, one array per axis *)
| Levels                           (* box_levels *)
| HasChildren                      (* box_has_children *)
| ForceSplit                       (* force_split_box *)
| LevelStarts                      (* level_start_box_nrs_dev *)
| LevelUsed                        (* level_used_box_counts_dev *)
| Oversize                         (* have_oversize_split_box *)
| UpperSplit                       (* have_upper_level_split_box *)
| ScanIn (f : field) | ScanStart | ScanOut (f : field)   (* data inside a scan *)
| DstIds                           (* dst_box_id *)
| Copy.                            (* result of a reallocation *)

Definition field_eq (f g : field) : {f = g} + {f <> g}.
Proof. decide equality; apply Nat.eq_dec. Defined.
Definition array_eq (a b : array) : {a = b} + {a <> b}.
Proof. decide equality; solve [apply Nat.eq_dec|apply field_eq]. Defined.

Notation prog := (item array).

(** the value of a field of a struct that was loaded field by field *)
Fixpoint field_of (fs : list field) (vs : list Z) (f : field) : Z :=
  match fs, vs with
  | g :: fs', v :: vs' => if field_eq g f then v else field_of fs' vs' f
  | _, _ => 0%Z
  end.
Definition load_struct (mk : field -> array) (fs : list field) (k : Z) (next : (field -> Z) -> prog) : prog :=
  load_all (map (fun f => (mk f, k)) fs) (fun vs => next (field_of fs vs)).
Definition store_struct (mk : field -> array) (fs : list field) (k : Z) (s : field -> Z) (next : prog) : prog :=
  for_each fs (fun f nx => Store (mk f) k (s f) nx) next.
Definition bool_z (b : bool) : Z := if b then 1%Z else 0%Z.
Definition overrun : prog := Load Copy (-1)%Z (fun _ => Finish).

Section Kernels.
Variable inp : input.
Notation nch := (nchild inp).
Notation np := (npart inp).
Notation z := Z.of_nat.
Variable level : nat.

(** tree_build_kernels.py:158-190: nonchild_srcntgts exists only if there are extents *)
Definition counts_only : list field :=
  (if have_extent inp then [Cnt 0] else []) ++ map (fun m => Cnt (S m)) (seq 0 nch).
Definition weights_only : list field := map Wt (seq 0 nch).
Definition fields : list field := counts_only ++ weights_only.
Definition axes : list nat := seq 0 (idim inp).

(** *** Morton scan: tree_build_kernels.py:1553-1571 *)
(** particle data as loaded by a work item *)
Definition loaded (xs : list Z) (r : Z) : input := {|
  idim := idim inp; npart := np; nsrc := nsrc inp; same := same inp; coord := fun _ a => nth a xs 0%Z;
  ext := match ext inp with
         | None => None
         | Some e => Some (mkExtents (fun _ => r) (sof_num e) (sof_den e) (extent_norm e))
         end;
  weight := weight inp; max_weight := max_weight inp; bbox_min := bbox_min inp; bbox_max := bbox_max inp;
  build_kind := build_kind inp; nlevels_max := nlevels_max inp; skip_prune := skip_prune inp;
  nboxes_guess := nboxes_guess inp; lr_lookbehind := lr_lookbehind inp |}.
(** scan_t_from_particle, tree_build_kernels.py:308-470, and the segment start flag *)
Definition morton_input (i : nat) : prog :=
  Load StartFlags (z i) (fun flag =>
  Store ScanStart (z i) flag (
  Load BoxIds (z i) (fun b =>
  Load Levels b (fun lev =>
  Load UserIds (z i) (fun u =>
  (fun body => if have_extent inp then Load Radii u body else body 0%Z) (fun r =>
  load_all (map (fun a => (Coords a, u)) axes) (fun xs =>
  let nr := (z (bin_key (morton (loaded xs r) 0 (Z.to_nat lev))) - 1)%Z in
  for_each counts_only (fun f nx =>
    Store (ScanIn f) (z i) (match f with Cnt k => bool_z (nr =? z k - 1)%Z | Wt _ => 0%Z end) nx) (
  for_each (seq 0 nch) (fun m nx =>
    if (nr =? z m)%Z then Load RefineWeights u (fun w => Store (ScanIn (Wt m)) (z i) w nx)
    else Store (ScanIn (Wt m)) (z i) 0%Z nx) (
  Store MortonNrs (z i) nr Finish))))))))).
(** scan_t_add, tree_build_kernels.py:262-302 *)
Definition morton_scan_op (f : field) : Z -> Z -> Z := match f with Cnt _ => Z.add | Wt _ => add_sat end.
Definition morton_scan : scan array :=
  mkScan ScanStart (map (fun f => (ScanIn f, ScanOut f, morton_scan_op f)) fields).
(** tree_build_kernels.py:480-508 *)
Definition count_sum (s : field -> Z) : Z := zsum (map (fun k => s (Cnt k)) (seq 0 (S nch))).
Definition morton_output (i : nat) : prog :=
  load_struct ScanOut fields (z i) (fun it =>
  let my_id := (-1 + count_sum it)%Z in
  store_struct MortonBin fields (z i) it (
  Load BoxIds (z i) (fun b =>
  Load Counts b (fun count =>
  if (my_id + 1 =? count)%Z then store_struct BoxBin fields b it Finish else Finish)))).

(** *** Split box id scan: tree_build_kernels.py:514-640 *)
Definition needs_split (b lev nonchild : Z) (wts : list Z) (next : bool -> prog) : prog :=
  let forced := if level_restrict inp then Load ForceSplit b (fun v => next (negb (v =? 0)%Z)) else next false in
  let either (r : bool) := if r then next true else forced in
  if (lev + 1 =? z level)%Z then
    if adaptive inp then either (max_weight inp <? fold_left add_sat wts 0%Z)%Z
    else Load Counts b (fun c => either (0 <=? c - nonchild)%Z)
  else either false.
Definition split_input (i : nat) : prog :=
  Load Levels (z i) (fun lev =>
  (fun body => if i =? 0 then body 1%Z
               else Load Levels (z i) (fun l1 => Load Levels (z i - 1)%Z (fun l0 => body (bool_z (negb (l1 =? l0)%Z)))))
  (fun flag => Store ScanStart (z i) flag (
  Load LevelStarts lev (fun first =>
  (fun body => if (z i =? first)%Z
               then Load LevelStarts (lev + 1)%Z (fun s1 => Load LevelUsed (lev + 1)%Z (fun u1 => body (s1 + u1)%Z))
               else body 0%Z) (fun r0 =>
  (fun body => if have_extent inp then Load (BoxBin (Cnt 0)) (z i) body else body 0%Z) (fun nonchild =>
  load_all (map (fun m => (BoxBin (Wt m), z i)) (seq 0 nch)) (fun wts =>
  needs_split (z i) lev nonchild wts (fun sp =>
  if sp then
    Store HasChildren (z i) 1%Z (
    load_all (map (fun m => (BoxBin (Wt m), z i)) (seq 0 nch)) (fun wts' =>
    (fun body => if (max_weight inp <? fold_left Z.max wts' 0)%Z then Store Oversize 0%Z 1%Z body else body) (
    Store (ScanIn (Cnt 0)) (z i) (r0 + z nch)%Z Finish)))
  else Store (ScanIn (Cnt 0)) (z i) r0 Finish)))))))).
Definition split_scan : scan array := mkScan ScanStart [(ScanIn (Cnt 0), ScanOut (Cnt 0), Z.add)].
Definition split_output (i : nat) : prog :=
  Load (ScanOut (Cnt 0)) (z i) (fun v => Store SplitIds (z i) v Finish).

(** *** Box splitter: tree_build_kernels.py:646-711 *)
Definition split_test (b : Z) (next : bool -> prog) : prog :=
  let forced := if level_restrict inp then Load ForceSplit b (fun v => next (negb (v =? 0)%Z)) else next false in
  Load HasChildren b (fun h =>
  if (h =? 0)%Z then forced
  else Load Levels b (fun lev => if (lev + 1 =? z level)%Z then next true else forced)).
Definition split_child (ibox : nat) (cnt : field -> Z) (m : nat) (next : prog) : prog :=
  Load SplitIds (z ibox) (fun s =>
  let nb := (s - z nch + z m)%Z in
  Store Parents nb (z ibox) (
  Store (Children m) (z ibox) nb (
  Load Levels (z ibox) (fun lev =>
  Store Levels nb (lev + 1)%Z (
  Store Counts nb (cnt (Cnt (S m))) (
  (fun body => if (0 <? cnt (Cnt (S m)))%Z then
     Load Starts (z ibox) (fun s0 =>
     let ns := (s0 + zsum (map (fun k => cnt (Cnt k)) (seq 0 (S m))))%Z in
     Store StartFlags ns 1%Z (Store Starts nb ns body))
   else body) (
  for_each axes (fun a nx =>
    Load (Centers a) (z ibox) (fun x =>
    Store (Centers a) nb
      (x + morton_sign (idim inp) m a * (the_root_extent inp / i32_shl1 (1 + Z.to_nat (lev + 1))))%Z nx)) next))))))).
Definition splitter_item (ibox : nat) : prog :=
  split_test (z ibox) (fun sp =>
  if sp then load_struct BoxBin fields (z ibox) (fun cnt => for_each (seq 0 nch) (split_child ibox cnt) Finish)
  else Finish).

(** *** Particle renumberer: tree_build_kernels.py:717-819 *)
(** get_count, tree_build_kernels.py:717-741: binary search for the field *)
Fixpoint count_for_branch (d base : nat) (cnt : field -> Z) (nr : Z) : Z :=
  match d with
  | 0 => cnt (Cnt (S base))
  | S d' => if (nr <? z (base + 2 ^ d'))%Z then count_for_branch d' base cnt nr
            else count_for_branch d' (base + 2 ^ d') cnt nr
  end.
Definition get_count (cnt : field -> Z) (nr : Z) : Z :=
  if have_extent inp && (nr =? -1)%Z then cnt (Cnt 0) else count_for_branch (idim inp) 0 cnt nr.
Definition renumber_item (i : nat) : prog :=
  Load BoxIds (z i) (fun b =>
  split_test b (fun sp =>
  if sp then
    Load MortonNrs (z i) (fun nr =>
    load_struct BoxBin fields b (fun cnt =>
    load_struct MortonBin fields (z i) (fun mine =>
    Load Starts b (fun s0 =>
    let tgt := (s0 + get_count mine nr - 1 + (if (0 <=? nr)%Z then cnt (Cnt 0) else 0)
                + zsum (map (fun m => if (z m <? nr)%Z then cnt (Cnt (S m)) else 0) (seq 0 nch)))%Z in
    Load UserIds (z i) (fun u =>
    Store NewUserIds tgt u (
    Load SplitIds b (fun s =>
    Store NewBoxIds tgt (if have_extent inp && (nr =? -1)%Z then b else (s - z nch + nr)%Z) Finish)))))))
  else
    Load UserIds (z i) (fun u => Store NewUserIds (z i) u (Store NewBoxIds (z i) b Finish)))).

(** *** Reallocation and renumbering: tools.py:415-534 GappyCopyAndMapKernel with dst_indices,
    tools.py:540-590 MapValuesKernel (in place), tools.py:57-80 realloc_array *)
Definition gappy_item (a : array) (map_values : bool) (i : nat) : prog :=
  Load a (z i) (fun v =>
  (fun body => if map_values then Load DstIds v body else body v) (fun v' =>
  Load DstIds (z i) (fun k => Store Copy k v' Finish))).
Definition map_item (i : nat) : prog :=
  Load BoxIds (z i) (fun v => Load DstIds v (fun v' => Store BoxIds (z i) v' Finish)).
Definition copy_item (a : array) (i : nat) : prog := Load a (z i) (fun v => Store Copy (z i) v Finish).

(** *** Level restriction: tree_build_kernels.py:825-915 with the walk of traversal.py:99-160.
    [atomic_or] of a variable holding 0 or 1 with 1 is a store of 1.  A walk that does not
    end (out of fuel) and a push on a full stack are [overrun]s. *)
Definition geometry : tree := {|
  dim := idim inp; nlevels := 0; nboxes := 0; root_extent := the_root_extent inp;
  box_center := fun _ _ => 0%Z; box_level := fun _ => 0; box_parent := fun _ => 0;
  box_child := fun _ _ => 0; box_flags := fun _ => 0%N |}.
Fixpoint pop (stack : list (Z * nat)) (par : Z) (mor : nat) : option (list (Z * nat) * Z * nat) :=
  if S mor <? nch then Some (stack, par, S mor)
  else match stack with [] => None | (p, m) :: s => pop s p m end.
Section Walk.
Variables (cap : nat) (lev : nat) (box : Z).
Fixpoint restrict_walk (fuel : nat) (stack : list (Z * nat)) (par : Z) (mor : nat) : prog :=
  match fuel with
  | 0 => overrun
  | S fuel' =>
    let advance := match pop stack par mor with
                   | None => Finish
                   | Some (s, p, m) => restrict_walk fuel' s p m
                   end in
    let hit :=
      Store ForceSplit box 1%Z (
      Store UpperSplit 0%Z 1%Z (
      (* continue_walk = false, which walk_advance overwrites at the end of a family *)
      if S mor <? nch then Finish else advance)) in
    let child_level := length stack + 1 in
    Load (Children mor) par (fun c =>
    if (c =? 0)%Z then advance
    else if (c =? box)%Z then advance
    else
      load_all (map (fun a => (Centers a, box)) axes) (fun xb =>
      load_all (map (fun a => (Centers a, c)) axes) (fun xc =>
      if is_adj geometry (fun a => nth a xc 0%Z) child_level (fun a => nth a xb 0%Z) lev then
        Load HasChildren c (fun h =>
        if (h =? 0)%Z then
          if child_level =? 2 + lev then hit
          else if child_level =? 1 + lev
          then Load ForceSplit c (fun v => if (v =? 0)%Z then advance else hit)
          else advance
        else if child_level <=? 1 + lev then
          if length stack <? cap then restrict_walk fuel' ((par, mor) :: stack) c 0 else overrun
        else advance)
      else advance)))
  end.
End Walk.
Definition restrict_item (nboxes first lev : nat) (i : nat) : prog :=
  Load HasChildren (z (first + i)) (fun h =>
  if (h =? 0)%Z
  then restrict_walk (restrict_stack level) lev (z (first + i)) (nch * nboxes) [] 0%Z 0
  else Finish).
End Kernels.

(** ** Host program *)
Notation program := (host array).

(** Python variables of the level loop that live on the host *)
Record hstate := mkHost {
  h_level : nat;           (* level *)
  h_lstart : list nat;     (* level_start_box_nrs *)
  h_used : list nat;       (* level_used_box_counts *)
  h_leaves : list nat;     (* level_leaf_counts *)
  h_final : bool;          (* final_level_restrict_iteration *)
  h_guess : nat            (* nboxes_guess *)
}.
(** what a trip through the loop leads to: [continue], [break] or an exception *)
Inductive trip_result := Again (h : hstate) | Left (h : hstate) | Raised (e : error).

Section Host.
Variable inp : input.
Notation nch := (nchild inp).
Notation np := (npart inp).
Notation z := Z.of_nat.

(** The functions of TreeBuild.v computing the sizes of the levels (tree_build.py:774-855,
    list arithmetic on the host) look at these fields of the state only. *)
Definition host_state (h : hstate) : state := {|
  s_level := h_level h; s_user := fun _ => 0; s_box := fun _ => 0; s_start_flag := fun _ => false;
  s_bins := fun _ _ => 0; s_wts := fun _ _ => 0%Z; s_start := fun _ => 0; s_cumul := fun _ => 0;
  s_parent := fun _ => 0; s_child := fun _ _ => 0; s_center := fun _ _ => 0%Z; s_blevel := fun _ => 0;
  s_has_children := fun _ => false; s_force := fun _ => false;
  s_lstart := h_lstart h; s_used := h_used h; s_leaves := h_leaves h;
  s_oversize := false; s_final := h_final h; s_guess := h_guess h |}.

Definition box_bin_arrays : list array := map BoxBin (fields inp).
Definition center_arrays : list array := map Centers (axes inp).
Definition child_arrays : list array := map Children (seq 0 nch).

(** tree_build.py:725-735 *)
Definition morton_scan_program {R} (next : program R) : program R :=
  each (fields inp) (fun f nx => Alloc (ScanIn f) (z np) nx) (
  each (fields inp) (fun f nx => Alloc (ScanOut f) (z np) nx) (
  Alloc ScanStart (z np) (
  Launch np (morton_input inp) (
  Scan (morton_scan inp) (
  Launch np (morton_output inp) next))))).
(** tree_build.py:737-760 *)
Definition split_scan_program {R} (level n : nat) (next : program R) : program R :=
  Alloc (ScanIn (Cnt 0)) (z n) (Alloc (ScanOut (Cnt 0)) (z n) (Alloc ScanStart (z n) (
  Launch n (split_input inp level) (
  Scan split_scan (
  Launch n split_output next))))).
(** tree_build.py:766-772 *)
Fixpoint read_used {R} (starts : list nat) (next : list nat -> program R) : program R :=
  match starts with
  | [] => next []
  | s :: starts' => Peek SplitIds (z s - 1)%Z (fun v => read_used starts' (fun us => next (Z.to_nat (v - z s) :: us)))
  end.
(** tree_build.py:816: [level_restrict and have_oversize_split_box] *)
Definition read_oversize_lr {R} (next : bool -> program R) : program R :=
  if level_restrict inp then Peek Oversize 0%Z (fun v => next (negb (v =? 0)%Z)) else next false.

(** tree_build.py:920-971 and 867-875 for the copies with renumbering *)
Definition gappy_program {R} (guess n : nat) (a : array) (mapped : bool) (next : program R) : program R :=
  Alloc Copy (z guess) (Launch n (gappy_item a mapped) (Move Copy a next)).
Definition copy_program {R} (guess n : nat) (a : array) (next : program R) : program R :=
  Alloc Copy (z guess) (Launch n (copy_item a) (Move Copy a next)).
Definition copied_arrays : list array :=
  box_bin_arrays ++ (if level_restrict inp then [ForceSplit] else []) ++ [Starts; Counts; HasChildren] ++ center_arrays.
Definition renumbered_arrays : list array := child_arrays ++ [Parents].

(** tree_build.py:831-900 and 912-1005, with renumbering *)
Definition renumber_program (h : hstate) (ns : list nat) (nboxes_new : nat) : program trip_result :=
  let level := h_level h in
  let old_count := nth level (h_lstart h) 0 in
  let guess := grow nboxes_new (h_guess h) nboxes_new in
  Alloc DstIds (z old_count) (
  each (seq 0 level) (fun l nx =>
    Assign DstIds (z (nth l (h_lstart h) 0)) (map z (seq (nth l ns 0) (level_length (host_state h) l))) nx) (
  Assign LevelStarts 0%Z (map z ns) (
  Alloc SplitIds (z guess) (
  each copied_arrays (fun a nx => gappy_program guess old_count a false nx) (
  each renumbered_arrays (fun a nx => gappy_program guess old_count a true nx) (
  Alloc Levels (z guess) (
  each (seq 0 (length ns - 1)) (fun l nx =>
    Assign Levels (z (nth l ns 0)) (repeat (z l) (nth (l + 1) ns 0 - nth l ns 0)) nx) (
  Launch np map_item (
  Ret (Again (mkHost level ns (h_used h) (h_leaves h) (h_final h) guess))))))))))).
(** tree_build.py:901-1005, without renumbering *)
Definition realloc_program (h : hstate) (nboxes_new : nat) : program trip_result :=
  let guess := grow nboxes_new (h_guess h) nboxes_new in
  Alloc SplitIds (z guess) (
  each (copied_arrays ++ renumbered_arrays ++ [Levels]) (copy_program guess (h_guess h)) (
  Ret (Again (mkHost (h_level h) (h_lstart h) (h_used h) (h_leaves h) (h_final h) guess)))).

(** tree_build.py:1154-1202; the result is did_upper_level_split *)
Fixpoint restrict_program {R} (h : hstate) (nboxes : nat) (levels : list nat) (did : bool)
         (next : bool -> program R) : program R :=
  match levels with
  | [] => next did
  | l :: levels' =>
    Assign UpperSplit 0%Z [0%Z] (
    Launch (nth l (h_used h) 0) (restrict_item inp (h_level h) nboxes (nth l (h_lstart h) 0) l) (
    Peek UpperSplit 0%Z (fun v =>
    if (v =? 0)%Z then next did else restrict_program h nboxes levels' true next)))
  end.

(** tree_build.py:1027-1125 *)
Definition advance_program {R} (h : hstate) (nu : list nat) (nboxes_new : nat) (next : program R) : program R :=
  let level := h_level h in
  let last_used := nth level (h_lstart h ++ [nboxes_new]) 0 + nth level nu 0 in
  Assign LevelStarts (z (level + 1)) [z nboxes_new] (
  Assign LevelUsed 0%Z (map z nu) (
  Launch nboxes_new (splitter_item inp level) (
  Assign Levels (z last_used) (repeat (z level) (nboxes_new - last_used)) (
  Alloc NewUserIds (z np) (Alloc NewBoxIds (z np) (
  Launch np (renumber_item inp level) (
  Move NewUserIds UserIds (Move NewBoxIds BoxIds next)))))))).
(** tree_build.py:1027-1233 *)
Definition split_program (h : hstate) (nu nl : list nat) (nboxes_new : nat) : program trip_result :=
  let level := h_level h in
  let lstart := h_lstart h ++ [nboxes_new] in
  let h5 := mkHost level lstart nu nl (h_final h) (h_guess h) in
  let up final := mkHost (level + 1) lstart nu nl final (h_guess h) in
  advance_program h nu nboxes_new (
  if h_final h then
    Peek Oversize 0%Z (fun over =>
    if negb (over =? 0)%Z || negb (nth level nu 0 =? 0)%nat then Ret (Raised AssertionFailed)
    else Ret (Left (mkHost (level - 1) (removelast lstart) (removelast nu) nl true (h_guess h))))
  else
    let finish :=
      Peek Oversize 0%Z (fun over =>
      if (over =? 0)%Z then Ret (Left h5)
      else Assign Oversize 0%Z [0%Z] (Ret (Again (up false)))) in
    if level_restrict inp then
      Assign ForceSplit 0%Z (repeat 0%Z (h_guess h)) (
      restrict_program h5 nboxes_new (rev (seq 1 (level - 2))) false (fun did =>
      Peek Oversize 0%Z (fun over =>
      if (over =? 0)%Z && did then Ret (Again (up true)) else finish)))
    else finish).

(** one trip through the loop: tree_build.py:698-1233 *)
Definition trip (h : hstate) : program trip_result :=
  let level := h_level h in
  let hs := host_state h in
  if nlevels_max inp <=? level + 1 then Ret (Raised MaxLevelsExceeded)
  else
  morton_scan_program (
  split_scan_program level (nth level (h_lstart h) 0) (
  read_used (tl (h_lstart h)) (fun us =>
  let nu := 1 :: us in
  let nl := new_leaves inp hs nu in
  read_oversize_lr (fun over =>
  let min_new := minimal_new_length inp hs nu nl over in
  let nboxes_minimal := nsum (map (minimal_length hs nu) (seq 0 level)) + min_new in
  if needs_renumbering hs nu then
    if negb (level_restrict inp) then Ret (Raised AssertionFailed)
    else
      let ns := new_lstart inp hs nu nl in
      if list_eq_dec Nat.eq_dec (h_lstart h) ns then Ret (Raised AssertionFailed)
      else renumber_program h ns (nth level ns 0 + min_new)
  else if h_guess h <? nboxes_minimal then realloc_program h nboxes_minimal
  else if (nth level (h_lstart h) 0 =? nboxes_minimal) && negb (h_final h) then
    if have_extent inp then
      Ret (Left (mkHost (level - 1) (h_lstart h) (h_used h) (h_leaves h) (h_final h) (h_guess h)))
    else Ret (Raised AssertionFailed)
  else split_program h nu nl nboxes_minimal)))).

(** tree_build.py:512-676: the arrays before the loop.  The coordinates, radii and refine
    weights are there already (tree_build.py:323-452). *)
Definition setup {R} (next : hstate -> program R) : program R :=
  let guess := nboxes_guess inp in
  Alloc UserIds (z np) (Assign UserIds 0%Z (map z (seq 0 np)) (      (* tree_build.py:395 *)
  each (fields inp) (fun f nx => Alloc (MortonBin f) (z np) nx) (
  Alloc MortonNrs (z np) (Alloc StartFlags (z np) (Alloc BoxIds (z np) (Alloc SplitIds (z guess) (
  each (fields inp) (fun f nx => Alloc (BoxBin f) (z guess) nx) (
  Alloc Starts (z guess) (Alloc Parents (z guess) (
  each (seq 0 nch) (fun m nx => Alloc (Children m) (z guess) nx) (
  each (axes inp) (fun a nx => Alloc (Centers a) (z guess) nx) (
  each (axes inp) (fun a nx => Assign (Centers a) 0%Z [(bbox_min inp a + extent_along inp a / 2)%Z] nx) (
  Alloc Levels (z guess) (
  Alloc Counts (z guess) (Assign Counts 0%Z [z np] (
  Alloc HasChildren (z guess) (
  Alloc ForceSplit (if level_restrict inp then z guess else 0%Z) (
  Assign Parents 0%Z [0%Z] (
  Alloc LevelStarts (z (nlevels_max inp)) (Alloc LevelUsed (z (nlevels_max inp)) (
  Alloc Oversize 1%Z (Alloc UpperSplit 1%Z (
  Assign LevelStarts 0%Z [0%Z] (Assign LevelStarts 1%Z [1%Z] (Assign LevelUsed 0%Z [1%Z] (
  next (mkHost (if (max_weight inp <? zsum (map (weight inp) (seq 0 np)))%Z then 1 else 0)
               [0; 1] [1] [1] false guess))))))))))))))))))))))))))).

(** tree_build.py:698 while level *)
Fixpoint trips (fuel : nat) (h : hstate) : program trip_result :=
  match fuel with
  | 0 => Ret (Raised OutOfFuel)
  | S f => bind (trip h) (fun r => match r with Again h' => trips f h' | _ => Ret r end)
  end.
Definition level_loop_program : program trip_result :=
  setup (fun h => if h_level h =? 0 then Ret (Left h) else trips (3 * nlevels_max inp + 3) h).
End Host.
