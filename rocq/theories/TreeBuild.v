(** Model of the particle tree builder: boxtree/tree_build.py (TreeBuilder.__call__) and
    boxtree/tree_build_kernels.py.

    Conventions.  Device arrays are total functions from indices; [kernel_map n] is an
    elementwise kernel over the index range [0, n) (the rest of the array is unchanged);
    [scatter] is a list of writes carried out in order.  Coordinates, radii and bounding box
    are integers in an arbitrary (small) unit, all comparisons are carried out exactly:
    floating point rounding is not modelled.  Particle ids, box ids and counts are natural
    numbers (no 32 bit wrap-around); shifts and refine weights do have their 32 bit
    semantics. *)
From Coq Require Import List Arith ZArith NArith Lia Bool.
From Verif Require Import Base Tree Walk Traversal Fmm.
Import ListNotations.

(** ** Arrays *)
Definition kernel_map {A} (n : nat) (f : nat -> A) (old : nat -> A) : nat -> A :=
  let l := map f (seq 0 n) in
  fun i => match nth_error l i with Some v => v | None => old i end.
Definition scatter {A} (writes : list (nat * A)) (old : nat -> A) : nat -> A :=
  fold_left (fun f w => fun i => if i =? fst w then snd w else f i) writes old.

(** ** Inputs *)
(** tree_build.py:225 *)
Inductive kind := Adaptive | LevelRestricted | NonAdaptive.
(** tree_build.py:241-245 *)
Inductive norm := Linf | L2.
(** source_radii/target_radii combined (tree_build.py:385-386), stick_out_factor as a
    fraction, extent_norm *)
Record extents := mkExtents { radius : nat -> Z; sof_num : Z; sof_den : Z; extent_norm : norm }.

(** Arguments of TreeBuilder.__call__ after validation (tree_build.py:145-448) and the
    choice of the bounding box (tree_build.py:454-506).  User particle ids [< nsrc] are
    sources, the others targets; if [sources_are_targets] all are both (and nsrc = npart). *)
Record input := mkInput {
  idim : nat;
  npart : nat;                     (* nsrcntgts *)
  nsrc : nat;                      (* nsources *)
  same : bool;                     (* sources_are_targets *)
  coord : nat -> nat -> Z;         (* user id -> axis -> coordinate *)
  ext : option extents;            (* srcntgts_have_extent *)
  weight : nat -> Z;               (* refine_weights *)
  max_weight : Z;                  (* max_leaf_refine_weight *)
  bbox_min : nat -> Z;
  bbox_max : nat -> Z;
  build_kind : kind;
  nlevels_max : nat;               (* 2 * (nmant + 1), tree_build.py:626 *)
  skip_prune : bool;
  nboxes_guess : nat;              (* tree_build.py:538-544 *)
  lr_lookbehind : nat              (* tree_build.py:818 *)
}.
Definition have_extent (inp : input) : bool := match ext inp with Some _ => true | None => false end.
Definition level_restrict (inp : input) : bool :=
  match build_kind inp with LevelRestricted => true | _ => false end.
Definition adaptive (inp : input) : bool :=
  match build_kind inp with NonAdaptive => false | _ => true end.
Definition extent_along (inp : input) (a : nat) : Z := (bbox_max inp a - bbox_min inp a)%Z.
(** tree_build.py:461-474, 502-506: the bounding box is a cube *)
Definition the_root_extent (inp : input) : Z := extent_along inp 0.
Definition nchild (inp : input) : nat := 2 ^ idim inp.

(** ** 32 bit arithmetic *)
Definition INT_MAX : Z := 2147483647%Z.
(** OpenCL C [1U << n] and [1 << n] (the shift count is taken modulo 32) *)
Definition u32_shl1 (n : nat) : Z := (2 ^ Z.of_nat (n mod 32))%Z.
Definition i32_shl1 (n : nat) : Z :=
  if n mod 32 =? 31 then (- 2 ^ 31)%Z else (2 ^ Z.of_nat (n mod 32))%Z.
(** tree_build_kernels.py:270-275 my_add_sat *)
Definition add_sat (a b : Z) : Z := if (INT_MAX <? a + b)%Z then INT_MAX else (a + b)%Z.

(** ** Scans
    pyopencl GenericScanKernel with segments: inclusive scan restarting where
    [start i] holds (Scan.v and C82: equal for all evaluation orders of the device). *)
Fixpoint seg_scan {A} (start : nat -> bool) (add : A -> A -> A) (input : nat -> A) (i : nat) : A :=
  match i with
  | 0 => input 0
  | S j => if start i then input i else add (seg_scan start add input j) (input i)
  end.

Section Particle.
Variable inp : input.

(** tree_build_kernels.py:371-378 {ax}_bits: truncation of a non-negative quotient *)
Definition particle_bits (u level a : nat) : Z :=
  ((coord inp u a - bbox_min inp a) * u32_shl1 (1 + level) / extent_along inp a)%Z.

(** tree_build_kernels.py:380-388: twice the center of the next-level box times
    1U << (1 + level), so that it is an integer *)
Definition next_center2 (u level a : nat) : Z :=
  (2 * u32_shl1 (1 + level) * bbox_min inp a
   + extent_along inp a * (2 * particle_bits u level a + 1))%Z.

(** tree_build_kernels.py:390-405, norm "linf"; both sides multiplied by
    2 * (1U << (1 + level)) * sof_den *)
Definition sticks_out_linf (e : extents) (u level a : nat) : bool :=
  let s := (2 * u32_shl1 (1 + level))%Z in
  let c := (sof_den e * next_center2 u level a)%Z in
  let r := ((sof_den e + sof_num e) * extent_along inp a)%Z in
  ((c + r <=? s * sof_den e * (coord inp u a + radius e u)) ||
   (s * sof_den e * (coord inp u a - radius e u) <? c - r))%Z.

(** tree_build_kernels.py:407-429, norm "l2".  The test
    (sqrt(dist2) + radius)^2 >= dimensions * r^2 is decided without the root (all lengths
    multiplied by 2 * (1U << (1 + level)) * sof_den, non-negative radii). *)
Definition sticks_out_l2 (e : extents) (u level : nat) : bool :=
  let s := (2 * u32_shl1 (1 + level))%Z in
  let dist2 := zsum (map (fun a => (sof_den e * (s * coord inp u a - next_center2 u level a))
                                 * (sof_den e * (s * coord inp u a - next_center2 u level a)))%Z
                         (seq 0 (idim inp))) in
  let rad := (s * sof_den e * radius e u)%Z in
  let r := ((sof_den e + sof_num e) * extent_along inp 0)%Z in
  let k := (Z.of_nat (idim inp) * r * r - dist2 - rad * rad)%Z in
  ((k <=? 0) || (k * k <=? 4 * rad * rad * dist2))%Z.

Definition stop_descent (u level : nat) : bool :=
  match ext inp with
  | None => false
  | Some e => match extent_norm e with
              | Linf => existsb (sticks_out_linf e u level) (seq 0 (idim inp))
              | L2 => sticks_out_l2 e u level
              end
  end.

(** tree_build_kernels.py:440-453 level_morton_number; [None] is -1 *)
Definition morton_number (u level : nat) : nat :=
  fold_left (fun acc a => Nat.lor acc (Nat.shiftl (if Z.odd (particle_bits u level a) then 1 else 0)
                                                  (idim inp - 1 - a)))
            (seq 0 (idim inp)) 0.
Definition morton (u level : nat) : option nat :=
  if stop_descent u level then None else Some (morton_number u level).
End Particle.

(** Fields of the morton count struct (tree_build_kernels.py:158-190): field 0 is
    nonchild_srcntgts, field 1 + m is pcnt<m>. *)
Definition bin_key (o : option nat) : nat := match o with None => 0 | Some m => S m end.

(** ** State of the level loop: tree_build.py:508-700 *)
Record state := mkState {
  s_level : nat;                     (* level *)
  s_user : nat -> nat;               (* user_srcntgt_ids *)
  s_box : nat -> nat;                (* srcntgt_box_ids *)
  s_start_flag : nat -> bool;        (* box_start_flags *)
  s_bins : nat -> nat -> nat;        (* box_morton_bin_counts, nonchild and pcnt fields *)
  s_wts : nat -> nat -> Z;           (* box_morton_bin_counts, pwt fields *)
  s_start : nat -> nat;              (* box_srcntgt_starts *)
  s_cumul : nat -> nat;              (* box_srcntgt_counts_cumul *)
  s_parent : nat -> nat;             (* box_parent_ids *)
  s_child : nat -> nat -> nat;       (* box_child_ids[morton nr][box] *)
  s_center : nat -> nat -> Z;        (* box_centers, box -> axis *)
  s_blevel : nat -> nat;             (* box_levels *)
  s_has_children : nat -> bool;      (* box_has_children *)
  s_force : nat -> bool;             (* force_split_box *)
  s_lstart : list nat;               (* level_start_box_nrs *)
  s_used : list nat;                 (* level_used_box_counts *)
  s_leaves : list nat;               (* level_leaf_counts *)
  s_oversize : bool;                 (* have_oversize_split_box *)
  s_final : bool;                    (* final_level_restrict_iteration *)
  s_guess : nat                      (* nboxes_guess *)
}.

Inductive error := MaxLevelsExceeded | AssertionFailed | WalkFailed | OutOfFuel.
Inductive outcome := Continue (st : state) | Done (st : state) | Failed (e : error).

(** tree_build.py:508-700 allocation and initial values *)
Definition initial_state (inp : input) : state := {|
  s_level := if (max_weight inp <? zsum (map (weight inp) (seq 0 (npart inp))))%Z then 1 else 0;
  s_user := fun i => i;
  s_box := fun _ => 0;
  s_start_flag := fun _ => false;
  s_bins := fun _ _ => 0;
  s_wts := fun _ _ => 0%Z;
  s_start := fun _ => 0;
  s_cumul := fun b => if b =? 0 then npart inp else 0;
  s_parent := fun _ => 0;
  s_child := fun _ _ => 0;
  s_center := fun b a => if b =? 0 then (bbox_min inp a + extent_along inp a / 2)%Z else 0%Z;
  s_blevel := fun _ => 0;
  s_has_children := fun _ => false;
  s_force := fun _ => false;
  s_lstart := [0; 1];
  s_used := [1];
  s_leaves := [1];
  s_oversize := false;
  s_final := false;
  s_guess := nboxes_guess inp
|}.

Section Loop.
Variable inp : input.
Notation nch := (nchild inp).
Notation np := (npart inp).

(** *** Morton scan: tree_build_kernels.py:1553-1571 with 308-470 and 480-508 *)
Definition morton_nrs (st : state) : nat -> nat :=
  kernel_map np (fun i => bin_key (morton inp (s_user st i) (s_blevel st (s_box st i)))) (fun _ => 0).
Definition bin_counts (st : state) (mn : nat -> nat) : nat -> nat -> nat :=
  kernel_map np (fun i => kernel_map (S nch) (fun k =>
      seg_scan (s_start_flag st) Nat.add (fun j => if mn j =? k then 1 else 0) i) (fun _ => 0))
    (fun _ _ => 0).
Definition bin_wts (st : state) (mn : nat -> nat) : nat -> nat -> Z :=
  kernel_map np (fun i => kernel_map nch (fun m =>
      seg_scan (s_start_flag st) add_sat
        (fun j => if mn j =? S m then weight inp (s_user st j) else 0%Z) i) (fun _ => 0%Z))
    (fun _ _ => 0%Z).
(** tree_build_kernels.py:482-505: the last particle of a box stores the sums *)
Definition is_last_in_box (st : state) (bc : nat -> nat -> nat) (i : nat) : bool :=
  nsum (map (bc i) (seq 0 (S nch))) =? s_cumul st (s_box st i).
Definition box_bins (st : state) (bc : nat -> nat -> nat) : nat -> nat -> nat :=
  scatter (map (fun i => (s_box st i, bc i)) (filter (is_last_in_box st bc) (seq 0 np))) (s_bins st).
Definition box_wts (st : state) (bc : nat -> nat -> nat) (bw : nat -> nat -> Z) : nat -> nat -> Z :=
  scatter (map (fun i => (s_box st i, bw i)) (filter (is_last_in_box st bc) (seq 0 np))) (s_wts st).

(** *** Split box id scan: tree_build_kernels.py:514-640.  The state passed in has the
    bin counts of the morton scan. *)
Definition box_refine_weight (st : state) (b : nat) : Z :=
  fold_left add_sat (map (s_wts st b) (seq 0 nch)) 0%Z.
Definition overfull (st : state) (b : nat) : bool :=
  if adaptive inp then (max_weight inp <? box_refine_weight st b)%Z
  else (0 <=? Z.of_nat (s_cumul st b) - Z.of_nat (if have_extent inp then s_bins st b 0 else 0%nat))%Z.
Definition splits (st : state) (b : nat) : bool :=
  ((s_blevel st b + 1 =? s_level st) && overfull st b) || (level_restrict inp && s_force st b).
Definition max_subbox_weight (st : state) (b : nat) : Z :=
  fold_left Z.max (map (s_wts st b) (seq 0 nch)) 0%Z.
Definition oversize (st : state) (b : nat) : bool := (max_weight inp <? max_subbox_weight st b)%Z.
Definition boxes_needed (st : state) (b : nat) : nat :=
  let l := s_blevel st b in
  (if b =? nth l (s_lstart st) 0 then nth (l + 1) (s_lstart st) 0 + nth (l + 1) (s_used st) 0 else 0)
  + (if splits st b then nch else 0).
Definition split_box_ids (st : state) : nat -> nat :=
  kernel_map (nth (s_level st) (s_lstart st) 0)
    (seg_scan (fun b => negb (s_blevel st b =? s_blevel st (b - 1))) Nat.add (boxes_needed st))
    (fun _ => 0).

(** *** Sizes of the levels: tree_build.py:771-842 *)
(** tree_build.py:775-781 new_level_used_box_counts *)
Definition new_used (st : state) (ids : nat -> nat) : list nat :=
  1 :: map (fun s => ids (s - 1) - s) (tl (s_lstart st)).
(** tree_build.py:783-794 new_level_leaf_counts *)
Definition new_leaves (st : state) (nu : list nat) : list nat :=
  let diff l := nth l nu 0 - nth l (s_used st) 0 in
  map (fun l => nth l (s_leaves st) 0 + diff l - diff (l + 1) / nch) (seq 0 (s_level st))
  ++ [diff (s_level st)].
(** tree_build.py:805 curr_upper_level_lengths *)
Definition level_length (st : state) (l : nat) : nat :=
  nth (l + 1) (s_lstart st) 0 - nth l (s_lstart st) 0.
(** tree_build.py:806-807 *)
Definition minimal_length (st : state) (nu : list nat) (l : nat) : nat :=
  Nat.max (nth l nu 0) (level_length st l).
(** tree_build.py:819-821 and 841-844 *)
Definition padding (nl : list nat) (level : nat) : nat :=
  nsum (map (fun lev => 2 ^ (lev * idim inp) * nth (level - lev) nl 0)
            (seq 1 (Nat.min level (lr_lookbehind inp)))).
(** tree_build.py:808, 816-821 *)
Definition minimal_new_length (st : state) (nu nl : list nat) (over : bool) : nat :=
  nth (s_level st) nu 0 + if level_restrict inp && over then padding nl (s_level st) else 0.
(** tree_build.py:826-827 *)
Definition needs_renumbering (st : state) (nu : list nat) : bool :=
  existsb (fun l => level_length st l <? minimal_length st nu l) (seq 0 (s_level st)).
(** tree_build.py:836-855 new_level_start_box_nrs *)
Definition new_lstart (st : state) (nu nl : list nat) : list nat :=
  prefix_from 0 (map (fun l => nth l nu 0 + Nat.max (padding nl l) (minimal_length st nu l - nth l nu 0))
                     (seq 0 (s_level st))).
(** tree_build.py:863-876 dst_box_id *)
Definition renumbering (st : state) (ns : list nat) : nat -> nat :=
  scatter (concat (map (fun l => combine (seq (nth l (s_lstart st) 0) (level_length st l))
                                         (seq (nth l ns 0) (level_length st l)))
                       (seq 0 (s_level st)))) (fun _ => 0).
(** tools.py:415-534 GappyCopyAndMapKernel with dst_indices (and map_values), into a zeroed
    array: result[dst[i]] = ary[i] *)
Definition gappy_copy {A} (n : nat) (dst : nat -> nat) (ary : nat -> A) (zero : A) : nat -> A :=
  scatter (map (fun i => (dst i, ary i)) (seq 0 n)) (fun _ => zero).
(** tree_build.py:989-992: box_levels filled level by level *)
Definition fill_levels (ls : list nat) : nat -> nat :=
  scatter (concat (map (fun l => map (fun b => (b, l)) (seq (nth l ls 0) (nth (l + 1) ls 0 - nth l ls 0)))
                       (seq 0 (length ls - 1)))) (fun _ => 0).
(** tree_build.py:913-914 *)
Fixpoint grow (fuel guess n : nat) : nat :=
  match fuel with
  | 0 => guess
  | S f => if guess <? n then grow f (2 * guess) n else guess
  end.

(** tree_build.py:909-1003: reallocation with renumbering, then retry *)
Definition renumbered (st : state) (ns : list nat) (nboxes_new : nat) : state :=
  let n := nth (s_level st) (s_lstart st) 0 in
  let dst := renumbering st ns in
  {| s_level := s_level st;
     s_user := s_user st;
     s_box := kernel_map np (fun i => dst (s_box st i)) (s_box st);
     s_start_flag := s_start_flag st;
     s_bins := gappy_copy n dst (s_bins st) (fun _ => 0);
     s_wts := gappy_copy n dst (s_wts st) (fun _ => 0%Z);
     s_start := gappy_copy n dst (s_start st) 0;
     s_cumul := gappy_copy n dst (s_cumul st) 0;
     s_parent := gappy_copy n dst (fun b => dst (s_parent st b)) 0;
     s_child := kernel_map nch (fun m => gappy_copy n dst (fun b => dst (s_child st m b)) 0) (fun _ _ => 0);
     s_center := gappy_copy n dst (s_center st) (fun _ => 0%Z);
     s_blevel := fill_levels ns;
     s_has_children := gappy_copy n dst (s_has_children st) false;
     s_force := gappy_copy n dst (s_force st) false;
     s_lstart := ns;
     s_used := s_used st;
     s_leaves := s_leaves st;
     s_oversize := s_oversize st;
     s_final := s_final st;
     s_guess := grow nboxes_new (s_guess st) nboxes_new |}.

(** *** Box splitter: tree_build_kernels.py:646-711 (one child id array per morton number).
    [st] has the has_children flags of the split box id scan. *)
Definition do_split (st : state) (b : nat) : bool :=
  (s_has_children st b && (s_blevel st b + 1 =? s_level st)) || (level_restrict inp && s_force st b).
Definition split_boxes (st : state) (n : nat) : list nat := filter (do_split st) (seq 0 n).
Definition new_box_id (ids : nat -> nat) (b m : nat) : nat := ids b - nch + m.
(** writes of the splitter: for every split box and morton number *)
Definition split_writes {A} (st : state) (n : nat) (w : nat -> nat -> nat * A) : list (nat * A) :=
  concat (map (fun b => map (w b) (seq 0 nch)) (split_boxes st n)).
Definition new_box_start (st : state) (b m : nat) : nat :=
  s_start st b + nsum (map (s_bins st b) (seq 0 (S m))).
(** tree_build_kernels.py:696-706 *)
Definition new_center (st : state) (b m a : nat) : Z :=
  (s_center st b a + morton_sign (idim inp) m a
    * (the_root_extent inp / i32_shl1 (1 + (s_blevel st b + 1))))%Z.

(** writes to an array of [n] entries *)
Definition scatter_in {A} (n : nat) (writes : list (nat * A)) (old : nat -> A) : nat -> A :=
  kernel_map n (scatter writes old) old.

Definition splitter (st : state) (n : nat) (ids : nat -> nat) : state :=
  {| s_level := s_level st; s_user := s_user st; s_box := s_box st;
     s_start_flag := scatter_in np (concat (map (fun b =>
         map (fun m => (new_box_start st b m, true))
             (filter (fun m => 0 <? s_bins st b (S m)) (seq 0 nch))) (split_boxes st n)))
       (s_start_flag st);
     s_bins := s_bins st; s_wts := s_wts st;
     s_start := scatter_in n (concat (map (fun b =>
         map (fun m => (new_box_id ids b m, new_box_start st b m))
             (filter (fun m => 0 <? s_bins st b (S m)) (seq 0 nch))) (split_boxes st n)))
       (s_start st);
     s_cumul := scatter_in n (split_writes st n (fun b m => (new_box_id ids b m, s_bins st b (S m)))) (s_cumul st);
     s_parent := scatter_in n (split_writes st n (fun b m => (new_box_id ids b m, b))) (s_parent st);
     s_child := kernel_map nch (fun m => scatter_in n (map (fun b => (b, new_box_id ids b m)) (split_boxes st n))
                                                      (s_child st m)) (s_child st);
     s_center := scatter_in n (split_writes st n (fun b m =>
         (new_box_id ids b m, kernel_map (idim inp) (new_center st b m) (fun _ => 0%Z)))) (s_center st);
     s_blevel := scatter_in n (split_writes st n (fun b m => (new_box_id ids b m, s_blevel st b + 1))) (s_blevel st);
     s_has_children := s_has_children st; s_force := s_force st;
     s_lstart := s_lstart st; s_used := s_used st; s_leaves := s_leaves st;
     s_oversize := s_oversize st; s_final := s_final st; s_guess := s_guess st |}.

(** *** Particle renumberer: tree_build_kernels.py:717-819 *)
Definition target_index (st : state) (mn : nat -> nat) (bc : nat -> nat -> nat) (i : nat) : nat :=
  let b := s_box st i in
  if do_split st b then
    s_start st b + bc i (mn i) - 1
    + (if 0 <? mn i then s_bins st b 0 else 0)
    + nsum (map (fun m => if S m <? mn i then s_bins st b (S m) else 0) (seq 0 nch))
  else i.
Definition target_box (st : state) (ids : nat -> nat) (mn : nat -> nat) (i : nat) : nat :=
  let b := s_box st i in
  if do_split st b then
    match mn i with 0 => b | S m => new_box_id ids b m end
  else b.

(** tree_build.py:1088-1116; [st] is the state before the splitter, [st'] after it *)
Definition renumber_particles (st st' : state) (mn : nat -> nat) (bc : nat -> nat -> nat)
           (ids : nat -> nat) : (nat -> nat) * (nat -> nat) :=
  (scatter (map (fun i => (target_index st mn bc i, s_user st i)) (seq 0 np)) (fun _ => 0),
   scatter (map (fun i => (target_index st mn bc i, target_box st ids mn i)) (seq 0 np)) (fun _ => 0)).

(** *** Level restriction: tree_build_kernels.py:825-915 *)
Definition tree_of_state (st : state) (n : nat) : tree := {|
  dim := idim inp; nlevels := S (s_level st); nboxes := n; root_extent := the_root_extent inp;
  box_center := s_center st; box_level := s_blevel st; box_parent := s_parent st;
  box_child := s_child st; box_flags := fun _ => 0%N |}.
(** tree_build_kernels.py:862-905.  The kernel stops at the first hit; since it only sets a
    flag, collecting all hits has the same effect. *)
Definition restrict_visit (st : state) (t : tree) (level : nat) (force : nat -> bool) (box : nat)
           (c depth : nat) : list nat * bool :=
  let child_level := depth + 1 in
  if c =? box then ([], false)
  else if is_adj t (s_center st c) child_level (s_center st box) level then
    if s_has_children st c then ([], child_level <=? 1 + level)
    else ((if (child_level =? 2 + level) || ((child_level =? 1 + level) && force c) then [c] else []), false)
  else ([], false).
(** tree_build.py:1148-1151: the kernel (and its stack) is rebuilt every ten levels *)
Definition restrict_stack (level : nat) : nat := 10 * ((level + 9) / 10).
Definition restrict_box (st : state) (n : nat) (level : nat) (force : nat -> bool) (box : nat) : option bool :=
  if s_has_children st box then Some false
  else let t := tree_of_state st n in
       option_map (fun hits => negb (length hits =? 0))
         (run_walk t (restrict_visit st t level force box) (restrict_stack (s_level st)) 0).
(** tree_build.py:1164-1203: upper levels from level-2 down to 1, stopping at the first
    level without a box to split *)
Fixpoint restrict_levels (st : state) (n : nat) (levels : list nat) (force : nat -> bool) (did : bool)
  : option ((nat -> bool) * bool) :=
  match levels with
  | [] => Some (force, did)
  | l :: levels' =>
    let first := nth l (s_lstart st) 0 in
    let cnt := nth l (s_used st) 0 in
    match run_all (restrict_box st n l force) (seq first cnt) with
    | None => None
    | Some hits =>
      if existsb (fun h => h) hits then
        restrict_levels st n levels'
          (scatter (map (fun bh => (fst bh, true)) (filter snd (combine (seq first cnt) hits))) force) true
      else Some (force, did)
    end
  end.

(** *** One trip through the level loop: tree_build.py:698-1232 *)
Definition with_level_counts (st : state) lstart used leaves : state :=
  {| s_level := s_level st; s_user := s_user st; s_box := s_box st; s_start_flag := s_start_flag st;
     s_bins := s_bins st; s_wts := s_wts st; s_start := s_start st; s_cumul := s_cumul st;
     s_parent := s_parent st; s_child := s_child st; s_center := s_center st; s_blevel := s_blevel st;
     s_has_children := s_has_children st; s_force := s_force st;
     s_lstart := lstart; s_used := used; s_leaves := leaves;
     s_oversize := s_oversize st; s_final := s_final st; s_guess := s_guess st |}.
Definition with_scan (st : state) bins wts : state :=
  {| s_level := s_level st; s_user := s_user st; s_box := s_box st; s_start_flag := s_start_flag st;
     s_bins := bins; s_wts := wts; s_start := s_start st; s_cumul := s_cumul st;
     s_parent := s_parent st; s_child := s_child st; s_center := s_center st; s_blevel := s_blevel st;
     s_has_children := s_has_children st; s_force := s_force st;
     s_lstart := s_lstart st; s_used := s_used st; s_leaves := s_leaves st;
     s_oversize := s_oversize st; s_final := s_final st; s_guess := s_guess st |}.
Definition with_split (st : state) has_children over : state :=
  {| s_level := s_level st; s_user := s_user st; s_box := s_box st; s_start_flag := s_start_flag st;
     s_bins := s_bins st; s_wts := s_wts st; s_start := s_start st; s_cumul := s_cumul st;
     s_parent := s_parent st; s_child := s_child st; s_center := s_center st; s_blevel := s_blevel st;
     s_has_children := has_children; s_force := s_force st;
     s_lstart := s_lstart st; s_used := s_used st; s_leaves := s_leaves st;
     s_oversize := over; s_final := s_final st; s_guess := s_guess st |}.
Definition with_particles (st : state) user box blevel : state :=
  {| s_level := s_level st; s_user := user; s_box := box; s_start_flag := s_start_flag st;
     s_bins := s_bins st; s_wts := s_wts st; s_start := s_start st; s_cumul := s_cumul st;
     s_parent := s_parent st; s_child := s_child st; s_center := s_center st; s_blevel := blevel;
     s_has_children := s_has_children st; s_force := s_force st;
     s_lstart := s_lstart st; s_used := s_used st; s_leaves := s_leaves st;
     s_oversize := s_oversize st; s_final := s_final st; s_guess := s_guess st |}.
Definition with_control (st : state) level force over final : state :=
  {| s_level := level; s_user := s_user st; s_box := s_box st; s_start_flag := s_start_flag st;
     s_bins := s_bins st; s_wts := s_wts st; s_start := s_start st; s_cumul := s_cumul st;
     s_parent := s_parent st; s_child := s_child st; s_center := s_center st; s_blevel := s_blevel st;
     s_has_children := s_has_children st; s_force := force;
     s_lstart := s_lstart st; s_used := s_used st; s_leaves := s_leaves st;
     s_oversize := over; s_final := final; s_guess := s_guess st |}.
Definition with_guess (st : state) guess : state :=
  {| s_level := s_level st; s_user := s_user st; s_box := s_box st; s_start_flag := s_start_flag st;
     s_bins := s_bins st; s_wts := s_wts st; s_start := s_start st; s_cumul := s_cumul st;
     s_parent := s_parent st; s_child := s_child st; s_center := s_center st; s_blevel := s_blevel st;
     s_has_children := s_has_children st; s_force := s_force st;
     s_lstart := s_lstart st; s_used := s_used st; s_leaves := s_leaves st;
     s_oversize := s_oversize st; s_final := s_final st; s_guess := guess |}.

(** tree_build.py:727-769: the two scans *)
Definition scanned (st : state) : state :=
  let mn := morton_nrs st in
  let bc := bin_counts st mn in
  with_scan st (box_bins st bc) (box_wts st bc (bin_wts st mn)).
Definition marked (st1 : state) : state :=
  let n := nth (s_level st1) (s_lstart st1) 0 in
  with_split st1 (kernel_map n (fun b => s_has_children st1 b || splits st1 b) (s_has_children st1))
    (s_oversize st1 || existsb (fun b => splits st1 b && oversize st1 b) (seq 0 n)).

(** tree_build.py:1025-1125: append the level, split, renumber particles *)
Definition advance (st st2 : state) (ids : nat -> nat) (nu nl : list nat) (nboxes_new : nat) : state :=
  let mn := morton_nrs st in
  let bc := bin_counts st mn in
  let st3 := with_level_counts st2 (s_lstart st2 ++ [nboxes_new]) nu nl in
  let st4 := splitter st3 nboxes_new ids in
  let last_used := nth (s_level st) (s_lstart st3) 0 + nth (s_level st) nu 0 in
  let bl := scatter (map (fun b => (b, s_level st)) (seq last_used (nboxes_new - last_used))) (s_blevel st4) in
  let '(user, box) := renumber_particles st3 st4 mn bc ids in
  with_particles st4 user box bl.

(** tree_build.py:1127-1231: after the split *)
Definition after_split (st5 : state) (nboxes_new : nat) : outcome :=
  let level := s_level st5 in
  if s_final st5 then
    if s_oversize st5 || negb (nth level (s_used st5) 0 =? 0) then Failed AssertionFailed
    else Done (with_control (with_level_counts st5 (removelast (s_lstart st5)) (removelast (s_used st5))
                                               (s_leaves st5))
                            (level - 1) (s_force st5) (s_oversize st5) true)
  else
    if level_restrict inp then
      match restrict_levels st5 nboxes_new (rev (seq 1 (level - 2))) (fun _ => false) false with
      | None => Failed WalkFailed
      | Some (force, did) =>
        if negb (s_oversize st5) && did then
          Continue (with_control st5 (level + 1) force (s_oversize st5) true)
        else if negb (s_oversize st5) then Done (with_control st5 level force (s_oversize st5) false)
        else Continue (with_control st5 (level + 1) force false false)
      end
    else if negb (s_oversize st5) then Done st5
    else Continue (with_control st5 (level + 1) (s_force st5) false false).

Definition step (st : state) : outcome :=
  if nlevels_max inp <=? s_level st + 1 then Failed MaxLevelsExceeded
  else
    let st2 := marked (scanned st) in
    let ids := split_box_ids (scanned st) in
    let nu := new_used st2 ids in
    let nl := new_leaves st2 nu in
    let min_new := minimal_new_length st2 nu nl (s_oversize st2) in
    let nboxes_minimal := nsum (map (minimal_length st2 nu) (seq 0 (s_level st))) + min_new in
    if needs_renumbering st2 nu then
      if negb (level_restrict inp) then Failed AssertionFailed
      else
        let ns := new_lstart st2 nu nl in
        if list_eq_dec Nat.eq_dec (s_lstart st2) ns then Failed AssertionFailed
        else Continue (renumbered st2 ns (nth (s_level st) ns 0 + min_new))
    else if s_guess st2 <? nboxes_minimal then
      Continue (with_guess st2 (grow nboxes_minimal (s_guess st2) nboxes_minimal))
    else
      let last_start := nth (s_level st) (s_lstart st2) 0 in
      if last_start =? nboxes_minimal then
        if have_extent inp && negb (s_final st2) then
          (* level -= 1; break *)
          Done (with_control st2 (s_level st - 1) (s_force st2) (s_oversize st2) (s_final st2))
        else if negb (s_final st2) then Failed AssertionFailed
        else after_split (advance st st2 ids nu nl nboxes_minimal) nboxes_minimal
      else after_split (advance st st2 ids nu nl nboxes_minimal) nboxes_minimal.

(** tree_build.py:698 while level *)
Fixpoint loop (fuel : nat) (st : state) : outcome :=
  match fuel with
  | 0 => Failed OutOfFuel
  | S f => match step st with
           | Continue st' => loop f st'
           | o => o
           end
  end.
Definition level_loop : outcome :=
  let st := initial_state inp in
  if s_level st =? 0 then Done st else loop (3 * nlevels_max inp + 3) st.
End Loop.

(** ** After the level loop *)
(** The arrays after pruning *)
Record pstate := mkPState {
  p_nboxes : nat;                    (* nboxes_post_prune *)
  p_user : nat -> nat;               (* user_srcntgt_ids *)
  p_box : nat -> nat;                (* srcntgt_box_ids *)
  p_start : nat -> nat;              (* box_srcntgt_starts *)
  p_cumul : nat -> nat;              (* box_srcntgt_counts_cumul *)
  p_nonchild : nat -> nat;           (* box_srcntgt_counts_nonchild *)
  p_parent : nat -> nat;
  p_child : nat -> nat -> nat;
  p_center : nat -> nat -> Z;
  p_blevel : nat -> nat;
  p_has_children : nat -> bool;
  p_lstart : list nat                (* level_start_box_nrs *)
}.

Section Prune.
Variable inp : input.
Variable st : state.
Notation nch := (nchild inp).
Notation np := (npart inp).

(** tree_build.py:1273 *)
Definition nboxes_built : nat := last (s_lstart st) 0.
(** tree_build.py:1280-1300, tree_build_kernels.py:979-1007 *)
Definition nonchild_counts : nat -> nat :=
  if have_extent inp then
    kernel_map nboxes_built (fun b =>
      if nth (length (s_lstart st) - 2) (s_lstart st) 0 <=? b then 0
      else if s_cumul st b =? 0 then 0 else s_bins st b 0) (fun _ => 0)
  else fun _ => 0.

(** tree_build_kernels.py:1697-1718 find_prune_indices (src_box_id), tree_build.py:1356-1383 *)
Definition src_boxes : list nat :=
  if negb (skip_prune inp) then filter (fun b => negb (s_cumul st b =? 0)) (seq 0 nboxes_built)
  else if level_restrict inp then
    concat (map (fun l => seq (nth l (s_lstart st) 0) (nth l (s_used st) 0)) (seq 0 (length (s_used st))))
  else seq 0 nboxes_built.
(** dst_box_id: zero except dst[src[j]] = j *)
Definition dst_boxes (src : list nat) : nat -> nat :=
  scatter (combine src (seq 0 (length src))) (fun _ => 0).
(** GappyCopyAndMapKernel with src_indices (and map_values), tools.py:415-534; without
    pruning the arrays are unchanged, which is the same since then src and dst are the
    identity *)
Definition pruned {A} (src : list nat) (ary : nat -> A) (zero : A) : nat -> A :=
  kernel_map (length src) (fun j => ary (nth j src 0)) (fun _ => zero).
Definition was_pruned : bool := negb (skip_prune inp) || level_restrict inp.

(** tree_build_kernels.py:1724-1742: counts stored where the level changes; entries of levels
    without boxes keep their old value *)
Definition level_box_counts (n : nat) (blevel : nat -> nat) : nat -> nat :=
  scatter (map (fun i => (blevel i,
                          seg_scan (fun j => negb (blevel j =? blevel (j - 1))) Nat.add (fun _ => 1) i))
               (filter (fun i => (i + 1 =? n) || negb (blevel i =? blevel (i + 1))) (seq 0 n)))
          (fun l => nth l (s_used st) 0).

(** tree_build.py:1330-1461 *)
Definition prune : pstate :=
  let src := src_boxes in
  let dst := dst_boxes src in
  let blevel := pruned src (s_blevel st) 0 in
  {| p_nboxes := length src;
     p_user := s_user st;
     p_box := kernel_map np (fun i => dst (s_box st i)) (fun _ => 0);
     p_start := pruned src (s_start st) 0;
     p_cumul := pruned src (s_cumul st) 0;
     p_nonchild := pruned src nonchild_counts 0;
     p_parent := pruned src (fun b => dst (s_parent st b)) 0;
     p_child := kernel_map nch (fun m => pruned src (fun b => dst (s_child st m b)) 0) (fun _ _ => 0);
     p_center := pruned src (s_center st) (fun _ => 0%Z);
     p_blevel := blevel;
     p_has_children := pruned src (s_has_children st) false;
     p_lstart := if was_pruned
                 then prefix_from 0 (map (level_box_counts (length src) blevel) (seq 0 (length (s_used st))))
                 else s_lstart st |}.
End Prune.

(** *** Splitting sources from targets: tree_build.py:1462-1566 *)
Record split := mkSplit {
  sp_source_ids : nat -> nat;        (* user_source_ids *)
  sp_target_ids : nat -> nat;        (* srcntgt_target_ids: user srcntgt ids of the targets in tree order *)
  sp_sorted_target_ids : nat -> nat; (* sorted_target_ids *)
  sp_source_starts : nat -> nat; sp_source_cumul : nat -> nat; sp_source_nonchild : nat -> nat;
  sp_target_starts : nat -> nat; sp_target_cumul : nat -> nat; sp_target_nonchild : nat -> nat
}.

Section Split.
Variable inp : input.
Variable ps : pstate.
Notation np := (npart inp).

Definition is_source_particle (i : nat) : bool := p_user ps i <? nsrc inp.
Definition is_target_particle (i : nat) : bool := negb (is_source_particle i).
(** tree_build_kernels.py:1770-1782 source_counter (exclusive scan) *)
Definition source_numbers : nat -> nat :=
  kernel_map np (fun i => length (filter is_source_particle (seq 0 i))) (fun _ => 0).
(** the loops walking up the parents in tree_build_kernels.py:1065-1083, 1112-1142: the boxes
    visited, starting from the particle's own box, while [cond] holds *)
Fixpoint walk_up (fuel : nat) (cond : nat -> bool) (b : nat) : list nat :=
  match fuel with
  | 0 => []
  | S f => if cond b then b :: (if p_parent ps b =? b then [] else walk_up f cond (p_parent ps b)) else []
  end.
Definition starts_here (i : nat) : list nat :=
  walk_up (p_nboxes ps) (fun b => i =? p_start ps b) (p_box ps i).
Definition ends_here (i : nat) : list nat :=
  walk_up (p_nboxes ps) (fun b => i + 1 =? p_start ps b + p_cumul ps b) (p_box ps i).
Definition last_nonchild (i : nat) : bool :=
  i + 1 =? p_start ps (p_box ps i) + p_nonchild ps (p_box ps i).

(** tree_build_kernels.py:1013-1164 SOURCE_AND_TARGET_INDEX_FINDER *)
Definition split_particles : split :=
  let sn := source_numbers in
  let tn i := i - sn i in
  let src_incl i := sn i + (if is_source_particle i then 1 else 0) in
  let tgt_incl i := tn i + 1 - (if is_source_particle i then 1 else 0) in
  let all := seq 0 np in
  {| sp_source_ids := scatter (map (fun i => (sn i, p_user ps i)) (filter is_source_particle all)) (fun _ => 0);
     sp_target_ids := scatter (map (fun i => (tn i, p_user ps i)) (filter is_target_particle all)) (fun _ => 0);
     sp_sorted_target_ids :=
       scatter (map (fun i => (p_user ps i - nsrc inp, tn i)) (filter is_target_particle all)) (fun _ => 0);
     sp_source_starts := scatter (concat (map (fun i => map (fun b => (b, sn i)) (starts_here i)) all)) (fun _ => 0);
     sp_source_cumul := scatter (concat (map (fun i => map (fun b => (b, src_incl i - sn (p_start ps b))) (ends_here i)) all))
                                (fun _ => 0);
     sp_source_nonchild := scatter (map (fun i => (p_box ps i, src_incl i - sn (p_start ps (p_box ps i))))
                                        (filter last_nonchild all)) (fun _ => 0);
     sp_target_starts := scatter (concat (map (fun i => map (fun b => (b, tn i)) (starts_here i)) all)) (fun _ => 0);
     sp_target_cumul := scatter (concat (map (fun i => map (fun b => (b, tgt_incl i - tn (p_start ps b))) (ends_here i)) all))
                                (fun _ => 0);
     sp_target_nonchild := scatter (map (fun i => (p_box ps i, tgt_incl i - tn (p_start ps (p_box ps i))))
                                        (filter last_nonchild all)) (fun _ => 0) |}.

(** tree_build.py:1464-1474: sources and targets are the same; reverse_index_array
    (tools.py:81-109) *)
Definition share_particles : split :=
  {| sp_source_ids := p_user ps; sp_target_ids := p_user ps;
     sp_sorted_target_ids := scatter (map (fun i => (p_user ps i, i)) (seq 0 np)) (fun _ => 0);
     sp_source_starts := p_start ps; sp_source_cumul := p_cumul ps; sp_source_nonchild := p_nonchild ps;
     sp_target_starts := p_start ps; sp_target_cumul := p_cumul ps; sp_target_nonchild := p_nonchild ps |}.
End Split.

(** *** Box info kernel: tree_build_kernels.py:1192-1305 *)
Section BoxInfo.
Variable inp : input.
Variable ps : pstate.
Variable sp : split.

Definition HAS_SOURCE_OR_TARGET_CHILD_BOXES : N := N.lor HAS_SOURCE_CHILD_BOXES HAS_TARGET_CHILD_BOXES.
(** [if (c) f |= m] *)
Definition mask_if (c : bool) (m f : N) : N := if c then N.lor f m else f.
Definition nonchild_source_count (b : nat) : nat := if have_extent inp then sp_source_nonchild sp b else 0.
Definition nonchild_target_count (b : nat) : nat := if have_extent inp then sp_target_nonchild sp b else 0.
Definition info_source_nonchild : nat -> nat :=
  kernel_map (p_nboxes ps) (fun b =>
    if p_has_children ps b then nonchild_source_count b
    else if same inp then p_cumul ps b else sp_source_cumul sp b) (fun _ => 0).
Definition info_target_nonchild : nat -> nat :=
  kernel_map (p_nboxes ps) (fun b =>
    if p_has_children ps b then nonchild_target_count b
    else if same inp then p_cumul ps b else p_cumul ps b - sp_source_cumul sp b) (fun _ => 0).
Definition info_flags : nat -> N :=
  kernel_map (p_nboxes ps) (fun b =>
    if p_has_children ps b then
      let f := HAS_SOURCE_OR_TARGET_CHILD_BOXES in
      let f := if same inp then
                 mask_if (negb (p_cumul ps b - (nonchild_source_count b + nonchild_target_count b) =? 0))
                         HAS_SOURCE_OR_TARGET_CHILD_BOXES f
               else mask_if (negb (sp_target_cumul sp b - nonchild_target_count b =? 0)) HAS_TARGET_CHILD_BOXES
                      (mask_if (negb (sp_source_cumul sp b - nonchild_source_count b =? 0)) HAS_SOURCE_CHILD_BOXES f) in
      mask_if (negb (nonchild_target_count b =? 0)) IS_TARGET_BOX
        (mask_if (negb (nonchild_source_count b =? 0)) IS_SOURCE_BOX f)
    else if same inp then mask_if (negb (p_cumul ps b =? 0)) (N.lor IS_SOURCE_BOX IS_TARGET_BOX) 0%N
    else mask_if (negb (p_cumul ps b - sp_source_cumul sp b =? 0)) IS_TARGET_BOX
           (mask_if (negb (sp_source_cumul sp b =? 0)) IS_SOURCE_BOX 0%N)) (fun _ => 0%N).
End BoxInfo.

(** *** Box extents: tree_build.py:1728-1803, tree_build_kernels.py:1311-1399 *)
Section Extents.
Variable inp : input.
Variable ps : pstate.
Variable pick : Z -> Z -> Z.                (* min or max *)
Variable reach : nat -> nat -> Z.           (* particle (tree order), axis -> coordinate -/+ radius *)
Variables (pstart pcount : nat -> nat).
Definition box_extent (bb : nat -> nat -> Z) (b : nat) (a : nat) : Z :=
  let own := fold_left (fun acc i => pick acc (reach i a)) (seq (pstart b) (pcount b)) (p_center ps b a) in
  fold_left (fun acc m => let c := p_child ps m b in if c =? 0 then acc else pick acc (bb c a))
            (seq 0 (nchild inp)) own.
(** one kernel launch per level *)
Definition extents_level (bb : nat -> nat -> Z) (l : nat) : nat -> nat -> Z :=
  let first := nth l (p_lstart ps) 0 in
  scatter (map (fun b => (b, kernel_map (idim inp) (box_extent bb b) (fun _ => 0%Z)))
               (seq first (nth (l + 1) (p_lstart ps) 0 - first))) bb.
(** deepest level first *)
Definition box_extents : nat -> nat -> Z :=
  fold_left extents_level (rev (seq 0 (length (p_lstart ps) - 1))) (fun _ _ => 0%Z).
End Extents.

(** tree_build.py:1832-1875 the Tree object *)
Record built := mkBuilt {
  b_tree : tree;
  b_level_starts : list nat;               (* level_start_box_nrs *)
  b_particles : particles;                 (* starts, nonchild counts, user_source_ids, sorted_target_ids *)
  b_source_cumul : nat -> nat;             (* box_source_counts_cumul *)
  b_target_cumul : nat -> nat;             (* box_target_counts_cumul *)
  b_sources : nat -> nat -> Z;             (* sources: tree order, axis *)
  b_targets : nat -> nat -> Z;
  b_source_radii : nat -> Z;               (* zero if there are none *)
  b_target_radii : nat -> Z;
  b_source_bbox_min : nat -> nat -> Z; b_source_bbox_max : nat -> nat -> Z;
  b_target_bbox_min : nat -> nat -> Z; b_target_bbox_max : nat -> nat -> Z
}.

(** combine_srcntgt_arrays of the radii: zero where not given (tree_build.py:352-372) *)
Definition rad_of (inp : input) (u : nat) : Z :=
  match ext inp with Some e => radius e u | None => 0%Z end.

(** tree_build.py:1462-1875 *)
Definition finish (inp : input) (st : state) : built :=
  let ps := prune inp st in
  let sp := if same inp then share_particles inp ps else split_particles inp ps in
  let snc := info_source_nonchild inp ps sp in
  let tnc := info_target_nonchild inp ps sp in
  let sc i a := coord inp (sp_source_ids sp i) a in
  let tc i a := coord inp (sp_target_ids sp i) a in
  let sr i := rad_of inp (sp_source_ids sp i) in
  let tr i := rad_of inp (sp_target_ids sp i) in
  {| b_tree := {| dim := idim inp; nlevels := length (p_lstart ps) - 1; nboxes := p_nboxes ps;
                  root_extent := the_root_extent inp; box_center := p_center ps;
                  box_level := p_blevel ps; box_parent := p_parent ps; box_child := p_child ps;
                  box_flags := info_flags inp ps sp |};
     b_level_starts := p_lstart ps;
     b_particles := {| nsources := nsrc inp;
       ntargets := if same inp then npart inp else npart inp - nsrc inp;
       box_source_starts := sp_source_starts sp; box_source_counts_nonchild := snc;
       box_target_starts := sp_target_starts sp; box_target_counts_nonchild := tnc;
       user_source_ids := sp_source_ids sp; sorted_target_ids := sp_sorted_target_ids sp |};
     b_source_cumul := sp_source_cumul sp;
     b_target_cumul := sp_target_cumul sp;
     b_sources := sc; b_targets := tc; b_source_radii := sr; b_target_radii := tr;
     b_source_bbox_min := box_extents inp ps Z.min (fun i a => (sc i a - sr i)%Z) (sp_source_starts sp) snc;
     b_source_bbox_max := box_extents inp ps Z.max (fun i a => (sc i a + sr i)%Z) (sp_source_starts sp) snc;
     b_target_bbox_min := box_extents inp ps Z.min (fun i a => (tc i a - tr i)%Z) (sp_target_starts sp) tnc;
     b_target_bbox_max := box_extents inp ps Z.max (fun i a => (tc i a + tr i)%Z) (sp_target_starts sp) tnc |}.

(** TreeBuilder.__call__: tree_build.py:145-1878 *)
Definition build_tree (inp : input) : built + error :=
  match level_loop inp with
  | Done st => inl (finish inp st)
  | Continue _ => inr OutOfFuel
  | Failed e => inr e
  end.
