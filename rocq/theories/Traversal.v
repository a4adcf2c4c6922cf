(** Model of the FMM traversal builder (boxtree/traversal.py). *)
From Coq Require Import List Arith ZArith NArith Lia Bool.
From Verif Require Import Base Tree Walk.
Import ListNotations.

(** ** Adjacency tests *)

(** traversal.py:296-302: l_inf_dist = max_i |a_i - b_i|, starting from 0 *)
Definition linf_dist (d : nat) (a b : nat -> Z) : Z :=
  fold_left (fun acc i => Z.max acc (Z.abs (a i - b i))) (seq 0 d) 0%Z.

(** traversal.py:279-305 is_adjacent_or_overlapping_with_neighborhood (exact arithmetic) *)
Definition is_adj_nbhd (t : tree) (ct : nat -> Z) (lt : nat) (n : nat)
           (cs : nat -> Z) (ls : nat) : bool :=
  let target_rad := level_to_rad t lt in
  let source_rad := level_to_rad t ls in
  let rad_sum := ((2 * (Z.of_nat n - 1) + 1) * target_rad + source_rad)%Z in
  let slack := (rad_sum + Z.min target_rad source_rad)%Z in
  (linf_dist (dim t) ct cs <=? slack)%Z.

(** traversal.py:307-318 is_adjacent_or_overlapping *)
Definition is_adj (t : tree) ct lt cs ls : bool := is_adj_nbhd t ct lt 1 cs ls.

(** the tests applied to two boxes of the tree *)
Definition adj_n t n a b :=
  is_adj_nbhd t (box_center t a) (box_level t a) n (box_center t b) (box_level t b).
Definition adj t a b :=
  is_adj t (box_center t a) (box_level t a) (box_center t b) (box_level t b).

(** ** pyopencl ListOfListsBuilder output (starts / lists); assumed specification:
    lists = concatenation of the per-item outputs, starts = exclusive prefix sums of
    the output counts followed by the total. *)
Record csr := mkCsr { starts : list nat; lists : list nat }.
Definition csr_of (ll : list (list nat)) : csr :=
  mkCsr (prefix_from 0 (map (@length nat) ll)) (concat ll).
(** lists[starts[i]:starts[i+1]] *)
Definition csr_get (c : csr) (i : nat) : list nat :=
  firstn (nth (S i) (starts c) 0 - nth i (starts c) 0) (skipn (nth i (starts c) 0) (lists c)).
(** the same read with a possibly negative / too large index: [None] = out of range *)
Definition csr_read (c : csr) (i : Z) : option (list nat) :=
  if (0 <=? i)%Z && (i + 1 <? Z.of_nat (length (starts c)))%Z
  then Some (csr_get c (Z.to_nat i)) else None.

(** running a kernel once per list item; any failing work item is a failure *)
Fixpoint run_all {A B} (f : A -> option B) (l : list A) : option (list B) :=
  match l with
  | [] => Some []
  | x :: l' => match f x, run_all f l' with
               | Some y, Some ys => Some (y :: ys)
               | _, _ => None
               end
  end.

(** traversal.py:2003-2006 max_levels = div_ceil(nlevels, 5) * 5, traversal.py:232 NLEVELS *)
Definition max_levels (t : tree) : nat := (nlevels t + 4) / 5 * 5.

(** ** Same-level non-well-separated boxes: traversal.py:398-464 *)
Definition slnws_visit (t : tree) (n box : nat) (c ssz : nat) : list nat * bool :=
  if adj_n t n box c then
    if (ssz + 1 =? box_level t box) && negb (c =? box) then ([c], false) else ([], true)
  else ([], false).
Definition slnws_kernel (t : tree) (n box : nat) : option (list nat) :=
  if box =? 0 then Some []
  else run_walk t (slnws_visit t n box) (max_levels t) 0.

(** ** List 1: traversal.py:470-550 *)
Definition list1_visit (t : tree) (box : nat) (c ssz : nat) : list nat * bool :=
  if adj t box c then
    ((if is_source t c then [c] else []), has_source_child t c)
  else ([], false).
Definition list1_kernel (t : tree) (box : nat) : option (list nat) :=
  option_map (app (if is_source t 0 then [0] else []))
             (run_walk t (list1_visit t box) (max_levels t) 0).

(** ** List 2: traversal.py:556-601; [parent] is the content of box_parent_ids[box]
    (possibly negative for a TreeOfBoxes root). *)
Definition list2_kernel (t : tree) (n : nat) (slnws : csr) (box : nat) (parent : Z)
  : option (list nat) :=
  if (parent =? Z.of_nat box)%Z then Some []
  else option_map (fun parent_nfs =>
      concat (map (fun parent_nf =>
        concat (map (fun m =>
          let sib := box_child t m parent_nf in
          if sib =? 0 then [] else
          if negb (adj_n t n box sib) then [sib] else []) (seq 0 (nchildren t))))
        parent_nfs)) (csr_read slnws parent).

(** ** Extent information used by lists 3 and 4 *)
Inductive sep_crit := static_linf | precise_linf | static_l2.

(** stick_out_factor = stick_out_num / stick_out_den, COORD_T_MACH_EPS = eps_num/eps_den *)
Record extent_info := mkExtent {
  targets_have_extent : bool;
  stick_out_num : Z; stick_out_den : Z;
  eps_num : Z; eps_den : Z;
  from_sep_smaller_crit : sep_crit;
  (* twice the center / the radius of box_target_bounding_box, traversal.py:177-198 *)
  tgt_ext_center2 : nat -> nat -> Z;
  tgt_ext_radius2 : nat -> nat -> Z;
  box_source_counts_cumul : nat -> nat;
  from_sep_smaller_min_nsources_cumul : nat
}.

(** max over axes of f, starting from 0 (traversal.py:722-730) *)
Definition max_axes (d : nat) (f : nat -> Z) : Z :=
  fold_left (fun acc i => Z.max acc (f i)) (seq 0 d) 0%Z.

(** meets_sep_crit, traversal.py:709-819; inequalities multiplied by the (positive)
    denominators; static_l2's square roots are eliminated exactly:
    a + sqrt b <= sqrt c  iff  0 <= c - a^2 - b  and  4 a^2 b <= (c - a^2 - b)^2 (a >= 0). *)
Definition meets_sep_smaller (t : tree) (ex : extent_info) (tgt c : nat) : bool :=
  let sd := stick_out_den ex in let sn := stick_out_num ex in
  let ed := eps_den ex in let en := eps_num ex in
  let source_rad := box_rad t c in
  let tgt_rad := box_rad t tgt in
  match from_sep_smaller_crit ex with
  | static_linf =>
      let l_inf := max_axes (dim t) (fun i =>
          Z.abs (box_center t tgt i - box_center t c i) * sd
          - (sd + sn) * tgt_rad - source_rad * sd)%Z in
      ((2 * ed - 8 * en) * source_rad * sd <=? l_inf * ed)%Z
  | precise_linf =>
      let l_inf2 := max_axes (dim t) (fun i =>
          Z.abs (tgt_ext_center2 ex tgt i - 2 * box_center t c i)
          - tgt_ext_radius2 ex tgt i - 2 * source_rad)%Z in
      ((2 * ed - 8 * en) * source_rad * 2 <=? l_inf2 * ed)%Z
  | static_l2 =>
      let sq x := (x * x)%Z in
      let D2 := zsum (map (fun i => sq (box_center t tgt i - box_center t c i)%Z) (seq 0 (dim t))) in
      let a := ((3 * ed - 8 * en) * sd * source_rad)%Z in
      let b := (Z.of_nat (dim t) * sq ((sd + sn) * ed * tgt_rad))%Z in
      let r := (sq (sd * ed) * D2 - sq a - b)%Z in
      (0 <=? r)%Z && (4 * sq a * b <=? sq r)%Z
  end.

(** ** List 3: traversal.py:607-875.  [slev] = from_sep_smaller_source_level,
    [None] = -1.  Entries [(true, b)] are APPEND_from_sep_smaller, [(false, b)] are
    APPEND_from_sep_close_smaller. *)
Definition list3_visit (t : tree) (ex : extent_info) (tgt : nat) (slev : option nat)
           (c ssz : nat) : list (bool * nat) * bool :=
  if flag (box_flags t c) (N.lor IS_SOURCE_BOX HAS_SOURCE_CHILD_BOXES) then
    let walk_level := box_level t c in
    let in_list_1 := adj t tgt c in
    if in_list_1 then
      if has_source_child t c then
        if (match slev with Some l => walk_level <=? l | None => true end)
        then ([], true) else ([], false)
      else ([], false)
    else
      let meets := if targets_have_extent ex then meets_sep_smaller t ex tgt c else true in
      let force_close :=
        if targets_have_extent ex
        then box_source_counts_cumul ex c <? from_sep_smaller_min_nsources_cumul ex
        else false in
      if meets && negb force_close then
        ((match slev with
          | Some l => if l =? walk_level then [(true, c)] else []
          | None => [] end), false)
      else if targets_have_extent ex then
        ((if is_source t c && (match slev with None => true | _ => false end)
          then [(false, c)] else []), has_source_child t c)
      else ([], false)
  else ([], false).

Definition list3_kernel (t : tree) (ex : extent_info) (slnws : csr) (slev : option nat)
           (tgt : nat) : option (list (bool * nat)) :=
  match csr_read slnws (Z.of_nat tgt) with
  | None => None
  | Some l =>
    option_map (@concat _)
      (run_all (fun nws => if nws =? tgt then Some []
                           else run_walk t (list3_visit t ex tgt slev) (max_levels t) nws) l)
  end.

(** ** List 4 *)
(** traversal.py:933-972 meets_sep_bigger_criterion, multiplied by the denominators *)
Definition meets_sep_bigger (t : tree) (ex : extent_info) (ct : nat -> Z) (lt : nat)
           (cs : nat -> Z) (ls : nat) : bool :=
  let sd := stick_out_den ex in let sn := stick_out_num ex in
  let ed := eps_den ex in let en := eps_num ex in
  let max_allowed := (3 * (sd + sn) * level_to_rad t lt + sd * level_to_rad t ls)%Z in
  (max_allowed * (ed - 8 * en) <=? linf_dist (dim t) ct cs * (sd * ed))%Z.

(** loop body traversal.py:1028-1142 for one entry of the slnws list.
    [(true, b)] = APPEND_from_sep_bigger, [(false, b)] = APPEND_from_sep_close_bigger *)
Definition list4_entry (t : tree) (ex : extent_info) (n tgt walk_level slnws_box : nat)
  : list (bool * nat) :=
  let tgt_level := box_level t tgt in
  let tgt_parent := box_parent t tgt in
  let tgt_parent_level := tgt_level - 1 in
  if is_source t slnws_box then
    let in_list_1 := is_adj t (box_center t tgt) tgt_level (box_center t slnws_box) walk_level in
    if negb in_list_1 then
      if targets_have_extent ex &&
         negb (meets_sep_bigger t ex (box_center t tgt) tgt_level
                                (box_center t slnws_box) walk_level)
      then (if is_target t tgt then [(false, slnws_box)] else [])
      else
        let in_parent_list_1 :=
          is_adj t (box_center t tgt_parent) tgt_parent_level
                 (box_center t slnws_box) walk_level in
        let would_be_in_parent :=
          negb in_parent_list_1 && (if 1 <? n then walk_level <? tgt_level else true) in
        if would_be_in_parent then
          if targets_have_extent ex then
            if negb (meets_sep_bigger t ex (box_center t tgt_parent) tgt_parent_level
                                      (box_center t slnws_box) walk_level)
            then [(true, slnws_box)] else []
          else []
        else [(true, slnws_box)]
    else []
  else [].

(** for-loop traversal.py:1014-1144: walk_level counts down to 0 *)
Fixpoint list4_loop (t : tree) (ex : extent_info) (n : nat) (slnws : csr) (tgt : nat)
         (walk_level cur : nat) : option (list (bool * nat)) :=
  match walk_level with
  | 0 => Some []
  | S wl =>
    match csr_read slnws (Z.of_nat cur) with
    | None => None
    | Some l =>
      option_map (app (concat (map (list4_entry t ex n tgt walk_level) l)))
                 (list4_loop t ex n slnws tgt wl (box_parent t cur))
    end
  end.

(** traversal.py:975-1145 *)
Definition list4_kernel (t : tree) (ex : extent_info) (n : nat) (slnws : csr) (tgt : nat)
  : option (list (bool * nat)) :=
  let tgt_level := box_level t tgt in
  if tgt_level =? 0 then Some []
  else if n =? 1 then list4_loop t ex n slnws tgt (tgt_level - 1) (box_parent t tgt)
  else list4_loop t ex n slnws tgt tgt_level tgt.

Definition pick (tag : bool) (l : list (bool * nat)) : list nat :=
  map snd (filter (fun p => Bool.eqb (fst p) tag) l).

(** ** Level starts: traversal.py:361-392 and 2068-2098 *)
Fixpoint update {A} (l : list A) (i : nat) (v : A) : list A :=
  match l, i with
  | [], _ => []
  | _ :: l', 0 => v :: l'
  | x :: l', S i' => x :: update l' i' v
  end.

(** traversal.py:369-391, one work item *)
Definition level_start_item (t : tree) (level_start_box_nrs : nat -> nat)
           (box_list : list nat) (result : list nat) (i : nat) : list nat :=
  let my_box := nth i box_list 0 in
  let my_level := box_level t my_box in
  let leading :=
    if i =? 0 then true
    else let prev := nth (i - 1) box_list 0 in
         let my_level_start := level_start_box_nrs my_level in
         (prev <? my_level_start) && (my_level_start <=? my_box) in
  if leading then update result my_level i else result.

(** traversal.py:2093-2096: backfill from the last level to the first *)
Definition backfill (last : nat) (l : list nat) : list nat :=
  fold_right (fun x acc => Nat.min x (hd last acc) :: acc) [] l.

Definition extract_level_starts (t : tree) (level_start_box_nrs : nat -> nat)
           (box_list : list nat) : list nat :=
  let len := length box_list in
  let result := fold_left (level_start_item t level_start_box_nrs box_list) (seq 0 len)
                          (repeat len (nlevels t + 1)) in
  backfill len (firstn (nlevels t) result) ++ skipn (nlevels t) result.

(** ** List merging: traversal.py:1153-1344 *)
(** boxtree/tools.py:81-109 reverse_index_array (target_size = n; unset entries 0):
    result[arr[i]] = i *)
Definition reverse_index (arr : list nat) (n : nat) : list nat :=
  fold_left (fun r i => update r (nth i arr 0) i) (seq 0 (length arr)) (repeat 0 n).

(** _ListMerger.__call__: counts, cumsum and copy kernels *)
Definition merge_lists (output_to_input : list nat) (inputs : list csr) : csr :=
  csr_of (map (fun ibox => concat (map (fun c => csr_get c ibox) inputs)) output_to_input).

(** ** The traversal: traversal.py:1969-2345 *)
Record trav_params := mkParams {
  well_sep_is_n_away : nat;
  extents : extent_info;
  sources_are_targets : bool;
  source_boxes_mask : nat -> bool;           (* constantly true if None *)
  source_parent_boxes_mask : nat -> bool;
  level_start_box_nrs : nat -> nat
}.

Record traversal := mkTrav {
  source_boxes : list nat;
  target_boxes : list nat;
  source_parent_boxes : list nat;
  target_or_target_parent_boxes : list nat;
  level_start_source_box_nrs : list nat;
  level_start_target_box_nrs : list nat;
  level_start_source_parent_box_nrs : list nat;
  level_start_target_or_target_parent_box_nrs : list nat;
  same_level_non_well_sep_boxes : csr;             (* by box id *)
  neighbor_source_boxes : csr;                     (* by index into target_boxes *)
  from_sep_siblings : csr;                         (* by index into target_or_target_parent_boxes *)
  (* per source level: target_boxes_sep_smaller_by_source_level, from_sep_smaller_by_level *)
  from_sep_smaller_by_level : list (list nat * csr);
  from_sep_close_smaller : option csr;             (* by index into target_boxes *)
  from_sep_bigger : csr;                           (* by index into target_or_target_parent_boxes *)
  from_sep_close_bigger : option csr               (* by index into target_boxes *)
}.

(** traversal.py:326-355 *)
Definition find_source_boxes t P :=
  filter (fun b => is_source t b && source_boxes_mask P b) (seq 0 (nboxes t)).
Definition find_source_parent_boxes t P :=
  filter (fun b => has_source_child t b && source_parent_boxes_mask P b) (seq 0 (nboxes t)).
Definition find_target_boxes t P :=
  if sources_are_targets P then find_source_boxes t P
  else filter (fun b => is_target t b) (seq 0 (nboxes t)).
Definition find_target_or_target_parent_boxes t :=
  filter (fun b => flag (box_flags t b) (N.lor HAS_TARGET_CHILD_BOXES IS_TARGET_BOX))
         (seq 0 (nboxes t)).

(** the ListOfListsBuilder variant eliminating empty output lists
    (eliminate_empty_output_lists, traversal.py:1886-1893 & 2207-2219): nonempty
    indices together with the remaining lists *)
Definition eliminate_empty (boxes : list nat) (ll : list (list nat)) : list nat * csr :=
  let ne := filter (fun p => negb (length (snd p) =? 0)) (combine boxes ll) in
  (map fst ne, csr_of (map snd ne)).

Definition build_traversal (t : tree) (P : trav_params) : option traversal :=
  let n := well_sep_is_n_away P in
  let ex := extents P in
  let sb := find_source_boxes t P in
  let spb := find_source_parent_boxes t P in
  let tb := find_target_boxes t P in
  let ttpb := find_target_or_target_parent_boxes t in
  let lev := extract_level_starts t (level_start_box_nrs P) in
  match run_all (slnws_kernel t n) (seq 0 (nboxes t)) with
  | None => None
  | Some sl =>
  let slnws := csr_of sl in
  match run_all (list1_kernel t) tb,
        run_all (fun b => list2_kernel t n slnws b (Z.of_nat (box_parent t b))) ttpb,
        run_all (fun l => run_all (list3_kernel t ex slnws (Some l)) tb) (seq 0 (nlevels t)),
        run_all (list3_kernel t ex slnws None) tb,
        run_all (list4_kernel t ex n slnws) ttpb with
  | Some l1, Some l2, Some l3, Some l3c, Some l4 =>
    Some {|
      source_boxes := sb; target_boxes := tb; source_parent_boxes := spb;
      target_or_target_parent_boxes := ttpb;
      level_start_source_box_nrs := lev sb;
      level_start_target_box_nrs := lev tb;
      level_start_source_parent_box_nrs := lev spb;
      level_start_target_or_target_parent_box_nrs := lev ttpb;
      same_level_non_well_sep_boxes := slnws;
      neighbor_source_boxes := csr_of l1;
      from_sep_siblings := csr_of l2;
      from_sep_smaller_by_level := map (fun ll => eliminate_empty tb (map (pick true) ll)) l3;
      from_sep_close_smaller :=
        if targets_have_extent ex then Some (csr_of (map (pick false) l3c)) else None;
      from_sep_bigger := csr_of (map (pick true) l4);
      from_sep_close_bigger :=
        if targets_have_extent ex then
          let rev := reverse_index ttpb (nboxes t) in
          Some (merge_lists (map (fun b => nth b rev 0) tb) [csr_of (map (pick false) l4)])
        else None
    |}
  | _, _, _, _, _ => None
  end end.

(** traversal.py:1650-1693 merge_close_lists *)
Definition merge_close_lists (tr : traversal) : option traversal :=
  match from_sep_close_smaller tr, from_sep_close_bigger tr with
  | Some cs, Some cb =>
    Some {|
      source_boxes := source_boxes tr; target_boxes := target_boxes tr;
      source_parent_boxes := source_parent_boxes tr;
      target_or_target_parent_boxes := target_or_target_parent_boxes tr;
      level_start_source_box_nrs := level_start_source_box_nrs tr;
      level_start_target_box_nrs := level_start_target_box_nrs tr;
      level_start_source_parent_box_nrs := level_start_source_parent_box_nrs tr;
      level_start_target_or_target_parent_box_nrs := level_start_target_or_target_parent_box_nrs tr;
      same_level_non_well_sep_boxes := same_level_non_well_sep_boxes tr;
      neighbor_source_boxes :=
        merge_lists (seq 0 (length (target_boxes tr))) [neighbor_source_boxes tr; cs; cb];
      from_sep_siblings := from_sep_siblings tr;
      from_sep_smaller_by_level := from_sep_smaller_by_level tr;
      from_sep_close_smaller := None;
      from_sep_bigger := from_sep_bigger tr;
      from_sep_close_bigger := None
    |}
  | _, _ => None   (* merging None lists raises in the kernel call *)
  end.
