(** The traversal builder (boxtree/traversal.py) with the outcomes of its geometric tests as
    parameters.  The kernels are those of Traversal.v, line by line; only the tests differ. *)
From Coq Require Import List Arith ZArith NArith Lia Bool.
From Verif Require Import Base Tree Walk Traversal.
Import ListNotations.

(** outcomes of the tests for boxes and the levels passed with them
    - is_adjacent_or_overlapping_with_neighborhood (traversal.py:279-305), for a target box with its
      level, a neighborhood size before them, and a source box with its level;
    - meets_sep_crit of list 3 (traversal.py:709-819) for target box and source box;
    - meets_sep_bigger_criterion of list 4 (traversal.py:933-972). *)
Record decisions := mkDec {
  adjacent : nat -> nat -> nat -> nat -> nat -> bool;
  far_smaller : nat -> nat -> bool;
  far_bigger : nat -> nat -> nat -> nat -> bool
}.

(** the tests of Traversal.v, in exact arithmetic *)
Definition exact_decisions (t : tree) (ex : extent_info) : decisions := {|
  adjacent := fun n a la b lb => is_adj_nbhd t (box_center t a) la n (box_center t b) lb;
  far_smaller := meets_sep_smaller t ex;
  far_bigger := fun a la b lb => meets_sep_bigger t ex (box_center t a) la (box_center t b) lb |}.

Section By.
Variable D : decisions.

(** traversal.py:398-464 *)
Definition slnws_visit_by (t : tree) (n box : nat) (c ssz : nat) : list nat * bool :=
  if adjacent D n box (box_level t box) c (box_level t c) then
    if (ssz + 1 =? box_level t box) && negb (c =? box) then ([c], false) else ([], true)
  else ([], false).
Definition slnws_kernel_by (t : tree) (n box : nat) : option (list nat) :=
  if box =? 0 then Some []
  else run_walk t (slnws_visit_by t n box) (max_levels t) 0.

(** traversal.py:470-550 *)
Definition list1_visit_by (t : tree) (box : nat) (c ssz : nat) : list nat * bool :=
  if adjacent D 1 box (box_level t box) c (box_level t c) then
    ((if is_source t c then [c] else []), has_source_child t c)
  else ([], false).
Definition list1_kernel_by (t : tree) (box : nat) : option (list nat) :=
  option_map (app (if is_source t 0 then [0] else []))
             (run_walk t (list1_visit_by t box) (max_levels t) 0).

(** traversal.py:556-601 *)
Definition list2_kernel_by (t : tree) (n : nat) (slnws : csr) (box : nat) (parent : Z)
  : option (list nat) :=
  if (parent =? Z.of_nat box)%Z then Some []
  else option_map (fun parent_nfs =>
      concat (map (fun parent_nf =>
        concat (map (fun m =>
          let sib := box_child t m parent_nf in
          if sib =? 0 then [] else
          if negb (adjacent D n box (box_level t box) sib (box_level t sib)) then [sib] else []) (seq 0 (nchildren t))))
        parent_nfs)) (csr_read slnws parent).

(** traversal.py:607-875 *)
Definition list3_visit_by (t : tree) (ex : extent_info) (tgt : nat) (slev : option nat)
           (c ssz : nat) : list (bool * nat) * bool :=
  if flag (box_flags t c) (N.lor IS_SOURCE_BOX HAS_SOURCE_CHILD_BOXES) then
    let walk_level := box_level t c in
    let in_list_1 := adjacent D 1 tgt (box_level t tgt) c walk_level in
    if in_list_1 then
      if has_source_child t c then
        if (match slev with Some l => walk_level <=? l | None => true end)
        then ([], true) else ([], false)
      else ([], false)
    else
      let meets := if targets_have_extent ex then far_smaller D tgt c else true in
      let force_close :=
        if targets_have_extent ex
        then box_source_counts_cumul ex c <? from_sep_smaller_min_nsources_cumul ex
        else false in
      if meets && negb force_close then
        ((match slev with
          | Some l => if l =? walk_level then [(true, c)] else []
          | None => [] end), false)
      else if targets_have_extent ex then
        ((if is_source t c && (match slev with None => true | _ => false end)
          then [(false, c)] else []), has_source_child t c)
      else ([], false)
  else ([], false).
Definition list3_kernel_by (t : tree) (ex : extent_info) (slnws : csr) (slev : option nat)
           (tgt : nat) : option (list (bool * nat)) :=
  match csr_read slnws (Z.of_nat tgt) with
  | None => None
  | Some l =>
    option_map (@concat _)
      (run_all (fun nws => if nws =? tgt then Some []
                           else run_walk t (list3_visit_by t ex tgt slev) (max_levels t) nws) l)
  end.

(** traversal.py:1028-1142 *)
Definition list4_entry_by (t : tree) (ex : extent_info) (n tgt walk_level slnws_box : nat)
  : list (bool * nat) :=
  let tgt_level := box_level t tgt in
  let tgt_parent := box_parent t tgt in
  let tgt_parent_level := tgt_level - 1 in
  if is_source t slnws_box then
    let in_list_1 := adjacent D 1 tgt tgt_level slnws_box walk_level in
    if negb in_list_1 then
      if targets_have_extent ex && negb (far_bigger D tgt tgt_level slnws_box walk_level)
      then (if is_target t tgt then [(false, slnws_box)] else [])
      else
        let in_parent_list_1 := adjacent D 1 tgt_parent tgt_parent_level slnws_box walk_level in
        let would_be_in_parent :=
          negb in_parent_list_1 && (if 1 <? n then walk_level <? tgt_level else true) in
        if would_be_in_parent then
          if targets_have_extent ex then
            if negb (far_bigger D tgt_parent tgt_parent_level slnws_box walk_level)
            then [(true, slnws_box)] else []
          else []
        else [(true, slnws_box)]
    else []
  else [].
(** traversal.py:1014-1144 *)
Fixpoint list4_loop_by (t : tree) (ex : extent_info) (n : nat) (slnws : csr) (tgt : nat)
         (walk_level cur : nat) : option (list (bool * nat)) :=
  match walk_level with
  | 0 => Some []
  | S wl =>
    match csr_read slnws (Z.of_nat cur) with
    | None => None
    | Some l =>
      option_map (app (concat (map (list4_entry_by t ex n tgt walk_level) l)))
                 (list4_loop_by t ex n slnws tgt wl (box_parent t cur))
    end
  end.
(** traversal.py:975-1145 *)
Definition list4_kernel_by (t : tree) (ex : extent_info) (n : nat) (slnws : csr) (tgt : nat)
  : option (list (bool * nat)) :=
  let tgt_level := box_level t tgt in
  if tgt_level =? 0 then Some []
  else if n =? 1 then list4_loop_by t ex n slnws tgt (tgt_level - 1) (box_parent t tgt)
  else list4_loop_by t ex n slnws tgt tgt_level tgt.

(** traversal.py:1969-2345 *)
Definition build_traversal_by (t : tree) (P : trav_params) : option traversal :=
  let n := well_sep_is_n_away P in
  let ex := extents P in
  let sb := find_source_boxes t P in
  let spb := find_source_parent_boxes t P in
  let tb := find_target_boxes t P in
  let ttpb := find_target_or_target_parent_boxes t in
  let lev := extract_level_starts t (level_start_box_nrs P) in
  match run_all (slnws_kernel_by t n) (seq 0 (nboxes t)) with
  | None => None
  | Some sl =>
  let slnws := csr_of sl in
  match run_all (list1_kernel_by t) tb,
        run_all (fun b => list2_kernel_by t n slnws b (Z.of_nat (box_parent t b))) ttpb,
        run_all (fun l => run_all (list3_kernel_by t ex slnws (Some l)) tb) (seq 0 (nlevels t)),
        run_all (list3_kernel_by t ex slnws None) tb,
        run_all (list4_kernel_by t ex n slnws) ttpb with
  | Some l1, Some l2, Some l3, Some l3c, Some l4 =>
    Some {|
      source_boxes := sb; target_boxes := tb; source_parent_boxes := spb;
      target_or_target_parent_boxes := ttpb;
      level_start_source_box_nrs := lev sb;
      level_start_target_box_nrs := lev tb;
      level_start_source_parent_box_nrs := lev spb;
      level_start_target_or_target_parent_box_nrs := lev ttpb;
      same_level_non_well_sep_boxes := slnws;
      neighbor_source_boxes := csr_of l1;
      from_sep_siblings := csr_of l2;
      from_sep_smaller_by_level := map (fun ll => eliminate_empty tb (map (pick true) ll)) l3;
      from_sep_close_smaller :=
        if targets_have_extent ex then Some (csr_of (map (pick false) l3c)) else None;
      from_sep_bigger := csr_of (map (pick true) l4);
      from_sep_close_bigger :=
        if targets_have_extent ex then
          let rev := reverse_index ttpb (nboxes t) in
          Some (merge_lists (map (fun b => nth b rev 0) tb) [csr_of (map (pick false) l4)])
        else None
    |}
  | _, _, _, _, _ => None
  end end.
End By.

(** With the exact tests this is Traversal.v. *)
Lemma run_all_ext {A B} (f g : A -> option B) l : (forall x, f x = g x) -> run_all f l = run_all g l.
Proof. intros H. induction l as [|x l IH]; simpl; auto. rewrite H, IH. auto. Qed.
Lemma list4_loop_by_exact t ex n sl tgt wl : forall cur,
  list4_loop_by (exact_decisions t ex) t ex n sl tgt wl cur = list4_loop t ex n sl tgt wl cur.
Proof. induction wl as [|wl IH]; intros cur; simpl; auto. destruct (csr_read _ _); auto. rewrite IH. reflexivity. Qed.
Lemma build_traversal_by_exact t P : build_traversal_by (exact_decisions t (extents P)) t P = build_traversal t P.
Proof.
  unfold build_traversal_by, build_traversal. cbv zeta.
  change (slnws_kernel_by (exact_decisions t (extents P)) t) with (slnws_kernel t).
  destruct (run_all _ (seq 0 (nboxes t))) as [sl|]; auto.
  rewrite (run_all_ext (list4_kernel_by (exact_decisions t (extents P)) t (extents P) (well_sep_is_n_away P) (csr_of sl))
    (list4_kernel t (extents P) (well_sep_is_n_away P) (csr_of sl))); [reflexivity|].
  intros b. unfold list4_kernel_by, list4_kernel. rewrite !list4_loop_by_exact. reflexivity.
Qed.
