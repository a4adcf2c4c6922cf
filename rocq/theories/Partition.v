(** Model of boxtree/distributed/partition.py: the order of the boxes, the assignment of boxes
    to ranks, and the boxes a rank needs from others. *)
From Coq Require Import List Arith ZArith Lia Bool.
From Verif Require Import Base Tree Traversal.
Import ListNotations.

(** ** partition.py:38-57 get_box_ids_dfs_order.  The head of [stack] is the end of the Python
    list.  Writing past the end of [dfs_order] (nboxes entries) is [None].  If the loop ended
    earlier, the array would have entries that were never written: the model's list is shorter. *)
Definition children (t : tree) (b : nat) : list nat :=
  filter (fun c => 0 <? c) (map (fun i => box_child t i b) (seq 0 (nchildren t))).
Fixpoint dfs_loop (t : tree) (room : nat) (stack : list nat) : option (list nat) :=
  match stack with
  | [] => Some []
  | b :: rest =>
    match room with
    | 0 => None
    | S room' => option_map (cons b) (dfs_loop t room' (rev (children t b) ++ rest))
    end
  end.
Definition get_box_ids_dfs_order (t : tree) : option (list nat) := dfs_loop t (nboxes t) [0].

(** ** partition.py:95-116: the loop on the root rank.  [costs] are the costs of the boxes from
    position [i] on in depth-first order.  The loop fills the rows of responsible_boxes_segments
    one after the other: the result lists the rows written, the other rows stay uninitialised.
    Costs are exact integers (floating-point numbers in the code); the comparison is multiplied
    by mpi_size. *)
Fixpoint segment_loop (nboxes size : nat) (total : Z) (costs : list Z)
         (i start segment_idx : nat) (workload : Z) : list (nat * nat) :=
  match costs with
  | [] => []
  | c :: costs' =>
    if segment_idx + 1 =? size then [(start, nboxes)]
    else
      let workload := (workload + c)%Z in
      if (Z.of_nat (segment_idx + 1) * total <? workload * Z.of_nat size)%Z || (i =? nboxes - 1)
      then (start, i + 1) :: segment_loop nboxes size total costs' (i + 1) (i + 1) (segment_idx + 1) workload
      else segment_loop nboxes size total costs' (i + 1) start segment_idx workload
  end.

(** ** partition.py:60-121 partition_work on rank [rank] of [size] *)
Inductive partition_result :=
| TooFewBoxes                      (* RuntimeError, lines 77-79 *)
| IndexOutOfRange                  (* in get_box_ids_dfs_order *)
| Uninitialised                    (* the rank receives a row that was never written *)
| Responsible (boxes : list nat).
(** l[start:stop] *)
Definition py_slice {A} (l : list A) (start stop : nat) : list A := firstn (stop - start) (skipn start l).
Definition partition_work (t : tree) (cost : nat -> Z) (size rank : nat) : partition_result :=
  if nboxes t <? size then TooFewBoxes
  else match get_box_ids_dfs_order t with
  | None => IndexOutOfRange
  | Some dfs_order =>
    let total := zsum (map cost (seq 0 (nboxes t))) in
    let segments := segment_loop (nboxes t) size total (map cost dfs_order) 0 0 0 0 in
    match nth_error segments rank with
    | None => Uninitialised
    | Some (s, e) => Responsible (py_slice dfs_order s e)
    end
  end.

(** ** Masks: arrays of 0/1 indexed by box *)
Definition mask := nat -> bool.
Definition no_boxes : mask := fun _ => false.
Definition mark (m : mask) (b : nat) : mask := fun x => if x =? b then true else m x.
Definition either (m1 m2 : mask) : mask := fun b => m1 b || m2 b.

(** partition.py:340-342 *)
Definition responsible_mask (boxes : list nat) : mask := fold_left mark boxes no_boxes.

(** partition.py:139-162; work item [i].  All writes store 1, so their order does not matter. *)
Definition add_interaction_list_boxes (box_list : list nat) (resp : mask) (c : csr) (src : mask) : mask :=
  fold_left (fun src i =>
      if resp (nth i box_list 0) then fold_left mark (csr_get c i) src else src)
    (seq 0 (length box_list)) src.

(** partition.py:164-171 *)
Definition add_parent_boxes (t : tree) (current parent : mask) : mask :=
  fold_left (fun parent i => if negb (i =? 0) && current i then mark parent (box_parent t i) else parent)
    (seq 0 (nboxes t)) parent.

(** partition.py:174-194; [None]: the loop has not ended after [fuel] rounds *)
Fixpoint ancestor_loop (t : tree) (fuel : nat) (ancestor last : mask) : option mask :=
  if existsb last (seq 0 (nboxes t)) then
    match fuel with
    | 0 => None
    | S fuel' =>
      let new := add_parent_boxes t last no_boxes in
      let new := fun b => new b && negb (ancestor b) in
      ancestor_loop t fuel' (either ancestor new) new
    end
  else Some ancestor.
Definition get_ancestor_boxes_mask (t : tree) (resp : mask) : option mask :=
  ancestor_loop t (nlevels t) no_boxes resp.

(** partition.py:197-252; [have_extent] is tree.targets_have_extent *)
Definition get_point_src_boxes_mask (tr : traversal) (have_extent : bool) (resp anc : mask) : mask :=
  let src := add_interaction_list_boxes (target_boxes tr) resp (neighbor_source_boxes tr) resp in
  let src := add_interaction_list_boxes (target_or_target_parent_boxes tr) (either resp anc) (from_sep_bigger tr) src in
  if have_extent then
    let src := match from_sep_close_smaller tr with
               | Some c => add_interaction_list_boxes (target_boxes tr) resp c src | None => src end in
    match from_sep_close_bigger tr with
    | Some c => add_interaction_list_boxes (target_boxes tr) (either resp anc) c src | None => src end
  else src.

(** partition.py:255-297 *)
Definition get_multipole_src_boxes_mask (tr : traversal) (resp anc : mask) : mask :=
  let m := add_interaction_list_boxes (target_or_target_parent_boxes tr) (either resp anc) (from_sep_siblings tr) no_boxes in
  fold_left (fun m lc => add_interaction_list_boxes (fst lc) resp (snd lc) m) (from_sep_smaller_by_level tr) m.

(** partition.py:300-357 *)
Record box_masks := mkMasks {
  bm_responsible : mask; bm_ancestor : mask; bm_point_src : mask; bm_multipole_src : mask
}.
Definition get_box_masks (t : tree) (tr : traversal) (have_extent : bool) (boxes : list nat) : option box_masks :=
  let resp := responsible_mask boxes in
  match get_ancestor_boxes_mask t resp with
  | None => None
  | Some anc => Some {| bm_responsible := resp; bm_ancestor := anc;
                        bm_point_src := get_point_src_boxes_mask tr have_extent resp anc;
                        bm_multipole_src := get_multipole_src_boxes_mask tr resp anc |}
  end.
