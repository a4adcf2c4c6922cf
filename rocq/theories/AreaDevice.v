(** boxtree/area_query.py as it runs on the device: the kernels finding peer lists, the leaves
    near balls and the expanded starts as programs of single loads and stores, launched by the
    host programs of PeerListFinder, AreaQueryBuilder and LeavesToBallsLookupBuilder.

    Conventions as in TravDevice.v, of which the arrays of the tree, the walk and the loops over
    lists are used.  The arithmetic on private variables is that of AreaQuery.v, applied to the
    values that were loaded. *)
From Coq Require Import List Arith ZArith NArith Bool.
From Verif Require Import Base Tree Walk Traversal AreaQuery Kernel Device ListBuilder TravDevice.
Import ListNotations.

Section Kernels.
Variable S : scalars.
Variable bbox_min : nat -> Z.              (* bbox_min_x, bbox_min_y, ... = tree.bounding_box[0] *)

(** area_query.py:774-775, 1005-1006, 1165-1167 *)
Definition query_room : nat := (s_nlevels S + 9) / 10 * 10.
(** the arguments that are not arrays, as AreaQuery.v wants them *)
Definition scalar_tree : tree := pair_tree S (fun _ => 0%Z) 0 (fun _ => 0%Z) 0.
(** !(box_flags[b] & BOX_HAS_SOURCE_OR_TARGET_CHILD_BOXES) *)
Definition childless (f : N) : bool := negb (flag f (N.lor HAS_SOURCE_CHILD_BOXES HAS_TARGET_CHILD_BOXES)).

(** ** Peer lists: area_query.py:393-473 *)
(** 440-454; [lev] = walk_stack_size+2 *)
Fixpoint children_apart (center : nat -> Z) (level lev : nat) (b : Z) (slots : list nat) (next : bool -> vgen) : vgen :=
  match slots with
  | [] => next true
  | m :: slots' => GLoad (Base BoxChildren) (z m * z (aligned S) + b) (fun c =>
      if (c =? 0)%Z then children_apart center level lev b slots' next
      else load_center S c (fun cc =>
        if near S center level cc lev then next false else children_apart center level lev b slots' next))
  end.
Definition peer_gen (i : nat) : vgen :=
  load_center S (z i) (fun center =>
  if (z i =? 0)%Z then GPut Peers (z i) GEnd else
  load_level (z i) (fun level =>
  walk_room S query_room 0 (fun c ssz k =>
    if (c =? 0)%Z then k false else
    load_center S c (fun cc =>
    if near S center level cc (ssz + 1) then
      if ssz + 1 =? level then GPut Peers c (k false)
      else load_flags c (fun f =>
        if childless f then GPut Peers c (k false)
        else children_apart center level (ssz + 2) c (seq 0 (nch S)) (fun must_be_peer =>
          if must_be_peer then GPut Peers c (k false) else k true))
    else k false)) GEnd)).

(** ** Leaves near balls: area_query.py:178-365 *)
(** 243-288.  The loop has no bound in the code; running out of [fuel] is an overrun. *)
Fixpoint guide_gen (center : nat -> Z) (radius : Z) (fuel : nat) (box : Z) (level : nat) (next : Z -> vgen) : vgen :=
  match fuel with
  | 0 => overrun
  | Datatypes.S fuel' =>
      load_flags box (fun f =>
      let qr := query_radius scalar_tree bbox_min center radius in
      if childless f || ((level_to_rad scalar_tree level <? 2 * qr)%Z && (qr <=? level_to_rad scalar_tree level)%Z) then next box
      else GLoad (Base BoxChildren) (z (guide_morton scalar_tree bbox_min center level) * z (aligned S) + box) (fun c =>
           if (c =? 0)%Z then next box else guide_gen center radius fuel' c (Datatypes.S level) next))
  end.
Definition guiding_gen (center : nat -> Z) (radius : Z) (next : Z -> vgen) : vgen :=
  if (2 * query_radius scalar_tree bbox_min center radius <=? level_to_rad scalar_tree 0)%Z
  then guide_gen center radius (s_nlevels S) 0 0 next else next 0%Z.
(** 315-326, 337-351: a leaf box; traversal.py:200-214 *)
Definition leaf_gen (center : nat -> Z) (radius : Z) (b : Z) (next : vgen) : vgen :=
  load_center S b (fun cb => load_level b (fun lb =>
  put_if (linf_dist (s_dim S) center cb <=? level_to_rad scalar_tree lb + radius)%Z Leaves b next)).
(** 310-364 *)
Definition near_peer_gen (center : nat -> Z) (radius : Z) (peer : Z) (next : vgen) : vgen :=
  load_flags peer (fun f =>
  if childless f then leaf_gen center radius peer next
  else walk_room S query_room peer (fun c ssz k =>
    if (c =? 0)%Z then k false else
    load_flags c (fun fc => if childless fc then leaf_gen center radius c (k false) else k true)) next).
(** 368-390 *)
Definition leaves_gen (i : nat) : vgen :=
  gloads (map (fun a => (Base (BallCoord a), z i)) (seq 0 (s_dim S))) (fun cs =>
  GLoad (Base BallRadii) (z i) (fun radius =>
  let center := fun a => nth a cs 0%Z in
  guiding_gen center radius (fun g => over_list Peers g (near_peer_gen center radius) GEnd))).

(** ** Expanded starts: area_query.py:477-488 with tools.py:594-630 *)
(** [len] = nballs_p_1 *)
Fixpoint bsearch_item (fuel len : nat) (v : Z) (l r : nat) (next : Z -> item varr) : item varr :=
  match fuel with
  | 0 => Load (Starts Leaves) (-1) (fun _ => Finish)
  | Datatypes.S fuel' =>
      let i := l + (r - l) / 2 in
      Load (Starts Leaves) (z i) (fun a =>
      if (a <=? v)%Z then
        if i =? len - 1 then next (z i)
        else Load (Starts Leaves) (z i + 1) (fun b => if (v <? b)%Z then next (z i) else bsearch_item fuel' len v i r next)
      else bsearch_item fuel' len v l i next)
  end.
Definition expand_item (len i : nat) : item varr :=
  Load (Starts Leaves) 0 (fun a0 =>
  let put j := Store (Base ExpandedStarts) (z i) j Finish in
  if (z i <? a0)%Z then put (-1)%Z else bsearch_item (Datatypes.S len) len (z i) 0 len put).

(** ** Host programs *)
(** area_query.py:1151-1188 PeerListFinder.__call__ *)
Definition peers_program {R} (next : host varr R) : host varr R :=
  build_lists lname_eq [(Peers, false)] (s_nboxes S) peer_gen (fun _ => next).
(** area_query.py:743-800 AreaQueryBuilder.__call__; [given]: peer lists are passed in.  The result
    is the number of entries. *)
Definition query_program {R} (given : bool) (nballs : nat) (next : nat -> host varr R) : host varr R :=
  (if given then fun h => h else peers_program)
  (build_lists lname_eq [(Leaves, false)] nballs leaves_gen (fun b => next (num_entries (b Leaves)))).
Definition area_query_program (given : bool) (nballs : nat) : host varr nat := query_program given nballs (fun n => Ret n).
(** area_query.py:863-908 LeavesToBallsLookupBuilder.__call__, up to the call of pyopencl's sort *)
Definition expand_program (given : bool) (nballs : nat) : host varr nat :=
  query_program given nballs (fun n =>
  Alloc (Base ExpandedStarts) (z n) (Assign (Base ExpandedStarts) 0 (repeat 0%Z n)
  (Launch n (expand_item (nballs + 1)) (Ret n)))).
End Kernels.
