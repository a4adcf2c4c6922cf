(** Model of boxtree/area_query.py.  Coordinates are exact integers in a unit that makes all
    radii and the clamping bound below integral; levels are below 31, so that shifts are exact. *)
From Coq Require Import List Arith ZArith NArith Lia Bool.
From Verif Require Import Base Tree Walk Traversal Tools.
Import ListNotations.

(** area_query.py:774-775, 1005-1006, 1165-1167 max_levels = div_ceil(nlevels, 10) * 10 *)
Definition aq_max_levels (t : tree) : nat := (nlevels t + 9) / 10 * 10.

(** BOX_HAS_SOURCE_OR_TARGET_CHILD_BOXES, tree.py:136-137 *)
Definition has_child (t : tree) (b : nat) : bool :=
  flag (box_flags t b) (N.lor HAS_SOURCE_CHILD_BOXES HAS_TARGET_CHILD_BOXES).

(** ** Peer lists: area_query.py:393-473 *)
Definition peer_visit (t : tree) (box c ssz : nat) : list nat * bool :=
  let center := box_center t box in
  let level := box_level t box in
  if is_adj t center level (box_center t c) (ssz + 1) then
    if ssz + 1 =? level then ([c], false)
    else if negb (has_child t c) then ([c], false)
    else
      let must_be_peer := forallb (fun m =>
            let nc := box_child t m c in
            if nc =? 0 then true
            else negb (is_adj t center level (box_center t nc) (ssz + 2)))
          (seq 0 (nchildren t)) in
      if must_be_peer then ([c], false) else ([], true)
  else ([], false).
Definition peer_kernel (t : tree) (box : nat) : option (list nat) :=
  if box =? 0 then Some [0]
  else run_walk t (peer_visit t box) (aq_max_levels t) 0.
(** area_query.py:1151-1188 PeerListFinder.__call__ *)
Definition find_peers (t : tree) : option csr :=
  option_map csr_of (run_all (peer_kernel t) (seq 0 (nboxes t))).

(** ** Guiding box: area_query.py:178-291 *)
Section Query.
Variable t : tree.
Variable bbox_min : nat -> Z.        (* tree.bounding_box[0] *)
Variable ball_center : nat -> Z.
Variable ball_radius : Z.

(** 193-194; root_extent_stretch_factor = 1e-4 (tree_build.py:101) *)
Definition bbox_max (i : nat) : Z := (bbox_min i + root_extent t * 10000 / 10001)%Z.
(** 195, 226-227 *)
Definition clamp (i : nat) (x : Z) : Z := Z.min (bbox_max i) (Z.max (bbox_min i) x).
Definition query_center (i : nat) : Z := clamp i (ball_center i).
(** 214-234 *)
Definition corner (mnr i : nat) : Z :=
  clamp i (ball_center i + (if Nat.testbit mnr (dim t - 1 - i) then ball_radius else - ball_radius))%Z.
Definition query_radius : Z :=
  fold_left (fun acc mnr =>
    fold_left (fun acc i => Z.max acc (Z.abs (corner mnr i - query_center i)))
              (seq 0 (dim t)) acc)
    (seq 0 (2 ^ dim t)) 0%Z.
(** 257-274 *)
Definition guide_bits (level i : nat) : Z :=
  ((query_center i - bbox_min i) * 2 ^ Z.of_nat (1 + level) / root_extent t)%Z.
Definition guide_morton (level : nat) : nat :=
  fold_left (fun acc i => Nat.lor acc (Nat.shiftl (if Z.odd (guide_bits level i) then 1 else 0)
                                                  (dim t - 1 - i)))
            (seq 0 (dim t)) 0.
(** 243-288: the loop; [None] is exhausted fuel or a read for a box id >= nboxes *)
Fixpoint guide_loop (fuel box level : nat) : option nat :=
  match fuel with
  | 0 => None
  | S fuel =>
    if negb (box <? nboxes t) then None else
    if negb (has_child t box)
       || ((level_to_rad t level <? 2 * query_radius)%Z && (query_radius <=? level_to_rad t level)%Z)
    then Some box
    else let next := box_child t (guide_morton level) box in
         if next =? 0 then Some box else guide_loop fuel next (S level)
  end.
Definition guiding_box : option nat :=
  if (2 * query_radius <=? level_to_rad t 0)%Z then guide_loop (nlevels t) 0 0 else Some 0.

(** ** Walking the peers: area_query.py:295-365 *)
(** check_l_infty_ball_overlap, traversal.py:200-214 *)
Definition ball_overlap (b : nat) : bool :=
  (linf_dist (dim t) ball_center (box_center t b) <=? box_rad t b + ball_radius)%Z.
Definition aq_visit (c ssz : nat) : list nat * bool :=
  if negb (has_child t c) then ((if ball_overlap c then [c] else []), false) else ([], true).
Definition aq_peer (peer : nat) : option (list nat) :=
  if negb (peer <? nboxes t) then None else
  if negb (has_child t peer) then Some (if ball_overlap peer then [peer] else [])
  else run_walk t aq_visit (aq_max_levels t) peer.
(** the boxes for which leaf_found_op is executed, in order *)
Definition leaves_of_ball (peers : csr) : option (list nat) :=
  match guiding_box with
  | None => None
  | Some g => match csr_read peers (Z.of_nat g) with
              | None => None
              | Some ps => option_map (@concat nat) (run_all aq_peer ps)
              end
  end.
End Query.

(** a ball: center and radius *)
Definition ball := ((nat -> Z) * Z)%type.

(** ** area_query.py:743-800 AreaQueryBuilder.__call__ (the peer lists are those of the tree) *)
Definition area_query (t : tree) (bbox_min : nat -> Z) (balls : list ball) : option csr :=
  match find_peers t with
  | None => None
  | Some peers =>
    option_map csr_of (run_all (fun b => leaves_of_ball t bbox_min (fst b) (snd b) peers) balls)
  end.

(** ** area_query.py:477-488, 880-912 LeavesToBallsLookupBuilder.__call__
    pyopencl's KeyValueSorter (assumed) returns for each key below nkeys the values with this
    key, in order of appearance. *)
Definition key_value_sort (nkeys : nat) (kvs : list (nat * nat)) : csr :=
  csr_of (map (fun k => map snd (filter (fun kv => fst kv =? k) kvs)) (seq 0 nkeys)).
(** (size_t) -1 stored in a box id is modelled as a failure *)
Definition expand_starts (aq : csr) : option (list nat) :=
  run_all (fun i => match bsearch (fun j => Z.of_nat (nth j (starts aq) 0)) (length (starts aq)) (Z.of_nat i) with
                    | Some (Some j) => Some j
                    | _ => None
                    end) (seq 0 (length (lists aq))).
Definition leaves_to_balls (t : tree) (bbox_min : nat -> Z) (balls : list ball) : option csr :=
  match area_query t bbox_min balls with
  | None => None
  | Some aq => option_map (fun es => key_value_sort (nboxes t) (combine (lists aq) es)) (expand_starts aq)
  end.

(** ** area_query.py:613-650, 1012-1049 SpaceInvaderQueryBuilder.__call__
    [f32 x] is as_int((float) x).  An atomic update is a pair (box, value); [schedule] is the order
    in which the updates of all work items take effect.  The result is the array of bit patterns
    of the distances. *)
Definition invader_updates (t : tree) (bbox_min : nat -> Z) (f32 : Z -> Z) (balls : list ball) : option (list (nat * Z)) :=
  match find_peers t with
  | None => None
  | Some peers =>
    option_map (@concat (nat * Z)) (run_all (fun b =>
       option_map (map (fun leaf => (leaf, f32 (linf_dist (dim t) (fst b) (box_center t leaf)))))
                  (leaves_of_ball t bbox_min (fst b) (snd b) peers)) balls)
  end.
Definition atomic_max (a : nat -> Z) (u : nat * Z) : nat -> Z :=
  fun b => if b =? fst u then Z.max (a b) (snd u) else a b.
Definition run_updates (schedule : list (nat * Z)) : nat -> Z := fold_left atomic_max schedule (fun _ => 0%Z).
