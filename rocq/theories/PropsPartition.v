(** Properties C36-C38 and C63: order of the boxes, assignment to ranks, masks of needed boxes. *)
From Coq Require Import List Arith ZArith NArith Lia Bool Permutation.
From Verif Require Import Base Tree Spec TreeFacts Traversal SpecTraversal Partition PartitionFacts
  CheckTree ExampleTree PropsTraversal.
Import ListNotations.

(** ** C36: the order contains every box once; a box is directly followed by its descendants. *)
Theorem C36_dfs_order : forall t, wf_tree t ->
  exists order, get_box_ids_dfs_order t = Some order /\
    Permutation order (seq 0 (nboxes t)) /\
    forall b, b < nboxes t -> exists before below after,
      order = before ++ (b :: below) ++ after /\
      forall x, In x (b :: below) <-> x < nboxes t /\ In b (ancestors_or_self t x).
Proof.
  intros t W. exists (pre t (nlevels t) 0). split; [apply dfs_order_pre; auto|]. split; [apply pre_perm; auto|].
  intros b Hb. destruct (pre_block t W (nlevels t) 0 b (wf_nboxes t W) ltac:(lia)) as [l1 [l3 [h [E Hh]]]].
  { eapply Permutation_in; [symmetry; apply pre_perm; auto|]. apply in_seq. lia. }
  destruct h as [|h]; [assert (X := wf_level_lt t W b Hb); lia|].
  eexists l1, _, l3. split; [exact E|]. intros x. apply (pre_in t W (S h) b x Hb Hh).
Qed.

(** ** C37: what the ranks get *)
Definition boxes_of (res : partition_result) : list nat := match res with Responsible l => l | _ => [] end.
(** the total cost of a list of boxes *)
Definition cost_of (cost : nat -> Z) (boxes : list nat) : Z := zsum (map cost boxes).

(** The first [k] ranks get non-empty lists, which put together in the order of the ranks are all
    boxes in depth-first order; the other ranks read memory that was never written. *)
Theorem C37_assignment : forall t cost size, wf_tree t -> 1 <= size -> size <= nboxes t ->
  exists order k, get_box_ids_dfs_order t = Some order /\ 1 <= k <= size /\
    concat (map (fun r => boxes_of (partition_work t cost size r)) (seq 0 size)) = order /\
    forall r, r < size ->
      if r <? k then exists l, partition_work t cost size r = Responsible l /\ l <> []
      else partition_work t cost size r = Uninitialised.
Proof.
  intros t cost size W S1 S2. set (order := pre t (nlevels t) 0).
  assert (LO : length order = nboxes t).
  { unfold order. rewrite (Permutation_length (pre_perm t W)), seq_length. auto. }
  unfold partition_work. destruct (Nat.ltb_spec (nboxes t) size); [lia|].
  rewrite (dfs_order_pre t W). fold order. set (segs := segment_loop _ _ _ _ _ _ _ _).
  destruct (segment_chain (nboxes t) size (zsum (map cost (seq 0 (nboxes t)))) (map cost order) 0 0 0 0%Z) as [C L];
    rewrite ?map_length; try lia.
  { destruct order; [intros _; cbn in LO; lia|discriminate]. }
  fold segs in C, L. exists order, (length segs). split; auto. split; [split; [|lia]|split].
  - destruct segs; cbn [chain_of length] in *; [|lia]. assert (X := wf_nboxes t W). lia.
  - destruct (chain_concat order segs 0 (nboxes t) C) as [_ E].
    assert (F : py_slice order 0 (nboxes t) = order) by (unfold py_slice; rewrite Nat.sub_0_r, <- LO; cbn [skipn]; apply firstn_all).
    rewrite F in E. transitivity (concat (map (fun p => py_slice order (fst p) (snd p)) segs)); [|exact E]. clear - L.
    assert (G : forall segs k, concat (map (fun r => boxes_of match nth_error segs r with
       | Some (s, e) => Responsible (py_slice order s e) | None => Uninitialised end) (seq 0 (length segs + k))) =
       concat (map (fun p => py_slice order (fst p) (snd p)) segs)).
    { induction segs0 as [|[a b] segs0 IH]; intros k.
      - cbn [length Nat.add map concat]. generalize 0. induction k as [|k IK]; intros i; cbn [seq map concat]; auto.
        rewrite IK. destruct i; reflexivity.
      - cbn [length Nat.add seq map concat fst snd]. rewrite <- seq_shift, map_map. cbn [nth_error boxes_of].
        rewrite IH. reflexivity. }
    rewrite <- (G segs (size - length segs)). replace (length segs + (size - length segs)) with size by lia. reflexivity.
  - intros r Hr. destruct (Nat.ltb_spec r (length segs)) as [K|K].
    + destruct (nth_error segs r) as [[a b]|] eqn:E; [|apply nth_error_None in E; lia].
      eexists. split; [reflexivity|]. clear - C E LO.
      assert (B : a < b /\ b <= nboxes t).
      { revert C E. generalize 0 as s. revert r. induction segs as [|[x y] l IH]; intros r s C E; [destruct r; discriminate|].
        destruct C as [-> [XY C]]. destruct r as [|r]; [injection E as <- <-; split; auto|apply (IH r y); auto].
        destruct (chain_concat order _ _ _ C). auto. }
      intros Z. apply (f_equal (@length nat)) in Z. unfold py_slice in Z. rewrite firstn_length, skipn_length in Z. cbn in Z. lia.
    + apply nth_error_None in K. rewrite K. auto.
Qed.
(** Every rank gets a list exactly if, for each m, the last m boxes in depth-first order cost less
    than m shares of the total. *)
Theorem C37_all_ranks_served : forall t cost size order, wf_tree t -> 1 <= size -> size <= nboxes t ->
  (forall b, b < nboxes t -> (0 <= cost b)%Z) -> get_box_ids_dfs_order t = Some order ->
  ((forall r, r < size -> partition_work t cost size r <> Uninitialised) <->
   (forall m, 1 <= m -> m < size ->
      (Z.of_nat size * cost_of cost (skipn (nboxes t - m) order) < Z.of_nat m * cost_of cost (seq 0 (nboxes t)))%Z)).
Proof.
  intros t cost size order W S1 S2 NN EO. assert (EO' := EO). rewrite (dfs_order_pre t W) in EO'. injection EO' as EO'.
  assert (PM := pre_perm t W). rewrite EO' in PM.
  assert (LO : length order = nboxes t) by (rewrite (Permutation_length PM), seq_length; auto).
  unfold cost_of. set (total := zsum (map cost (seq 0 (nboxes t)))).
  assert (ALL := segments_all (nboxes t) size total (map cost order) 0 0 0 0%Z).
  destruct (segment_chain (nboxes t) size total (map cost order) 0 0 0 0%Z) as [C L]; rewrite ?map_length; try lia.
  { intros E. destruct order; [cbn in LO; lia|discriminate]. }
  rewrite map_length in ALL.
  assert (EQ : (forall r, r < size -> partition_work t cost size r <> Uninitialised) <->
    length (segment_loop (nboxes t) size total (map cost order) 0 0 0 0) = size - 0).
  { unfold partition_work. destruct (Nat.ltb_spec (nboxes t) size); [lia|]. rewrite EO. fold total.
    set (segs := segment_loop _ _ _ _ _ _ _ _) in *. split.
    - intros H1. destruct (Nat.lt_ge_cases (length segs) size) as [K|K]; [|lia]. exfalso. apply (H1 (length segs) K).
      rewrite (proj2 (nth_error_None segs (length segs))); auto.
    - intros E r Hr. destruct (nth_error segs r) as [[a b]|] eqn:EN; [discriminate|]. apply nth_error_None in EN. lia. }
  rewrite EQ. rewrite ALL; try lia.
  2:{ intros c Hc. apply in_map_iff in Hc. destruct Hc as [b [<- Hb]]. apply NN.
      apply (Permutation_in _ PM), in_seq in Hb. lia. }
  unfold room_for_all. rewrite map_length, LO, Nat.sub_0_r.
  assert (SUM : forall m, (zsum (firstn (nboxes t - m) (map cost order)) + zsum (map cost (skipn (nboxes t - m) order)) = total)%Z).
  { intros m. rewrite firstn_map, <- zsum_app, <- map_app, firstn_skipn. apply zsum_perm, Permutation_map. auto. }
  split.
  - intros [_ H] m M1 M2. destruct (H m M1 ltac:(lia)) as [_ H2]. specialize (SUM m). nia.
  - intros H. split; [assert (X := wf_nboxes t W); lia|]. intros m M1 M2. split; [lia|].
    specialize (H m M1 ltac:(lia)). specialize (SUM m).
    rewrite Nat2Z.inj_sub by lia. nia.
Qed.
(** More ranks than boxes are rejected, and nothing else is. *)
Theorem C37_too_many_ranks : forall t cost size r, wf_tree t -> (nboxes t < size <-> partition_work t cost size r = TooFewBoxes).
Proof.
  intros t cost size r W. unfold partition_work. destruct (Nat.ltb_spec (nboxes t) size); [tauto|]. split; [lia|].
  rewrite (dfs_order_pre t W). destruct (nth_error _ r) as [[a b]|]; discriminate.
Qed.

(** ** C63: it is not true that every rank gets boxes whenever there are enough boxes: with one
    rank per box and equal costs, the last rank reads uninitialised memory; likewise with two
    ranks, if one box that comes last costs as much as all others. *)
Theorem C63_every_rank_served_refuted :
  ~ (forall t cost size r, wf_tree t -> 1 <= size -> size <= nboxes t -> (forall b, b < nboxes t -> (0 < cost b)%Z) ->
       r < size -> partition_work t cost size r <> Uninitialised).
Proof.
  intros H. apply (H ex_tree (fun _ => 1%Z) 29 28); [apply ex_tree_wf|lia|cbn; lia|lia|lia|].
  vm_compute. reflexivity.
Qed.
Theorem C63_two_ranks_refuted :
  ~ (forall t cost r, wf_tree t -> 2 <= nboxes t -> (forall b, b < nboxes t -> (0 < cost b)%Z) ->
       r < 2 -> partition_work t cost 2 r <> Uninitialised).
Proof.
  intros H. apply (H ex_tree (fun b => if b =? 5 then 28%Z else 1%Z) 1); [apply ex_tree_wf|cbn; lia| |lia|].
  - intros b _. destruct (b =? 5); lia.
  - vm_compute. reflexivity.
Qed.

(** ** C38: the masks.  [boxes]: the boxes the rank is responsible for. *)
Theorem C38_masks : forall t tr have_extent boxes, wf_tree t -> (forall b, In b boxes -> b < nboxes t) ->
  exists m, get_box_masks t tr have_extent boxes = Some m /\
    (forall b, bm_responsible m b = true <-> In b boxes) /\
    (* proper ancestors *)
    (forall b, bm_ancestor m b = true <-> exists x, In x boxes /\ In b (ancestors_or_self t x) /\ b <> x) /\
    (* sources needed in lists 1 and 4 and the close lists *)
    (forall T s, In T boxes -> In s (list1_of tr T) -> bm_point_src m s = true) /\
    (forall T A s, In T boxes -> In A (ancestors_or_self t T) -> In s (list4_of tr A) -> bm_point_src m s = true) /\
    (have_extent = true -> forall T s, In T boxes ->
       In s (list3_close_of tr T) \/ In s (list4_close_of tr T) -> bm_point_src m s = true) /\
    (forall b, In b boxes -> bm_point_src m b = true) /\
    (* multipole expansions needed in lists 2 and 3 *)
    (forall s, bm_multipole_src m s = true <->
       (exists T A, In T boxes /\ In A (ancestors_or_self t T) /\ In s (list2_of tr A)) \/
       (exists T, In T boxes /\ In s (list3_of tr T))).
Proof.
  intros t tr have boxes W R. unfold get_box_masks.
  destruct (ancestor_mask_ok t W (responsible_mask boxes)) as [anc [EA HA]]. rewrite EA. eexists. split; [reflexivity|].
  cbn [bm_responsible bm_ancestor bm_point_src bm_multipole_src].
  assert (AB : forall b x, x < nboxes t -> (strictly_above t b x <-> In b (ancestors_or_self t x) /\ b <> x)).
  { intros b x Hx. unfold strictly_above. rewrite in_chain by auto. split.
    - intros [k [Hk ->]]. split; [exists k; split; [lia|auto]|]. intros E.
      assert (X := anc_level t W k x Hx ltac:(lia)). rewrite E in X. lia.
    - intros [[k [Hk ->]] NE]. exists k. split; auto. destruct (Nat.eq_dec k (box_level t x)) as [->|]; [|lia].
      exfalso. apply NE. apply anc_self. }
  assert (RA : forall A, responsible_mask boxes A = true \/ anc A = true -> exists T, In T boxes /\ In A (ancestors_or_self t T)).
  { intros A [H|H].
    - apply responsible_mask_spec in H. exists A. split; auto. apply in_chain; auto. exists (box_level t A). rewrite anc_self. auto.
    - apply HA in H. destruct H as [x [Hx [H1 H2]]]. apply responsible_mask_spec in H1. exists x. split; auto. apply AB; auto. }
  assert (AR : forall T A, In T boxes -> In A (ancestors_or_self t T) -> responsible_mask boxes A = true \/ anc A = true).
  { intros T A HT H. destruct (Nat.eq_dec A T) as [->|NE]; [left; apply responsible_mask_spec; auto|right].
    apply HA. exists T. split; [auto|]. split; [apply responsible_mask_spec; auto|apply AB; auto]. }
  split; [intros b; apply responsible_mask_spec|]. split.
  { intros b. rewrite HA. split; intros [x H]; exists x.
    - destruct H as [Hx [H1 H2]]. apply responsible_mask_spec in H1. split; auto. apply AB; auto.
    - destruct H as [H1 H2]. split; auto. split; [apply responsible_mask_spec; auto|apply AB; auto]. }
  split; [|split; [|split; [|split]]].
  - intros T s HT H. apply point_mask_spec. right. left. exists T. split; auto. apply responsible_mask_spec; auto.
  - intros T A s HT HAA H. apply point_mask_spec. right. right. left. exists A. split; eauto.
  - intros -> T s HT [H|H]; apply point_mask_spec; do 3 right; [left|right]; (split; [reflexivity|]); exists T; (split; [|auto]).
    + apply responsible_mask_spec; auto.
    + left. apply responsible_mask_spec; auto.
  - intros b Hb. apply point_mask_spec. left. apply responsible_mask_spec; auto.
  - intros s. rewrite multipole_mask_spec. split; (intros [[A H]|[T [H1 H2]]]; [left|right; exists T; split; [apply responsible_mask_spec|]; auto]).
    + destruct H as [H1 H2]. destruct (RA A H1) as [T [HT HAA]]. exists T, A. auto.
    + destruct H as [A0 [H1 [H2 H3]]]. exists A0. split; eauto.
Qed.

(** ** The example tree: 29 boxes on 5 levels, 3 ranks; costs that all ranks are served with *)
Definition ex_cost (b : nat) : Z := Z.of_nat (b mod 4 + 1).
Example ex_partition :
  map (partition_work ex_tree ex_cost 3) [0; 1; 2] =
  [Responsible [0; 4; 20; 19; 18; 17; 3; 16; 15; 14]; Responsible [13; 2; 12; 11; 10; 9; 1; 8; 24; 23; 22];
   Responsible [21; 28; 27; 26; 25; 7; 6; 5]].
Proof. vm_compute. reflexivity. Qed.
Example ex_masks :
  match ex_trav 1 (ex_extent true static_l2 2) with
  | Some tr => match get_box_masks ex_tree tr true [21; 28; 27; 26; 25; 7; 6; 5] with
    | Some m => (filter (bm_ancestor m) (seq 0 29), filter (bm_point_src m) (seq 0 29), filter (bm_multipole_src m) (seq 0 29))
                = ([0; 1; 8; 21], [5; 6; 7; 8; 11; 13; 14; 17; 21; 22; 23; 25; 26; 27; 28],
                   [9; 10; 11; 12; 13; 14; 15; 16; 17; 18; 19; 20])
    | None => False end
  | None => False end.
Proof. vm_compute. reflexivity. Qed.

Print Assumptions C36_dfs_order.
Print Assumptions C37_assignment.
Print Assumptions C37_all_ranks_served.
Print Assumptions C37_too_many_ranks.
Print Assumptions C63_every_rank_served_refuted.
Print Assumptions C63_two_ranks_refuted.
Print Assumptions C38_masks.
