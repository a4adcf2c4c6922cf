(** Properties C01, C02, C04 - C11: the traversal's interaction lists.

    Vocabulary: Spec.v (touching, within_n_boxes, ancestors_or_self) and SpecTraversal.v
    (reading of the lists, coverage). [wf_tree]/[wf_flags] (Tree.v) describe the tree handed
    to the traversal builder. *)
From Coq Require Import List Arith ZArith NArith Lia Bool.
From Verif Require Import Base Tree Spec TreeFacts Walk Traversal SpecTraversal TraversalLists
  Coverage CoverageThm ListFacts LevelStarts MergeFacts CheckTree ExampleTree.
Import ListNotations.

(** C01: without extents every (target box, source box) pair is covered exactly once. *)
Theorem C01_coverage_exactly_once : forall t P tr T s,
  wf_tree t -> wf_flags t -> wf_params t P ->
  targets_have_extent (extents P) = false ->
  build_traversal t P = Some tr ->
  In T (target_boxes tr) -> s < nboxes t -> is_source t s = true ->
  coverage t tr T s = 1.
Proof.
  intros t P tr T s W F WP NE B HT Hs Ss.
  rewrite build_traversal_eq in B by (auto; apply WP). injection B as <-.
  apply coverage_one; auto. congruence.
Qed.

(** C02: with target extents, for all stick-out factors, separation criteria and source
    count thresholds. *)
Theorem C02_coverage_exactly_once_extents : forall t P tr T s,
  wf_tree t -> wf_flags t -> wf_params t P ->
  targets_have_extent (extents P) = true -> wf_extent (extents P) ->
  build_traversal t P = Some tr ->
  In T (target_boxes tr) -> s < nboxes t -> is_source t s = true ->
  coverage t tr T s = 1.
Proof.
  intros t P tr T s W F WP NE WE B HT Hs Ss.
  rewrite build_traversal_eq in B by (auto; apply WP). injection B as <-.
  apply coverage_one; auto.
Qed.

(** C04 *)
Theorem C04_same_level_lists_exact : forall t P tr b,
  wf_tree t -> wf_flags t -> wf_params t P -> build_traversal t P = Some tr -> b < nboxes t ->
  let row b := csr_get (same_level_non_well_sep_boxes tr) b in
  let n := well_sep_is_n_away P in
  NoDup (row b) /\
  (forall x, In x (row b) <-> x < nboxes t /\ x <> b /\ within_n_boxes t n b x) /\
  (forall x, x < nboxes t -> (In x (row b) <-> In b (row x))) /\
  row 0 = [].
Proof.
  intros t P tr b W F WP B Hb. cbv zeta.
  destruct (slnws_spec t W P WP tr B b Hb) as [H1 H2].
  split; [auto|split; [auto|split]].
  - intros x Hx. rewrite H2. rewrite (proj2 (slnws_spec t W P WP tr B x Hx)).
    split; intros [_ [N V]]; (split; [auto|split; [auto|apply within_n_sym; auto]]).
  - rewrite (slnws_row t W P WP tr B) by apply (wf_nboxes t W). reflexivity.
Qed.

(** C05 *)
Theorem C05_list1_is_touching_source_boxes : forall t P tr T,
  wf_tree t -> wf_flags t -> wf_params t P -> build_traversal t P = Some tr ->
  In T (target_boxes tr) ->
  NoDup (list1_of tr T) /\
  forall s, In s (list1_of tr T) <-> s < nboxes t /\ is_source t s = true /\ touching t T s.
Proof. intros t P tr T W F WP B HT. eapply list1_spec; eauto. Qed.

(** C06 *)
Theorem C06_list2_well_separated_same_level : forall t P tr A,
  wf_tree t -> wf_flags t -> wf_params t P -> build_traversal t P = Some tr ->
  In A (target_or_target_parent_boxes tr) ->
  let n := well_sep_is_n_away P in
  NoDup (list2_of tr A) /\
  forall B, In B (list2_of tr A) <->
    B < nboxes t /\ A <> 0 /\ B <> 0 /\ box_level t B = box_level t A /\
    ~ within_n_boxes t n A B /\ box_parent t A <> box_parent t B /\
    within_n_boxes t n (box_parent t A) (box_parent t B).
Proof. intros t P tr A W F WP B HA. cbv zeta. eapply list2_spec; eauto. Qed.

(** C07 *)
Theorem C07_list3_maximal_separated_descendants : forall t P tr l T,
  wf_tree t -> wf_flags t -> wf_params t P -> build_traversal t P = Some tr ->
  targets_have_extent (extents P) = false ->
  In T (target_boxes tr) -> l < nlevels t ->
  NoDup (list3_level_of tr l T) /\
  forall B, In B (list3_level_of tr l T) <->
   B < nboxes t /\ (is_source t B = true \/ has_source_child t B = true) /\
   box_level t B = l /\ box_level t T < l /\
   (exists C, In C (ancestors_or_self t B) /\ C <> T /\
              within_n_boxes t (well_sep_is_n_away P) T C) /\
   ~ touching t T B /\
   (forall A, In A (ancestors_or_self t B) -> box_level t T < box_level t A < l ->
      touching t T A).
Proof. intros t P tr l T W F WP B NE HT Hl. eapply (list3_spec t W F P WP tr B l T); eauto. Qed.

(** C08 *)
Theorem C08_list4_bigger_separated_sources : forall t P tr A,
  wf_tree t -> wf_flags t -> wf_params t P -> build_traversal t P = Some tr ->
  targets_have_extent (extents P) = false ->
  In A (target_or_target_parent_boxes tr) ->
  NoDup (list4_of tr A) /\
  forall s, In s (list4_of tr A) <->
   s < nboxes t /\ is_source t s = true /\ box_level t s <= box_level t A /\
   (exists C, In C (ancestors_or_self t A) /\ C <> s /\
              within_n_boxes t (well_sep_is_n_away P) C s) /\
   ~ touching t A s /\
   (box_level t A = box_level t s \/ touching t (box_parent t A) s).
Proof. intros t P tr A W F WP B NE HA. eapply list4_spec; eauto. Qed.

Theorem C08_list3_list4_dual : forall t P tr s B,
  wf_tree t -> wf_flags t -> wf_params t P -> build_traversal t P = Some tr ->
  targets_have_extent (extents P) = false -> well_sep_is_n_away P = 1 ->
  In s (target_boxes tr) -> In B (target_or_target_parent_boxes tr) ->
  is_source t s = true -> (is_source t B = true \/ has_source_child t B = true) ->
  (In B (list3_level_of tr (box_level t B) s) <-> In s (list4_of tr B)).
Proof. intros t P tr s B W F WP Hb NE N1 Hs HB Ss HH. eapply (list34_dual t W F P WP tr); eauto. Qed.

(** C09: every kernel of the traversal builder finishes on every well-formed tree within its
    fixed-size stack and without out-of-range reads (the model returns [None] otherwise)... *)
Theorem C09_build_traversal_succeeds : forall t P,
  wf_tree t -> 1 <= well_sep_is_n_away P -> exists tr, build_traversal t P = Some tr.
Proof. intros t P W H. eexists. apply build_traversal_eq; auto. Qed.

(** ... more precisely, a walk from any box succeeds with any stack capacity that covers
    the levels below that box, whatever the kernel does at each visited box ... *)
Theorem C09_walk_stack_bound : forall A t (visit : nat -> nat -> list A * bool) cap start,
  wf_tree t -> start < nboxes t -> nlevels t <= cap + box_level t start ->
  exists out, run_walk t visit cap start = Some out.
Proof. intros. eexists. apply run_walk_correct; auto. Qed.

(** ... and all box ids in all lists are in range. *)
Theorem C09_entries_in_range : forall t P tr T A l x,
  wf_tree t -> wf_flags t -> wf_params t P -> build_traversal t P = Some tr ->
  (In T (target_boxes tr) -> In x (list1_of tr T) -> x < nboxes t) /\
  (In T (target_boxes tr) -> l < nlevels t -> In x (list3_level_of tr l T) -> x < nboxes t) /\
  (In A (target_or_target_parent_boxes tr) -> In x (list2_of tr A) -> x < nboxes t) /\
  (In A (target_or_target_parent_boxes tr) -> In x (list4_of tr A) -> x < nboxes t).
Proof.
  intros t P tr T A l x W F WP B. split; [|split; [|split]].
  - intros HT Hx. eapply list1_spec in Hx; eauto. tauto.
  - intros HT Hl Hx. eapply list3_level_range; eauto.
  - intros HA Hx. eapply list2_spec in Hx; eauto. tauto.
  - intros HA Hx. eapply list4_of_in_range; eauto.
Qed.

(** C10 *)
Definition delimits (t : tree) (ls bl : list nat) : Prop :=
  length ls = nlevels t + 1 /\
  forall l, l < nlevels t ->
    firstn (nth (S l) ls 0 - nth l ls 0) (skipn (nth l ls 0) bl) =
    filter (fun b => box_level t b =? l) bl.

Theorem C10_level_starts_delimit : forall t P tr,
  wf_tree t -> 1 <= well_sep_is_n_away P -> build_traversal t P = Some tr ->
  level_sorted t (level_start_box_nrs P) ->
  delimits t (level_start_source_box_nrs tr) (source_boxes tr) /\
  delimits t (level_start_source_parent_box_nrs tr) (source_parent_boxes tr) /\
  delimits t (level_start_target_box_nrs tr) (target_boxes tr) /\
  delimits t (level_start_target_or_target_parent_box_nrs tr) (target_or_target_parent_boxes tr).
Proof.
  intros t P tr W Hn B LS. rewrite build_traversal_eq in B by auto. injection B as <-.
  assert (G : forall p, delimits t (extract_level_starts t (level_start_box_nrs P) (filter p (seq 0 (nboxes t))))
                (filter p (seq 0 (nboxes t)))).
  { intros p. split.
    - rewrite extract_level_starts_eq; auto using filter_seq_sorted.
      + rewrite map_length, seq_length. auto.
      + apply (wf_level_lt t W).
      + intros x Hx. apply filter_In in Hx. destruct Hx as [Hx _]. apply in_seq in Hx. lia.
    - intros l Hl. apply level_slice; auto using filter_seq_sorted.
      + apply (wf_level_lt t W).
      + intros x Hx. apply filter_In in Hx. destruct Hx as [Hx _]. apply in_seq in Hx. lia. }
  cbn. repeat split; try apply G;
  unfold find_target_boxes; destruct (sources_are_targets P); apply G.
Qed.

(** C11 *)
Theorem C11_merge_close_lists : forall tr tr' cs cb,
  from_sep_close_smaller tr = Some cs -> from_sep_close_bigger tr = Some cb ->
  merge_close_lists tr = Some tr' ->
  (forall i, i < length (target_boxes tr) ->
     csr_get (neighbor_source_boxes tr') i =
     csr_get (neighbor_source_boxes tr) i ++ csr_get cs i ++ csr_get cb i) /\
  from_sep_close_smaller tr' = None /\ from_sep_close_bigger tr' = None /\
  target_boxes tr' = target_boxes tr /\
  (forall t T s, coverage t tr' T s = coverage t tr T s).
Proof.
  intros tr tr' cs cb E1 E2 H.
  assert (C : forall t T s, coverage t tr' T s = coverage t tr T s).
  { intros. eapply merge_coverage; eauto. }
  unfold merge_close_lists in H. rewrite E1, E2 in H. injection H as <-.
  split; [|repeat split; auto].
  intros i Hi. cbn [neighbor_source_boxes]. rewrite merge_row by auto. simpl. rewrite app_nil_r. auto.
Qed.

(** C11, end to end: after merging, the merged traversal covers each pair exactly once. *)
Theorem C11_merged_coverage : forall t P tr tr' T s,
  wf_tree t -> wf_flags t -> wf_params t P ->
  targets_have_extent (extents P) = true -> wf_extent (extents P) ->
  build_traversal t P = Some tr -> merge_close_lists tr = Some tr' ->
  In T (target_boxes tr') -> s < nboxes t -> is_source t s = true ->
  coverage t tr' T s = 1.
Proof.
  intros t P tr tr' T s W F WP NE WE B M HT Hs Ss.
  rewrite (merge_coverage t tr tr' T s M). eapply C02_coverage_exactly_once_extents; eauto.
  unfold merge_close_lists in M.
  destruct (from_sep_close_smaller tr), (from_sep_close_bigger tr); try discriminate.
  injection M as <-. auto.
Qed.

(** merging is always possible for a traversal built with extents *)
Theorem C11_merge_possible : forall t P tr,
  wf_tree t -> 1 <= well_sep_is_n_away P -> build_traversal t P = Some tr ->
  targets_have_extent (extents P) = true -> exists tr', merge_close_lists tr = Some tr'.
Proof.
  intros t P tr W Hn B E. rewrite build_traversal_eq in B by auto. injection B as <-.
  unfold merge_close_lists, the_traversal. cbn. rewrite E. eauto.
Qed.

(** ** Non-vacuity: a 29-box, 5-level tree meets the hypotheses, for n = 1 and n = 2, without
    and with extents, and all lists are non-empty somewhere. *)
Example ex_tree_wf : wf_tree ex_tree /\ wf_flags ex_tree /\ level_sorted ex_tree ex_level_starts.
Proof.
  split; [|split]; [apply check_wf_ok|apply check_flags_ok|apply check_sorted_ok]; vm_compute; reflexivity.
Qed.
Example ex_params_wf : forall n have crit k, 1 <= n ->
  wf_params ex_tree (ex_params n (ex_extent have crit k)) /\ wf_extent (ex_extent have crit k).
Proof.
  intros. split; [split; [auto|discriminate]|]. vm_compute. repeat split; discriminate.
Qed.
Definition ex_trav n ex := build_traversal ex_tree (ex_params n ex).
Example ex_lists_nonempty :
  option_map (fun tr => (target_boxes tr, list1_of tr 23, list2_of tr 7, list3_of tr 7,
                         list4_of tr 23)) (ex_trav 1 (ex_extent false static_linf 0)) =
  Some ([6; 7; 8; 10; 11; 12; 14; 15; 16; 18; 19; 20; 22; 23; 24; 26; 27; 28],
        [7; 8; 28; 22; 23; 13; 14], [9; 10; 11; 12; 15; 16; 17; 18; 19; 20],
        [22; 26; 28], [5; 11; 17]).
Proof. vm_compute. reflexivity. Qed.
Example ex_close_lists_nonempty :
  option_map (fun tr => (list3_of tr 24, list3_close_of tr 24, list4_of tr 26, list4_close_of tr 26))
    (ex_trav 1 (ex_extent true static_l2 2)) = Some ([25], [26], [11; 13; 14; 17], [23; 5; 7]).
Proof. vm_compute. reflexivity. Qed.
Example ex_n2_lists :
  match option_map (fun tr => list2_of tr 6) (ex_trav 2 (ex_extent false static_linf 0)) with
  | Some (_ :: _) => True | _ => False end.
Proof. vm_compute. exact I. Qed.

Print Assumptions C01_coverage_exactly_once.
Print Assumptions C02_coverage_exactly_once_extents.
Print Assumptions C04_same_level_lists_exact.
Print Assumptions C05_list1_is_touching_source_boxes.
Print Assumptions C06_list2_well_separated_same_level.
Print Assumptions C07_list3_maximal_separated_descendants.
Print Assumptions C08_list4_bigger_separated_sources.
Print Assumptions C08_list3_list4_dual.
Print Assumptions C09_build_traversal_succeeds.
Print Assumptions C09_walk_stack_bound.
Print Assumptions C09_entries_in_range.
Print Assumptions C10_level_starts_delimit.
Print Assumptions C11_merge_close_lists.
Print Assumptions C11_merged_coverage.
Print Assumptions C11_merge_possible.
