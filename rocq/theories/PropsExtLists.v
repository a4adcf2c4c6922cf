(** C100: the exact contents of the interaction lists between boxes of different sizes when targets
    have extents.  The criteria are those of SpecExtLists.v, in real numbers.  (C07 and C08 are the
    same for targets without extents.) *)
From Coq Require Import List Arith ZArith NArith Reals Lia Lra Bool.
From Verif Require Import Base Tree Spec Traversal SpecTraversal LevelStarts ListFacts CheckTree ExampleTree PropsTraversal SpecExtLists ExtListFacts.
Import ListNotations.
Local Open Scope nat_scope.

(** from_sep_smaller_by_level[l]: the boxes B of level l below a colleague of T whose multipole is
    evaluated at the targets of T, unless that of a box above B is *)
Theorem C100_from_sep_smaller : forall t P tr l T,
  wf_tree t -> wf_flags t -> wf_params t P -> build_traversal t P = Some tr ->
  let ex := extents P in
  targets_have_extent ex = true -> wf_extent ex ->
  In T (target_boxes tr) -> l < nlevels t ->
  NoDup (list3_level_of tr l T) /\
  forall B, In B (list3_level_of tr l T) <->
   B < nboxes t /\ (is_source t B = true \/ has_source_child t B = true) /\
   box_level t B = l /\ box_level t T < l /\
   (exists C, In C (ancestors_or_self t B) /\ C <> T /\ within_n_boxes t (well_sep_is_n_away P) T C) /\
   through_multipole t ex T B /\
   (forall A, In A (ancestors_or_self t B) -> box_level t T < box_level t A < l -> ~ through_multipole t ex T A).
Proof. intros t P tr l T W F WP H ex EX WE HT Hl. apply (list3_ext_spec t W F P WP WE EX tr H l T HT Hl). Qed.

(** from_sep_close_smaller: the source boxes below a colleague of T that are not adjacent and for
    which no multipole is used *)
Theorem C100_from_sep_close_smaller : forall t P tr T,
  wf_tree t -> wf_flags t -> wf_params t P -> build_traversal t P = Some tr ->
  let ex := extents P in
  targets_have_extent ex = true -> wf_extent ex -> In T (target_boxes tr) ->
  NoDup (list3_close_of tr T) /\
  forall s, In s (list3_close_of tr T) <->
   s < nboxes t /\ is_source t s = true /\ box_level t T < box_level t s /\
   (exists C, In C (ancestors_or_self t s) /\ C <> T /\ within_n_boxes t (well_sep_is_n_away P) T C) /\
   ~ touching t T s /\
   (forall A, In A (ancestors_or_self t s) -> box_level t T < box_level t A -> ~ through_multipole t ex T A).
Proof. intros t P tr T W F WP H ex EX WE HT. apply (close3_ext_spec t W F P WP WE EX tr H T HT). Qed.

(** from_sep_bigger: the sources that enter the local expansion of A and not yet that of its parent *)
Theorem C100_from_sep_bigger : forall t P tr A,
  wf_tree t -> wf_flags t -> wf_params t P -> build_traversal t P = Some tr ->
  let ex := extents P in
  targets_have_extent ex = true -> wf_extent ex -> In A (target_or_target_parent_boxes tr) ->
  NoDup (list4_of tr A) /\
  forall s, In s (list4_of tr A) <->
   s < nboxes t /\ is_source t s = true /\ box_level t s <= box_level t A /\
   colleague_above t (well_sep_is_n_away P) A s /\
   (~ touching t A s /\ separated_bigger t ex A s) /\
   (box_level t A = box_level t s \/
    ~ (~ touching t (box_parent t A) s /\ separated_bigger t ex (box_parent t A) s)).
Proof.
  intros t P tr A W F WP H ex EX WE HA. destruct (list4_ext_spec t W P WP WE EX tr H A HA) as [N S]. split; auto.
  assert (HAl := tr_ttpb_range t W P WP tr H A HA). intros s. rewrite S. clear S. split.
  - intros [H1 [H2 [H3 [H4 [H5 [H6 H7]]]]]]. repeat (split; auto). destruct H7 as [H7|[H7|H7]]; auto; right; intros [X Y]; tauto.
  - intros [H1 [H2 [H3 [H4 [[H5 H6] H7]]]]]. repeat (split; [assumption|]). destruct H7 as [H7|H7]; auto. right.
    assert (D := adj_touching t W (box_parent t A) s (TreeFacts.parent_lt t W A HAl) H1).
    destruct (adj t (box_parent t A) s); [left; apply D; auto|]. right. intros Y. apply H7. split; auto. intros X. apply D in X. discriminate.
Qed.

(** from_sep_close_bigger: the sources that do not enter the local expansion of T because it sticks
    out too far *)
Theorem C100_from_sep_close_bigger : forall t P tr T,
  wf_tree t -> wf_flags t -> wf_params t P -> build_traversal t P = Some tr ->
  let ex := extents P in
  targets_have_extent ex = true -> wf_extent ex -> In T (target_boxes tr) ->
  NoDup (list4_close_of tr T) /\
  forall s, In s (list4_close_of tr T) <->
   s < nboxes t /\ is_source t s = true /\ box_level t s <= box_level t T /\
   colleague_above t (well_sep_is_n_away P) T s /\
   ~ touching t T s /\ ~ separated_bigger t ex T s.
Proof. intros t P tr T W F WP H ex EX WE HT. apply (close4_ext_spec t W P WP WE EX tr H T HT). Qed.

(** ** Non-vacuity: the tree of PropsTraversal.v, all four lists non-empty *)
Example ext_lists_example : exists tr,
  let P := ex_params 1 (ex_extent true static_l2 2) in
  wf_tree ex_tree /\ wf_flags ex_tree /\ wf_params ex_tree P /\ targets_have_extent (extents P) = true /\ wf_extent (extents P) /\
  build_traversal ex_tree P = Some tr /\
  In 24 (target_boxes tr) /\ In 26 (target_boxes tr) /\ In 26 (target_or_target_parent_boxes tr) /\
  list3_level_of tr 4 24 = [25] /\ list3_close_of tr 24 = [26] /\ list4_of tr 26 = [11; 13; 14; 17] /\ list4_close_of tr 26 = [23; 5; 7].
Proof.
  destruct (C09_build_traversal_succeeds ex_tree (ex_params 1 (ex_extent true static_l2 2)) (proj1 ex_tree_wf) (le_n 1)) as [tr H].
  exists tr. cbv zeta. destruct ex_tree_wf as [W [F _]]. destruct (ex_params_wf 1 true static_l2 2 (le_n 1)) as [WP WE].
  split; auto. split; auto. split; auto. split; [reflexivity|]. split; auto. split; auto.
  assert (X : build_traversal ex_tree (ex_params 1 (ex_extent true static_l2 2)) = Some tr) by exact H. clear H.
  vm_compute in X. injection X as <-. vm_compute. tauto.
Qed.
(** so that, for instance, box 25 is separated from box 24 in the sense of the specification and
    box 26 is not *)
Example ext_separation_case : let ex := ex_extent true static_l2 2 in
  through_multipole ex_tree ex 24 25 /\ ~ separated_bigger ex_tree ex 26 23 /\ separated_bigger ex_tree ex 26 11.
Proof.
  cbv zeta. destruct ext_lists_example as [tr [W [F [WP [EX [WE [H [T1 [T2 [A2 [L3 [L3c [L4 L4c]]]]]]]]]]]]].
  split; [|split].
  - assert (X := C100_from_sep_smaller _ _ tr 4 24 W F WP H EX WE T1 ltac:(vm_compute; lia)).
    destruct X as [_ X]. specialize (X 25). rewrite L3 in X. apply X. left. reflexivity.
  - assert (X := C100_from_sep_close_bigger _ _ tr 26 W F WP H EX WE T2). destruct X as [_ X]. specialize (X 23).
    rewrite L4c in X. apply X. left. reflexivity.
  - assert (X := C100_from_sep_bigger _ _ tr 26 W F WP H EX WE A2). destruct X as [_ X]. specialize (X 11).
    rewrite L4 in X. apply X. left. reflexivity.
Qed.

Print Assumptions C100_from_sep_smaller.
Print Assumptions C100_from_sep_close_smaller.
Print Assumptions C100_from_sep_bigger.
Print Assumptions C100_from_sep_close_bigger.
