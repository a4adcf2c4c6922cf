(** Interaction lists of a local tree: same boxes, same source flags, other target flags. *)
From Coq Require Import List Arith ZArith NArith Lia Bool Permutation.
From Verif Require Import Base Tree Spec TreeFacts Walk WalkFacts Traversal SpecTraversal TraversalLists Coverage
  CoverageThm ListFacts LevelStarts.
Import ListNotations.

Definition with_flags (t : tree) (f : nat -> N) : tree :=
  {| dim := dim t; nlevels := nlevels t; nboxes := nboxes t; root_extent := root_extent t;
     box_center := box_center t; box_level := box_level t; box_parent := box_parent t;
     box_child := box_child t; box_flags := f |}.
(** extents that differ in the source counts only *)
Definition with_counts (ex : extent_info) (c : nat -> nat) : extent_info :=
  {| targets_have_extent := targets_have_extent ex;
     stick_out_num := stick_out_num ex; stick_out_den := stick_out_den ex;
     eps_num := eps_num ex; eps_den := eps_den ex;
     from_sep_smaller_crit := from_sep_smaller_crit ex;
     tgt_ext_center2 := tgt_ext_center2 ex; tgt_ext_radius2 := tgt_ext_radius2 ex;
     box_source_counts_cumul := c;
     from_sep_smaller_min_nsources_cumul := from_sep_smaller_min_nsources_cumul ex |}.

Lemma dfs_ext {A} t (v v' : nat -> nat -> list A * bool) : (forall c d, v c d = v' c d) ->
  forall h p d, dfs t v h p d = dfs t v' h p d.
Proof.
  intros E. induction h as [|h IH]; intros p d; [reflexivity|]. cbn [dfs]. f_equal. apply map_ext. intros m. cbv zeta.
  destruct (_ =? 0); auto. rewrite <- E. destruct (v _ d) as [o [|]]; rewrite ?IH; auto.
Qed.

Section Same.
Variable t : tree.
Variable f : nat -> N.
Let t' := with_flags t f.
Hypothesis S1 : forall b, is_source t' b = is_source t b.
Hypothesis S2 : forall b, has_source_child t' b = has_source_child t b.
Variable n : nat.
Variable ex : extent_info.
Variable cnt : nat -> nat.
Hypothesis MIN : targets_have_extent ex = true -> from_sep_smaller_min_nsources_cumul ex = 0.
Let ex' := with_counts ex cnt.

Lemma same_wf : wf_tree t -> wf_tree t'.
Proof. intros [w0 w1 w2 w3 w4 w5 w6 w7 w8 w9]. constructor; assumption. Qed.
Lemma same_chain b : ancestors_or_self t' b = ancestors_or_self t b.
Proof.
  unfold ancestors_or_self. change (box_level t' b) with (box_level t b). generalize (box_level t b) as k. intros k. revert b.
  induction k as [|k IH]; intros b; cbn [chain_fuel]; [reflexivity|]. f_equal. apply IH.
Qed.
Lemma same_list1 b : list1_list t' b = list1_list t b.
Proof.
  unfold list1_list. rewrite S1. f_equal. change (dfs t' (list1_visit t' b) (nlevels t') 0 0) with (dfs t (list1_visit t' b) (nlevels t) 0 0).
  apply dfs_ext. intros c d. unfold list1_visit. rewrite S1, S2. reflexivity.
Qed.
Lemma same_list2 b : list2_list t' n b = list2_list t n b.
Proof. reflexivity. Qed.
Lemma same_list3 slev b : list3_list t' n ex' slev b = list3_list t n ex slev b.
Proof.
  unfold list3_list. change (slnws_list t' n b) with (slnws_list t n b). f_equal. apply map_ext. intros nws.
  change (dfs t' (list3_visit t' ex' b slev) (nlevels t' - box_level t' nws) nws 0) with
    (dfs t (list3_visit t' ex' b slev) (nlevels t - box_level t nws) nws 0).
  apply dfs_ext. intros c d. unfold list3_visit. rewrite !flag_lor.
  change (flag (box_flags t' c) IS_SOURCE_BOX) with (is_source t' c).
  change (flag (box_flags t' c) HAS_SOURCE_CHILD_BOXES) with (has_source_child t' c). rewrite S1, S2.
  change (flag (box_flags t c) IS_SOURCE_BOX) with (is_source t c).
  change (flag (box_flags t c) HAS_SOURCE_CHILD_BOXES) with (has_source_child t c).
  change (meets_sep_smaller t' ex' b c) with (meets_sep_smaller t ex b c).
  change (targets_have_extent ex') with (targets_have_extent ex).
  change (from_sep_smaller_min_nsources_cumul ex') with (from_sep_smaller_min_nsources_cumul ex).
  destruct (targets_have_extent ex) eqn:HE; [|reflexivity]. rewrite MIN by auto.
  assert (Z : forall k, (k <? 0) = false) by (intros; apply Nat.ltb_ge; lia). rewrite !Z. reflexivity.
Qed.
Lemma same_entry tgt wl b :
  pick true (list4_entry t' ex' n tgt wl b) = pick true (list4_entry t ex n tgt wl b) /\
  (is_target t tgt = true -> incl (pick false (list4_entry t' ex' n tgt wl b)) (pick false (list4_entry t ex n tgt wl b))).
Proof.
  unfold list4_entry. rewrite S1. change (targets_have_extent ex') with (targets_have_extent ex).
  change (box_level t') with (box_level t). change (box_center t') with (box_center t). change (box_parent t') with (box_parent t).
  change (is_adj t') with (is_adj t). change (meets_sep_bigger t' ex') with (meets_sep_bigger t ex).
  destruct (is_source t b); [|split; [auto|intros _; apply incl_refl]].
  destruct (negb (is_adj _ _ _ _ _)); [|split; [auto|intros _; apply incl_refl]].
  destruct (_ && negb (meets_sep_bigger t ex (box_center t tgt) _ _ _)); [|split; [auto|intros _; apply incl_refl]].
  split; [destruct (is_target t' tgt), (is_target t tgt); reflexivity|]. intros ->.
  destruct (is_target t' tgt); [apply incl_refl|intros x []].
Qed.
Lemma pick_app tag l1 l2 : pick tag (l1 ++ l2) = pick tag l1 ++ pick tag l2.
Proof. unfold pick. rewrite filter_app, map_app. auto. Qed.
Lemma pick_concat {A} tag (g : A -> list (bool * nat)) l : pick tag (concat (map g l)) = concat (map (fun x => pick tag (g x)) l).
Proof. induction l as [|x l IH]; cbn [map concat]; [reflexivity|]. rewrite pick_app, IH. auto. Qed.
Lemma incl_concat_map {A B} (g h : A -> list B) l : (forall x, In x l -> incl (g x) (h x)) -> incl (concat (map g l)) (concat (map h l)).
Proof. intros H y Hy. apply in_concat_map in Hy. destruct Hy as [x [Hx Hy]]. apply in_concat_map. exists x. split; auto. apply (H x Hx y Hy). Qed.
Lemma same_levels tgt wl : forall cur,
  pick true (list4_levels t' n ex' tgt wl cur) = pick true (list4_levels t n ex tgt wl cur) /\
  (is_target t tgt = true -> incl (pick false (list4_levels t' n ex' tgt wl cur)) (pick false (list4_levels t n ex tgt wl cur))).
Proof.
  induction wl as [|wl IH]; intros cur; [split; [reflexivity|intros _; apply incl_refl]|]. cbn [list4_levels].
  change (slnws_list t' n cur) with (slnws_list t n cur). change (box_parent t' cur) with (box_parent t cur).
  destruct (IH (box_parent t cur)) as [I1 I2]. rewrite !pick_app, !pick_concat, I1. split.
  - f_equal. f_equal. apply map_ext. intros b. apply same_entry.
  - intros HT. apply incl_app; [apply incl_appl|apply incl_appr; auto]. apply incl_concat_map. intros b _. apply same_entry. auto.
Qed.
Lemma same_list4 tgt :
  pick true (list4_list t' n ex' tgt) = pick true (list4_list t n ex tgt) /\
  (is_target t tgt = true -> incl (pick false (list4_list t' n ex' tgt)) (pick false (list4_list t n ex tgt))).
Proof.
  unfold list4_list. change (box_level t' tgt) with (box_level t tgt). change (box_parent t' tgt) with (box_parent t tgt).
  destruct (_ =? 0); [split; [reflexivity|intros _; apply incl_refl]|]. destruct (n =? 1); apply same_levels.
Qed.
End Same.

(** entries of the interaction lists, for two parameter sets *)
Section Lists.
Variable t : tree.
Hypothesis W : wf_tree t.
Variable f : nat -> N.
Let t' := with_flags t f.
Hypothesis S1 : forall b, is_source t' b = is_source t b.
Hypothesis S2 : forall b, has_source_child t' b = has_source_child t b.
Variables P P' : trav_params.
Hypothesis WP : wf_params t P.
Hypothesis WP' : wf_params t' P'.
Variable cnt : nat -> nat.
Hypothesis EX : extents P' = with_counts (extents P) cnt.
Hypothesis EN : well_sep_is_n_away P' = well_sep_is_n_away P.
Hypothesis MIN : targets_have_extent (extents P) = true -> from_sep_smaller_min_nsources_cumul (extents P) = 0.
Variables tr tr' : traversal.
Hypothesis Htr : build_traversal t P = Some tr.
Hypothesis Htr' : build_traversal t' P' = Some tr'.
Let W' : wf_tree t' := same_wf t f W.

Lemma entries_of_box T : In T (target_boxes tr') -> In T (target_boxes tr) ->
  incl (list1_of tr' T) (list1_of tr T) /\ incl (list3_of tr' T) (list3_of tr T) /\
  incl (list3_close_of tr' T) (list3_close_of tr T) /\ incl (list4_close_of tr' T) (list4_close_of tr T).
Proof.
  intros HT' HT. rewrite (tr_tb t' W' P' WP' tr' Htr') in HT'. rewrite (tr_tb t W P WP tr Htr) in HT.
  assert (IT : is_target t T = true) by (apply (tb_ttpb t P (proj1 WP)); auto).
  rewrite (tr_eq t W P WP tr Htr), (tr_eq t' W' P' WP' tr' Htr').
  split; [|split; [|split]]; intros x Hx; apply count_In in Hx; apply count_In.
  - rewrite (list1_of_count t P  T x) by auto. rewrite (list1_of_count t' P'  T x) in Hx by auto. rewrite (same_list1 t f S1 S2) in Hx. auto.
  - rewrite (list3_of_count t P  T x) by auto. rewrite (list3_of_count t' P'  T x) in Hx by auto. rewrite EX, EN in Hx.
    erewrite map_ext in Hx; [exact Hx|]. intros l. rewrite (same_list3 t f S1 S2) by auto. reflexivity.
  - rewrite (list3_close_of_count t P  T x) by auto. rewrite (list3_close_of_count t' P'  T x) in Hx by auto. rewrite EX, EN in Hx. cbn [targets_have_extent with_counts] in Hx.
    destruct (targets_have_extent (extents P)) eqn:HE; [|auto]. rewrite (same_list3 t f S1 S2) in Hx by auto. auto.
  - rewrite (list4_close_of_count t P (proj1 WP) T x) by auto. rewrite (list4_close_of_count t' P' (proj1 WP') T x) in Hx by auto. rewrite EX, EN in Hx. cbn [targets_have_extent with_counts] in Hx.
    destruct (targets_have_extent (extents P)) eqn:HE; [|auto]. apply count_In. apply count_In in Hx.
    apply (same_list4 t f S1 (well_sep_is_n_away P) (extents P) cnt T); auto.
Qed.
Lemma entries_of_parent A : In A (target_or_target_parent_boxes tr') -> In A (target_or_target_parent_boxes tr) ->
  incl (list2_of tr' A) (list2_of tr A) /\ incl (list4_of tr' A) (list4_of tr A).
Proof.
  intros HT' HT. rewrite (tr_ttpb t' W' P' WP' tr' Htr') in HT'. rewrite (tr_ttpb t W P WP tr Htr) in HT.
  rewrite (tr_eq t W P WP tr Htr), (tr_eq t' W' P' WP' tr' Htr').
  split; intros x Hx; apply count_In in Hx; apply count_In.
  - rewrite list2_of_count in * by auto. rewrite EN in Hx. exact Hx.
  - rewrite (list4_of_count t P A x) by auto. rewrite (list4_of_count t' P' A x) in Hx by auto. rewrite EX, EN in Hx. unfold t' in Hx.
    rewrite (proj1 (same_list4 t f S1 (well_sep_is_n_away P) (extents P) cnt A)) in Hx. auto.
Qed.
End Lists.
