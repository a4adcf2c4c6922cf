(** Coverage of the lists built with arbitrary outcomes of the separation tests: [fS] for list 3 and
    [fB] for list 4, adjacency being exact.  The proofs are those of TraversalLists.v, Coverage.v and
    CoverageThm.v, where [fS] and [fB] are the exact tests. *)
From Coq Require Import List Arith ZArith NArith Lia Bool Permutation.
From Verif Require Import Base Tree Spec TreeFacts Walk WalkFacts Traversal GeomFacts SpecTraversal TraversalLists Coverage.
Import ListNotations.

Section With.
Variable fS : nat -> nat -> bool.
Variable fB : nat -> nat -> nat -> nat -> bool.

(** traversal.py:607-875 (list3_visit of Traversal.v) with [fS] for meets_sep_crit *)
Definition list3_visit_w (t : tree) (ex : extent_info) (tgt : nat) (slev : option nat)
           (c ssz : nat) : list (bool * nat) * bool :=
  if flag (box_flags t c) (N.lor IS_SOURCE_BOX HAS_SOURCE_CHILD_BOXES) then
    let walk_level := box_level t c in
    let in_list_1 := adj t tgt c in
    if in_list_1 then
      if has_source_child t c then
        if (match slev with Some l => walk_level <=? l | None => true end)
        then ([], true) else ([], false)
      else ([], false)
    else
      let meets := if targets_have_extent ex then fS tgt c else true in
      let force_close :=
        if targets_have_extent ex
        then box_source_counts_cumul ex c <? from_sep_smaller_min_nsources_cumul ex
        else false in
      if meets && negb force_close then
        ((match slev with
          | Some l => if l =? walk_level then [(true, c)] else []
          | None => [] end), false)
      else if targets_have_extent ex then
        ((if is_source t c && (match slev with None => true | _ => false end)
          then [(false, c)] else []), has_source_child t c)
      else ([], false)
  else ([], false).

(** traversal.py:1028-1142 (list4_entry of Traversal.v) with [fB] for meets_sep_bigger_criterion *)
Definition list4_entry_w (t : tree) (ex : extent_info) (n tgt walk_level slnws_box : nat)
  : list (bool * nat) :=
  let tgt_level := box_level t tgt in
  let tgt_parent := box_parent t tgt in
  let tgt_parent_level := tgt_level - 1 in
  if is_source t slnws_box then
    let in_list_1 := is_adj t (box_center t tgt) tgt_level (box_center t slnws_box) walk_level in
    if negb in_list_1 then
      if targets_have_extent ex &&
         negb (fB tgt tgt_level slnws_box walk_level)
      then (if is_target t tgt then [(false, slnws_box)] else [])
      else
        let in_parent_list_1 :=
          is_adj t (box_center t tgt_parent) tgt_parent_level
                 (box_center t slnws_box) walk_level in
        let would_be_in_parent :=
          negb in_parent_list_1 && (if 1 <? n then walk_level <? tgt_level else true) in
        if would_be_in_parent then
          if targets_have_extent ex then
            if negb (fB tgt_parent tgt_parent_level slnws_box walk_level)
            then [(true, slnws_box)] else []
          else []
        else [(true, slnws_box)]
    else []
  else [].

Section Lists.
Variable t : tree.
Hypothesis W : wf_tree t.
Variable n : nat.
Hypothesis Hn : 1 <= n.
Hypothesis F : wf_flags t.
Variable ex : extent_info.
Definition is_far_w (tgt c : nat) : bool :=
  (if targets_have_extent ex then fS tgt c else true) &&
  negb (if targets_have_extent ex
        then box_source_counts_cumul ex c <? from_sep_smaller_min_nsources_cumul ex else false).

(** the chain of ancestors stops at c: c becomes a from_sep_smaller entry *)
Definition stop_w (tgt c : nat) : bool := negb (adj t tgt c) && is_far_w tgt c.

Definition list3_list_w (slev : option nat) (tgt : nat) : list (bool * nat) :=
  concat (map (fun nws => dfs t (list3_visit_w t ex tgt slev) (nlevels t - box_level t nws) nws 0)
              (slnws_list t n tgt)).

Lemma list3_visit_out_w slev tgt c d p :
  In p (fst (list3_visit_w t ex tgt slev c d)) -> snd p = c.
Proof.
  unfold list3_visit_w. destruct (flag _ _); [|simpl; tauto].
  destruct (adj t tgt c). { destruct (has_source_child t c); [|simpl; tauto]. destruct slev; [destruct (_ <=? _)|]; simpl; tauto. }
  destruct (_ && _).
  - simpl. destruct slev; [destruct (_ =? _)|]; simpl; intuition; subst; auto.
  - destruct (targets_have_extent ex); [|simpl; tauto]. simpl. destruct (_ && _); simpl; intuition; subst; auto.
Qed.

Lemma list3_in_range_w slev tgt p : tgt < nboxes t -> In p (list3_list_w slev tgt) ->
  snd p < nboxes t.
Proof.
  intros Ht. unfold list3_list_w. rewrite in_concat_map. intros [nws [H1 H2]].
  apply (slnws_in_range t W n) in H1. apply dfs_in in H2; auto. destruct H2 as [c [d [H3 [H4 H5]]]].
  apply list3_visit_out_w in H5. congruence.
Qed.

Lemma list3_count_raw_w tag slev tgt x : tgt < nboxes t -> x < nboxes t ->
  count x (pick tag (list3_list_w slev tgt)) =
  if (box_level t tgt <? box_level t x) &&
     forallb (fun k => snd (list3_visit_w t ex tgt slev (anc t k x) 0))
             (seq (S (box_level t tgt)) (box_level t x - S (box_level t tgt)))
  then count (anc t (box_level t tgt) x) (slnws_list t n tgt) *
       count x (pick tag (fst (list3_visit_w t ex tgt slev x 0)))
  else 0.
Proof.
  intros Ht Hx. unfold list3_list_w. rewrite pick_concat, map_map, count_concat, map_map.
  assert (ONE : forall nws, In nws (slnws_list t n tgt) ->
    count x (pick tag (dfs t (list3_visit_w t ex tgt slev) (nlevels t - box_level t nws) nws 0)) =
    if (box_level t tgt <? box_level t x) && (anc t (box_level t tgt) x =? nws) &&
       forallb (fun k => snd (list3_visit_w t ex tgt slev (anc t k x) 0))
             (seq (S (box_level t tgt)) (box_level t x - S (box_level t tgt)))
    then count x (pick tag (fst (list3_visit_w t ex tgt slev x 0))) else 0).
  { intros nws Hin. apply (slnws_in t W n) in Hin; auto. destruct Hin as [H1 [H2 [H3 _]]].
    pose proof (dfs_count (bool*nat) t W (list3_visit_w t ex tgt slev) (box_level t nws)
                  (fun l => count x (pick tag l)) eq_refl) as DC.
    rewrite <- H2. 
    specialize (DC ltac:(intros; cbv beta; rewrite pick_app, count_app; auto) x Hx).
    specialize (DC ltac:(
      intros c Hc Hl Hne; apply count_notIn; unfold pick; rewrite in_map_iff;
      intros [p [E1 E2]]; apply filter_In in E2; destruct E2 as [E2 _];
      apply list3_visit_out_w in E2; congruence)).
    specialize (DC (nlevels t - box_level t nws) nws H1 ltac:(lia) eq_refl).
    rewrite Nat.sub_diag in DC. rewrite DC. reflexivity. }
  rewrite (map_ext_in _ _ _ ONE). clear ONE.
  destruct (box_level t tgt <? box_level t x); simpl; [|apply nsum_map_0; auto].
  destruct (forallb _ _).
  - generalize (slnws_list t n tgt) as l. induction l as [|a l IHl]; [reflexivity|].
    simpl. rewrite count_cons, IHl. rewrite andb_true_r.
    destruct (_ =? a); simpl; lia.
  - apply nsum_map_0. intros. rewrite andb_false_r. auto.
Qed.

(** which boxes the walk descends into, for boxes above a source box *)
Lemma list3_desc_w slev tgt c : has_source_child t c = true ->
  (match slev with Some l => box_level t c <= l | None => True end) ->
  snd (list3_visit_w t ex tgt slev c 0) = negb (stop_w tgt c).
Proof.
  intros HS HL. unfold list3_visit_w. rewrite flag_lor.
  unfold has_source_child in *. rewrite HS. rewrite orb_true_r.
  unfold stop_w, is_far_w. destruct (adj t tgt c); simpl.
  - destruct slev; auto. rewrite (proj2 (Nat.leb_le _ _) HL). auto.
  - destruct (targets_have_extent ex); simpl.
    + destruct (fS tgt c && _); auto.
    + auto.
Qed.

Lemma list3_far_out_w l tgt c : is_source t c = true \/ has_source_child t c = true ->
  pick true (fst (list3_visit_w t ex tgt (Some l) c 0)) =
  if stop_w tgt c && (l =? box_level t c) then [c] else [].
Proof.
  intros HS. unfold list3_visit_w. rewrite flag_lor.
  unfold is_source, has_source_child in *.
  assert (E : flag (box_flags t c) IS_SOURCE_BOX || flag (box_flags t c) HAS_SOURCE_CHILD_BOXES = true)
    by (apply orb_true_iff; tauto).
  rewrite E. unfold stop_w, is_far_w. destruct (adj t tgt c); simpl.
  - destruct (flag _ HAS_SOURCE_CHILD_BOXES); auto. destruct (_ <=? _); auto.
  - destruct (targets_have_extent ex); simpl.
    + destruct (fS tgt c && _); simpl.
      * destruct (l =? box_level t c); auto.
      * rewrite andb_false_r. auto.
    + destruct (l =? box_level t c); auto.
Qed.

Lemma list3_close_out_w tgt c : is_source t c = true ->
  pick false (fst (list3_visit_w t ex tgt None c 0)) =
  if negb (adj t tgt c) && negb (is_far_w tgt c) then [c] else [].
Proof.
  intros HS. unfold list3_visit_w. rewrite flag_lor.
  unfold is_source, has_source_child in *. rewrite HS. simpl.
  unfold is_far_w. destruct (adj t tgt c); simpl.
  - destruct (flag _ HAS_SOURCE_CHILD_BOXES); auto.
  - destruct (targets_have_extent ex); simpl; auto.
    destruct (fS tgt c && _); simpl; auto.
Qed.

(** ** List 4 *)
(** traversal.py:1014-1144, level by level *)
Fixpoint list4_levels_w (tgt wl cur : nat) : list (bool * nat) :=
  match wl with
  | 0 => []
  | S wl' => concat (map (list4_entry_w t ex n tgt wl) (slnws_list t n cur))
             ++ list4_levels_w tgt wl' (box_parent t cur)
  end.
Definition list4_list_w (tgt : nat) : list (bool * nat) :=
  if box_level t tgt =? 0 then []
  else if n =? 1 then list4_levels_w tgt (box_level t tgt - 1) (box_parent t tgt)
  else list4_levels_w tgt (box_level t tgt) tgt.

Lemma list4_entry_out_w tgt wl b p : In p (list4_entry_w t ex n tgt wl b) -> snd p = b.
Proof.
  unfold list4_entry_w. destruct (is_source t b); [|simpl; tauto].
  destruct (negb _); [|simpl; tauto].
  destruct (_ && _).
  - destruct (is_target t tgt); simpl; intuition; subst; auto.
  - destruct (_ && _); [|simpl; intuition; subst; auto].
    destruct (targets_have_extent ex); [|simpl; tauto].
    destruct (negb _); simpl; intuition; subst; auto.
Qed.

Lemma list4_levels_count_w tag tgt x wl : forall cur,
  tgt < nboxes t -> x < nboxes t -> cur < nboxes t -> box_level t cur = wl ->
  count x (pick tag (list4_levels_w tgt wl cur)) =
  if (1 <=? box_level t x) && (box_level t x <=? wl)
  then count x (slnws_list t n (anc t (box_level t x) cur)) *
       count x (pick tag (list4_entry_w t ex n tgt (box_level t x) x))
  else 0.
Proof.
  induction wl as [|wl IH]; intros cur Ht Hx Hc Hl.
  - change (pick tag (list4_levels_w tgt 0 cur)) with (@nil nat). rewrite count_nil.
    destruct (Nat.leb_spec 1 (box_level t x)), (Nat.leb_spec (box_level t x) 0); simpl; auto. lia.
  - simpl list4_levels_w. rewrite pick_app, count_app.
    assert (P : 0 < cur) by (destruct cur; [rewrite (wf_root_level t W) in Hl|]; lia).
    rewrite IH; auto; [|apply parent_lt; auto|rewrite (parent_level t W cur) in Hl by auto; lia].
    assert (H1 : count x (pick tag (concat (map (list4_entry_w t ex n tgt (S wl)) (slnws_list t n cur)))) =
      count x (slnws_list t n cur) * count x (pick tag (list4_entry_w t ex n tgt (S wl) x))).
    { rewrite pick_concat, map_map, count_concat, map_map.
      generalize (slnws_list t n cur) as l. induction l as [|a l IHl]; [reflexivity|].
      simpl. rewrite IHl, count_cons.
      destruct (Nat.eqb_spec x a) as [->|NE]; [lia|].
      assert (Z0 : count x (pick tag (list4_entry_w t ex n tgt (S wl) a)) = 0).
      { apply count_notIn. unfold pick. rewrite in_map_iff. intros [p [E1 E2]].
        apply filter_In in E2. destruct E2 as [E2 _]. apply list4_entry_out_w in E2. congruence. }
      rewrite Z0. lia. }
    rewrite H1. rewrite (slnws_count t W n) by auto. rewrite Hl.
    destruct (Nat.leb_spec 1 (box_level t x)) as [L1|L1]; simpl.
    + destruct (Nat.eqb_spec (box_level t x) (S wl)) as [E|E].
      * rewrite E. destruct (Nat.leb_spec (S wl) wl); [lia|].
        rewrite Nat.leb_refl. rewrite <- Hl, anc_self.
        rewrite (slnws_count t W n) by auto. rewrite E, Hl, Nat.eqb_refl. simpl. lia.
      * simpl. destruct (Nat.leb_spec (box_level t x) wl) as [L2|L2].
        -- destruct (Nat.leb_spec (box_level t x) (S wl)); [|lia].
           rewrite anc_parent by (auto; lia). lia.
        -- destruct (Nat.leb_spec (box_level t x) (S wl)); [lia|auto].
    + destruct (Nat.eqb_spec (box_level t x) (S wl)); [lia|]. simpl. auto.
Qed.

(** near boxes on the target's own level contribute nothing for n = 1 *)
Lemma list4_count_w tag tgt x : tgt < nboxes t -> x < nboxes t ->
  count x (pick tag (list4_list_w tgt)) =
  if (1 <=? box_level t x) && (box_level t x <=? box_level t tgt)
  then count x (slnws_list t n (anc t (box_level t x) tgt)) *
       count x (pick tag (list4_entry_w t ex n tgt (box_level t x) x))
  else 0.
Proof.
  intros Ht Hx. unfold list4_list_w.
  destruct (Nat.eqb_spec (box_level t tgt) 0) as [E|E].
  { rewrite E. change (pick tag []) with (@nil nat). rewrite count_nil.
    destruct (Nat.leb_spec 1 (box_level t x)), (Nat.leb_spec (box_level t x) 0); simpl; auto. lia. }
  assert (P : 0 < tgt) by (destruct tgt; [rewrite (wf_root_level t W) in E|]; lia).
  destruct (Nat.eqb_spec n 1) as [N1|N1].
  - rewrite list4_levels_count_w; auto; [|apply parent_lt; auto|apply parent_level_pred; auto].
    destruct (Nat.leb_spec 1 (box_level t x)); simpl; auto.
    destruct (Nat.leb_spec (box_level t x) (box_level t tgt - 1)).
    + destruct (Nat.leb_spec (box_level t x) (box_level t tgt)); [|lia].
      rewrite anc_parent by (auto; lia). auto.
    + destruct (Nat.leb_spec (box_level t x) (box_level t tgt)); auto.
      assert (EL : box_level t x = box_level t tgt) by lia.
      rewrite EL, anc_self. rewrite (slnws_count t W n) by auto.
      destruct (adj_n t n tgt x) eqn:EA; [|rewrite andb_false_r; auto].
      assert (Z0 : list4_entry_w t ex n tgt (box_level t tgt) x = []).
      { unfold list4_entry_w. destruct (is_source t x); auto.
        unfold adj_n in EA. rewrite N1, EL in EA. unfold is_adj. rewrite EA. auto. }
      rewrite Z0. change (pick tag []) with (@nil nat). rewrite count_nil. lia.
  - rewrite list4_levels_count_w; auto.
Qed.
End Lists.

Section Build.
Variable t : tree.
Hypothesis W : wf_tree t.
Variable P : trav_params.
Let n := well_sep_is_n_away P.
Hypothesis Hn : 1 <= n.
Let ex := extents P.

(** what traversal.py:1969-2345 returns *)
Definition the_traversal_w : traversal :=
  let tb := find_target_boxes t P in
  let ttpb := find_target_or_target_parent_boxes t in
  let lev := extract_level_starts t (level_start_box_nrs P) in
  {|
      source_boxes := find_source_boxes t P; target_boxes := tb;
      source_parent_boxes := find_source_parent_boxes t P;
      target_or_target_parent_boxes := ttpb;
      level_start_source_box_nrs := lev (find_source_boxes t P);
      level_start_target_box_nrs := lev tb;
      level_start_source_parent_box_nrs := lev (find_source_parent_boxes t P);
      level_start_target_or_target_parent_box_nrs := lev ttpb;
      same_level_non_well_sep_boxes := (slnws_csr t P);
      neighbor_source_boxes := csr_of (map (list1_list t) tb);
      from_sep_siblings := csr_of (map (list2_list t n) ttpb);
      from_sep_smaller_by_level :=
        map (fun l => eliminate_empty tb (map (fun b => pick true (list3_list_w t n ex (Some l) b)) tb))
            (seq 0 (nlevels t));
      from_sep_close_smaller :=
        if targets_have_extent ex
        then Some (csr_of (map (fun b => pick false (list3_list_w t n ex None b)) tb)) else None;
      from_sep_bigger := csr_of (map (fun b => pick true (list4_list_w t n ex b)) ttpb);
      from_sep_close_bigger :=
        if targets_have_extent ex then
          let rev := reverse_index ttpb (nboxes t) in
          Some (merge_lists (map (fun b => nth b rev 0) tb)
                 [csr_of (map (fun b => pick false (list4_list_w t n ex b)) ttpb)])
        else None
    |}.

Let tr := the_traversal_w.
Let tb := find_target_boxes t P.
Let ttpb := find_target_or_target_parent_boxes t.

Lemma list1_of_count_w T x : In T tb -> count x (list1_of tr T) = count x (list1_list t T).
Proof. intros H. apply entries_map; eauto using tb_NoDup. Qed.
Lemma list2_of_count_w A x : In A ttpb -> count x (list2_of tr A) = count x (list2_list t n A).
Proof. intros H. apply entries_map; eauto using ttpb_NoDup. Qed.
Lemma list4_of_count_w A x : In A ttpb ->
  count x (list4_of tr A) = count x (pick true (list4_list_w t n ex A)).
Proof. intros H. apply (entries_map ttpb (fun b => pick true (list4_list_w t n ex b))); eauto using ttpb_NoDup. Qed.
Lemma list3_level_of_count_w l T x : In T tb -> l < nlevels t ->
  count x (list3_level_of tr l T) = count x (pick true (list3_list_w t n ex (Some l) T)).
Proof.
  intros H Hl. unfold list3_level_of, tr, the_traversal_w. cbn [from_sep_smaller_by_level].
  rewrite nth_map_seq by auto.
  apply (entries_eliminate tb (fun b => pick true (list3_list_w t n ex (Some l) b))); eauto using tb_NoDup.
Qed.
Lemma list3_of_count_w T x : In T tb ->
  count x (list3_of tr T) =
  nsum (map (fun l => count x (pick true (list3_list_w t n ex (Some l) T))) (seq 0 (nlevels t))).
Proof.
  intros H. unfold list3_of, tr, the_traversal_w. cbn [from_sep_smaller_by_level].
  rewrite map_map, count_concat, map_map. f_equal. apply map_ext. intros l.
  apply (entries_eliminate tb (fun b => pick true (list3_list_w t n ex (Some l) b))); eauto using tb_NoDup.
Qed.
Lemma list3_close_of_count_w T x : In T tb -> 
  count x (list3_close_of tr T) =
  if targets_have_extent ex then count x (pick false (list3_list_w t n ex None T)) else 0.
Proof.
  intros H. unfold list3_close_of, tr, the_traversal_w. cbn [from_sep_close_smaller target_boxes].
  destruct (targets_have_extent ex); [|reflexivity].
  apply (entries_map tb (fun b => pick false (list3_list_w t n ex None b))); eauto using tb_NoDup.
Qed.

Lemma list4_close_of_count_w T x : wf_params t P -> In T tb ->
  count x (list4_close_of tr T) =
  if targets_have_extent ex then count x (pick false (list4_list_w t n ex T)) else 0.
Proof.
  intros WP H. unfold list4_close_of, tr, the_traversal_w. cbn [from_sep_close_bigger target_boxes].
  destruct (targets_have_extent ex); [|reflexivity]. cbv zeta.
  unfold merge_lists. rewrite map_map. fold tb. fold ttpb.
  erewrite map_ext_in with (g := fun b => pick false (list4_list_w t n ex b)).
  - apply (entries_map tb (fun b => pick false (list4_list_w t n ex b))); eauto using tb_NoDup.
  - intros b Hb. destruct (tb_ttpb t P Hn b WP Hb) as [Hb' _].
    apply (In_nth _ _ 0) in Hb'. destruct Hb' as [i [Hi E]].
    assert (R : nth b (reverse_index ttpb (nboxes t)) 0 = i).
    { rewrite <- E. apply reverse_index_nth; eauto using ttpb_NoDup, ttpb_range. }
    rewrite R. simpl. rewrite app_nil_r. rewrite csr_get_of by (rewrite map_length; auto).
    rewrite (nth_indep _ [] (pick false (list4_list_w t n ex 0))) by (rewrite map_length; auto).
    rewrite (map_nth (fun b => pick false (list4_list_w t n ex b))). unfold ttpb. rewrite E. reflexivity.
Qed.

End Build.

Section Cover.
Variable t : tree.
Hypothesis W : wf_tree t.
Hypothesis F : wf_flags t.
Variable P : trav_params.
Hypothesis WP : wf_params t P.
Let n := well_sep_is_n_away P.
Let Hn : 1 <= n := proj1 WP.
Let ex := extents P.
(** a source box that is separated from a box is separated from its children *)
Hypothesis MONO : targets_have_extent ex = true -> forall A S0, A < nboxes t -> S0 < nboxes t -> 0 < A ->
  fB (box_parent t A) (box_level t A - 1) S0 (box_level t S0) = true -> fB A (box_level t A) S0 (box_level t S0) = true.
Let tr := the_traversal_w t P.
Variables T S0 : nat.
Hypothesis HTb : In T (find_target_boxes t P).
Hypothesis HS : S0 < nboxes t.
Hypothesis HSs : is_source t S0 = true.
Let HT : T < nboxes t := tb_range t P Hn T HTb.
Let lT := box_level t T.
Let lS := box_level t S0.
Let a k := anc t k T.
Let b k := anc t k S0.
Let m := Nat.min lT lS.
Let NN k := adj_n t n (a k) (b k).

Lemma a_lt k : a k < nboxes t. Proof. apply anc_lt; auto. Qed.
Lemma b_lt k : b k < nboxes t. Proof. apply anc_lt; auto. Qed.
Lemma a_level k : k <= lT -> box_level t (a k) = k. Proof. apply anc_level; auto. Qed.
Lemma b_level k : k <= lS -> box_level t (b k) = k. Proof. apply anc_level; auto. Qed.

Lemma NN_pred k : Datatypes.S k <= m -> NN (Datatypes.S k) = true -> NN k = true.
Proof.
  intros Hk. unfold NN. rewrite !adj_n_near by auto using a_lt, b_lt.
  intros H.
  assert (PA : box_parent t (a (Datatypes.S k)) = a k) by (apply parent_anc; auto; unfold m, lT, lS in *; lia).
  assert (PB : box_parent t (b (Datatypes.S k)) = b k) by (apply parent_anc; auto; unfold m, lT, lS in *; lia).
  rewrite <- PA, <- PB. apply near_parents; auto using a_lt, b_lt.
Qed.
Lemma NN_0 : NN 0 = true.
Proof.
  unfold NN, a, b. rewrite !anc_0 by auto. apply adj_n_near; auto using (wf_nboxes t W).
  apply near_refl; auto using (wf_nboxes t W).
Qed.
Lemma NN_le j k : j <= k -> k <= m -> NN k = true -> NN j = true.
Proof.
  intros H. induction H; auto. intros H1 H2. apply IHle; [lia|]. apply NN_pred; auto.
Qed.

(** *** list 2 *)
Lemma list2_pair k j : k <= lT -> j <= lS ->
  count (b j) (list2_list t n (a k)) =
  if (k =? j) && (negb (NN k) && ((k =? 0) || negb (negb (NN (k - 1))))) then 1 else 0.
Proof.
  intros Hk Hj. rewrite list2_count by auto using a_lt, b_lt.
  destruct (Nat.eq_dec k 0) as [->|Hk0].
  { unfold a at 1. rewrite anc_0 by auto. simpl. rewrite NN_0. simpl. rewrite andb_false_r. auto. }
  destruct (Nat.eq_dec j 0) as [->|Hj0].
  { unfold b at 1. rewrite anc_0 by auto. rewrite andb_false_r. simpl.
    destruct (Nat.eqb_spec k 0); [lia|]. auto. }
  assert (A0 : 0 < a k) by (apply anc_pos; auto; lia).
  assert (B0 : 0 < b j) by (apply anc_pos; auto; lia).
  destruct (Nat.eqb_spec (a k) 0); [lia|]. destruct (Nat.eqb_spec (b j) 0); [lia|].
  assert (PA : box_parent t (a k) = a (k - 1)).
  { unfold a. replace k with (Datatypes.S (k - 1)) at 1 by lia. apply parent_anc; auto. unfold lT in *; lia. }
  assert (PB : box_parent t (b j) = b (j - 1)).
  { unfold b. replace j with (Datatypes.S (j - 1)) at 1 by lia. apply parent_anc; auto. unfold lS in *; lia. }
  rewrite PA, PB. rewrite slnws_count by auto using a_lt, b_lt.
  rewrite a_level, b_level by lia.
  destruct (Nat.eqb_spec k 0); [lia|].
  destruct (Nat.eqb_spec k j) as [<-|NE].
  2:{ destruct (Nat.eqb_spec (j - 1) (k - 1)); [lia|]. simpl. destruct (negb (adj_n _ _ _ _)); auto. }
  rewrite Nat.eqb_refl. fold (NN k). simpl. rewrite negb_involutive.
  fold (NN (k - 1)).
  destruct (NN k) eqn:E; simpl; auto.
  destruct (Nat.eqb_spec (b (k - 1)) (a (k - 1))) as [EQ|]; simpl; auto.
  exfalso. unfold NN in E. apply adj_n_not_near in E; auto using a_lt, b_lt.
  apply E. apply siblings_near; auto using a_lt, b_lt. congruence.
Qed.

Lemma list2_total :
  nsum (map (fun A => nsum (map (fun B => count B (list2_of tr A)) (ancestors_or_self t S0)))
              (ancestors_or_self t T)) = if NN m then 0 else 1.
Proof.
  rewrite chain_sum by auto.
  transitivity (nsum (map (fun k => if negb (NN k) && ((k =? 0) || negb (negb (NN (k - 1)))) then 1 else 0)
                      (seq 0 (Datatypes.S m)))).
  2:{ rewrite (edge_sum (fun k => negb (NN k)) 0 m).
      - simpl. destruct (NN m); auto.
      - intros k _ Hk H. destruct (NN (Datatypes.S k)) eqn:E; auto.
        apply NN_pred in E; [|lia]. rewrite E in H. discriminate. }
  assert (INNER : forall k, k <= lT ->
    nsum (map (fun B => count B (list2_of tr (anc t k T))) (ancestors_or_self t S0)) =
    if (k <=? lS) && (negb (NN k) && ((k =? 0) || negb (negb (NN (k - 1))))) then 1 else 0).
  { intros k Hk. rewrite chain_sum by auto.
    rewrite (map_ext_in _ (fun j => if (k =? j) && (negb (NN k) && ((k =? 0) || negb (negb (NN (k - 1))))) then 1 else 0)).
    2:{ intros j Hj. apply in_seq in Hj. unfold tr.
        rewrite list2_of_count_w by (eapply anc_ttpb; eauto; unfold lT in *; lia).
        apply list2_pair; unfold lS; lia. }
    destruct (Nat.leb_spec k lS); simpl andb at 1.
    - rewrite (nsum_map_single _ _ k).
      + rewrite Nat.eqb_refl. auto.
      + apply seq_NoDup.
      + apply in_seq. unfold lS in *. lia.
      + intros j _ Hne. destruct (Nat.eqb_spec k j); [congruence|auto].
    - apply nsum_map_0. intros j Hj. apply in_seq in Hj.
      destruct (Nat.eqb_spec k j); auto. unfold lS in *. lia. }
  rewrite (map_ext_in _ (fun k => if (k <=? lS) && (negb (NN k) && ((k =? 0) || negb (negb (NN (k - 1))))) then 1 else 0)).
  2:{ intros k Hk. apply in_seq in Hk. apply INNER. unfold lT. lia. }
  fold lT. replace (Datatypes.S lT) with (Datatypes.S m + (lT - m)) by (unfold m; lia).
  rewrite seq_app, map_app, nsum_app. rewrite <- (Nat.add_0_r (nsum (map (fun k : nat =>
     if negb (NN k) && ((k =? 0) || negb (negb (NN (k - 1)))) then 1 else 0) (seq 0 (Datatypes.S m))))).
  f_equal.
  - f_equal. apply map_ext_in. intros k Hk. apply in_seq in Hk.
    destruct (Nat.leb_spec k lS); auto. unfold m in *; lia.
  - apply nsum_map_0. intros k Hk. apply in_seq in Hk.
    destruct (Nat.leb_spec k lS); auto. unfold m in *. lia.
Qed.

(** *** list 1 *)
Lemma list1_total : count S0 (list1_of tr T) = if adj t T S0 then 1 else 0.
Proof.
  unfold tr. rewrite list1_of_count_w by auto. erewrite list1_count; eauto. rewrite HSs. auto.
Qed.

Lemma adj_NN : adj t T S0 = true -> NN m = true.
Proof.
  intros H. unfold NN. apply adj_n_near; auto using a_lt, b_lt.
  apply (near_mono t W 1 n); auto using a_lt. apply near_anc_l; auto. apply near_anc_r; auto.
  apply adj_near in H; auto.
Qed.

Lemma b_source k : k <= lS -> is_source t (b k) = true \/ has_source_child t (b k) = true.
Proof.
  intros Hk. destruct (Nat.eq_dec k lS) as [->|NE].
  - left. unfold b, lS. rewrite anc_self. auto.
  - right. eapply (hsc_anc t W n); eauto. unfold lS in *; lia.
Qed.
Lemma b_hsc k : k < lS -> has_source_child t (b k) = true.
Proof. intros Hk. eapply (hsc_anc t W n); eauto. Qed.

(** *** list 3 *)
Let st k := stop_w t ex T (b k).
Let nws3 := count (b lT) (slnws_list t n T).

Lemma list3_one l k : k <= lS ->
  count (b k) (pick true (list3_list_w t n ex (Some l) T)) =
  if (lT <? k) && (l =? k) && (forallb (fun j => negb (st j)) (seq (Datatypes.S lT) (k - Datatypes.S lT)) && st k)
  then nws3 else 0.
Proof.
  intros Hk. rewrite list3_count_raw_w by auto using b_lt. rewrite b_level by auto.
  fold lT. destruct (Nat.ltb_spec lT k) as [L|L]; simpl andb; auto.
  assert (E1 : anc t lT (b k) = b lT) by (unfold b; apply anc_anc; auto; unfold lS in *; lia).
  rewrite E1. fold nws3.
  rewrite (list3_far_out_w t n) by (apply b_source; auto). rewrite b_level by auto.
  destruct (Nat.eqb_spec l k) as [->|NE].
  2:{ rewrite andb_false_r. rewrite count_nil. destruct (forallb _ _); simpl; lia. }
  rewrite andb_true_r. fold (st k).
  assert (E2 : forallb (fun k0 => snd (list3_visit_w t ex T (Some k) (anc t k0 (b k)) 0))
                 (seq (Datatypes.S lT) (k - Datatypes.S lT)) =
               forallb (fun j => negb (st j)) (seq (Datatypes.S lT) (k - Datatypes.S lT))).
  { assert (G : forall l0, (forall j, In j l0 -> lT < j < k) ->
      forallb (fun k0 => snd (list3_visit_w t ex T (Some k) (anc t k0 (b k)) 0)) l0 =
      forallb (fun j => negb (st j)) l0).
    { induction l0 as [|j l0 IH]; intros Hl; simpl; auto. rewrite IH by (intros; apply Hl; right; auto).
      f_equal. specialize (Hl j (or_introl eq_refl)).
      assert (E3 : anc t j (b k) = b j) by (unfold b; apply anc_anc; auto; unfold lS in *; lia).
      rewrite E3. rewrite list3_desc_w; auto.
      - apply b_hsc; lia.
      - rewrite b_level; lia. }
    apply G. intros j Hj. apply in_seq in Hj. lia. }
  rewrite E2. clear E2. destruct (forallb _ _); simpl; auto.
  destruct (st k); [rewrite count_cons, Nat.eqb_refl, count_nil; lia|rewrite count_nil; lia].
Qed.

Lemma list3_total :
  nsum (map (fun B => count B (list3_of tr T)) (ancestors_or_self t S0)) =
  if lT <? lS then (if existsb st (seq (Datatypes.S lT) (lS - lT)) then nws3 else 0) else 0.
Proof.
  rewrite chain_sum by auto. fold lS.
  rewrite (map_ext_in _ (fun k => if (lT <? k) && (forallb (fun j => negb (st j)) (seq (Datatypes.S lT) (k - Datatypes.S lT)) && st k) then nws3 else 0)).
  2:{ intros k Hk. apply in_seq in Hk. unfold tr. rewrite list3_of_count_w by auto.
      fold n ex. fold (b k).
      rewrite (nsum_map_single _ _ k).
      - rewrite list3_one by lia. rewrite Nat.eqb_refl, andb_true_r. auto.
      - apply seq_NoDup.
      - apply in_seq. pose proof (wf_level_lt t W S0 HS). unfold lS in *; lia.
      - intros l _ Hne. rewrite list3_one by lia. destruct (Nat.eqb_spec l k); [congruence|].
        rewrite andb_false_r. auto. }
  destruct (Nat.ltb_spec lT lS) as [L|L].
  - replace (Datatypes.S lS) with (Datatypes.S lT + (lS - lT)) by lia.
    rewrite seq_app, map_app, nsum_app. simpl (0 + _).
    rewrite nsum_map_0.
    2:{ intros k Hk. apply in_seq in Hk. destruct (Nat.ltb_spec lT k); auto. lia. }
    rewrite Nat.add_0_l.
    rewrite (map_ext_in _ (fun k => (if forallb (fun j => negb (st j)) (seq (Datatypes.S lT) (k - Datatypes.S lT)) && st k then 1 else 0) * nws3)).
    2:{ intros k Hk. apply in_seq in Hk. destruct (Nat.ltb_spec lT k); [|lia]. simpl andb.
        destruct (forallb _ _ && _); lia. }
    assert (M : forall (f : nat -> nat) l, nsum (map (fun k => f k * nws3) l) = nsum (map f l) * nws3).
    { induction l as [|x l IH]; simpl; auto. unfold nsum in *; simpl. lia. }
    rewrite M, first_sum. destruct (existsb _ _); lia.
  - apply nsum_map_0. intros k Hk. apply in_seq in Hk. destruct (Nat.ltb_spec lT k); auto. lia.
Qed.

Lemma list3_close_total :
  count S0 (list3_close_of tr T) =
  if (lT <? lS) && forallb (fun j => negb (st j)) (seq (Datatypes.S lT) (lS - Datatypes.S lT)) &&
     (negb (adj t T S0) && negb (is_far_w ex T S0))
  then nws3 else 0.
Proof.
  unfold tr. rewrite list3_close_of_count_w by auto. fold n ex.
  destruct (targets_have_extent ex) eqn:EX.
  2:{ unfold is_far_w. rewrite EX. simpl. rewrite !andb_false_r. auto. }
  rewrite list3_count_raw_w by auto. fold lT lS.
  destruct (Nat.ltb_spec lT lS) as [L|L]; simpl andb; auto.
  fold (b lT). fold nws3. rewrite list3_close_out_w by auto.
  assert (E2 : forallb (fun k0 => snd (list3_visit_w t ex T None (anc t k0 S0) 0))
                 (seq (Datatypes.S lT) (lS - Datatypes.S lT)) =
               forallb (fun j => negb (st j)) (seq (Datatypes.S lT) (lS - Datatypes.S lT))).
  { assert (G : forall l0, (forall j, In j l0 -> lT < j < lS) ->
      forallb (fun k0 => snd (list3_visit_w t ex T None (anc t k0 S0) 0)) l0 =
      forallb (fun j => negb (st j)) l0).
    { induction l0 as [|j l0 IH]; intros Hl; simpl; auto. rewrite IH by (intros; apply Hl; right; auto).
      f_equal. specialize (Hl j (or_introl eq_refl)).
      rewrite list3_desc_w; auto. apply b_hsc; lia. }
    apply G. intros j Hj. apply in_seq in Hj. lia. }
  rewrite E2. clear E2. destruct (forallb _ _); simpl; auto.
  destruct (_ && _); [rewrite count_cons, Nat.eqb_refl, count_nil; lia|rewrite count_nil; lia].
Qed.

(** *** list 4 *)
Let mb k := if targets_have_extent ex
            then fB (a k) k S0 lS else true.
Let Q k := negb (adj t (a k) S0) && mb k.
Let nws4 := count S0 (slnws_list t n (a lS)).

Lemma mb_mono k : k < lT -> mb k = true -> mb (Datatypes.S k) = true.
Proof.
  intros Hk. unfold mb. destruct (targets_have_extent ex) eqn:EX; auto. intros H.
  assert (PC : box_parent t (a (Datatypes.S k)) = a k) by (apply parent_anc; auto).
  assert (X := MONO eq_refl (a (Datatypes.S k)) S0 (a_lt _) HS ltac:(apply anc_pos; auto; unfold lT in *; lia)).
  rewrite PC, (a_level (Datatypes.S k)) in X by lia. replace (Datatypes.S k - 1) with k in X by lia. apply X. exact H.
Qed.

Lemma Q_mono k : k < lT -> Q k = true -> Q (Datatypes.S k) = true.
Proof.
  intros Hk. unfold Q. rewrite !andb_true_iff, !negb_true_iff. intros [H1 H2]. split; [|apply mb_mono; auto].
  destruct (adj t (a (Datatypes.S k)) S0) eqn:E; auto. exfalso.
  assert (X : adj t (anc t k (a (Datatypes.S k))) S0 = true).
  { apply adj_anc_l; auto using a_lt. }
  unfold a in X at 1. rewrite anc_anc in X by (auto; unfold lT in *; lia). fold (a k) in X. congruence.
Qed.

Lemma pick1 tag : count S0 (pick tag [(tag, S0)]) = 1.
Proof. unfold pick. simpl. rewrite eqb_reflx. simpl. rewrite count_cons, Nat.eqb_refl. auto. Qed.

Lemma entry4 j : 1 <= lS -> lS <= j -> j <= lT -> nws4 <> 0 ->
  count S0 (pick true (list4_entry_w t ex n (a j) lS S0)) =
  if Q j && ((j =? lS) || negb (Q (j - 1))) then 1 else 0.
Proof.
  intros H1 H2 H3 Hw. unfold list4_entry_w. rewrite HSs, !(a_level j) by auto.
  assert (PA : box_parent t (a j) = a (j - 1)).
  { unfold a. replace j with (Datatypes.S (j - 1)) at 1 by lia. apply parent_anc; auto. unfold lT in *; lia. }
  rewrite PA.
  replace (is_adj t (box_center t (a j)) j (box_center t S0) lS) with (adj t (a j) S0)
    by (unfold adj; rewrite a_level by auto; auto).
  replace (is_adj t (box_center t (a (j - 1))) (j - 1) (box_center t S0) lS)
    with (adj t (a (j - 1)) S0) by (unfold adj; rewrite a_level by lia; auto).
  unfold Q, mb.
  destruct (adj t (a j) S0) eqn:EA; simpl negb; [reflexivity|]. simpl andb at 3.
  destruct (targets_have_extent ex) eqn:EX; simpl andb.
  - destruct (fB (a j) j S0 lS) eqn:EM; simpl.
    2:{ destruct (is_target t (a j)); reflexivity. }
    destruct (Nat.eqb_spec j lS) as [->|NE]; simpl.
    + destruct (Nat.ltb_spec 1 n) as [L|L].
      * rewrite Nat.ltb_irrefl, andb_false_r. simpl. apply pick1.
      * exfalso. assert (N1 : n = 1) by lia. apply Hw. unfold nws4. apply count_notIn.
        intros Hin. apply slnws_in in Hin; auto using a_lt.
        destruct Hin as [_ [_ [_ Hin]]]. rewrite N1 in Hin. apply adj_near in Hin; auto using a_lt. congruence.
    + assert (E : (if 1 <? n then lS <? j else true) = true).
      { destruct (1 <? n); auto. apply Nat.ltb_lt. lia. }
      rewrite E, andb_true_r.
      destruct (adj t (a (j - 1)) S0); simpl; [apply pick1|].
      destruct (fB (a (j - 1)) (j - 1) S0 lS); simpl;
      [reflexivity|]. apply pick1.
  - destruct (Nat.eqb_spec j lS) as [->|NE]; simpl.
    + destruct (Nat.ltb_spec 1 n) as [L|L].
      * rewrite Nat.ltb_irrefl, andb_false_r. simpl. apply pick1.
      * exfalso. assert (N1 : n = 1) by lia. apply Hw. unfold nws4. apply count_notIn.
        intros Hin. apply slnws_in in Hin; auto using a_lt.
        destruct Hin as [_ [_ [_ Hin]]]. rewrite N1 in Hin. apply adj_near in Hin; auto using a_lt. congruence.
    + assert (E : (if 1 <? n then lS <? j else true) = true).
      { destruct (1 <? n); auto. apply Nat.ltb_lt. lia. }
      rewrite E, andb_true_r.
      destruct (adj t (a (j - 1)) S0); simpl; [apply pick1|].
      reflexivity.
Qed.

Lemma list4_total :
  nsum (map (fun A => count S0 (list4_of tr A)) (ancestors_or_self t T)) =
  if (1 <=? lS) && (lS <=? lT) then (if Q lT then nws4 else 0) else 0.
Proof.
  rewrite chain_sum by auto. fold lT.
  rewrite (map_ext_in _ (fun j => if (1 <=? lS) && (lS <=? j)
     then nws4 * (if Q j && ((j =? lS) || negb (Q (j - 1))) then 1 else 0) else 0)).
  2:{ intros j Hj. apply in_seq in Hj. unfold tr. rewrite list4_of_count_w by (eapply anc_ttpb; eauto; unfold lT in *; lia).
      fold n ex. fold (a j). rewrite list4_count_w by auto using a_lt. fold lS.
      rewrite a_level by lia.
      destruct (Nat.leb_spec 1 lS); simpl; auto. destruct (Nat.leb_spec lS j); auto.
      assert (E1 : anc t lS (a j) = a lS) by (unfold a; apply anc_anc; auto; unfold lT in *; lia).
      rewrite E1. fold nws4. destruct (Nat.eq_dec nws4 0) as [->|NZ]; [auto|].
      rewrite entry4 by (auto; lia). auto. }
  destruct (Nat.leb_spec 1 lS) as [L1|L1]; simpl andb.
  2:{ apply nsum_map_0. auto. }
  destruct (Nat.leb_spec lS lT) as [L2|L2].
  - replace (Datatypes.S lT) with (lS + Datatypes.S (lT - lS)) by lia.
    rewrite seq_app, map_app, nsum_app. simpl (0 + lS).
    rewrite nsum_map_0.
    2:{ intros k Hk. apply in_seq in Hk. destruct (Nat.leb_spec lS k); auto. lia. }
    rewrite Nat.add_0_l.
    rewrite (map_ext_in _ (fun j => (if Q j && ((j =? lS) || negb (Q (j - 1))) then 1 else 0) * nws4)).
    2:{ intros k Hk. apply in_seq in Hk. destruct (Nat.leb_spec lS k); [|lia]. lia. }
    assert (M : forall (f : nat -> nat) l, nsum (map (fun k => f k * nws4) l) = nsum (map f l) * nws4).
    { induction l as [|x l IH]; simpl; auto. unfold nsum in *; simpl. lia. }
    rewrite M, (edge_sum Q).
    + replace (lS + (lT - lS)) with lT by lia. destruct (Q lT); lia.
    + intros k Hk1 Hk2 Hq. apply Q_mono; auto. lia.
  - apply nsum_map_0. intros k Hk. apply in_seq in Hk. destruct (Nat.leb_spec lS k); auto. lia.
Qed.

Lemma list4_close_total :
  count S0 (list4_close_of tr T) =
  if (1 <=? lS) && (lS <=? lT) && (negb (adj t T S0) && negb (mb lT)) then nws4 else 0.
Proof.
  unfold tr. rewrite list4_close_of_count_w by auto. fold n ex.
  unfold mb. destruct (targets_have_extent ex) eqn:EX.
  2:{ simpl. rewrite !andb_false_r. auto. }
  rewrite list4_count_w by auto. fold lS lT. fold (a lS). fold nws4.
  destruct ((1 <=? lS) && (lS <=? lT)) eqn:E; simpl; auto.
  apply andb_true_iff in E. destruct E as [E1 E2]. apply Nat.leb_le in E1, E2.
  assert (AT : a lT = T) by apply anc_self. rewrite AT.
  unfold list4_entry_w. rewrite HSs. fold lT.
  replace (is_adj t (box_center t T) lT (box_center t S0) lS) with (adj t T S0) by reflexivity.
  destruct (adj t T S0) eqn:EA; simpl; [unfold pick; simpl; rewrite count_nil; lia|]. rewrite EX. simpl.
  destruct (fB T lT S0 lS); simpl.
  - destruct (_ && _); [destruct (negb _)|]; unfold pick; simpl; rewrite count_nil; lia.
  - destruct (tb_ttpb t P Hn T WP HTb) as [_ ->]. rewrite pick1. lia.
Qed.

(** *** the theorem *)
Lemma adj_self_anc k : k <= lS -> b k = T -> adj t T S0 = true.
Proof.
  intros Hk E. apply adj_near; auto. rewrite <- E. apply near_anc_self; auto.
Qed.

Lemma coverage_one : coverage t tr T S0 = 1.
Proof.
  unfold coverage. rewrite list1_total, list2_total, list3_total, list3_close_total, list4_total, list4_close_total.
  destruct (Nat.ltb_spec lT lS) as [L|L].
  - (* source box finer *)
    destruct (Nat.leb_spec lS lT); [lia|]. rewrite andb_false_r. simpl andb.
    assert (Em : m = lT) by (unfold m; lia).
    assert (Ea : a lT = T) by apply anc_self.
    assert (Enws : nws3 = if negb (b lT =? T) && NN m then 1 else 0).
    { unfold nws3. rewrite slnws_count by auto using b_lt. rewrite b_level by lia. fold lT.
      rewrite Nat.eqb_refl. unfold NN. rewrite Em, Ea. auto. }
    assert (Es : seq (Datatypes.S lT) (lS - lT) = seq (Datatypes.S lT) (lS - Datatypes.S lT) ++ [lS]).
    { replace (lS - lT) with (Datatypes.S (lS - Datatypes.S lT)) by lia. rewrite seq_S. f_equal. f_equal. lia. }
    rewrite Es, existsb_app. simpl (existsb st [lS]). rewrite orb_false_r.
    assert (EF : forallb (fun j => negb (st j)) (seq (Datatypes.S lT) (lS - Datatypes.S lT)) =
                 negb (existsb st (seq (Datatypes.S lT) (lS - Datatypes.S lT)))).
    { generalize (seq (Datatypes.S lT) (lS - Datatypes.S lT)). intros l. induction l; simpl; auto. rewrite IHl. destruct (st a0); auto. }
    rewrite EF.
    assert (ES : st lS = negb (adj t T S0) && is_far_w ex T S0).
    { unfold st, stop_w, b. unfold lS. rewrite anc_self. auto. }
    rewrite ES.
    destruct (adj t T S0) eqn:EA; simpl negb; simpl andb.
    + rewrite (adj_NN EA) in *. rewrite orb_false_r, andb_false_r.
      assert (EX0 : existsb st (seq (Datatypes.S lT) (lS - Datatypes.S lT)) = false).
      { destruct (existsb _ _) eqn:E; auto. apply existsb_exists in E. destruct E as [k [Hk Hs]].
        apply in_seq in Hk. unfold st, stop_w in Hs. apply andb_true_iff in Hs. destruct Hs as [Hs _].
        unfold b in Hs. rewrite adj_anc_r in Hs by auto. discriminate. }
      rewrite EX0. simpl. auto.
    + assert (NEQ : b lT =? T = false).
      { destruct (Nat.eqb_spec (b lT) T) as [E|]; auto. apply adj_self_anc in E; [congruence|lia]. }
      rewrite NEQ in Enws. simpl in Enws.
      destruct (NN m) eqn:ENN; rewrite Enws.
      * destruct (existsb st _), (is_far_w ex T S0); reflexivity.
      * destruct (existsb st _), (is_far_w ex T S0); reflexivity.
  - (* source box not finer *)
    rewrite !andb_false_l. destruct (Nat.leb_spec lS lT); [|lia]. rewrite andb_true_r.
    destruct (1 <=? lS) eqn:E1lS.
    2:{ (* the source box is the root *)
      assert (Z0 : lS = 0) by (apply Nat.leb_gt in E1lS; lia).
      assert (R0 : S0 = 0) by (apply (level_0 t W); auto).
      assert (EA : adj t T S0 = true) by (rewrite R0; apply adj_root; auto).
      rewrite (adj_NN EA), EA. reflexivity. }
    apply Nat.leb_le in E1lS.
    assert (Em : m = lS) by (unfold m; lia).
    assert (Eb : b lS = S0) by apply anc_self.
    assert (Ea : a lT = T) by apply anc_self.
    assert (Enws : nws4 = if negb (S0 =? a lS) && NN m then 1 else 0).
    { unfold nws4. rewrite slnws_count by auto using a_lt. rewrite a_level by lia. fold lS.
      rewrite Nat.eqb_refl. unfold NN. rewrite Em, Eb. auto. }
    unfold Q. rewrite Ea.
    destruct (adj t T S0) eqn:EA; simpl negb; simpl andb.
    + rewrite (adj_NN EA). reflexivity.
    + assert (NEQ : S0 =? a lS = false).
      { destruct (Nat.eqb_spec S0 (a lS)) as [E|]; auto. exfalso.
        assert (X : adj t T S0 = true).
        { apply adj_near; auto. rewrite E. apply near_sym. apply near_anc_self; auto. }
        congruence. }
      rewrite NEQ in Enws. simpl in Enws.
      destruct (NN m) eqn:ENN; rewrite Enws; destruct (mb lT); reflexivity.
Qed.
End Cover.
End With.
