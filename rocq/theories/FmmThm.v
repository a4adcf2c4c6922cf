(** C03: the FMM driver delivers the sum of all weights to every target. *)
From Coq Require Import List Arith ZArith NArith Lia Bool Permutation.
From Verif Require Import Base Tree Spec TreeFacts Traversal SpecTraversal TraversalLists Coverage
  CoverageThm ListFacts LevelStarts MergeFacts Fmm SpecFmm FmmFacts.
Import ListNotations.

Lemma covers_in s c i : covers s c i = true <-> In i (seq s c).
Proof. unfold covers. rewrite andb_true_iff, Nat.leb_le, Nat.ltb_lt, in_seq. lia. Qed.

Lemma NoDup_concat_at {A} (ll : list (list A)) i j x : NoDup (concat ll) ->
  i < length ll -> j < length ll -> In x (nth i ll []) -> In x (nth j ll []) -> i = j.
Proof.
  revert i j. induction ll as [|l ll IH]; intros i j ND Hi Hj H1 H2; simpl in *; [lia|].
  assert (D : forall k y, k < length ll -> In y l -> In y (nth k ll []) -> False).
  { intros k y Hk Hy Hy2.
    assert (In y (concat ll)) by (apply in_concat; exists (nth k ll []); split; auto; apply nth_In; auto).
    apply in_split in H. destruct H as [c1 [c2 E]]. rewrite E, app_assoc in ND.
    apply NoDup_remove_2 in ND. apply ND. rewrite !in_app_iff. auto. }
  destruct i, j; auto.
  - exfalso. eapply (D j); eauto. lia.
  - exfalso. eapply (D i); eauto. lia.
  - f_equal. apply IH; auto; try lia. clear -ND. induction l; auto. inversion ND; auto.
Qed.

Lemma owner_exists t start cnt n i : owned_once t start cnt n -> i < n ->
  exists T, T < nboxes t /\ 0 < cnt T /\
    forall b, b < nboxes t -> (covers (start b) (cnt b) i = true <-> b = T).
Proof.
  intros O Hi. unfold owned_once in O.
  assert (Hin : In i (concat (map (fun b => seq (start b) (cnt b)) (seq 0 (nboxes t))))).
  { eapply Permutation_in; [symmetry; exact O|]. apply in_seq. lia. }
  apply in_concat_map in Hin. destruct Hin as [T [HT Hc]]. apply in_seq in HT.
  exists T. split; [lia|]. split; [apply in_seq in Hc; lia|].
  assert (ND : NoDup (concat (map (fun b => seq (start b) (cnt b)) (seq 0 (nboxes t))))).
  { eapply Permutation_NoDup; [symmetry; exact O|]. apply seq_NoDup. }
  intros b Hb. rewrite covers_in. split; [|intros ->; auto].
  intros Hib. eapply (NoDup_concat_at _ b T i ND); rewrite ?map_length, ?seq_length; auto; try lia;
  rewrite nth_map_seq; auto; lia.
Qed.

(** what drive_fmm relies on *)
Record fmm_ready (t : tree) (tr : traversal) : Prop := {
  fr_tb_nodup : NoDup (target_boxes tr);
  fr_tb_range : forall b, In b (target_boxes tr) -> b < nboxes t;
  fr_tb_ttpb : forall b, In b (target_boxes tr) -> In b (target_or_target_parent_boxes tr);
  fr_ttpb_nodup : NoDup (target_or_target_parent_boxes tr);
  fr_ttpb_range : forall b, In b (target_or_target_parent_boxes tr) -> b < nboxes t;
  fr_ttpb_parent : forall b, In b (target_or_target_parent_boxes tr) ->
      In (box_parent t b) (target_or_target_parent_boxes tr);
  fr_ttpb_levels : level_delimited t (level_start_target_or_target_parent_box_nrs tr)
                     (target_or_target_parent_boxes tr);
  fr_l3_range : forall lc b, In lc (from_sep_smaller_by_level tr) -> In b (fst lc) -> b < nboxes t
}.

(** Σ over list 1, close lists, list 3 of T, and lists 2 and 4 of T and its ancestors *)
Definition received (t : tree) (tr : traversal) (Wb M : nat -> Z) (T : nat) : Z :=
  (zsum (map Wb (list1_of tr T)) + zsum (map Wb (list3_close_of tr T)) + zsum (map Wb (list4_close_of tr T))
   + zsum (map (fun A => zsum (map M (list2_of tr A))) (ancestors_or_self t T))
   + zsum (map M (list3_of tr T))
   + zsum (map (fun A => zsum (map Wb (list4_of tr A))) (ancestors_or_self t T)))%Z.

Lemma fmm_at t p tr comm w i T :
  wf_tree t -> fmm_ready t tr ->
  (forall b, b < nboxes t ->
    (covers (box_target_starts p b) (box_target_counts_nonchild p b) i = true <-> b = T)) ->
  In T (target_boxes tr) ->
  fmm_potentials t p tr comm w i =
  received t tr (source_slice_sum p w)
    (comm (coarsen_multipoles t (level_start_source_parent_box_nrs tr) (source_parent_boxes tr)
       (form_multipoles p (source_boxes tr) w))) T.
Proof.
  intros W R O HT. unfold fmm_potentials. cbv zeta. set (M := comm _).
  destruct R as [R1 R2 R3 R4 R5 R6 R7 R8].
  set (pot4 := match from_sep_close_bigger tr with Some _ => _ | None => _ end).
  set (loc := refine_locals _ _ _ _).
  unfold arr_add at 1. rewrite (eval_locals_at t p i T O) by auto.
  assert (EL : loc T = (zsum (map (fun A => zsum (map M (list2_of tr A))) (ancestors_or_self t T)) +
                       zsum (map (fun A => zsum (map (source_slice_sum p w) (list4_of tr A))) (ancestors_or_self t T)))%Z).
  { unfold loc. rewrite refine_locals_at by auto. rewrite <- zsum_map_add. apply zsum_map_ext.
    intros A _. unfold arr_add. rewrite m2l_at, form_locals_at. reflexivity. }
  rewrite EL. unfold received.
  assert (E1 : eval_direct p (target_boxes tr) (neighbor_source_boxes tr) w i =
     zsum (map (source_slice_sum p w) (list1_of tr T))) by (apply (eval_direct_at t p i T O); auto).
  assert (E3 : eval_multipoles p (from_sep_smaller_by_level tr) M i = zsum (map M (list3_of tr T)))
    by (apply (eval_multipoles_at t p i T O); auto).
  assert (E4 : pot4 i = (zsum (map (source_slice_sum p w) (list1_of tr T)) + zsum (map M (list3_of tr T)) +
     zsum (map (source_slice_sum p w) (list3_close_of tr T)) +
     zsum (map (source_slice_sum p w) (list4_close_of tr T)))%Z).
  { unfold pot4, list3_close_of, list4_close_of.
    destruct (from_sep_close_smaller tr) as [c3|], (from_sep_close_bigger tr) as [c4|]; unfold arr_add;
    rewrite ?E1, ?E3, ?(eval_direct_at t p i T O) by auto; simpl; lia. }
  rewrite E4. lia.
Qed.

(** regrouping by source box *)
Lemma received_coverage t tr (Wb M : nat -> Z) T :
  wf_tree t ->
  (forall x, In x (list1_of tr T) -> x < nboxes t) ->
  (forall x, In x (list3_close_of tr T) -> x < nboxes t) ->
  (forall x, In x (list4_close_of tr T) -> x < nboxes t) ->
  (forall A x, In A (ancestors_or_self t T) -> In x (list4_of tr A) -> x < nboxes t) ->
  (forall A x, In A (ancestors_or_self t T) -> In x (list2_of tr A) -> x < nboxes t /\ M x = subtree_sum t Wb x) ->
  (forall x, In x (list3_of tr T) -> x < nboxes t /\ M x = subtree_sum t Wb x) ->
  received t tr Wb M T =
  zsum (map (fun s => Z.of_nat (coverage t tr T s) * Wb s)%Z (seq 0 (nboxes t))).
Proof.
  intros W H1 H3c H4c H4 H2 H3. unfold received.
  assert (D : forall l, (forall x, In x l -> x < nboxes t) ->
    zsum (map Wb l) = zsum (map (fun s => Z.of_nat (count s l) * Wb s)%Z (seq 0 (nboxes t)))).
  { intros l Hl. apply zsum_map_by_count. auto. }
  assert (DM : forall l, (forall x, In x l -> x < nboxes t /\ M x = subtree_sum t Wb x) ->
    zsum (map M l) = zsum (map (fun s => Z.of_nat (nsum (map (fun B => count B l) (ancestors_or_self t s))) * Wb s)%Z
                           (seq 0 (nboxes t)))).
  { intros l Hl. rewrite (zsum_map_ext M (subtree_sum t Wb)) by (intros; apply Hl; auto).
    unfold subtree_sum. rewrite zsum_swap. apply zsum_map_ext. intros s Hs. apply in_seq in Hs.
    rewrite of_nat_nsum, map_map, Z.mul_comm, <- zsum_map_mul.
    (* Σ_{B∈l} count B chain * W = Σ_{B∈chain} W * count B l *)
    rewrite (zsum_map_by_count (fun B => Z.of_nat (count B (ancestors_or_self t s)) * Wb s)%Z l (nboxes t))
      by (intros; apply Hl; auto).
    rewrite (zsum_map_by_count (fun B => Wb s * Z.of_nat (count B l))%Z (ancestors_or_self t s) (nboxes t)).
    - apply zsum_map_ext. intros. lia.
    - intros x Hx. apply in_chain in Hx; try lia; auto. destruct Hx as [k [_ ->]]. apply anc_lt; auto; lia. }
  rewrite (D _ H1), (D _ H3c), (D _ H4c), (DM _ H3).
  rewrite (zsum_map_ext (fun A => zsum (map M (list2_of tr A))) _ _ (fun A HA => DM _ (fun x => H2 A x HA))).
  rewrite (zsum_map_ext (fun A => zsum (map Wb (list4_of tr A))) _ _ (fun A HA => D _ (fun x => H4 A x HA))).
  rewrite (zsum_swap (fun A s => _)). rewrite (zsum_swap (fun A s => Z.of_nat (count s (list4_of tr A)) * Wb s)%Z).
  rewrite <- !zsum_map_add. apply zsum_map_ext. intros s _. unfold coverage.
  rewrite !Nat2Z.inj_add, !Z.mul_add_distr_r.
  assert (X : forall (f : nat -> nat) l, zsum (map (fun A => Z.of_nat (f A) * Wb s)%Z l) = (Z.of_nat (nsum (map f l)) * Wb s)%Z).
  { intros f l. rewrite of_nat_nsum, map_map, Z.mul_comm, <- zsum_map_mul. apply zsum_map_ext. intros; lia. }
  rewrite !X. reflexivity.
Qed.

Lemma list4_list_range t n ex A p : wf_tree t -> 1 <= n -> A < nboxes t ->
  In p (list4_list t n ex A) -> snd p < nboxes t.
Proof.
  intros W Hn HA Hp. unfold list4_list in Hp.
  assert (G : forall tgt wl cur p, cur < nboxes t -> In p (list4_levels t n ex tgt wl cur) -> snd p < nboxes t).
  { intros tgt wl. induction wl as [|wl IH]; intros cur p0 Hc; simpl; [tauto|].
    rewrite in_app_iff, in_concat_map. intros [[x [H1 H2]]|H].
    - apply list4_entry_out in H2. rewrite H2. eapply slnws_in_range; eauto.
    - apply (IH (box_parent t cur)); auto. apply parent_lt; auto. }
  destruct (box_level t A =? 0); [simpl in Hp; tauto|].
  destruct (n =? 1).
  - apply (G A (box_level t A - 1) (box_parent t A)); auto. apply parent_lt; auto.
  - apply (G A (box_level t A) A); auto.
Qed.

Lemma in_pick tag l x : In x (pick tag l) -> exists p, In p l /\ snd p = x.
Proof.
  unfold pick. intros H. apply in_map_iff in H. destruct H as [p [<- Hp]]. apply filter_In in Hp.
  exists p. tauto.
Qed.

Section Built.
Variable t : tree.
Hypothesis W : wf_tree t.
Hypothesis F : wf_flags t.
Variable P : trav_params.
Hypothesis WP : wf_params t P.
Hypothesis LS : level_sorted t (level_start_box_nrs P).
Variable tr : traversal.
Hypothesis Htr : build_traversal t P = Some tr.
Let n := well_sep_is_n_away P.
Let Hn : 1 <= n := proj1 WP.
Let ex := extents P.

Lemma filter_delimited q : level_delimited t
  (extract_level_starts t (level_start_box_nrs P) (filter q (seq 0 (nboxes t)))) (filter q (seq 0 (nboxes t))).
Proof.
  intros l Hl. unfold slice. replace (l + 1) with (S l) by lia.
  apply level_slice; auto using filter_seq_sorted.
  - apply (wf_level_lt t W).
  - intros x Hx. apply filter_In in Hx. destruct Hx as [Hx _]. apply in_seq in Hx. lia.
Qed.

Lemma ttpb_parent b : In b (find_target_or_target_parent_boxes t) ->
  In (box_parent t b) (find_target_or_target_parent_boxes t).
Proof.
  intros H. apply filter_In in H. destruct H as [Hb Hf]. apply in_seq in Hb.
  destruct b. { rewrite (wf_root_parent t W). apply filter_In. split; auto. apply in_seq. lia. }
  apply filter_In. split; [apply in_seq; split; [lia|]; apply parent_lt; auto; lia|].
  rewrite flag_lor in *. apply orb_true_iff. left.
  assert (L : 0 < box_level t (S b)) by (apply level_pos; auto; lia).
  fold (has_target_child t (box_parent t (S b))).
  rewrite (parent_is_anc t W) by (auto; lia).
  eapply htc_anc; eauto; try lia.
  apply orb_true_iff in Hf. unfold is_target, has_target_child. tauto.
Qed.

Lemma built_ready : fmm_ready t tr.
Proof.
  assert (E := tr_eq t W P WP tr Htr). subst tr. split.
  - apply tb_NoDup.
  - apply tb_range; auto.
  - intros b Hb. eapply tb_ttpb in Hb; eauto. tauto.
  - apply ttpb_NoDup; auto.
  - apply (ttpb_range t P Hn).
  - intros b. apply ttpb_parent.
  - apply filter_delimited.
  - intros lc b Hlc Hb. cbn [from_sep_smaller_by_level the_traversal] in Hlc.
    apply in_map_iff in Hlc. destruct Hlc as [l [<- _]]. unfold eliminate_empty in Hb. cbn [fst] in Hb.
    apply in_map_iff in Hb. destruct Hb as [[x y] [<- Hx]]. apply filter_In in Hx. destruct Hx as [Hx _].
    apply in_combine_l in Hx. apply (tb_range t P) in Hx; auto.
Qed.

Lemma list3_of_level T x : In x (list3_of tr T) -> exists l, l < nlevels t /\ In x (list3_level_of tr l T).
Proof.
  unfold list3_of, list3_level_of. intros H. apply in_concat_map in H. destruct H as [p [Hp Hx]].
  destruct (In_nth _ _ ([], csr_of []) Hp) as [l [Hl El]]. exists l. split.
  - rewrite (tr_eq t W P WP tr Htr) in Hl. cbn [from_sep_smaller_by_level the_traversal] in Hl.
    rewrite map_length, seq_length in Hl. auto.
  - rewrite El. auto.
Qed.

Lemma close3_range T x : In T (target_boxes tr) -> In x (list3_close_of tr T) -> x < nboxes t.
Proof.
  intros HT Hx. pose proof (tr_tb_range t W P WP tr Htr T HT) as HTl. rewrite (tr_tb t W P WP tr Htr) in HT.
  rewrite (tr_eq t W P WP tr Htr) in Hx. apply count_In in Hx. rewrite list3_close_of_count in Hx by auto.
  destruct (targets_have_extent _); [|lia]. apply count_In in Hx. apply in_pick in Hx.
  destruct Hx as [p [Hp <-]]. eapply list3_in_range; eauto.
Qed.
Lemma close4_range T x : In T (target_boxes tr) -> In x (list4_close_of tr T) -> x < nboxes t.
Proof.
  intros HT Hx. pose proof (tr_tb_range t W P WP tr Htr T HT) as HTl. rewrite (tr_tb t W P WP tr Htr) in HT.
  rewrite (tr_eq t W P WP tr Htr) in Hx. apply count_In in Hx. rewrite list4_close_of_count in Hx by auto.
  destruct (targets_have_extent _); [|lia]. apply count_In in Hx. apply in_pick in Hx.
  destruct Hx as [p [Hp <-]]. eapply list4_list_range; eauto.
Qed.

Lemma chain_ttpb T A : In T (target_boxes tr) -> In A (ancestors_or_self t T) ->
  In A (target_or_target_parent_boxes tr).
Proof.
  intros HT HA. pose proof (tr_tb_range t W P WP tr Htr T HT) as HTl.
  apply in_chain in HA; auto. destruct HA as [k [Hk ->]].
  rewrite (tr_ttpb t W P WP tr Htr). rewrite (tr_tb t W P WP tr Htr) in HT. eapply anc_ttpb; eauto.
Qed.

(** every target of a target box receives each source box [coverage] times, if the
    multipoles used (levels >= 2) are complete *)
Lemma received_built Wb M T : In T (target_boxes tr) ->
  (forall x, x < nboxes t -> 2 <= box_level t x -> M x = subtree_sum t Wb x) ->
  received t tr Wb M T =
  zsum (map (fun s => Z.of_nat (coverage t tr T s) * Wb s)%Z (seq 0 (nboxes t))).
Proof.
  intros HT HM. apply received_coverage; auto.
  - intros x Hx. eapply list1_spec in Hx; eauto. tauto.
  - intros x. apply close3_range; auto.
  - intros x. apply close4_range; auto.
  - intros A x HA Hx. eapply list4_of_in_range; eauto using chain_ttpb.
  - intros A x HA Hx. pose proof (chain_ttpb T A HT HA) as HA2.
    assert (Hr : x < nboxes t) by (eapply list2_spec in Hx; eauto; tauto).
    split; auto. apply HM; auto. eapply list2_level; eauto.
  - intros x Hx. apply list3_of_level in Hx. destruct Hx as [l [Hl Hx]].
    assert (Hr : x < nboxes t) by (eapply list3_level_range; eauto).
    split; auto. apply HM; auto. eapply list3_level2; eauto.
Qed.

Hypothesis WE : targets_have_extent ex = true -> wf_extent ex.

Lemma received_total Wb M T : In T (target_boxes tr) ->
  (forall x, x < nboxes t -> 2 <= box_level t x -> M x = subtree_sum t Wb x) ->
  (forall s, s < nboxes t -> is_source t s = false -> Wb s = 0%Z) ->
  received t tr Wb M T = zsum (map Wb (seq 0 (nboxes t))).
Proof.
  intros HT HM HW. rewrite received_built by auto. apply zsum_map_ext. intros s Hs. apply in_seq in Hs.
  destruct (is_source t s) eqn:E.
  - rewrite (tr_eq t W P WP tr Htr). rewrite coverage_one; auto; try lia. rewrite (tr_tb t W P WP tr Htr) in HT. auto.
  - rewrite HW by (auto; lia). lia.
Qed.

(** ** Shared memory: no masks *)
Hypothesis M1 : forall b, source_boxes_mask P b = true.
Hypothesis M2 : forall b, source_parent_boxes_mask P b = true.

Lemma multipoles_complete p w : 
  (forall s, s < nboxes t -> is_source t s = false -> source_slice_sum p w s = 0%Z) ->
  forall x, x < nboxes t -> 2 <= box_level t x ->
  coarsen_multipoles t (level_start_source_parent_box_nrs tr) (source_parent_boxes tr)
       (form_multipoles p (source_boxes tr) w) x = subtree_sum t (source_slice_sum p w) x.
Proof.
  intros HW x Hx L. rewrite (tr_eq t W P WP tr Htr).
  cbn [level_start_source_parent_box_nrs source_parent_boxes source_boxes the_traversal].
  rewrite (coarsen_multipoles_at t W _ _ (source_slice_sum p w)); auto.
  - destruct (Nat.leb_spec 2 (box_level t x)); auto. lia.
  - apply NoDup_filter, seq_NoDup.
  - intros y Hy. apply filter_In in Hy. destruct Hy as [Hy _]. apply in_seq in Hy. lia.
  - apply filter_delimited.
  - intros y Hy. rewrite form_multipoles_at by apply NoDup_filter, seq_NoDup.
    destruct (in_dec _ _ _) as [i|i]; auto. symmetry. apply HW; auto.
    destruct (is_source t y) eqn:E; auto. exfalso. apply i. apply filter_In. rewrite E, M1. split; auto.
    apply in_seq. lia.
  - intros y m Hy Ly Hni Hm Hc. apply zsum_map_0. intros s Hs. apply in_seq in Hs.
    destruct (is_source t s) eqn:E; [|rewrite HW by (auto; lia); lia].
    destruct (in_dec Nat.eq_dec (box_child t m y) (ancestors_or_self t s)) as [i|i].
    2:{ apply count_notIn in i. rewrite i. lia. }
    exfalso. apply Hni. apply filter_In. rewrite M2, andb_true_r.
    split; [apply in_seq; lia|].
    apply in_chain in i; auto; [|lia]. destruct i as [k [Hk Ek]].
    destruct (child_facts t W m y Hy Hm Hc) as [Pc [Lc _]].
    assert (Kk : k = S (box_level t y)). { rewrite Ek in Lc. rewrite anc_level in Lc by (auto; lia). auto. }
    rewrite <- Pc, Ek, Kk. rewrite parent_anc by lia. eapply (hsc_anc t W n); eauto; lia.
Qed.
End Built.

Lemma slice_total t p w : owned_once t (box_source_starts p) (box_source_counts_nonchild p) (nsources p) ->
  zsum (map (source_slice_sum p w) (seq 0 (nboxes t))) = zsum (map w (seq 0 (nsources p))).
Proof.
  intros O. unfold owned_once in O. rewrite <- (zsum_perm _ _ (Permutation_map w O)).
  rewrite zsum_map_concat, map_map. reflexivity.
Qed.

Lemma received_merge t tr tr' Wb M T : merge_close_lists tr = Some tr' ->
  received t tr' Wb M T = received t tr Wb M T.
Proof.
  unfold merge_close_lists. destruct (from_sep_close_smaller tr) as [cs|] eqn:E1; [|discriminate].
  destruct (from_sep_close_bigger tr) as [cb|] eqn:E2; [|discriminate].
  intros H. injection H as <-. unfold received, list1_of, list3_close_of, list4_close_of,
    list2_of, list3_of, list4_of. simpl. rewrite E1, E2.
  rewrite !entries_sum. 
  rewrite (zsum_map_ext (fun i => if Nat.eqb (nth i (target_boxes tr) 0%nat) T then zsum (map Wb
     (csr_get (merge_lists (seq 0 (length (target_boxes tr))) [neighbor_source_boxes tr; cs; cb]) i)) else 0%Z)
    (fun i => (if Nat.eqb (nth i (target_boxes tr) 0%nat) T then zsum (map Wb (csr_get (neighbor_source_boxes tr) i)) else 0) +
       ((if Nat.eqb (nth i (target_boxes tr) 0%nat) T then zsum (map Wb (csr_get cs i)) else 0) +
        (if Nat.eqb (nth i (target_boxes tr) 0%nat) T then zsum (map Wb (csr_get cb i)) else 0)))%Z).
  - rewrite !zsum_map_add. lia.
  - intros i Hi. apply in_seq in Hi. destruct (Nat.eqb _ T); [|lia].
    rewrite merge_row by lia. simpl. rewrite app_nil_r, !map_app, !zsum_app. lia.
Qed.

Lemma merge_ready t tr tr' : merge_close_lists tr = Some tr' -> fmm_ready t tr -> fmm_ready t tr'.
Proof.
  unfold merge_close_lists. destruct (from_sep_close_smaller tr) as [cs|]; [|discriminate].
  destruct (from_sep_close_bigger tr) as [cb|]; [|discriminate].
  intros H [R1 R2 R3 R4 R5 R6 R7 R8]. injection H as <-. split; auto.
Qed.

(** the traversal used: as built, or with merged close lists *)
Definition built_or_merged (t : tree) (P : trav_params) (tr : traversal) : Prop :=
  exists tr0, build_traversal t P = Some tr0 /\ (tr = tr0 \/ merge_close_lists tr0 = Some tr).

Theorem fmm_total t P p tr w j :
  wf_tree t -> wf_flags t -> wf_params t P -> level_sorted t (level_start_box_nrs P) ->
  (targets_have_extent (extents P) = true -> wf_extent (extents P)) ->
  (forall b, source_boxes_mask P b = true) -> (forall b, source_parent_boxes_mask P b = true) ->
  wf_particles t p -> built_or_merged t P tr -> j < ntargets p ->
  drive_fmm t p tr w j = total_weight p w.
Proof.
  intros W F WP LS WE M1 M2 HP [tr0 [B Htr]] Hj.
  unfold drive_fmm, reorder_potentials. destruct HP as [U1 U2 U3 U4 U5 U6].
  set (i := sorted_target_ids p j). assert (Hi : i < ntargets p) by (apply U2; auto).
  destruct (owner_exists t _ _ _ i U4 Hi) as [T [HT [HTc HO]]].
  pose proof (built_ready t W F P WP LS tr0 B) as R0.
  assert (HTb : In T (target_boxes tr0)).
  { rewrite (tr_tb t W P WP tr0 B). unfold find_target_boxes, find_source_boxes.
    destruct (sources_are_targets P) eqn:SAT; apply filter_In; split; try (apply in_seq; lia).
    - rewrite <- (proj2 WP) by auto. apply U6; auto.
    - apply U6; auto. }
  set (w' := reorder_sources p w).
  assert (HW0 : forall s, s < nboxes t -> is_source t s = false -> source_slice_sum p w' s = 0%Z).
  { intros s Hs E. unfold source_slice_sum, slice_sum.
    destruct (box_source_counts_nonchild p s) eqn:C; auto. rewrite U5 in E by (auto; lia). discriminate. }
  assert (TOT : zsum (map (source_slice_sum p w') (seq 0 (nboxes t))) = total_weight p w).
  { rewrite slice_total by auto. unfold total_weight, w', reorder_sources.
    rewrite <- (zsum_perm _ _ (Permutation_map w U1)), map_map. reflexivity. }
  destruct Htr as [->|Mg].
  - rewrite (fmm_at t p tr0 _ _ i T W R0 HO HTb). rewrite <- TOT.
    eapply received_total; eauto. intros. eapply multipoles_complete; eauto.
  - pose proof (merge_ready t _ _ Mg R0) as R.
    assert (Etb : target_boxes tr = target_boxes tr0 /\ level_start_source_parent_box_nrs tr = level_start_source_parent_box_nrs tr0
      /\ source_parent_boxes tr = source_parent_boxes tr0 /\ source_boxes tr = source_boxes tr0).
    { unfold merge_close_lists in Mg. destruct (from_sep_close_smaller tr0); [|discriminate].
      destruct (from_sep_close_bigger tr0); [|discriminate]. injection Mg as <-. auto. }
    destruct Etb as [E1 [E2 [E3 E4]]].
    rewrite (fmm_at t p tr _ _ i T W R HO) by (rewrite E1; auto). rewrite E2, E3, E4. rewrite <- TOT.
    rewrite (received_merge t tr0 tr _ _ T Mg).
    eapply received_total; eauto. intros. eapply multipoles_complete; eauto.
Qed.
