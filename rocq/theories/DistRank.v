(** One rank of a distributed evaluation. *)
From Coq Require Import List Arith ZArith NArith Lia Bool Permutation.
From Verif Require Import Base Tree Spec TreeFacts Traversal SpecTraversal TraversalLists Coverage CoverageThm ListFacts
  LevelStarts MergeFacts Fmm SpecFmm FmmFacts FmmThm Tools ToolsFacts Partition PartitionFacts LocalTree SpecDist LocalFacts
  Distributed DistGeom PropsPartition.
From Verif Require TreeBuild ArrayFacts.
Import ListNotations.

Section Rank.
Variable t : tree.
Hypothesis W : wf_tree t.
Hypothesis F : wf_flags t.
Variable p : particles.
Hypothesis HP : wf_particles t p.
Variables source_cumul target_cumul : nat -> nat.
Hypothesis N : nested_ranges t (box_target_starts p) (box_target_counts_nonchild p) target_cumul.
Variable P : trav_params.
Hypothesis WP : wf_params t P.
Hypothesis LS : level_sorted t (level_start_box_nrs P).
Hypothesis WE : targets_have_extent (extents P) = true -> wf_extent (extents P).
Hypothesis MIN : targets_have_extent (extents P) = true -> from_sep_smaller_min_nsources_cumul (extents P) = 0.
Hypothesis M1 : forall b, source_boxes_mask P b = true.
Hypothesis SAT : sources_are_targets P = true -> forall b, b < nboxes t -> is_target t b = true -> 0 < box_target_counts_nonchild p b.
Variable tr : traversal.
Hypothesis Htr : build_traversal t P = Some tr.
Variable boxes : list nat.
Hypothesis BR : forall b, In b boxes -> b < nboxes t.
Variable merge : bool.
Variable l : local_tree.
Hypothesis Hl : generate_local_tree t p source_cumul target_cumul (targets_have_extent (extents P)) tr boxes = Some l.

Let sl := local_particle_lists (nboxes t) (nsources p) (bm_point_src (lt_masks l))
               (box_source_starts p) (box_source_counts_nonchild p) source_cumul.
Let gl := local_particle_lists (nboxes t) (ntargets p) (bm_responsible (lt_masks l))
               (box_target_starts p) (box_target_counts_nonchild p) target_cumul.
Let flags := modify_target_flags (ll_counts gl) (ll_cumul gl) (box_flags t).
Let t' := with_flags t flags.
Let p' := lt_particles l.
Let P' := local_params P l.

Lemma rank_parts :
  get_box_masks t tr (targets_have_extent (extents P)) boxes = Some (lt_masks l) /\
  lt_tree l = t' /\
  lt_particles l = {| nsources := length (ll_idx sl); ntargets := length (ll_idx gl);
                      box_source_starts := ll_starts sl; box_source_counts_nonchild := ll_counts sl;
                      box_target_starts := ll_starts gl; box_target_counts_nonchild := ll_counts gl;
                      user_source_ids := fun i => i; sorted_target_ids := fun i => i |} /\
  lt_source_cumul l = ll_cumul sl /\ lt_src_idx l = ll_idx sl /\ lt_tgt_idx l = ll_idx gl.
Proof.
  unfold t', flags, gl, sl. clear - Hl. unfold generate_local_tree in Hl. destruct (get_box_masks _ _ _ _) as [bm|]; [|discriminate].
  injection Hl as <-. cbn [lt_masks lt_tree lt_particles lt_source_cumul lt_src_idx lt_tgt_idx]. repeat split.
Qed.

Lemma masks_facts :
    (forall b, bm_responsible (lt_masks l) b = true <-> In b boxes) /\
    (forall b, bm_ancestor (lt_masks l) b = true <-> exists x, In x boxes /\ In b (ancestors_or_self t x) /\ b <> x) /\
    (forall T s, In T boxes -> In s (list1_of tr T) -> bm_point_src (lt_masks l) s = true) /\
    (forall T A s, In T boxes -> In A (ancestors_or_self t T) -> In s (list4_of tr A) -> bm_point_src (lt_masks l) s = true) /\
    (targets_have_extent (extents P) = true -> forall T s, In T boxes ->
       In s (list3_close_of tr T) \/ In s (list4_close_of tr T) -> bm_point_src (lt_masks l) s = true) /\
    (forall b, In b boxes -> bm_point_src (lt_masks l) b = true) /\
    (forall s, bm_multipole_src (lt_masks l) s = true <->
       (exists T A, In T boxes /\ In A (ancestors_or_self t T) /\ In s (list2_of tr A)) \/
       (exists T, In T boxes /\ In s (list3_of tr T))).
Proof.
  destruct rank_parts as [E _]. destruct (C38_masks t tr (targets_have_extent (extents P)) boxes W BR) as [m [E2 H]].
  rewrite E in E2. injection E2 as E2. rewrite E2. exact H.
Qed.

Lemma src1 b : is_source t' b = is_source t b.
Proof. apply modify_source. auto. Qed.
Lemma src2 b : has_source_child t' b = has_source_child t b.
Proof. apply modify_source. auto. Qed.
Lemma tgt1 b : is_target t' b = bm_responsible (lt_masks l) b && (0 <? box_target_counts_nonchild p b).
Proof.
  unfold is_target, t', with_flags, flags. cbn [box_flags]. rewrite modify_is_target. unfold gl. cbn [local_particle_lists ll_counts].
  destruct (bm_responsible _ _); auto. destruct (box_target_counts_nonchild p b); auto.
Qed.
Lemma tgt2 b : has_target_child t' b = (ll_counts gl b <? ll_cumul gl b).
Proof. apply modify_has_child. Qed.

Lemma local_wf : wf_tree t'.
Proof. apply same_wf. auto. Qed.
Lemma local_flags : wf_flags t'.
Proof.
  split; intros m b Hb Hm C H.
  - rewrite src2. rewrite src1, src2 in H. apply (wf_has_source_child t F m b); auto.
  - change (box_child t' m b) with (box_child t m b) in *. change (nboxes t') with (nboxes t) in *. change (nchildren t') with (nchildren t) in Hm.
    rewrite tgt2. apply Nat.ltb_lt. apply (child_cumul t (ntargets p) _ _ _ _ (wf_targets_owned t p HP) N m b Hb Hm C). fold gl.
    assert (HC : box_child t m b < nboxes t) by (apply wf_child_lt; auto).
    assert (CC := counts_cumul t (ntargets p) (bm_responsible (lt_masks l)) _ _ _ (wf_targets_owned t p HP) N _ HC). fold gl in CC.
    destruct H as [H|H].
    + rewrite tgt1 in H. apply andb_true_iff in H. destruct H as [H1 H2]. apply Nat.ltb_lt in H2.
      assert (E : ll_counts gl (box_child t m b) = box_target_counts_nonchild p (box_child t m b)).
      { unfold gl. cbn [local_particle_lists ll_counts]. rewrite H1. auto. }
      lia.
    + rewrite tgt2 in H. apply Nat.ltb_lt in H. lia.
Qed.
Lemma local_params_wf : wf_params t' P'.
Proof.
  split; [apply WP|]. intros E b Hb. change (sources_are_targets P') with (sources_are_targets P) in E.
  change (nboxes t') with (nboxes t) in Hb. change (source_boxes_mask P' b) with (bm_responsible (lt_masks l) b).
  rewrite tgt1, src1, andb_comm. f_equal. assert (X := proj2 WP E b Hb). rewrite M1, andb_true_r in X. rewrite <- X.
  destruct (is_target t b) eqn:IT.
  - apply Nat.ltb_lt. apply SAT; auto.
  - apply Nat.ltb_ge. destruct (box_target_counts_nonchild p b) eqn:C; [lia|].
    rewrite (wf_target_flag t p HP b Hb) in IT by lia. discriminate.
Qed.
Lemma local_sorted : level_sorted t' (level_start_box_nrs P').
Proof. exact LS. Qed.
Lemma local_ex : extents P' = with_counts (extents P) (lt_source_cumul l).
Proof. reflexivity. Qed.

(** *** Weights *)
Variable w : array.
Let Wb := source_slice_sum p w.
Lemma local_slice s : s < nboxes t ->
  source_slice_sum p' (local_weights (lt_src_idx l) w) s = if bm_point_src (lt_masks l) s then Wb s else 0%Z.
Proof.
  intros Hs. destruct rank_parts as [_ [_ [EP [_ [ES _]]]]]. unfold p', Wb, source_slice_sum, slice_sum. rewrite EP, ES.
  cbn [box_source_starts box_source_counts_nonchild].
  destruct (bm_point_src (lt_masks l) s) eqn:E.
  - rewrite <- (local_range t (nsources p) (bm_point_src (lt_masks l)) _ _ source_cumul (wf_sources_owned t p HP) s Hs E).
    rewrite map_map. reflexivity.
  - unfold sl. rewrite (local_none t (nsources p) (bm_point_src (lt_masks l))) by auto. reflexivity.
Qed.

(** *** Traversal *)
Variable trl : traversal.
Hypothesis Htrl : generate_local_travs P l merge = Some trl.

Lemma trl_built : exists tr0, build_traversal t' P' = Some tr0 /\ (trl = tr0 \/ merge_close_lists tr0 = Some trl).
Proof.
  unfold generate_local_travs in Htrl. destruct rank_parts as [_ [E _]]. rewrite E in Htrl. fold P' in Htrl.
  destruct (build_traversal t' P') as [tr0|]; [|discriminate]. exists tr0. split; auto.
  destruct (merge && _); [auto|]. injection Htrl as <-. auto.
Qed.
Lemma trl_upward tr0 : trl = tr0 \/ merge_close_lists tr0 = Some trl ->
  source_boxes trl = source_boxes tr0 /\ source_parent_boxes trl = source_parent_boxes tr0 /\
  level_start_source_parent_box_nrs trl = level_start_source_parent_box_nrs tr0 /\ target_boxes trl = target_boxes tr0.
Proof.
  intros [->|M]; auto. unfold merge_close_lists in M. destruct (from_sep_close_smaller tr0); [|discriminate].
  destruct (from_sep_close_bigger tr0); [|discriminate]. injection M as <-. auto.
Qed.

(** what this rank's boxes contribute *)
Definition own (s : nat) : Z := if bm_responsible (lt_masks l) s then Wb s else 0%Z.
Lemma Wb_source s : s < nboxes t -> is_source t s = false -> Wb s = 0%Z.
Proof.
  intros Hs E. unfold Wb, source_slice_sum, slice_sum. destruct (box_source_counts_nonchild p s) eqn:C; auto.
  rewrite (wf_source_flag t p HP s Hs) in E by lia. discriminate.
Qed.
Lemma same_subtree v x : subtree_sum t' v x = subtree_sum t v x.
Proof. unfold subtree_sum. apply zsum_map_ext. intros s _. unfold t'. rewrite same_chain. reflexivity. Qed.
Lemma own_chain s x : s < nboxes t -> In x (ancestors_or_self t s) -> own s <> 0%Z ->
  x = s /\ In s boxes \/ bm_ancestor (lt_masks l) x = true.
Proof.
  intros Hs HX H. unfold own in H. destruct (bm_responsible (lt_masks l) s) eqn:R; [|tauto].
  destruct masks_facts as [MR [MA _]]. apply MR in R. destruct (Nat.eq_dec x s) as [->|]; auto. right. apply MA. exists s. auto.
Qed.
Lemma rank_upward x : x < nboxes t ->
  rank_multipoles l trl w x = if 2 <=? box_level t x then subtree_sum t own x else own x.
Proof.
  intros Hx. unfold rank_multipoles. destruct trl_built as [tr0 [B0 M0]]. destruct (trl_upward tr0 M0) as [E1 [E2 [E3 _]]].
  rewrite E1, E2, E3. destruct rank_parts as [_ [ET _]]. rewrite ET. fold p'.
  rewrite (tr_eq t' local_wf P' local_params_wf tr0 B0).
  cbn [level_start_source_parent_box_nrs source_parent_boxes source_boxes the_traversal].
  rewrite (coarsen_multipoles_at t' local_wf _ _ own); auto.
  - rewrite same_subtree. reflexivity.
  - apply NoDup_filter, seq_NoDup.
  - intros y Hy. apply filter_In in Hy. destruct Hy as [Hy _]. apply in_seq in Hy. lia.
  - apply (filter_delimited t' local_wf P' local_params_wf local_sorted).
  - intros y Hy. rewrite form_multipoles_at by apply NoDup_filter, seq_NoDup. rewrite local_slice by auto. unfold own.
    destruct masks_facts as [MR [_ [_ [_ [_ [MS _]]]]]].
    destruct (in_dec _ _ _) as [i|i].
    + unfold find_source_boxes in i. apply filter_In in i. destruct i as [_ i]. apply andb_true_iff in i. destruct i as [_ i].
      change (source_boxes_mask P' y) with (bm_responsible (lt_masks l) y) in i. rewrite i. rewrite MS; auto. apply MR; auto.
    + destruct (bm_responsible (lt_masks l) y) eqn:R; auto. symmetry. apply Wb_source; auto.
      destruct (is_source t y) eqn:E; auto. exfalso. apply i. apply filter_In. rewrite src1, E.
      change (source_boxes_mask P' y) with (bm_responsible (lt_masks l) y). rewrite R. split; auto. apply in_seq. change (nboxes t') with (nboxes t) in *. lia.
  - intros y m Hy Ly Hni Hm Hc. change (nboxes t') with (nboxes t) in *. change (nchildren t') with (nchildren t) in *.
    change (box_child t' m y) with (box_child t m y) in *. rewrite same_subtree. apply zsum_map_0. intros s Hs. apply in_seq in Hs.
    destruct (Z.eq_dec (own s) 0) as [E|E]; [rewrite E; lia|].
    destruct (in_dec Nat.eq_dec (box_child t m y) (ancestors_or_self t s)) as [i|i].
    2:{ apply count_notIn in i. rewrite i. lia. }
    exfalso. apply Hni. apply filter_In. split; [apply in_seq; change (nboxes t') with (nboxes t); lia|].
    apply in_chain in i; auto; [|lia]. destruct i as [k [Hk Ek]].
    destruct (child_facts t W m y Hy Hm Hc) as [Pc [Lc _]].
    assert (Kk : k = S (box_level t y)). { rewrite Ek in Lc. rewrite anc_level in Lc by (auto; lia). auto. }
    assert (Ey : y = anc t (box_level t y) s). { rewrite <- Pc at 1. rewrite Ek, Kk. apply parent_anc; auto; lia. }
    assert (IS : is_source t s = true).
    { destruct (is_source t s) eqn:IS; auto. exfalso. apply E. unfold own. rewrite Wb_source by (auto; lia). destruct (bm_responsible _ _); auto. }
    change (source_parent_boxes_mask P' y) with (bm_ancestor (lt_masks l) y). rewrite src2. apply andb_true_iff. split.
    + rewrite Ey. eapply (hsc_anc t W (well_sep_is_n_away P)); eauto; try lia. apply WP.
    + destruct (own_chain s y ltac:(lia)) as [[-> _]|A]; auto; [|lia].
      apply in_chain; auto; [lia|]. exists (box_level t y). split; [lia|auto].
Qed.
(** nothing outside the boxes this rank contributes to *)
Lemma rank_outside x : x < nboxes t -> contributing_boxes l x = false -> rank_multipoles l trl w x = 0%Z.
Proof.
  intros Hx C. unfold contributing_boxes in C. apply orb_false_iff in C. destruct C as [C1 C2]. rewrite rank_upward by auto.
  destruct masks_facts as [MR _]. unfold own at 2. rewrite C2. destruct (2 <=? _); auto.
  unfold subtree_sum. apply zsum_map_0. intros s Hs. apply in_seq in Hs.
  destruct (Z.eq_dec (own s) 0) as [E|E]; [rewrite E; lia|].
  destruct (in_dec Nat.eq_dec x (ancestors_or_self t s)) as [i|i]; [|apply count_notIn in i; rewrite i; lia].
  destruct (own_chain s x ltac:(lia) i E) as [[-> B]|A]; [|congruence]. apply MR in B. congruence.
Qed.

(** *** Evaluation *)
Variable M : array.
Hypothesis HM : forall x, x < nboxes t -> 2 <= box_level t x -> bm_multipole_src (lt_masks l) x = true -> M x = subtree_sum t Wb x.

Lemma tb_local T tr0 : build_traversal t' P' = Some tr0 ->
  (In T (target_boxes tr0) <-> In T boxes /\ T < nboxes t /\ 0 < box_target_counts_nonchild p T).
Proof.
  intros B0. rewrite (tr_tb t' local_wf P' local_params_wf tr0 B0). destruct masks_facts as [MR _].
  assert (IT : T < nboxes t -> (is_target t' T = true <-> In T boxes /\ 0 < box_target_counts_nonchild p T)).
  { intros HT. rewrite tgt1, andb_true_iff, MR, Nat.ltb_lt. tauto. }
  split.
  - intros H. assert (HT := tb_range t' P' (proj1 local_params_wf) T H). change (nboxes t') with (nboxes t) in HT.
    destruct (tb_ttpb t' P' (proj1 local_params_wf) T local_params_wf H) as [_ X]. apply IT in X; tauto.
  - intros [B [HT C]]. assert (X := proj2 (IT HT) (conj B C)).
    unfold find_target_boxes, find_source_boxes. destruct (sources_are_targets P') eqn:E; apply filter_In; (split; [apply in_seq; change (nboxes t') with (nboxes t); lia|]); auto.
    rewrite <- (proj2 local_params_wf E); auto.
Qed.
Lemma rank_potential k : k < length (lt_tgt_idx l) ->
  rank_potentials l trl M w k = zsum (map Wb (seq 0 (nboxes t))).
Proof.
  intros Hk. destruct rank_parts as [_ [ET [EP [_ [_ EG]]]]]. rewrite EG in Hk.
  destruct trl_built as [tr0 [B0 M0]]. destruct (trl_upward tr0 M0) as [_ [_ [_ E4]]].
  pose proof (built_ready t' local_wf local_flags P' local_params_wf local_sorted tr0 B0) as R0.
  (* the box of target k *)
  assert (KI : In (nth k (ll_idx gl) 0) (ll_idx gl)) by (apply nth_In; auto).
  apply (idx_spec t (ntargets p) (bm_responsible (lt_masks l)) _ _ _ (wf_targets_owned t p HP)) in KI. fold gl in KI.
  destruct KI as [T [HT [RT CT]]].
  destruct masks_facts as [MR [MA [MS1 [MS4 [MSC [MSR MM]]]]]]. assert (BT := proj1 (MR T) RT).
  assert (CTP : 0 < box_target_counts_nonchild p T) by (apply in_seq in CT; lia).
  assert (HTb : In T (target_boxes tr0)) by (apply tb_local; auto).
  assert (OWN : forall b, b < nboxes t' -> (covers (box_target_starts p' b) (box_target_counts_nonchild p' b) k = true <-> b = T)).
  { intros b Hb. change (nboxes t') with (nboxes t) in Hb. unfold p'. rewrite EP. cbn [box_target_starts box_target_counts_nonchild]. unfold gl.
    rewrite (local_covers t (ntargets p) (bm_responsible (lt_masks l)) _ _ target_cumul (wf_targets_owned t p HP) k b Hk Hb).
    fold gl. rewrite covers_in. split; [|intros ->; auto]. intros H.
    apply (own_unique t (ntargets p) _ _ (wf_targets_owned t p HP) b T _ Hb HT H CT). }
  (* T is a target box of the global tree as well *)
  assert (HTg : In T (target_boxes tr)).
  { rewrite (tr_tb t W P WP tr Htr). assert (IT := wf_target_flag t p HP T HT CTP).
    unfold find_target_boxes, find_source_boxes. destruct (sources_are_targets P) eqn:E; apply filter_In; (split; [apply in_seq; lia|]); auto.
    rewrite <- (proj2 WP E); auto. }
  unfold rank_potentials. rewrite ET. fold p'.
  assert (FM : fmm_potentials t' p' trl (fun _ => M) (local_weights (lt_src_idx l) w) k =
    received t' tr0 (source_slice_sum p' (local_weights (lt_src_idx l) w)) M T).
  { destruct M0 as [->|M0].
    - apply (fmm_at t' p' tr0 (fun _ => M) (local_weights (lt_src_idx l) w) k T local_wf R0 OWN HTb).
    - pose proof (merge_ready t' _ _ M0 R0) as R.
      rewrite (fmm_at t' p' trl (fun _ => M) (local_weights (lt_src_idx l) w) k T local_wf R OWN) by (rewrite E4; auto).
      apply received_merge. auto. }
  rewrite FM. set (M2 := fun x => if bm_multipole_src (lt_masks l) x then M x else subtree_sum t Wb x).
  assert (G1 := entries_of_box t W flags src1 src2 P P' WP local_params_wf _ local_ex eq_refl MIN tr tr0 Htr B0 T HTb HTg).
  destruct G1 as [G1 [G3 [G3c G4c]]].
  assert (GA : forall A, In A (ancestors_or_self t T) -> incl (list2_of tr0 A) (list2_of tr A) /\ incl (list4_of tr0 A) (list4_of tr A)).
  { intros A HA. apply (entries_of_parent t W flags src1 P P' WP local_params_wf _ local_ex eq_refl tr tr0 Htr B0 A).
    - apply (chain_ttpb t' local_wf local_flags P' local_params_wf tr0 B0 T A HTb). unfold t'. rewrite same_chain. auto.
    - apply (chain_ttpb t W F P WP tr Htr T A HTg HA). }
  assert (EQ : received t' tr0 (source_slice_sum p' (local_weights (lt_src_idx l) w)) M T = received t' tr0 Wb M2 T).
  { assert (LW : forall s, s < nboxes t -> bm_point_src (lt_masks l) s = true -> source_slice_sum p' (local_weights (lt_src_idx l) w) s = Wb s).
    { intros s Hs E. rewrite local_slice by auto. rewrite E. auto. }
    assert (RG := chain_ttpb t W F P WP tr Htr T).
    unfold received. unfold t'. rewrite same_chain. fold t'.
    rewrite (zsum_map_ext (source_slice_sum p' (local_weights (lt_src_idx l) w)) Wb (list1_of tr0 T)).
    2:{ intros s Hs. apply G1 in Hs. apply LW; eauto. eapply list1_spec in Hs; eauto. tauto. }
    rewrite (zsum_map_ext (source_slice_sum p' (local_weights (lt_src_idx l) w)) Wb (list3_close_of tr0 T)).
    2:{ intros s Hs. apply G3c in Hs. assert (X := close3_range t W P WP tr Htr T s HTg Hs). apply LW; auto.
        destruct (targets_have_extent (extents P)) eqn:HE; [eapply MSC; eauto|].
        rewrite (tr_eq t W P WP tr Htr) in Hs. unfold list3_close_of in Hs. cbn [from_sep_close_smaller the_traversal] in Hs. rewrite HE in Hs. destruct Hs. }
    rewrite (zsum_map_ext (source_slice_sum p' (local_weights (lt_src_idx l) w)) Wb (list4_close_of tr0 T)).
    2:{ intros s Hs. apply G4c in Hs. assert (X := close4_range t W P WP tr Htr T s HTg Hs). apply LW; auto.
        destruct (targets_have_extent (extents P)) eqn:HE; [eapply MSC; eauto|].
        rewrite (tr_eq t W P WP tr Htr) in Hs. unfold list4_close_of in Hs. cbn [from_sep_close_bigger the_traversal] in Hs. rewrite HE in Hs. destruct Hs. }
    rewrite (zsum_map_ext (fun A => zsum (map M (list2_of tr0 A))) (fun A => zsum (map M2 (list2_of tr0 A)))).
    2:{ intros A HA. apply zsum_map_ext. intros s Hs. unfold M2. destruct (GA A HA) as [I2 _]. apply I2 in Hs.
        rewrite (proj2 (MM s)); auto. left. exists T, A. auto. }
    rewrite (zsum_map_ext M M2 (list3_of tr0 T)).
    2:{ intros s Hs. unfold M2. apply G3 in Hs. rewrite (proj2 (MM s)); auto. right. exists T. auto. }
    rewrite (zsum_map_ext (fun A => zsum (map (source_slice_sum p' (local_weights (lt_src_idx l) w)) (list4_of tr0 A))) (fun A => zsum (map Wb (list4_of tr0 A)))).
    2:{ intros A HA. apply zsum_map_ext. intros s Hs. destruct (GA A HA) as [_ I4]. apply I4 in Hs. apply LW; eauto.
        eapply list4_of_in_range; eauto. }
    reflexivity. }
  rewrite EQ. apply (received_total t' local_wf local_flags P' local_params_wf tr0 B0 WE Wb M2 T HTb).
  - intros x Hx L2. change (nboxes t') with (nboxes t) in Hx. change (box_level t' x) with (box_level t x) in L2.
    rewrite same_subtree. unfold M2. destruct (bm_multipole_src (lt_masks l) x) eqn:E; auto.
  - intros s Hs E. apply Wb_source; auto. rewrite <- src1. auto.
Qed.
End Rank.
