(** One rank of a distributed evaluation with an arbitrary expansion wrangler. *)
From Coq Require Import List Arith ZArith NArith Lia Bool Permutation.
From Verif Require Import Base Tree Spec TreeFacts Traversal SpecTraversal TraversalLists Coverage CoverageThm ListFacts
  LevelStarts MergeFacts Fmm SpecFmm FmmFacts FmmThm Tools ToolsFacts Partition PartitionFacts LocalTree SpecDist LocalFacts
  Distributed DistGeom PropsPartition FmmGen SpecFmmGen FmmGenFacts FmmGenThm DistributedGen.
From Verif Require TreeBuild ArrayFacts DistRank.
Import ListNotations.

(** merging the close lists does not change the routes *)
Lemma merge_listed t tr tr' T s r : merge_close_lists tr = Some tr' -> (listed t tr' T s r <-> listed t tr T s r).
Proof.
  unfold merge_close_lists. destruct (from_sep_close_smaller tr) as [cs|] eqn:E1; [|discriminate].
  destruct (from_sep_close_bigger tr) as [cb|] eqn:E2; [|discriminate]. intros H. injection H as <-.
  destruct r; try reflexivity. unfold listed, list1_of, list3_close_of, list4_close_of.
  cbn [target_boxes neighbor_source_boxes from_sep_close_smaller from_sep_close_bigger]. rewrite E1, E2.
  rewrite (count_In s (entries _ (merge_lists _ _) _)), merge_entries_count, !count_In. rewrite !count_nil. lia.
Qed.

(** without target extents there are no close lists *)
Lemma close_listed t (W : wf_tree t) P (WP : wf_params t P) tr : build_traversal t P = Some tr -> forall T s,
  In s (list3_close_of tr T) \/ In s (list4_close_of tr T) -> targets_have_extent (extents P) = true.
Proof.
  intros Htr T s H. destruct (targets_have_extent (extents P)) eqn:HE; auto.
  revert H. rewrite (tr_eq t W P WP tr Htr). unfold list3_close_of, list4_close_of.
  cbn [from_sep_close_smaller from_sep_close_bigger the_traversal]. rewrite HE. cbn. tauto.
Qed.
Lemma nonempty_target t p P T : wf_particles t p -> wf_params t P -> T < nboxes t -> 0 < box_target_counts_nonchild p T ->
  In T (find_target_boxes t P).
Proof.
  intros HP WP HT CTP. assert (IT := wf_target_flag t p HP T HT CTP).
  unfold find_target_boxes, find_source_boxes. destruct (sources_are_targets P) eqn:E; apply filter_In; (split; [apply in_seq; lia|]); auto.
  rewrite <- (proj2 WP E); auto.
Qed.

Section Rank.
Variable t : tree.
Hypothesis W : wf_tree t.
Hypothesis F : wf_flags t.
Variable p : particles.
Hypothesis HP : wf_particles t p.
Variables source_cumul target_cumul : nat -> nat.
Hypothesis N : nested_ranges t (box_target_starts p) (box_target_counts_nonchild p) target_cumul.
Variable P : trav_params.
Hypothesis WP : wf_params t P.
Hypothesis LS : level_sorted t (level_start_box_nrs P).
Hypothesis WE : targets_have_extent (extents P) = true -> wf_extent (extents P).
Hypothesis MIN : targets_have_extent (extents P) = true -> from_sep_smaller_min_nsources_cumul (extents P) = 0.
Hypothesis M1 : forall b, source_boxes_mask P b = true.
Hypothesis SAT : sources_are_targets P = true -> forall b, b < nboxes t -> is_target t b = true -> 0 < box_target_counts_nonchild p b.
Variable tr : traversal.
Hypothesis Htr : build_traversal t P = Some tr.
Variable boxes : list nat.
Hypothesis BR : forall b, In b boxes -> b < nboxes t.
Variable merge : bool.
Variable l : local_tree.
Hypothesis Hl : generate_local_tree t p source_cumul target_cumul (targets_have_extent (extents P)) tr boxes = Some l.
Variable trl : traversal.
Hypothesis Htrl : generate_local_travs P l merge = Some trl.

Let sl := local_particle_lists (nboxes t) (nsources p) (bm_point_src (lt_masks l))
               (box_source_starts p) (box_source_counts_nonchild p) source_cumul.
Let gl := local_particle_lists (nboxes t) (ntargets p) (bm_responsible (lt_masks l))
               (box_target_starts p) (box_target_counts_nonchild p) target_cumul.
Let flags := modify_target_flags (ll_counts gl) (ll_cumul gl) (box_flags t).
Let t' := with_flags t flags.
Let p' := lt_particles l.
Let P' := local_params P l.
Let starts := level_start_box_nrs P.

Let parts := DistRank.rank_parts t p source_cumul target_cumul P tr boxes l Hl.
Let masks := DistRank.masks_facts t W p source_cumul target_cumul P tr boxes BR l Hl.
Let LW : wf_tree t' := DistRank.local_wf t W p target_cumul l.
Let LF : wf_flags t' := DistRank.local_flags t W F p HP target_cumul N P MIN l.
Let LP : wf_params t' P' := DistRank.local_params_wf t p HP target_cumul P WP MIN M1 SAT l.
Let S1 : forall b, is_source t' b = is_source t b := DistRank.src1 t p target_cumul l.
Let S2 : forall b, has_source_child t' b = has_source_child t b := DistRank.src2 t p target_cumul l.

Context {Wt : Type} {M L V : cmonoid} (R : routines Wt M L V) (LIN : linear R).
Variable w : nat -> Wt.
Let Rl := local_routines R l.
Let w' := local_weights (lt_src_idx l) w.
Notation lev := (box_level t).

Lemma loc_linear : linear Rl.
Proof. destruct LIN. split; cbn; auto. Qed.

Lemma local_sum {X : cmonoid} (f : nat -> Wt -> X) s : s < nboxes t ->
  msum (map (fun k => f (nth k (lt_src_idx l) 0) (w' k)) (source_slice p' s)) =
  if bm_point_src (lt_masks l) s then msum (map (fun j => f j (w j)) (source_slice p s)) else e0.
Proof.
  intros Hs. destruct parts as [_ [_ [EP [_ [ES _]]]]]. unfold p', source_slice, w', local_weights. rewrite EP, ES.
  cbn [box_source_starts box_source_counts_nonchild].
  destruct (bm_point_src (lt_masks l) s) eqn:E.
  - rewrite <- (local_range t (nsources p) (bm_point_src (lt_masks l)) _ _ source_cumul (wf_sources_owned t p HP) s Hs E).
    rewrite map_map. reflexivity.
  - rewrite (local_none t (nsources p) (bm_point_src (lt_masks l))) by auto. reflexivity.
Qed.
Lemma local_own s : s < nboxes t -> own Rl t' p' w' s = if bm_point_src (lt_masks l) s then own R t p w s else e0.
Proof. intros Hs. apply (local_sum (fun j x => p2m R (lev s) s j x)). auto. Qed.
Lemma same_raise k : forall x m, raise Rl t' k x m = raise R t k x m.
Proof. induction k as [|k IH]; intros x m; cbn [raise]; [reflexivity|]. rewrite IH. reflexivity. Qed.
Lemma same_lower k : forall x m, lower Rl t' k x m = lower R t k x m.
Proof. induction k as [|k IH]; intros x m; cbn [lower]; [reflexivity|]. rewrite IH. reflexivity. Qed.
Lemma same_msub o x : msub Rl t' o x = msub R t o x.
Proof.
  unfold msub. change (nboxes t') with (nboxes t). apply msum_map_ext. intros s _.
  assert (E : ancestors_or_self t' s = ancestors_or_self t s) by apply same_chain.
  destruct (in_dec _ _ (ancestors_or_self t' s)) as [i|i], (in_dec _ _ (ancestors_or_self t s)) as [j|j];
    [apply same_raise|rewrite E in i; tauto|rewrite E in i; tauto|auto].
Qed.

(** what this rank's boxes contribute *)
Definition rown (s : nat) : M := if bm_responsible (lt_masks l) s then own R t p w s else e0.
Lemma own_source s : s < nboxes t -> is_source t s = false -> own R t p w s = e0.
Proof.
  intros Hs E. unfold own, source_slice. destruct (box_source_counts_nonchild p s) eqn:C; auto.
  rewrite (wf_source_flag t p HP s Hs) in E by lia. discriminate.
Qed.
Lemma trl_boxes : exists tr0, build_traversal t' P' = Some tr0 /\ (trl = tr0 \/ merge_close_lists tr0 = Some trl).
Proof. exact (DistRank.trl_built t p source_cumul target_cumul P tr boxes merge l Hl trl Htrl). Qed.
Lemma trl_bm : built_or_merged t' P' trl.
Proof. destruct trl_boxes as [tr0 [B0 M0]]. exists tr0. auto. Qed.
Let BB := bm_boxes t' LW P' LP trl trl_bm.

Lemma rank_upward_gen x : x < nboxes t ->
  at_box t starts (rank_multipoles_gen R l trl starts w) x = if 2 <=? lev x then msub R t rown x else rown x.
Proof.
  intros Hx. unfold rank_multipoles_gen. destruct BB as [_ [E1 [E2 [E3 E4]]]]. rewrite E1, E2, E3, E4.
  destruct parts as [_ [ET _]]. rewrite ET. fold p' Rl w'. fold gl flags t'.
  change (@at_box t starts M) with (@at_box t' starts M).
  rewrite (coarsen_multipoles_gen_at Rl loc_linear t' LW starts LS _ _ rown); auto.
  - rewrite same_msub. reflexivity.
  - apply NoDup_filter, seq_NoDup.
  - intros y Hy. apply filter_In in Hy. destruct Hy as [Hy _]. apply in_seq in Hy. lia.
  - apply (filter_delimited t' LW P' LP LS).
  - intros y Hy. change (nboxes t') with (nboxes t) in Hy.
    rewrite (form_multipoles_gen_at Rl t' LW p' starts LS); auto.
    2: apply (filter_delimited t' LW P' LP LS). 2: apply NoDup_filter, seq_NoDup.
    2:{ intros z Hz. apply filter_In in Hz. destruct Hz as [Hz _]. apply in_seq in Hz. lia. }
    rewrite local_own by auto. unfold rown.
    destruct masks as [MR [_ [_ [_ [_ [MS _]]]]]].
    destruct (in_dec _ _ _) as [i|i].
    + unfold find_source_boxes in i. apply filter_In in i. destruct i as [_ i]. apply andb_true_iff in i. destruct i as [_ i].
      change (source_boxes_mask P' y) with (bm_responsible (lt_masks l) y) in i. rewrite i. rewrite MS; auto. apply MR; auto.
    + destruct (bm_responsible (lt_masks l) y) eqn:RR; auto. symmetry. apply own_source; auto.
      destruct (is_source t y) eqn:E; auto. exfalso. apply i. apply filter_In. rewrite S1, E.
      change (source_boxes_mask P' y) with (bm_responsible (lt_masks l) y). rewrite RR. split; auto. apply in_seq.
      change (nboxes t') with (nboxes t). lia.
  - intros y m Hy Ly Hni Hm Hc. change (nboxes t') with (nboxes t) in *. change (nchildren t') with (nchildren t) in *.
    change (box_child t' m y) with (box_child t m y) in *. rewrite same_msub. apply msum_map_0. intros s Hs. apply in_seq in Hs.
    destruct (in_dec _ _ _) as [i|i]; auto.
    destruct (bm_responsible (lt_masks l) s) eqn:RS; [|unfold rown; rewrite RS; apply (raise_0 R LIN)].
    destruct (is_source t s) eqn:IS; [|unfold rown; rewrite RS, own_source by (auto; lia); apply (raise_0 R LIN)].
    exfalso. apply Hni. apply filter_In. split; [apply in_seq; change (nboxes t') with (nboxes t); lia|].
    apply in_chain in i; auto; [|lia]. destruct i as [k [Hk Ek]].
    destruct (child_facts t W m y Hy Hm Hc) as [Pc [Lc _]].
    assert (Kk : k = S (lev y)). { rewrite Ek in Lc. rewrite anc_level in Lc by (auto; lia). auto. }
    assert (Ey : y = anc t (lev y) s). { rewrite <- Pc at 1. rewrite Ek, Kk. apply parent_anc; auto; lia. }
    change (source_parent_boxes_mask P' y) with (bm_ancestor (lt_masks l) y). rewrite S2. apply andb_true_iff. split.
    + rewrite Ey. eapply (hsc_anc t W (well_sep_is_n_away P)); eauto; try lia. apply WP.
    + destruct masks as [MR [MA _]]. apply MR in RS. apply MA. exists s. split; auto. split.
      * apply in_chain; auto. exists (lev y). split; [lia|auto].
      * intros ->. lia.
Qed.
(** nothing outside the boxes this rank contributes to *)
Lemma rank_outside_gen x : x < nboxes t -> contributing_boxes l x = false ->
  at_box t starts (rank_multipoles_gen R l trl starts w) x = e0.
Proof.
  intros Hx C. unfold contributing_boxes in C. apply orb_false_iff in C. destruct C as [C1 C2]. rewrite rank_upward_gen by auto.
  destruct masks as [MR [MA _]]. unfold rown at 2. rewrite C2. destruct (2 <=? _); auto.
  apply msum_map_0. intros s Hs. apply in_seq in Hs.
  destruct (in_dec _ _ _) as [i|i]; auto.
  destruct (bm_responsible (lt_masks l) s) eqn:RS; [|unfold rown; rewrite RS; apply (raise_0 R LIN)].
  exfalso. destruct (Nat.eq_dec x s) as [->|NE]; [congruence|].
  assert (X : bm_ancestor (lt_masks l) x = true) by (apply MA; exists s; split; [apply MR; auto|auto]). congruence.
Qed.

(** *** Evaluation *)
Variable mp : storage M.
Hypothesis HM : forall x, x < nboxes t -> 2 <= lev x -> bm_multipole_src (lt_masks l) x = true ->
  at_box t starts mp x = msub R t (own R t p w) x.

Lemma rank_potential_gen k T tr' : k < length (lt_tgt_idx l) -> T < nboxes t ->
  In (nth k (lt_tgt_idx l) 0) (seq (box_target_starts p T) (box_target_counts_nonchild p T)) ->
  built_or_merged t P tr' ->
  rank_potentials_gen R l trl starts mp w k =
  msum (map (fun s => msum (map (box_contribution R t p w (nth k (lt_tgt_idx l) 0) T s) (routes t tr' T s))) (seq 0 (nboxes t))).
Proof.
  intros Hk HT CT BM. destruct parts as [_ [ET [EP [_ [_ EG]]]]].
  destruct trl_boxes as [tr0 [B0 M0]].
  assert (KI : In (nth k (lt_tgt_idx l) 0) (lt_tgt_idx l)) by (apply nth_In; auto).
  rewrite EG in KI at 2.
  apply (idx_spec t (ntargets p) (bm_responsible (lt_masks l)) _ _ _ (wf_targets_owned t p HP)) in KI.
  destruct KI as [T2 [HT2 [RT CT2]]].
  assert (T2 = T) by (apply (own_unique t (ntargets p) _ _ (wf_targets_owned t p HP) T2 T _ HT2 HT CT2 CT)). subst T2. clear HT2 CT2.
  destruct masks as [MR [MA [MS1 [MS4 [MSC [MSR MM]]]]]]. assert (BT := proj1 (MR T) RT).
  assert (CTP : 0 < box_target_counts_nonchild p T) by (apply in_seq in CT; lia).
  assert (HTb : In T (target_boxes tr0)).
  { apply (DistRank.tb_local t W p HP source_cumul target_cumul P WP MIN M1 SAT tr boxes BR l Hl T tr0 B0). auto. }
  assert (HTl : In T (target_boxes trl)).
  { destruct (DistRank.trl_upward P merge l trl Htrl tr0 M0) as [_ [_ [_ E4]]]. rewrite E4. auto. }
  assert (HTg : In T (find_target_boxes t P)) by (apply (nonempty_target t p); auto).
  assert (HTr : In T (target_boxes tr)) by (rewrite (tr_tb t W P WP tr Htr); auto).
  assert (HT' : In T (target_boxes tr')) by (destruct (bm_boxes t W P WP tr' BM) as [-> _]; auto).
  assert (OWN : forall b, b < nboxes t' -> (covers (box_target_starts p' b) (box_target_counts_nonchild p' b) k = true <-> b = T)).
  { intros b Hb. change (nboxes t') with (nboxes t) in Hb. unfold p'. rewrite EP. cbn [box_target_starts box_target_counts_nonchild].
    rewrite EG in Hk.
    rewrite (local_covers t (ntargets p) (bm_responsible (lt_masks l)) _ _ target_cumul (wf_targets_owned t p HP) k b Hk Hb).
    rewrite <- EG. rewrite covers_in. split; [|intros ->; auto]. intros H.
    apply (own_unique t (ntargets p) _ _ (wf_targets_owned t p HP) b T _ Hb HT H CT). }
  destruct (entries_of_box t W flags S1 S2 P P' WP LP _ eq_refl eq_refl MIN tr tr0 Htr B0 T HTb HTr) as [G1 [G3 [G3c G4c]]].
  assert (GA : forall A, In A (ancestors_or_self t T) -> incl (list2_of tr0 A) (list2_of tr A) /\ incl (list4_of tr0 A) (list4_of tr A)).
  { intros A HA. apply (entries_of_parent t W flags S1 P P' WP LP _ eq_refl eq_refl tr tr0 Htr B0 A).
    - apply (chain_ttpb t' LW LF P' LP tr0 B0 T A HTb). unfold t'. rewrite same_chain. auto.
    - apply (chain_ttpb t W F P WP tr Htr T A HTr HA). }
  (* routes of the rank are routes of the global traversal *)
  assert (RI : forall s r, listed t' trl T s r -> listed t tr T s r).
  { intros s r Hr. assert (Hr0 : listed t' tr0 T s r).
    { destruct M0 as [E0|M0]; [rewrite <- E0; auto|]. apply (merge_listed t' tr0 trl T s r M0). auto. }
    clear Hr. unfold listed in *. unfold t' in Hr0. rewrite !same_chain in Hr0. destruct r.
    - destruct Hr0 as [H|[H|H]]; auto.
    - destruct Hr0 as [H1 [H2 H3]]. split; auto. split; auto. apply (GA B H1); auto.
    - destruct Hr0 as [H1 H2]. split; auto. 
    - destruct Hr0 as [H1 H2]. split; auto. apply (GA B H1); auto. }
  assert (RG : forall s r, listed t tr' T s r <-> listed t tr T s r).
  { intros s r. destruct BM as [trb [Hb [E0|Mg]]]; rewrite Htr in Hb; injection Hb as Hb; rewrite <- Hb in *; [rewrite E0; tauto|]. apply merge_listed. auto. }
  unfold rank_potentials_gen. rewrite ET. fold p' Rl w'. fold gl flags t'.
  rewrite (potentials_gen_parts Rl loc_linear t' LW p' starts LS w' k T OWN trl (fun _ => mp) (own R t p w)); auto.
  2:{ apply (bm_ready t' LW LF P' LP LS trl trl_bm T HTl). }
  2:{ intros x Hx L2 U. rewrite same_msub. apply HM; auto. apply MM. destruct U as [[B [HB U]]|U].
      - left. exists T, B. split; auto. unfold t' in HB. rewrite same_chain in HB. split; auto.
        apply GA; auto. destruct M0 as [E0|Mg]; [rewrite <- E0; auto|]. revert Mg U. unfold merge_close_lists.
        destruct (from_sep_close_smaller tr0); [|discriminate]. destruct (from_sep_close_bigger tr0); [|discriminate].
        intros Mg. injection Mg as Mg. rewrite <- Mg. auto.
      - right. exists T. split; auto. apply G3. destruct M0 as [E0|Mg]; [rewrite <- E0; auto|]. revert Mg U. unfold merge_close_lists.
        destruct (from_sep_close_smaller tr0); [|discriminate]. destruct (from_sep_close_bigger tr0); [|discriminate].
        intros Mg. injection Mg as Mg. rewrite <- Mg. auto. }
  change (nboxes t') with (nboxes t). apply msum_map_ext. intros s Hs. apply in_seq in Hs.
  (* the same contribution along a route of the rank *)
  assert (PE : forall r, listed t tr T s r ->
    part Rl t' p' w' k T (own R t p w) s r = box_contribution R t p w (nth k (lt_tgt_idx l) 0) T s r).
  { intros r Hr. rewrite <- (part_own R LIN).
    assert (LV : forall B x, loc_value Rl t' k T B x = loc_value R t (nth k (lt_tgt_idx l) 0) T B x).
    { intros B x. unfold loc_value. rewrite same_lower. reflexivity. }
    destruct r; cbn [part].
    - unfold direct_from. unfold Rl, local_routines. cbn [p2p].
      rewrite (local_sum (fun j x => p2p R (nth k (lt_tgt_idx l) 0) j x)) by lia.
      replace (bm_point_src (lt_masks l) s) with true; auto. symmetry. destruct Hr as [H|H]; [eauto|].
      apply (MSC (close_listed t W P WP tr Htr T s H) T s BT H).
    - rewrite LV, same_raise. reflexivity.
    - rewrite same_raise. reflexivity.
    - rewrite LV. f_equal. unfold Rl, local_routines. cbn [p2l].
      rewrite (local_sum (fun j x => p2l R (lev B) B j x)) by lia.
      destruct Hr as [H1 H2]. rewrite (MS4 T B s BT H1 H2). reflexivity. }
  destruct (is_source t s) eqn:IS.
  - destruct (one_route t' LW LF P' LP trl trl_bm WE T s HTl ltac:(change (nboxes t') with (nboxes t); lia) ltac:(rewrite S1; auto)) as [r Er].
    destruct (one_route t W F P WP tr' BM WE T s HT' ltac:(lia) IS) as [r' Er'].
    destruct (one_route t W F P WP tr (ex_intro _ tr (conj Htr (or_introl eq_refl))) WE T s HTr ltac:(lia) IS) as [r'' Er''].
    assert (I1 : listed t' trl T s r) by (apply routes_in; rewrite Er; left; auto).
    assert (I2 : listed t tr' T s r') by (apply routes_in; rewrite Er'; left; auto).
    apply RI in I1. apply RG in I2. assert (I1' := I1). apply routes_in in I1', I2. rewrite Er'' in I1', I2.
    destruct I1' as [I1'|[]]. destruct I2 as [I2|[]]. subst r r'.
    rewrite Er, Er'. cbn [map]. rewrite PE by auto. reflexivity.
  - assert (Z0 : box_source_counts_nonchild p s = 0).
    { destruct (box_source_counts_nonchild p s) eqn:C; auto. rewrite (wf_source_flag t p HP s ltac:(lia)) in IS by lia. discriminate. }
    rewrite !msum_map_0; auto.
    + intros r _. unfold box_contribution, source_slice. rewrite Z0. reflexivity.
    + intros r Hr. apply routes_in in Hr. rewrite PE by (apply RI; auto). unfold box_contribution, source_slice. rewrite Z0. reflexivity.
Qed.
End Rank.
