(** Post-processing of particle trees: C42 (linked point sources), C43 (target filtering),
    C45 (lookups), C70 and C71 (memory accesses of these kernels). *)
From Coq Require Import List Arith ZArith Lia Bool Permutation Sorted.
From Verif Require Import Base Tree Walk Traversal TraversalLists Fmm SpecFmm TreeBuild ArrayFacts BuildPrune BuildSplit BuildFinish
  SpecBuild BuildThm ExampleBuild PropsBuild ParticleLists SpecLists ParticleListFacts.
Import ListNotations.

(** Trees from TreeBuilder qualify, and cumulative ranges are in bounds. *)
Theorem C42_built_trees_qualify : forall inp B,
  valid_input inp -> not_restricted_with_extents inp -> build_tree inp = inl B ->
  numbered (b_tree B) (b_particles B) /\
  (forall b, b < nboxes (b_tree B) -> 0 < b_source_cumul B b ->
     box_source_starts (b_particles B) b + b_source_cumul B b <= nsources (b_particles B)) /\
  (forall b, b < nboxes (b_tree B) -> 0 < b_target_cumul B b ->
     box_target_starts (b_particles B) b + b_target_cumul B b <= ntargets (b_particles B)).
Proof.
  intros inp B V NR H. destruct (built_fin inp B V H) as [st [pth [_ [F ->]]]].
  destruct (finish_perm inp V st pth F) as [H1 [_ [NT [_ [_ [H2 _]]]]]].
  destruct (finish_wf_particles inp V st pth F (pe inp NR)) as [_ _ W1 W2 _ _].
  split; [constructor; auto|].
  assert (PI := PI inp V st pth F). assert (NSL := NSL inp V). assert (SM := SM inp V).
  assert (CP : forall q b, b < nboxes (b_tree (finish inp st)) -> 0 < cntr q (p_start (prune inp st) b) (p_start (prune inp st) b + p_cumul (prune inp st) b) ->
    0 < p_cumul (prune inp st) b /\
    cnt q (p_start (prune inp st) b) + cntr q (p_start (prune inp st) b) (p_start (prune inp st) b + p_cumul (prune inp st) b) <= cnt q (npart inp)).
  { intros q b Hb C. assert (C' : 0 < p_cumul (prune inp st) b).
    { assert (Z := cntr_le q (p_start (prune inp st) b) (p_start (prune inp st) b + p_cumul (prune inp st) b)). lia. }
    split; auto. rewrite <- cnt_cntr by lia. apply cnt_le_mono. apply (pi_range_np _ _ _ _ PI b Hb C'). }
  split; intros b Hb C.
  - change (sp_source_starts (the_split inp (prune inp st)) b + sp_source_cumul (the_split inp (prune inp st)) b <= nsrc inp).
    change (0 < sp_source_cumul (the_split inp (prune inp st)) b) in C.
    rewrite (fin_source_cumul inp _ _ _ PI NSL SM b Hb) in C |- *. destruct (CP _ b Hb C) as [C' L].
    rewrite (fin_source_starts inp _ _ _ PI NSL SM b Hb C'). rewrite <- (cnt_src inp _ _ _ PI NSL SM). exact L.
  - rewrite NT. change (sp_target_starts (the_split inp (prune inp st)) b + sp_target_cumul (the_split inp (prune inp st)) b <= num_targets inp).
    change (0 < sp_target_cumul (the_split inp (prune inp st)) b) in C.
    rewrite (fin_target_cumul inp _ _ _ PI NSL SM b Hb) in C |- *. destruct (CP _ b Hb C) as [C' L].
    rewrite (fin_target_starts inp _ _ _ PI NSL SM b Hb C').
    replace (num_targets inp) with (cnt (tgt_pos inp (prune inp st)) (npart inp)); [exact L|].
    apply (cnt_tgt inp _ _ _ PI NSL SM).
Qed.

(** ** C45: find_box_nr_for_source/target return the box whose own range holds the particle, which
    exists and is unique; the index conversions invert the id arrays. *)
Theorem C45_find_box_nr : forall t p, numbered t p ->
  (forall i, i < ntargets p -> exists b, b < nboxes t /\ own_target p b i /\ find_box_nr_for_target t p i = Some b /\
     forall c, c < nboxes t -> own_target p c i -> c = b) /\
  (forall i, i < nsources p -> exists b, b < nboxes t /\ own_source p b i /\ find_box_nr_for_source t p i = Some b /\
     forall c, c < nboxes t -> own_source p c i -> c = b).
Proof.
  assert (G : forall t starts counts n i, owned_once t starts counts n -> i < n ->
     exists b, b < nboxes t /\ starts b <= i < starts b + counts b /\ find_box_nr (nboxes t) starts counts i = Some b /\
       forall c, c < nboxes t -> starts c <= i < starts c + counts c -> c = b).
  { intros t starts counts n i O Hi.
    assert (X : In i (concat (map (fun b => seq (starts b) (counts b)) (seq 0 (nboxes t))))).
    { apply (Permutation_in _ (Permutation_sym O)). apply in_seq. lia. }
    apply in_concat in X. destruct X as [l [Hl Hi']]. apply in_map_iff in Hl. destruct Hl as [b [<- Hb]].
    apply in_seq in Hb. apply in_seq in Hi'. exists b. split; [lia|]. split; auto.
    assert (S := fun c => find_box_nr_spec t starts counts n i c O Hi).
    assert (FB : find_box_nr (nboxes t) starts counts i = Some b) by (apply S; split; lia). split; auto.
    intros c Hc R. assert (FC : find_box_nr (nboxes t) starts counts i = Some c) by (apply S; split; lia). congruence. }
  intros t p N. split; intros i Hi; [apply (G t _ _ _ i (nb_own_targets _ _ N) Hi)|apply (G t _ _ _ i (nb_own_sources _ _ N) Hi)].
Qed.
(** outside the particle range they fail *)
Theorem C45_no_box_beyond : forall t p, numbered t p ->
  (forall i, ntargets p <= i -> find_box_nr_for_target t p i = None) /\
  (forall i, nsources p <= i -> find_box_nr_for_source t p i = None).
Proof.
  assert (G : forall t starts counts n i, owned_once t starts counts n -> n <= i -> find_box_nr (nboxes t) starts counts i = None).
  { intros t starts counts n i O Hi. unfold find_box_nr. destruct (boxes_meeting (nboxes t) starts counts i) as [|b l] eqn:E; auto.
    assert (X : In b (boxes_meeting (nboxes t) starts counts i)) by (rewrite E; left; auto).
    unfold boxes_meeting in X. apply filter_In in X. rewrite in_seq, andb_true_iff, Nat.leb_le, Nat.ltb_lt in X.
    assert (Y := owned_range t starts counts n b O ltac:(lia) ltac:(lia)). lia. }
  intros t p N. split; intros i Hi; [apply (G t _ _ _ i (nb_own_targets _ _ N) Hi)|apply (G t _ _ _ i (nb_own_sources _ _ N) Hi)].
Qed.
Theorem C45_index_conversions : forall t p user_indices, numbered t p ->
  (Forall (fun u => u < nsources p) user_indices ->
   exists l, indices_to_tree_source_order p user_indices = map Some l /\ Forall (fun k => k < nsources p) l /\
     map (user_source_ids p) l = user_indices) /\
  (Forall (fun u => u < ntargets p) user_indices ->
   Forall (fun k => k < ntargets p) (indices_to_tree_target_order p user_indices) /\
   (NoDup user_indices -> NoDup (indices_to_tree_target_order p user_indices))).
Proof.
  intros t p us N. split; intros H.
  - induction us as [|u us IH]; [exists []; auto|]. inversion H; subst. destruct (IH ltac:(auto)) as [l [E1 [E2 E3]]].
    destruct (perm_fun_onto _ _ u (nb_sources _ _ N) ltac:(auto)) as [k [Hk Ek]]. exists (k :: l). cbn [indices_to_tree_source_order map] in *.
    rewrite <- Ek at 1. rewrite (reverse_lookup_some _ _ k (nb_sources _ _ N) Hk). unfold indices_to_tree_source_order in E1. rewrite E1, E3, Ek. auto.
  - unfold indices_to_tree_target_order. split.
    + rewrite Forall_map. eapply Forall_impl; [|exact H]. cbn beta. intros u Hu. apply (perm_fun_lt _ _ u (nb_targets _ _ N) Hu).
    + intros ND. rewrite Forall_forall in H. apply NoDup_map_inj; auto.
      intros x y Hx Hy E. apply (perm_fun_inj _ _ x y (nb_targets _ _ N)); auto.
Qed.

(** ** C43: target filtering.  [order] is the order in which the work items of a device scatter
    store, [junk] what a read beyond an array returns: the results depend on neither. *)
(** User order: the list of a box holds exactly the flagged targets of its own range, as user
    numbers, in tree order. *)
Theorem C43_user_order : forall t p flags order, numbered t p -> Permutation order (seq 0 (ntargets p)) ->
  let '(lists, total) := filter_in_user_order t p flags order in
  (forall b, b < nboxes t ->
     (forall j, In j (csr_get lists b) <-> j < ntargets p /\ flags j = true /\ own_target p b (sorted_target_ids p j)) /\
     StronglySorted lt (map (sorted_target_ids p) (csr_get lists b))) /\
  total = length (filter flags (seq 0 (ntargets p))).
Proof.
  intros t p flags order N PO. unfold filter_in_user_order.
  assert (PS := nb_targets _ _ N).
  assert (R : forall b, b < nboxes t -> 0 < box_target_counts_nonchild p b -> box_target_starts p b + box_target_counts_nonchild p b <= ntargets p).
  { intros b Hb C. apply (owned_range t _ _ _ b (nb_own_targets _ _ N) Hb C). }
  split.
  - intros b Hb. rewrite csr_get_of by (rewrite map_length, seq_length; auto). rewrite nth_map_seq by auto. split.
    + intros j. apply (user_list_in p flags order PS PO b j (R b Hb)).
    + rewrite (map_sorted_user_list p flags order PS PO b (R b Hb)). apply filter_seq_sorted.
  - unfold csr_of. cbn [lists].
    assert (P : Permutation (concat (map (user_order_list p flags order) (seq 0 (nboxes t)))) (filter flags (seq 0 (ntargets p)))).
    { apply NoDup_Permutation.
      - apply NoDup_count. intros x. rewrite count_concat, map_map.
        destruct (Nat.lt_ge_cases x (ntargets p)) as [Hx|Hx].
        + assert (O := count_perm (sorted_target_ids p x) _ _ (nb_own_targets _ _ N)). rewrite count_concat, map_map in O.
          rewrite (count_NoDup_In (seq 0 (ntargets p))) in O; [|apply seq_NoDup|apply in_seq; assert (X := perm_fun_lt _ _ x PS Hx); lia].
          rewrite <- O. apply nsum_map_le. intros b Hb. apply in_seq in Hb.
          assert (ND : NoDup (user_order_list p flags order b)).
          { apply (NoDup_map_inv (sorted_target_ids p)). rewrite (map_sorted_user_list p flags order PS PO b (R b ltac:(lia))).
            apply NoDup_filter. apply seq_NoDup. }
          destruct (Nat.eq_dec (count x (user_order_list p flags order b)) 0) as [->|C]; [lia|].
          assert (I : In x (user_order_list p flags order b)) by (apply count_In; lia).
          assert (C1 : count x (user_order_list p flags order b) = 1) by (apply count_NoDup_In; auto). rewrite C1.
          apply (user_list_in p flags order PS PO b x (R b ltac:(lia))) in I.
          rewrite (count_NoDup_In (seq _ _)); [auto|apply seq_NoDup|apply in_seq; lia].
        + rewrite nsum_map_0; auto. intros b Hb. apply in_seq in Hb. apply count_notIn. intros I.
          apply (user_list_in p flags order PS PO b x (R b ltac:(lia))) in I. lia.
      - apply NoDup_filter. apply seq_NoDup.
      - intros x. rewrite filter_In, in_seq, in_concat. split.
        + intros [l [Hl I]]. apply in_map_iff in Hl. destruct Hl as [b [<- Hb]]. apply in_seq in Hb.
          apply (user_list_in p flags order PS PO b x (R b ltac:(lia))) in I. split; [lia|tauto].
        + intros [Hx FX]. assert (L := perm_fun_lt _ _ x PS ltac:(lia)).
          destruct (proj1 (C45_find_box_nr t p N) _ L) as [b [Hb [O _]]].
          exists (user_order_list p flags order b). split; [apply in_map; apply in_seq; lia|].
          apply (user_list_in p flags order PS PO b x (R b Hb)). repeat split; auto; try lia; apply O. }
    apply Permutation_length. exact P.
Qed.

(** Tree order: the filtered targets are the flagged ones, in tree order; the filtered range of a
    box holds exactly the flagged targets of its own range; coordinates follow. *)
Theorem C43_tree_order : forall t p targets flags order junk, numbered t p -> Permutation order (seq 0 (ntargets p)) ->
  let f := filter_in_tree_order p targets flags order junk in
  f_nfiltered f = length (filter flags (seq 0 (ntargets p))) /\
  (forall i k, i < k -> k < f_nfiltered f -> f_unfiltered f i < f_unfiltered f k) /\
  (forall i, (exists k, k < f_nfiltered f /\ f_unfiltered f k = i) <->
             (exists j, j < ntargets p /\ flags j = true /\ sorted_target_ids p j = i)) /\
  (forall k a, f_targets f k a = targets (f_unfiltered f k) a) /\
  (forall b, b < nboxes t -> forall k,
     (f_box_starts f b <= k < f_box_starts f b + f_box_counts f b <-> k < f_nfiltered f /\ own_target p b (f_unfiltered f k))).
Proof.
  intros t p targets flags order junk N PO f. assert (PS := nb_targets _ _ N).
  assert (ALL := unf_all p flags order PS PO).
  assert (LEN : f_nfiltered f = length (filter (tree_order_flags p flags order) (seq 0 (ntargets p)))).
  { rewrite <- ALL, map_length, seq_length. auto. }
  assert (NTH : forall k, k < f_nfiltered f -> nth k (filter (tree_order_flags p flags order) (seq 0 (ntargets p))) 0 = f_unfiltered f k).
  { intros k Hk. rewrite <- ALL. apply nth_map_seq. exact Hk. }
  assert (MONO : forall i k, i < k -> k < f_nfiltered f -> f_unfiltered f i < f_unfiltered f k).
  { intros i k Hik Hk. rewrite <- !NTH by lia. rewrite LEN in Hk. clear - Hik Hk.
    assert (S := filter_seq_sorted (tree_order_flags p flags order) 0 (ntargets p)).
    revert i k Hik Hk S. generalize (filter (tree_order_flags p flags order) (seq 0 (ntargets p))) as l.
    induction l as [|x l IH]; intros i k Hik Hk S; [simpl in Hk; lia|]. inversion S; subst. destruct k; [lia|]. destruct i; cbn [nth].
    - rewrite Forall_forall in H2. apply H2. apply nth_In. simpl in Hk. lia.
    - apply IH; auto; simpl in Hk; lia. }
  split; [rewrite LEN; apply (tof_count p flags order PS PO)|]. split; [exact MONO|]. split; [|split; [auto|]].
  - intros i. rewrite <- (in_tof p flags order PS PO). split.
    + intros [k [Hk <-]]. rewrite <- NTH by auto. apply nth_In. lia.
    + intros I. rewrite <- ALL in I. apply in_map_iff in I. destruct I as [k [E Hk]]. apply in_seq in Hk. exists k. split; [cbn; lia|auto].
  - intros b Hb k.
    assert (R : 0 < box_target_counts_nonchild p b -> box_target_starts p b + box_target_counts_nonchild p b <= ntargets p).
    { intros C. apply (owned_range t _ _ _ b (nb_own_targets _ _ N) Hb C). }
    assert (SEG := box_segment p flags order junk PS PO b R).
    assert (INB : forall k, f_box_starts f b <= k < f_box_starts f b + f_box_counts f b -> k < f_nfiltered f).
    { clear k. intros k Hk. cbn [f f_box_starts f_box_counts f_nfiltered filter_in_tree_order] in *.
      rewrite (nfiltered_eq p flags order PS PO). unfold filtered_counts in Hk. destruct (Nat.ltb_spec 0 (box_target_counts_nonchild p b)) as [C|C]; [|lia].
      destruct (Nat.ltb_spec (box_target_starts p b + box_target_counts_nonchild p b) (ntargets p)) as [L|L].
      - unfold filtered_from_unfiltered in Hk. unfold read in Hk. rewrite (proj2 (Nat.ltb_lt _ _) L) in Hk.
        assert (X := prev_mono p flags order (box_target_starts p b + box_target_counts_nonchild p b) (ntargets p) ltac:(lia)). lia.
      - rewrite (nfiltered_eq p flags order PS PO) in Hk. lia. }
    split.
    + intros Hk. split; [apply INB; auto|].
      assert (I : In (f_unfiltered f k) (filter (tree_order_flags p flags order) (seq (box_target_starts p b) (box_target_counts_nonchild p b)))).
      { rewrite <- SEG. apply in_map. apply in_seq. exact Hk. }
      apply filter_In in I. destruct I as [I _]. apply in_seq in I. exact I.
    + intros [Hk O]. 
      assert (I : In (f_unfiltered f k) (filter (tree_order_flags p flags order) (seq (box_target_starts p b) (box_target_counts_nonchild p b)))).
      { apply filter_In. split; [apply in_seq; exact O|].
        assert (X : In (f_unfiltered f k) (filter (tree_order_flags p flags order) (seq 0 (ntargets p)))) by (rewrite <- NTH by auto; apply nth_In; lia).
        apply filter_In in X. tauto. }
      rewrite <- SEG in I. apply in_map_iff in I. destruct I as [k' [E Hk']]. apply in_seq in Hk'.
      assert (B' := INB k' Hk').
      destruct (Nat.lt_trichotomy k k') as [C|[->|C]]; [|exact Hk'|].
      * assert (X := MONO k k' C B'). change (f_unfiltered f k' = f_unfiltered f k) in E. lia.
      * assert (X := MONO k' k C Hk). change (f_unfiltered f k' = f_unfiltered f k) in E. lia.
Qed.

(** ** C42: linked point sources *)
(** With at least one point source per source (or stores that happen in index order), the tree-order
    point sources are those of the sources in tree order, for the whole tree, each source and each
    box, and user_point_source_ids is a permutation. *)
Theorem C42_linked_point_sources : forall t p cumul pss points order junk L,
  numbered t p -> valid_starts pss (nsources p) -> Permutation order (seq 0 (nsources p)) ->
  (forall b, b < nboxes t -> 0 < cumul b -> box_source_starts p b + cumul b <= nsources p) ->
  ((forall u, u < nsources p -> pss u < pss (S u)) \/ order = seq 0 (nsources p)) ->
  link_point_sources true p cumul pss points order junk = Some L ->
  let in_order sources := flat_map (fun i => points_of pss (user_source_ids p i)) sources in
  l_npoint_sources L = pss (nsources p) /\
  map (l_user_ids L) (seq 0 (l_npoint_sources L)) = in_order (seq 0 (nsources p)) /\
  Permutation (map (l_user_ids L) (seq 0 (l_npoint_sources L))) (seq 0 (pss (nsources p))) /\
  (forall k a, l_point_sources L k a = points (l_user_ids L k) a) /\
  (forall i, i < nsources p -> map (l_user_ids L) (seq (l_starts L i) (l_counts L i)) = points_of pss (user_source_ids p i)) /\
  (forall b, b < nboxes t ->
     map (l_user_ids L) (seq (l_box_starts L b) (l_box_counts_nonchild L b)) =
       in_order (seq (box_source_starts p b) (box_source_counts_nonchild p b)) /\
     map (l_user_ids L) (seq (l_box_starts L b) (l_box_counts_cumul L b)) = in_order (seq (box_source_starts p b) (cumul b))).
Proof.
  intros t p cumul pss points order junk L N [Z0 M] PO CU OK E in_order. unfold link_point_sources in E. injection E as <-. cbn [l_npoint_sources l_starts l_counts l_user_ids l_point_sources l_box_starts l_box_counts_nonchild l_box_counts_cumul].
  assert (PU := nb_sources _ _ N).
  assert (SEED : forall i, i < nsources p -> 0 < ps_input p pss i -> ps_seed p pss order (ps_starts p pss i) = pss (user_source_ids p i)).
  { destruct OK as [POS| ->]; intros i Hi Hp; [|apply seed_sequential; auto]. apply seed_positive; auto.
    intros j Hj. unfold ps_input. specialize (POS _ (perm_fun_lt _ _ j PU Hj)). lia. }
  assert (ALL := ids_all p pss order PO SEED). assert (PERM := own_points_perm p pss PU Z0 M).
  rewrite <- ALL in PERM.
  assert (NP : npoint_sources p pss = pss (nsources p)).
  { apply Permutation_length in PERM. rewrite map_length, !seq_length in PERM. auto. }
  split; [exact NP|]. split; [exact ALL|]. split; [exact PERM|]. split; [auto|]. split.
  - intros i Hi. rewrite ps_counts_eq. apply (ids_source p pss order PO SEED i Hi).
  - intros b Hb. split.
    + apply (ids_box p pss order junk PO SEED (box_source_starts p) (box_source_counts_nonchild p)).
      intros C. apply (owned_range t _ _ _ b (nb_own_sources _ _ N) Hb C).
    + apply (ids_box p pss order junk PO SEED (box_source_starts p) cumul). auto.
Qed.

(** ** Example trees: four sources with extents and three targets, resp. three and four *)
Definition linked_points : list (list Z) := [[14;14]; [9;3]; [2;1]; [1;1]; [3;12]; [2;2]; [13;3]]%Z.
Definition linked_input := example_input linked_points 4 false (Some (radii [1;0;0;0;0;0;0]%Z Linf)) [] 2 Adaptive false.
Definition far_points : list (list Z) := [[9;3]; [2;1]; [1;1]; [14;14]; [15;15]; [3;12]; [2;2]]%Z.
Definition far_input := example_input far_points 3 false (Some (radii [1;0;0;0;0;0;0]%Z Linf)) [] 2 Adaptive false.
Lemma linked_valid : valid_input linked_input /\ not_restricted_with_extents linked_input /\ valid_input far_input /\ not_restricted_with_extents far_input.
Proof.
  split; [apply example_valid; vm_compute; reflexivity|]. split; [intros K; discriminate K|]. split; [apply example_valid; vm_compute; reflexivity|intros K; discriminate K].
Qed.

(** C42 for sources without point sources: which store to a common index survives decides the
    result; some order loses a point source and repeats another. *)
Definition one_empty : nat -> nat := fun u => nth u [0; 1; 2; 2; 4] 0.
Theorem C42_refuted_for_empty_sources : exists inp B,
  valid_input inp /\ not_restricted_with_extents inp /\ build_tree inp = inl B /\
  let p := b_particles B in
  exists pss order L, valid_starts pss (nsources p) /\ Permutation order (seq 0 (nsources p)) /\
  forall points junk, link_point_sources true p (b_source_cumul B) pss points order junk = Some (L points junk) /\
  ~ Permutation (map (l_user_ids (L points junk)) (seq 0 (l_npoint_sources (L points junk)))) (seq 0 (l_npoint_sources (L points junk))).
Proof.
  exists linked_input. destruct (build_tree linked_input) as [B|e] eqn:E; [|vm_compute in E; discriminate].
  exists B. split; [apply linked_valid|]. split; [apply linked_valid|]. split; auto. cbv zeta.
  assert (NS : nsources (b_particles B) = 4).
  { assert (X : match build_tree linked_input with inl B => nsources (b_particles B) | inr _ => 0 end = 4) by (vm_compute; reflexivity). rewrite E in X. exact X. }
  exists one_empty, [3; 2; 1; 0], (fun points junk => {| l_npoint_sources := npoint_sources (b_particles B) one_empty;
            l_starts := ps_starts (b_particles B) one_empty;
            l_counts := ps_counts (b_particles B) one_empty;
            l_user_ids := user_point_source_ids (b_particles B) one_empty [3; 2; 1; 0];
            l_point_sources := linked_point_sources (b_particles B) one_empty [3; 2; 1; 0] points;
            l_box_starts := box_ps_starts (b_particles B) one_empty junk (box_source_starts (b_particles B));
            l_box_counts_nonchild := box_ps_counts (b_particles B) one_empty junk (box_source_starts (b_particles B)) (box_source_counts_nonchild (b_particles B));
            l_box_counts_cumul := box_ps_counts (b_particles B) one_empty junk (box_source_starts (b_particles B)) (b_source_cumul B) |}).
  rewrite NS. split; [|split].
  - split; auto. intros u Hu. unfold one_empty. do 4 (destruct u; [simpl; lia|]). lia.
  - simpl. change [0; 1; 2; 3] with (rev [3; 2; 1; 0]). apply Permutation_rev.
  - intros points junk. split; [reflexivity|]. cbn [l_user_ids l_npoint_sources].
    assert (X : match build_tree linked_input with inl B => (map (user_point_source_ids (b_particles B) one_empty [3; 2; 1; 0]) (seq 0 (npoint_sources (b_particles B) one_empty)),
       npoint_sources (b_particles B) one_empty) | inr _ => ([], 0) end = ([2; 3; 2; 0], 4)) by (vm_compute; reflexivity).
    rewrite E in X. apply pair_equal_spec in X. destruct X as [X1 X2]. rewrite X1, X2. intros P. assert (I := Permutation_in 1 (Permutation_sym P)). simpl in I.
    assert (J := I ltac:(auto)). clear - J. intuition discriminate.
Qed.

(** ** C70: the kernels access only elements of their arrays.  Refuted in general. *)
(** filter_target_lists_in_tree_order reads past the end for a last box without targets,
    link_point_sources for a last box without sources. *)
Theorem C70_reads_refuted :
  (exists inp B b i, valid_input inp /\ not_restricted_with_extents inp /\ build_tree inp = inl B /\ b < nboxes (b_tree B) /\
     In i (filter_index_reads (b_particles B) b) /\ ntargets (b_particles B) <= i) /\
  (exists inp B b i, valid_input inp /\ not_restricted_with_extents inp /\ build_tree inp = inl B /\ b < nboxes (b_tree B) /\
     In i (box_ps_reads (box_source_starts (b_particles B)) (b_source_cumul B) b) /\ nsources (b_particles B) <= i).
Proof.
  split.
  - exists linked_input. destruct (build_tree linked_input) as [B|e] eqn:E; [|vm_compute in E; discriminate].
    exists B, 4, 3. split; [apply linked_valid|]. split; [apply linked_valid|]. split; auto.
    assert (X : match build_tree linked_input with inl B => (nboxes (b_tree B), filter_index_reads (b_particles B) 4, ntargets (b_particles B)) | inr _ => (0, [], 0) end = (9, [3], 3)) by (vm_compute; reflexivity).
    rewrite E in X. apply pair_equal_spec in X. destruct X as [X X3]. apply pair_equal_spec in X. destruct X as [X1 X2]. rewrite X1, X2, X3. simpl. lia.
  - exists far_input. destruct (build_tree far_input) as [B|e] eqn:E; [|vm_compute in E; discriminate].
    exists B, 4, 3. split; [apply linked_valid|]. split; [apply linked_valid|]. split; auto.
    assert (X : match build_tree far_input with inl B => (nboxes (b_tree B), box_ps_reads (box_source_starts (b_particles B)) (b_source_cumul B) 4, nsources (b_particles B)) | inr _ => (0, [], 0) end = (9, [3], 3)) by (vm_compute; reflexivity).
    rewrite E in X. apply pair_equal_spec in X. destruct X as [X X3]. apply pair_equal_spec in X. destruct X as [X1 X2]. rewrite X1, X2, X3. simpl. lia.
Qed.
(** link_point_sources writes past the end when the last source in tree order has no point sources *)
Theorem C70_writes_refuted : exists inp B pss i,
  valid_input inp /\ not_restricted_with_extents inp /\ build_tree inp = inl B /\
  let p := b_particles B in
  valid_starts pss (nsources p) /\
  forall order, Permutation order (seq 0 (nsources p)) -> In i (ps_put_indices p pss order) /\ npoint_sources p pss <= i.
Proof.
  exists linked_input. destruct (build_tree linked_input) as [B|e] eqn:E; [|vm_compute in E; discriminate].
  set (pss := fun u => nth u [0; 0; 1; 2; 4] 0).
  exists B, pss, 4. split; [apply linked_valid|]. split; [apply linked_valid|]. split; auto. cbv zeta.
  assert (X : match build_tree linked_input with inl B => (nsources (b_particles B), npoint_sources (b_particles B) pss, ps_starts (b_particles B) pss 3) | inr _ => (0, 0, 0) end = (4, 4, 4)) by (vm_compute; reflexivity).
  rewrite E in X. injection X as X1 X2 X3. rewrite X1. split.
  - split; auto. intros u Hu. unfold pss. do 4 (destruct u; [simpl; lia|]). lia.
  - intros order PO. split; [|lia]. rewrite <- X3. unfold ps_put_indices. apply in_map. apply (perm_seq_in _ _ _ PO). lia.
Qed.
(** In bounds: the filter on pruned trees whose sources are the targets, and the writes of
    link_point_sources when every source has a point source. *)
Theorem C70_filter_reads_shared_trees : forall inp B b i,
  valid_input inp -> not_restricted_with_extents inp -> same inp = true -> skip_prune inp = false -> build_tree inp = inl B ->
  b < nboxes (b_tree B) -> In i (filter_index_reads (b_particles B) b) -> i < ntargets (b_particles B).
Proof.
  intros inp B b i V NR SM SK H Hb I.
  destruct (C42_built_trees_qualify inp B V NR H) as [N [SR TR]].
  assert (C : 0 < b_target_cumul B b).
  { destruct (C21_pruning inp B V NR SK H) as [B0 [pos [H0 [P1 [P2 [P3 [P4 _]]]]]]].
    assert (X : 0 < b_source_cumul B0 (pos b) \/ 0 < b_target_cumul B0 (pos b)) by (apply P3; eauto).
    destruct (P4 b Hb) as [_ [_ [_ [_ [_ [_ [_ [E1 [_ [_ E2]]]]]]]]]]. rewrite <- E1, <- E2 in X.
    destruct (built_fin inp B V H) as [st [pth [_ [F EB]]]].
    assert (S : b_source_cumul B b = b_target_cumul B b).
    { rewrite EB. unfold finish. cbn [b_source_cumul b_target_cumul]. unfold the_split. rewrite SM. reflexivity. }
    lia. }
  specialize (TR b Hb C). unfold filter_index_reads in I. destruct I as [<-|I]; [lia|].
  destruct (0 <? box_target_counts_nonchild (b_particles B) b); [|destruct I].
  destruct (Nat.ltb_spec (box_target_starts (b_particles B) b + box_target_counts_nonchild (b_particles B) b) (ntargets (b_particles B))); [|destruct I].
  destruct I as [<-|[]]. auto.
Qed.
Theorem C70_point_source_writes : forall t p pss order i, numbered t p ->
  (forall u, u < nsources p -> pss u < pss (S u)) -> Permutation order (seq 0 (nsources p)) ->
  In i (ps_put_indices p pss order) -> i < npoint_sources p pss.
Proof.
  intros t p pss order i N POS PO I. apply in_map_iff in I. destruct I as [k [<- Hk]]. apply (perm_seq_in _ _ _ PO) in Hk.
  assert (NE : npoint_sources p pss = ps_starts p pss (nsources p)) by (unfold npoint_sources; destruct (nsources p); auto).
  rewrite NE. assert (X := starts_mono p pss (S k) (nsources p) Hk). rewrite starts_S in X.
  assert (Y := POS _ (perm_fun_lt _ _ k (nb_sources _ _ N) Hk)). unfold ps_input in X. lia.
Qed.

(** ** The hypotheses hold for a built tree *)
Definition two_each : nat -> nat := fun u => u * 2.
Example ex_lists : exists B, build_tree linked_input = inl B /\ numbered (b_tree B) (b_particles B) /\
  valid_starts two_each (nsources (b_particles B)) /\
  map (find_box_nr_for_target (b_tree B) (b_particles B)) [0; 1; 2; 3] = [Some 8; Some 2; Some 3; None] /\
  map (fun b => csr_get (fst (filter_in_user_order (b_tree B) (b_particles B) Nat.even [0; 1; 2])) b) [8; 2; 3] = [[]; [0]; [2]] /\
  map (user_point_source_ids (b_particles B) two_each [2; 0; 3; 1]) (seq 0 8) = [6; 7; 4; 5; 2; 3; 0; 1].
Proof.
  destruct (build_tree linked_input) as [B|e] eqn:E; [|vm_compute in E; discriminate]. exists B. split; auto.
  destruct linked_valid as [V [NR _]]. split; [apply (C42_built_trees_qualify linked_input B V NR E)|].
  split; [split; [reflexivity|intros u _; unfold two_each; lia]|].
  assert (X : match build_tree linked_input with inl B =>
     (map (find_box_nr_for_target (b_tree B) (b_particles B)) [0; 1; 2; 3],
      map (fun b => csr_get (fst (filter_in_user_order (b_tree B) (b_particles B) Nat.even [0; 1; 2])) b) [8; 2; 3],
      map (user_point_source_ids (b_particles B) two_each [2; 0; 3; 1]) (seq 0 8)) | inr _ => ([], [], []) end =
     ([Some 8; Some 2; Some 3; None], [[]; [0]; [2]], [6; 7; 4; 5; 2; 3; 0; 1])) by (vm_compute; reflexivity).
  rewrite E in X. apply pair_equal_spec in X. destruct X as [X X3]. apply pair_equal_spec in X. destruct X as [X1 X2]. rewrite X1, X2, X3. auto.
Qed.

Print Assumptions C42_built_trees_qualify.
Print Assumptions C42_linked_point_sources.
Print Assumptions C42_refuted_for_empty_sources.
Print Assumptions C43_user_order.
Print Assumptions C43_tree_order.
Print Assumptions C45_find_box_nr.
Print Assumptions C45_no_box_beyond.
Print Assumptions C45_index_conversions.
Print Assumptions C70_reads_refuted.
Print Assumptions C70_writes_refuted.
Print Assumptions C70_filter_reads_shared_trees.
Print Assumptions C70_point_source_writes.
