(** * C105: linking point sources and filtering targets on the device *)
From Coq Require Import List Arith ZArith Lia Bool Permutation.
From Verif Require Import Base Tree Traversal TraversalLists Fmm SpecFmm TreeBuild SpecBuild ExampleBuild PropsBuild ParticleLists SpecLists ParticleListFacts PropsLists
  Kernel Device DeviceRuns DeviceSeq ListBuilder ListDevice SpecListDevice DevList DevListLink DevListFilter.
From Verif Require DevDist.
Import ListNotations.

(** Each source has a point source, boxes start at sources of the tree and end there. *)
Definition linkable (t : tree) (p : particles) (cumul pss : nat -> nat) : Prop :=
  pss 0 = 0 /\ (forall u, u < nsources p -> pss u < pss (S u)) /\
  (forall b, b < nboxes t -> box_source_starts p b < nsources p /\ (0 < cumul b -> box_source_starts p b + cumul b <= nsources p)).
Definition linking (t : tree) (p : particles) : host parr nat := link_program (nsources p) (nboxes t) (dim t).
Definition tree_filter (t : tree) (p : particles) : host parr nat := tree_order_program (ntargets p) (nboxes t) (dim t).
Definition user_filter (t : tree) (p : particles) : host parr nat := user_order_program (ntargets p) (nboxes t).

Lemma link_run t p cumul pss points d : numbered t p -> linkable t p cumul pss -> device_has_sources t p cumul pss points d ->
  safe parr parr_eq (linking t p) d /\ forall r d', completes parr parr_eq (linking t p) d r d' ->
  exists l, link_point_sources true p cumul pss points (seq 0 (nsources p)) 0 = Some l /\ r = l_npoint_sources l /\ device_has_linked t p l d'.
Proof.
  intros N [P0 [POS IN]] G.
  assert (I1 : starts_inside t p (box_source_counts_nonchild p)).
  { intros b Hb. split; [apply IN; auto|]. intros C. apply (owned_range t _ _ _ b (nb_own_sources _ _ N) Hb). lia. }
  assert (I2 : starts_inside t p cumul). { intros b Hb. destruct (IN b Hb) as [A B]. split; auto. intros C. apply B. lia. }
  destruct (link_ok t p cumul pss points (nb_sources _ _ N) P0 POS I1 I2 d (src_agrees t p cumul pss points d G)) as [S C].
  split; auto. intros r d' D. specialize (C r d' D). unfold link_point_sources in C. eexists. split; [reflexivity|]. exact C.
Qed.
Lemma tree_run t p targets flags d : numbered t p -> (forall b, b < nboxes t -> box_target_starts p b < ntargets p) -> device_has_targets t p targets flags d ->
  safe parr parr_eq (tree_filter t p) d /\ forall r d', completes parr parr_eq (tree_filter t p) d r d' ->
  r = f_nfiltered (filter_in_tree_order p targets flags (seq 0 (ntargets p)) 0) /\ device_has_filtered t (filter_in_tree_order p targets flags (seq 0 (ntargets p)) 0) d'.
Proof.
  intros N IN G. apply (tree_order_ok t p targets flags (nb_targets _ _ N) (fun j => cells d (Base UserFlags) (Z.of_nat j)) (t_flags _ _ _ _ _ G) IN d).
  apply (tgt_agrees t p targets flags _ d); auto.
Qed.
Lemma user_run t p targets flags d : numbered t p -> device_has_targets t p targets flags d ->
  safe parr parr_eq (user_filter t p) d /\ forall r d', completes parr parr_eq (user_filter t p) d r d' ->
  r = snd (filter_in_user_order t p flags (seq 0 (ntargets p))) /\ device_has_user_lists (fst (filter_in_user_order t p flags (seq 0 (ntargets p)))) d'.
Proof.
  intros N G. apply (user_order_ok t p targets flags (nb_targets _ _ N) (fun j => cells d (Base UserFlags) (Z.of_nat j)) (t_flags _ _ _ _ _ G)).
  - intros b Hb C. apply (owned_range t _ _ _ b (nb_own_targets _ _ N) Hb C).
  - apply (tgt_agrees t p targets flags _ d); auto.
Qed.

(** ** C105: no kernel accesses an array outside of its bounds, and the programs come to an end *)
Theorem C105_in_bounds t p cumul pss points targets flags d : numbered t p ->
  (linkable t p cumul pss -> device_has_sources t p cumul pss points d -> safe parr parr_eq (linking t p) d) /\
  ((forall b, b < nboxes t -> box_target_starts p b < ntargets p) -> device_has_targets t p targets flags d -> safe parr parr_eq (tree_filter t p) d) /\
  (device_has_targets t p targets flags d -> safe parr parr_eq (user_filter t p) d).
Proof.
  intros N. split; [|split].
  - intros L G. apply (link_run t p cumul pss points d N L G).
  - intros IN G. apply (tree_run t p targets flags d N IN G).
  - intros G. apply (user_run t p targets flags d N G).
Qed.
Theorem C105_ends t p cumul pss points targets flags d : numbered t p ->
  (linkable t p cumul pss -> device_has_sources t p cumul pss points d -> exists r d', completes parr parr_eq (linking t p) d r d') /\
  ((forall b, b < nboxes t -> box_target_starts p b < ntargets p) -> device_has_targets t p targets flags d -> exists r d', completes parr parr_eq (tree_filter t p) d r d') /\
  (device_has_targets t p targets flags d -> exists r d', completes parr parr_eq (user_filter t p) d r d').
Proof.
  intros N. destruct (C105_in_bounds t p cumul pss points targets flags d N) as [A [B C]]. split; [|split]; intros; apply safe_completes; auto.
Qed.

(** ** Whatever the order of the accesses, the results are those C42 and C43 describe *)
Theorem C105_device_links t p cumul pss points d r d' : numbered t p -> linkable t p cumul pss -> device_has_sources t p cumul pss points d ->
  completes parr parr_eq (linking t p) d r d' ->
  exists l, link_point_sources true p cumul pss points (seq 0 (nsources p)) 0 = Some l /\ r = l_npoint_sources l /\ device_has_linked t p l d'.
Proof. intros N L G C. apply (proj2 (link_run t p cumul pss points d N L G) r d' C). Qed.
Theorem C105_device_filters_in_tree_order t p targets flags d r d' : numbered t p -> (forall b, b < nboxes t -> box_target_starts p b < ntargets p) ->
  device_has_targets t p targets flags d -> completes parr parr_eq (tree_filter t p) d r d' ->
  let f := filter_in_tree_order p targets flags (seq 0 (ntargets p)) 0 in r = f_nfiltered f /\ device_has_filtered t f d'.
Proof. intros N IN G C. apply (proj2 (tree_run t p targets flags d N IN G) r d' C). Qed.
Theorem C105_device_filters_in_user_order t p targets flags d r d' : numbered t p ->
  device_has_targets t p targets flags d -> completes parr parr_eq (user_filter t p) d r d' ->
  let f := filter_in_user_order t p flags (seq 0 (ntargets p)) in r = snd f /\ device_has_user_lists (fst f) d'.
Proof. intros N G C. apply (proj2 (user_run t p targets flags d N G) r d' C). Qed.

(** ** What that means for the user: the contents of the arrays *)
(** the values of [n] cells from [s] on *)
Definition cells_of (d : device parr) (a : parr) (s n : nat) : list Z := map (fun k => cells d a (Z.of_nat k)) (seq s n).
Lemma holds_cells d a n f s m : array_holds d a n f -> s + m <= n -> cells_of d a s m = map f (seq s m).
Proof. intros [_ H] B. apply map_ext_in. intros k I. apply in_seq in I. apply H. lia. Qed.
(** The point sources of each source are next to each other, from its entry of the starts on, with
    the coordinates the user gave, and the point sources of each box are those of its sources. *)
Theorem C105_point_sources_on_the_device t p cumul pss points d r d' : numbered t p -> linkable t p cumul pss -> device_has_sources t p cumul pss points d ->
  completes parr parr_eq (linking t p) d r d' ->
  let numbers us := map Z.of_nat (flat_map (points_of pss) us) in
  r = pss (nsources p) /\ size d' (Base PointIds) = Z.of_nat (pss (nsources p)) /\
  (forall i, i < nsources p -> exists s, cells d' (Base LinkStarts) (Z.of_nat i) = Z.of_nat s /\
     let n := pss (S (user_source_ids p i)) - pss (user_source_ids p i) in
     cells d' (Base LinkCounts) (Z.of_nat i) = Z.of_nat n /\ s + n <= pss (nsources p) /\ cells_of d' (Base PointIds) s n = numbers [user_source_ids p i]) /\
  (forall b, b < nboxes t -> exists s n, cells d' (Base BoxPoints) (Z.of_nat b) = Z.of_nat s /\ cells d' (Base BoxPointCounts) (Z.of_nat b) = Z.of_nat n /\
     cells_of d' (Base PointIds) s n = numbers (map (user_source_ids p) (seq (box_source_starts p b) (box_source_counts_nonchild p b)))) /\
  (forall b, b < nboxes t -> exists s n, cells d' (Base BoxPoints) (Z.of_nat b) = Z.of_nat s /\ cells d' (Base BoxPointCumul) (Z.of_nat b) = Z.of_nat n /\
     cells_of d' (Base PointIds) s n = numbers (map (user_source_ids p) (seq (box_source_starts p b) (cumul b)))) /\
  (forall k a, k < pss (nsources p) -> a < dim t -> exists u, cells d' (Base PointIds) (Z.of_nat k) = Z.of_nat u /\ u < pss (nsources p) /\
     cells d' (Base (LinkedCoord a)) (Z.of_nat k) = points u a).
Proof.
  intros N LK G C numbers. destruct (C105_device_links t p cumul pss points d r d' N LK G C) as [l [E [-> L]]]. destruct LK as [P0 [POS IN]].
  assert (VS : valid_starts pss (nsources p)) by (split; auto; intros u Hu; assert (X := POS u Hu); lia).
  destruct (C42_linked_point_sources t p cumul pss points (seq 0 (nsources p)) 0 l N VS (Permutation_refl _) (fun b Hb => proj2 (IN b Hb)) (or_introl POS) E) as [NP [_ [PERM [CO [SO BX]]]]].
  rewrite NP in *. destruct L as [L1 L2 L3 L4 L5 L6 L7]. rewrite NP in *.
  (* a range of point sources that are known lies in the array *)
  assert (ST : forall i, ps_starts p pss (nsources p) = pss (nsources p) /\ (i <= nsources p -> ps_starts p pss i <= pss (nsources p))).
  { assert (X : ps_starts p pss (nsources p) = pss (nsources p)) by (unfold link_point_sources in E; injection E as <-; cbn [l_npoint_sources] in NP; unfold npoint_sources in NP; destruct (nsources p); auto).
    intros i. split; auto. intros Hi. rewrite <- X. apply starts_mono. auto. }
  assert (EL := E). unfold link_point_sources in EL. injection EL as EL.
  assert (BI : forall cnt b, b < nboxes t -> (0 < cnt b -> box_source_starts p b + cnt b <= nsources p) ->
    box_ps_starts p pss 0 (box_source_starts p) b + box_ps_counts p pss 0 (box_source_starts p) cnt b <= pss (nsources p)).
  { intros cnt b Hb RG. destruct (IN b Hb) as [I1 _]. unfold box_ps_counts, box_ps_starts, read. rewrite (proj2 (Nat.ltb_lt _ _) I1).
    destruct (Nat.eqb_spec (cnt b) 0) as [Z|Z]; [rewrite Nat.add_0_r; apply (proj2 (ST _)); lia|]. specialize (RG ltac:(lia)).
    rewrite !(proj2 (Nat.ltb_lt (box_source_starts p b + cnt b - 1) _)) by lia. rewrite ps_counts_eq, <- starts_S.
    replace (S (box_source_starts p b + cnt b - 1)) with (box_source_starts p b + cnt b) by lia.
    assert (X := starts_mono p pss (box_source_starts p b) (box_source_starts p b + cnt b) ltac:(lia)). assert (Y := proj2 (ST (box_source_starts p b + cnt b)) RG). lia. }
  assert (NM : forall us, map (fun k => Z.of_nat (l_user_ids l k)) us = map Z.of_nat (map (l_user_ids l) us)) by (intros us; rewrite map_map; auto).
  assert (FM : forall us, flat_map (fun i => points_of pss (user_source_ids p i)) us = flat_map (points_of pss) (map (user_source_ids p) us)).
  { induction us as [|u us IH]; auto. cbn [flat_map map]. rewrite IH. auto. }
  assert (BOX : forall cnt b, b < nboxes t -> (0 < cnt b -> box_source_starts p b + cnt b <= nsources p) ->
    map (l_user_ids l) (seq (l_box_starts l b) (box_ps_counts p pss 0 (box_source_starts p) cnt b)) = flat_map (fun i => points_of pss (user_source_ids p i)) (seq (box_source_starts p b) (cnt b)) ->
    cells_of d' (Base PointIds) (l_box_starts l b) (box_ps_counts p pss 0 (box_source_starts p) cnt b) = numbers (map (user_source_ids p) (seq (box_source_starts p b) (cnt b)))).
  { intros cnt b Hb RG X. rewrite (holds_cells d' (Base PointIds) _ _ _ _ L3); [|assert (Y := BI cnt b Hb RG); rewrite <- EL; cbn [l_box_starts]; exact Y].
    rewrite NM, X, FM. reflexivity. }
  split; auto. split; [apply L3|]. split; [|split; [|split]].
  - intros i Hi. exists (l_starts l i). split; [apply L1; auto|]. cbv zeta.
    assert (CN : l_counts l i = pss (S (user_source_ids p i)) - pss (user_source_ids p i)) by (rewrite <- EL; cbn [l_counts]; rewrite ps_counts_eq; reflexivity).
    assert (BN : l_starts l i + l_counts l i <= pss (nsources p)).
    { rewrite <- EL. cbn [l_counts l_starts]. rewrite ps_counts_eq, <- starts_S. apply (proj2 (ST (S i))). lia. }
    rewrite <- CN. split; [apply L2; auto|]. split; auto. rewrite (holds_cells d' (Base PointIds) _ _ _ _ L3) by auto. rewrite NM, SO by auto. unfold numbers. cbn [flat_map]. rewrite app_nil_r. auto.
  - intros b Hb. exists (l_box_starts l b), (l_box_counts_nonchild l b). split; [apply L5; auto|]. split; [apply L6; auto|]. destruct (BX b Hb) as [X _].
    assert (CE : l_box_counts_nonchild l b = box_ps_counts p pss 0 (box_source_starts p) (box_source_counts_nonchild p) b) by (rewrite <- EL; auto). rewrite CE in X |- *.
    apply (BOX (box_source_counts_nonchild p) b Hb); [apply (owned_range t _ _ _ b (nb_own_sources _ _ N) Hb)|exact X].
  - intros b Hb. exists (l_box_starts l b), (l_box_counts_cumul l b). split; [apply L5; auto|]. split; [apply L7; auto|]. destruct (BX b Hb) as [_ X].
    assert (CE : l_box_counts_cumul l b = box_ps_counts p pss 0 (box_source_starts p) cumul b) by (rewrite <- EL; auto). rewrite CE in X |- *.
    apply (BOX cumul b Hb); [apply (IN b Hb)|exact X].
  - intros k a Hk Ha. exists (l_user_ids l k). split; [apply L3; auto|]. split.
    + assert (I : In (l_user_ids l k) (seq 0 (pss (nsources p)))). { apply (Permutation_in _ PERM). apply in_map. apply in_seq. lia. } apply in_seq in I. lia.
    + rewrite (proj2 (L4 a Ha) k Hk). apply CO.
Qed.

(** The filtered targets of each box in tree order: those of its targets whose flag is not zero. *)
Definition wants (d : device parr) (p : particles) (j : nat) : Prop := j < ntargets p /\ cells d (Base UserFlags) (Z.of_nat j) <> 0%Z.
Theorem C105_filtered_targets_on_the_device t p targets flags d r d' : numbered t p -> (forall b, b < nboxes t -> box_target_starts p b < ntargets p) ->
  device_has_targets t p targets flags d -> completes parr parr_eq (tree_filter t p) d r d' ->
  (forall b, b < nboxes t -> exists s n, cells d' (Base FilteredStarts) (Z.of_nat b) = Z.of_nat s /\ cells d' (Base FilteredCounts) (Z.of_nat b) = Z.of_nat n /\
     (forall i, s <= i < s + n -> i < r) /\
     forall k, (exists i, s <= i < s + n /\ cells d' (Base FromFilteredCut) (Z.of_nat i) = Z.of_nat k) <-> own_target p b k /\ exists j, wants d p j /\ sorted_target_ids p j = k) /\
  (forall i a, i < r -> a < dim t -> exists k, cells d' (Base FromFilteredCut) (Z.of_nat i) = Z.of_nat k /\ k < ntargets p /\ cells d' (Base (FilteredCoord a)) (Z.of_nat i) = targets k a).
Proof.
  intros N IN G C. destruct (C105_device_filters_in_tree_order t p targets flags d r d' N IN G C) as [-> F].
  destruct (C43_tree_order t p targets flags (seq 0 (ntargets p)) 0 N (Permutation_refl _)) as [_ [_ [FA [CO BX]]]]. cbv zeta in *. set (f := filter_in_tree_order p targets flags (seq 0 (ntargets p)) 0) in *.
  assert (TF := t_flags _ _ _ _ _ G). destruct F as [F1 F2 F3 F4]. clearbody f. split.
  - intros b Hb. exists (f_box_starts f b), (f_box_counts f b). split; [apply F3; auto|]. split; [apply F4; auto|]. split; [intros i Hi; apply (BX b Hb); auto|]. intros k. split.
    + intros [i [Hi E]]. apply (BX b Hb) in Hi. destruct Hi as [Hi O]. rewrite (proj2 F1 i Hi) in E. apply Nat2Z.inj in E. subst k. split; auto.
      destruct (proj1 (FA (f_unfiltered f i)) (ex_intro _ i (conj Hi eq_refl))) as [j [Hj [FJ EJ]]]. exists j. split; auto. split; auto. apply TF; auto.
    + intros [O [j [[Hj FJ] EJ]]]. destruct (proj2 (FA k)) as [i [Hi Ei]]. { exists j. split; auto. split; auto. apply TF; auto. } exists i. subst k.
      split; [apply (BX b Hb); split; auto; rewrite Ei; auto|]. rewrite (proj2 F1 i Hi), Ei. auto.
  - intros i a Hi Ha. exists (f_unfiltered f i). split; [apply F1; auto|]. split.
    + destruct (proj1 (FA (f_unfiltered f i)) (ex_intro _ i (conj Hi eq_refl))) as [j [Hj [_ <-]]]. apply (perm_fun_lt _ _ j (nb_targets _ _ N) Hj).
    + rewrite (proj2 (F2 a Ha) i Hi). apply CO.
Qed.
Lemma in_row (l : list nat) s e x : s <= e <= length l -> (In x (firstn (e - s) (skipn s l)) <-> exists j, s <= j < e /\ nth j l 0 = x).
Proof. exact (DevDist.in_row l s e x). Qed.
(** and in user order *)
Theorem C105_user_lists_on_the_device t p targets flags d r d' : numbered t p -> device_has_targets t p targets flags d -> completes parr parr_eq (user_filter t p) d r d' ->
  forall b, b < nboxes t -> exists s e, cells d' (Starts FiltTgtList) (Z.of_nat b) = Z.of_nat s /\ cells d' (Starts FiltTgtList) (Z.of_nat (S b)) = Z.of_nat e /\ s <= e <= r /\
    forall j, (exists i, s <= i < e /\ cells d' (Lists FiltTgtList) (Z.of_nat i) = Z.of_nat j) <-> wants d p j /\ own_target p b (sorted_target_ids p j).
Proof.
  intros N G C b Hb. destruct (C105_device_filters_in_user_order t p targets flags d r d' N G C) as [-> [[_ U1] [_ U2]]].
  assert (UO := C43_user_order t p flags (seq 0 (ntargets p)) N (Permutation_refl _)). unfold filter_in_user_order in *. cbv zeta in UO. cbn [fst snd] in *.
  destruct UO as [UO _]. destruct (UO b Hb) as [UB _]. assert (TF := t_flags _ _ _ _ _ G). clear UO. set (ll := map (user_order_list p flags (seq 0 (ntargets p))) (seq 0 (nboxes t))) in *.
  assert (LL : length ll = nboxes t) by (unfold ll; rewrite map_length, seq_length; auto). clearbody ll.
  assert (LS : length (starts (csr_of ll)) = S (nboxes t)) by (cbn [csr_of starts]; rewrite prefix_from_length, map_length; auto).
  exists (nth b (starts (csr_of ll)) 0), (nth (S b) (starts (csr_of ll)) 0). split; [apply U1; lia|]. split; [apply U1; lia|].
  assert (BN : nth b (starts (csr_of ll)) 0 <= nth (S b) (starts (csr_of ll)) 0 <= length (lists (csr_of ll))).
  { cbn [csr_of starts lists]. rewrite !prefix_from_nth by (rewrite map_length; lia). rewrite <- LL in Hb. clear - Hb. revert b Hb. induction ll as [|l ll IH]; intros b Hb; [cbn in Hb; lia|].
    cbn [length] in Hb. cbn [concat map]. rewrite app_length. destruct b as [|b]; [cbn; lia|]. specialize (IH b ltac:(lia)). cbn [firstn nsum fold_right] in *. cbn [nsum] in *. unfold nsum in *. cbn [fold_right] in *. lia. }
  split; auto. intros j. specialize (UB j). unfold csr_get in UB. rewrite (in_row _ _ _ j BN) in UB. split.
  - intros [i [Hi E]]. rewrite (U2 i ltac:(lia)) in E. apply Nat2Z.inj in E. destruct (proj1 UB (ex_intro _ i (conj Hi E))) as [Hj [FJ O]]. split; auto. split; auto. apply TF; auto.
  - intros [[Hj FJ] O]. destruct (proj2 UB) as [i [Hi E]]. { split; auto. split; auto. apply TF; auto. } exists i. split; auto. rewrite U2 by lia. rewrite E. auto.
Qed.

(** Two runs on devices that agree on nothing but the arguments end with the same results. *)
Theorem C105_order_independent t p cumul pss points targets flags d1 d2 r1 r2 d1' d2' : numbered t p ->
  (linkable t p cumul pss -> device_has_sources t p cumul pss points d1 -> device_has_sources t p cumul pss points d2 ->
   completes parr parr_eq (linking t p) d1 r1 d1' -> completes parr parr_eq (linking t p) d2 r2 d2' ->
   r1 = r2 /\ exists l, device_has_linked t p l d1' /\ device_has_linked t p l d2') /\
  ((forall b, b < nboxes t -> box_target_starts p b < ntargets p) -> device_has_targets t p targets flags d1 -> device_has_targets t p targets flags d2 ->
   completes parr parr_eq (tree_filter t p) d1 r1 d1' -> completes parr parr_eq (tree_filter t p) d2 r2 d2' ->
   r1 = r2 /\ exists f, device_has_filtered t f d1' /\ device_has_filtered t f d2') /\
  (device_has_targets t p targets flags d1 -> device_has_targets t p targets flags d2 ->
   completes parr parr_eq (user_filter t p) d1 r1 d1' -> completes parr parr_eq (user_filter t p) d2 r2 d2' ->
   r1 = r2 /\ exists c, device_has_user_lists c d1' /\ device_has_user_lists c d2').
Proof.
  intros N. split; [|split].
  - intros L G1 G2 C1 C2. destruct (C105_device_links t p cumul pss points d1 r1 d1' N L G1 C1) as [l [E [-> H1]]].
    destruct (C105_device_links t p cumul pss points d2 r2 d2' N L G2 C2) as [l2 [E2 [-> H2]]]. rewrite E in E2. injection E2 as <-. eauto.
  - intros IN G1 G2 C1 C2. destruct (C105_device_filters_in_tree_order t p targets flags d1 r1 d1' N IN G1 C1) as [-> H1].
    destruct (C105_device_filters_in_tree_order t p targets flags d2 r2 d2' N IN G2 C2) as [-> H2]. eauto.
  - intros G1 G2 C1 C2. destruct (C105_device_filters_in_user_order t p targets flags d1 r1 d1' N G1 C1) as [-> H1].
    destruct (C105_device_filters_in_user_order t p targets flags d2 r2 d2' N G2 C2) as [-> H2]. eauto.
Qed.

(** Filtering pruned trees whose sources are the targets is always in bounds. *)
Theorem C105_filter_of_shared_trees inp B targets flags d :
  valid_input inp -> not_restricted_with_extents inp -> same inp = true -> skip_prune inp = false -> build_tree inp = inl B ->
  device_has_targets (b_tree B) (b_particles B) targets flags d -> safe parr parr_eq (tree_filter (b_tree B) (b_particles B)) d.
Proof.
  intros V NR SM SK H G. destruct (C42_built_trees_qualify inp B V NR H) as [N _].
  apply (C105_in_bounds (b_tree B) (b_particles B) (fun _ => 0) (fun _ => 0) targets targets flags d N); auto.
  intros b Hb. apply (C70_filter_reads_shared_trees inp B b); auto. left. auto.
Qed.

(** ** Cases meeting the hypotheses: two built trees *)
Definition source_device (t : tree) (p : particles) (cumul pss : nat -> nat) (points : nat -> nat -> Z) : device parr :=
  let per_box (f : nat -> nat) := (fun k : Z => Z.of_nat (f (Z.to_nat k)), Z.of_nat (nboxes t)) in
  let contents (a : parr) : (Z -> Z) * Z := match a with
    | Base PointStarts => (fun k => Z.of_nat (pss (Z.to_nat k)), Z.of_nat (nsources p + 1))
    | Base (PointCoord a) => (fun k => points (Z.to_nat k) a, Z.of_nat (pss (nsources p)))
    | Base SourceIds => (fun k => Z.of_nat (user_source_ids p (Z.to_nat k)), Z.of_nat (nsources p))
    | Base BoxSources => per_box (box_source_starts p) | Base BoxSourceCounts => per_box (box_source_counts_nonchild p) | Base BoxSourceCumul => per_box cumul
    | _ => (fun _ => 0%Z, 0%Z) end in
  mkDevice (fun a => fst (contents a)) (fun a => snd (contents a)).
Lemma source_device_ok t p cumul pss points : device_has_sources t p cumul pss points (source_device t p cumul pss points).
Proof. constructor; unfold array_holds; cbn [source_device cells size fst snd]; intros; (split; auto; intros; rewrite Nat2Z.id; auto). Qed.
Definition target_device (t : tree) (p : particles) (targets : nat -> nat -> Z) (flags : nat -> bool) : device parr :=
  let per_box (f : nat -> nat) := (fun k : Z => Z.of_nat (f (Z.to_nat k)), Z.of_nat (nboxes t)) in
  let contents (a : parr) : (Z -> Z) * Z := match a with
    | Base TargetIds => (fun k => Z.of_nat (sorted_target_ids p (Z.to_nat k)), Z.of_nat (ntargets p))
    | Base (TargetCoord a) => (fun k => targets (Z.to_nat k) a, Z.of_nat (ntargets p))
    | Base BoxTargets => per_box (box_target_starts p) | Base BoxTargetCounts => per_box (box_target_counts_nonchild p)
    | Base UserFlags => (fun k => if flags (Z.to_nat k) then 7%Z else 0%Z, Z.of_nat (ntargets p))
    | _ => (fun _ => 0%Z, 0%Z) end in
  mkDevice (fun a => fst (contents a)) (fun a => snd (contents a)).
Lemma target_device_ok t p targets flags : device_has_targets t p targets flags (target_device t p targets flags).
Proof.
  constructor; unfold array_holds; cbn [target_device cells size fst snd]; intros; try (split; auto; intros; rewrite Nat2Z.id; auto); auto.
  rewrite Nat2Z.id. destruct (flags j); split; auto; intros X; try discriminate.
Qed.
Definition some_points (u a : nat) : Z := Z.of_nat (100 * a + u).
Definition all_below (n : nat) (f : nat -> bool) : bool := forallb f (seq 0 n).
Lemma all_below_spec n f : all_below n f = true -> forall b, b < n -> f b = true.
Proof. unfold all_below. rewrite forallb_forall. intros H b Hb. apply H. apply in_seq. lia. Qed.
Definition numbers_in (d : device parr) (a : parray) : list Z := map (fun k => cells d (Base a) (Z.of_nat k)) (seq 0 (Z.to_nat (size d (Base a)))).
Example C105_link_case : exists B, build_tree linked_input = inl B /\ numbered (b_tree B) (b_particles B) /\
  linkable (b_tree B) (b_particles B) (b_source_cumul B) two_each /\
  device_has_sources (b_tree B) (b_particles B) (b_source_cumul B) two_each some_points (source_device (b_tree B) (b_particles B) (b_source_cumul B) two_each some_points) /\
  option_map (fun rd => (fst rd, numbers_in (snd rd) PointIds, numbers_in (snd rd) (LinkedCoord 1), numbers_in (snd rd) BoxPoints, numbers_in (snd rd) BoxPointCumul))
    (seq_run parr parr_eq (linking (b_tree B) (b_particles B)) (source_device (b_tree B) (b_particles B) (b_source_cumul B) two_each some_points)) =
    Some (8, [6; 7; 4; 5; 2; 3; 0; 1]%Z, [106; 107; 104; 105; 102; 103; 100; 101]%Z, [0; 0; 4; 4; 6; 0; 0; 2; 4]%Z, [8; 4; 0; 2; 2; 4; 2; 2; 0]%Z).
Proof.
  destruct (build_tree linked_input) as [B|e] eqn:E; [|vm_compute in E; discriminate]. exists B. split; auto. destruct linked_valid as [V [NR _]].
  destruct (C42_built_trees_qualify linked_input B V NR E) as [N [CU _]]. split; auto.
  assert (X : match build_tree linked_input with inl B => (all_below (nboxes (b_tree B)) (fun b => box_source_starts (b_particles B) b <? nsources (b_particles B)),
      option_map (fun rd => (fst rd, numbers_in (snd rd) PointIds, numbers_in (snd rd) (LinkedCoord 1), numbers_in (snd rd) BoxPoints, numbers_in (snd rd) BoxPointCumul))
        (seq_run parr parr_eq (linking (b_tree B) (b_particles B)) (source_device (b_tree B) (b_particles B) (b_source_cumul B) two_each some_points))) | inr _ => (false, None) end =
    (true, Some (8, [6; 7; 4; 5; 2; 3; 0; 1]%Z, [106; 107; 104; 105; 102; 103; 100; 101]%Z, [0; 0; 4; 4; 6; 0; 0; 2; 4]%Z, [8; 4; 0; 2; 2; 4; 2; 2; 0]%Z))) by (vm_compute; reflexivity).
  rewrite E in X. apply pair_equal_spec in X. destruct X as [X1 X2]. split; [|split; [apply source_device_ok|exact X2]].
  split; [reflexivity|]. split; [intros u _; unfold two_each; lia|]. intros b Hb. split; [|apply CU; auto]. apply Nat.ltb_lt. apply (all_below_spec _ _ X1 b Hb).
Qed.
Example C105_filter_case : exists B, build_tree far_input = inl B /\ numbered (b_tree B) (b_particles B) /\
  (forall b, b < nboxes (b_tree B) -> box_target_starts (b_particles B) b < ntargets (b_particles B)) /\
  device_has_targets (b_tree B) (b_particles B) some_points Nat.even (target_device (b_tree B) (b_particles B) some_points Nat.even) /\
  option_map (fun rd => (fst rd, numbers_in (snd rd) FromFilteredCut, numbers_in (snd rd) (FilteredCoord 1), numbers_in (snd rd) FilteredStarts, numbers_in (snd rd) FilteredCounts))
    (seq_run parr parr_eq (tree_filter (b_tree B) (b_particles B)) (target_device (b_tree B) (b_particles B) some_points Nat.even)) =
    Some (2, [1; 2]%Z, [101; 102]%Z, [0; 0; 0; 1; 1; 0; 0; 0; 0]%Z, [0; 0; 1; 0; 1; 0; 0; 0; 0]%Z) /\
  option_map fst (seq_run parr parr_eq (user_filter (b_tree B) (b_particles B)) (target_device (b_tree B) (b_particles B) some_points Nat.even)) = Some 2.
Proof.
  destruct (build_tree far_input) as [B|e] eqn:E; [|vm_compute in E; discriminate]. exists B. split; auto. destruct linked_valid as [_ [_ [V NR]]].
  destruct (C42_built_trees_qualify far_input B V NR E) as [N _]. split; auto.
  assert (X : match build_tree far_input with inl B => (all_below (nboxes (b_tree B)) (fun b => box_target_starts (b_particles B) b <? ntargets (b_particles B)),
      option_map (fun rd => (fst rd, numbers_in (snd rd) FromFilteredCut, numbers_in (snd rd) (FilteredCoord 1), numbers_in (snd rd) FilteredStarts, numbers_in (snd rd) FilteredCounts))
        (seq_run parr parr_eq (tree_filter (b_tree B) (b_particles B)) (target_device (b_tree B) (b_particles B) some_points Nat.even)),
      option_map fst (seq_run parr parr_eq (user_filter (b_tree B) (b_particles B)) (target_device (b_tree B) (b_particles B) some_points Nat.even))) | inr _ => (false, None, None) end =
    (true, Some (2, [1; 2]%Z, [101; 102]%Z, [0; 0; 0; 1; 1; 0; 0; 0; 0]%Z, [0; 0; 1; 0; 1; 0; 0; 0; 0]%Z), Some 2)) by (vm_compute; reflexivity).
  rewrite E in X. apply pair_equal_spec in X. destruct X as [X X3]. apply pair_equal_spec in X. destruct X as [X1 X2].
  split; [|split; [apply target_device_ok|split; [exact X2|exact X3]]]. intros b Hb. apply Nat.ltb_lt. apply (all_below_spec _ _ X1 b Hb).
Qed.

(** ** Refuted without these conditions: on other built trees, and with a source without point
    sources, a kernel leaves its arrays *)
Definition last_empty : nat -> nat := fun u => nth u [0; 0; 1; 2; 4] 0.
Definition leaves_arrays (h : host parr nat) (d : device parr) : bool := match seq_run parr parr_eq h d with None => true | Some _ => false end.
Lemma leaves_unsafe h d : leaves_arrays h d = true -> ~ safe parr parr_eq h d.
Proof. unfold leaves_arrays. intros H. destruct (seq_run parr parr_eq h d) eqn:E; [discriminate|]. apply seq_none_unsafe. auto. Qed.
Theorem C105_in_bounds_refuted :
  (exists inp B, valid_input inp /\ not_restricted_with_extents inp /\ build_tree inp = inl B /\ valid_starts two_each (nsources (b_particles B)) /\
     exists d, device_has_sources (b_tree B) (b_particles B) (b_source_cumul B) two_each some_points d /\ ~ safe parr parr_eq (linking (b_tree B) (b_particles B)) d) /\
  (exists inp B, valid_input inp /\ not_restricted_with_extents inp /\ build_tree inp = inl B /\
     exists d, device_has_targets (b_tree B) (b_particles B) some_points Nat.even d /\ ~ safe parr parr_eq (tree_filter (b_tree B) (b_particles B)) d) /\
  (exists inp B, valid_input inp /\ not_restricted_with_extents inp /\ build_tree inp = inl B /\ valid_starts last_empty (nsources (b_particles B)) /\
     (forall b, b < nboxes (b_tree B) -> box_source_starts (b_particles B) b < nsources (b_particles B)) /\
     exists d, device_has_sources (b_tree B) (b_particles B) (b_source_cumul B) last_empty some_points d /\ ~ safe parr parr_eq (linking (b_tree B) (b_particles B)) d).
Proof.
  destruct linked_valid as [V1 [NR1 [V2 NR2]]]. split; [|split].
  - exists far_input. destruct (build_tree far_input) as [B|e] eqn:E; [|vm_compute in E; discriminate]. exists B. split; auto. split; auto. split; auto.
    split; [split; [reflexivity|intros u _; unfold two_each; lia]|].
    assert (X : match build_tree far_input with inl B => leaves_arrays (linking (b_tree B) (b_particles B)) (source_device (b_tree B) (b_particles B) (b_source_cumul B) two_each some_points) | inr _ => false end = true) by (vm_compute; reflexivity).
    rewrite E in X. eexists. split; [apply source_device_ok|]. apply leaves_unsafe. exact X.
  - exists linked_input. destruct (build_tree linked_input) as [B|e] eqn:E; [|vm_compute in E; discriminate]. exists B. split; auto. split; auto. split; auto.
    assert (X : match build_tree linked_input with inl B => leaves_arrays (tree_filter (b_tree B) (b_particles B)) (target_device (b_tree B) (b_particles B) some_points Nat.even) | inr _ => false end = true) by (vm_compute; reflexivity).
    rewrite E in X. eexists. split; [apply target_device_ok|]. apply leaves_unsafe. exact X.
  - exists linked_input. destruct (build_tree linked_input) as [B|e] eqn:E; [|vm_compute in E; discriminate]. exists B. split; auto. split; auto. split; auto.
    assert (X : match build_tree linked_input with inl B => (nsources (b_particles B), all_below (nboxes (b_tree B)) (fun b => box_source_starts (b_particles B) b <? nsources (b_particles B)),
       leaves_arrays (linking (b_tree B) (b_particles B)) (source_device (b_tree B) (b_particles B) (b_source_cumul B) last_empty some_points)) | inr _ => (0, false, false) end = (4, true, true)) by (vm_compute; reflexivity).
    rewrite E in X. apply pair_equal_spec in X. destruct X as [X X3]. apply pair_equal_spec in X. destruct X as [X1 X2].
    split; [rewrite X1; split; auto; intros u Hu; unfold last_empty; do 4 (destruct u; [simpl; lia|]); lia|].
    split; [intros b Hb; apply Nat.ltb_lt; apply (all_below_spec _ _ X2 b Hb)|]. eexists. split; [apply source_device_ok|]. apply leaves_unsafe. exact X3.
Qed.

Print Assumptions C105_in_bounds.
Print Assumptions C105_ends.
Print Assumptions C105_device_links.
Print Assumptions C105_device_filters_in_tree_order.
Print Assumptions C105_device_filters_in_user_order.
Print Assumptions C105_point_sources_on_the_device.
Print Assumptions C105_filtered_targets_on_the_device.
Print Assumptions C105_user_lists_on_the_device.
Print Assumptions C105_order_independent.
Print Assumptions C105_filter_of_shared_trees.
Print Assumptions C105_in_bounds_refuted.
