(** The particles and lists of a rank, computed on its device, are those of LocalTree.v. *)
From Coq Require Import List Arith ZArith NArith Lia Bool Permutation.
From Verif Require Import Base Tree Walk Traversal TraversalLists Spec SpecTraversal Coverage Fmm SpecFmm FmmThm Partition PartitionFacts LocalTree LocalFacts Kernel Device DeviceRules DeviceFacts
  DistDevice SpecDistDevice DevDist DevDistMasks.
From Verif Require TreeBuild.
Import ListNotations.

(** ** The lists of a traversal that was built, or built and merged, fit *)
Lemma fits_of nb boxes ll : (forall b, In b boxes -> b < nb) -> length ll = length boxes -> (forall x, In x (concat ll) -> x < nb) -> list_fits nb boxes (csr_of ll).
Proof.
  intros B L E. assert (LN : length (map (@length nat) ll) = length boxes) by (rewrite map_length; auto). constructor; auto.
  - unfold csr_of. cbn [starts]. rewrite prefix_from_length. lia.
  - intros i Hi. unfold csr_of. cbn [starts lists]. rewrite !prefix_from_nth by lia.
    assert (T : length (concat ll) = nsum (map (@length nat) ll)).
    { clear. induction ll as [|x l IH]; auto. cbn [concat map]. rewrite app_length, IH. reflexivity. }
    rewrite T. assert (S2 := nsum_app (firstn (S i) (map (@length nat) ll)) (skipn (S i) (map (@length nat) ll))). rewrite firstn_skipn in S2.
    assert (S1 : nsum (firstn i (map (@length nat) ll)) <= nsum (firstn (S i) (map (@length nat) ll))).
    { clear. generalize (map (@length nat) ll). intros l. revert i. induction l as [|x l IH]; intros [|i]; cbn [firstn]; auto.
      - cbn. lia.
      - specialize (IH i). change (x + nsum (firstn i l) <= x + nsum (firstn (S i) l)). lia. }
    lia.
Qed.
Lemma in_get c i x : In x (csr_get c i) -> In x (lists c).
Proof.
  unfold csr_get. intros H. assert (H1 := firstn_skipn (nth (S i) (starts c) 0 - nth i (starts c) 0) (skipn (nth i (starts c) 0) (lists c))).
  rewrite <- (firstn_skipn (nth i (starts c) 0) (lists c)). apply in_app_iff. right. rewrite <- H1. apply in_app_iff. left. exact H.
Qed.
Lemma fits_merge nb boxes idx cs : (forall b, In b boxes -> b < nb) -> length idx = length boxes ->
  (forall c, In c cs -> forall x, In x (lists c) -> x < nb) -> list_fits nb boxes (merge_lists idx cs).
Proof.
  intros B L E. unfold merge_lists. apply fits_of; auto; [rewrite map_length; auto|]. intros x I.
  apply in_concat_map in I. destruct I as [i [_ I]]. apply in_concat_map in I. destruct I as [c [Ic I]]. apply (E c Ic). eapply in_get; eauto.
Qed.
Lemma built_fits t P tr : wf_tree t -> wf_params t P -> build_traversal t P = Some tr -> trav_fits t tr.
Proof.
  intros W WP E. rewrite (build_traversal_eq t W P (proj1 WP)) in E. injection E as <-. set (n := well_sep_is_n_away P).
  assert (TB := tb_range t P (proj1 WP)). assert (TP := ttpb_range t P (proj1 WP)).
  assert (R4 : forall tag A x, In A (find_target_or_target_parent_boxes t) -> In x (pick tag (list4_list t n (extents P) A)) -> x < nboxes t).
  { intros tag A x HA I. unfold pick in I. apply in_map_iff in I. destruct I as [q [<- I]]. apply filter_In in I. apply (list4_list_range t n (extents P) A q); auto; [apply WP|apply I]. }
  assert (R3 : forall tag slev A x, In A (find_target_boxes t P) -> In x (pick tag (list3_list t n (extents P) slev A)) -> x < nboxes t).
  { intros tag slev A x HA I. unfold pick in I. apply in_map_iff in I. destruct I as [q [<- I]]. apply filter_In in I. eapply list3_in_range; eauto. apply I. }
  constructor; unfold the_traversal; fold n; cbn [target_boxes neighbor_source_boxes target_or_target_parent_boxes from_sep_siblings from_sep_bigger from_sep_smaller_by_level
    from_sep_close_smaller from_sep_close_bigger].
  - apply fits_of; auto; [apply map_length|]. intros x I. apply in_concat_map in I. destruct I as [b [Hb I]]. eapply list1_in_range; eauto.
  - apply fits_of; auto; [apply map_length|]. intros x I. apply in_concat_map in I. destruct I as [b [Hb I]]. eapply list2_in_range in I; eauto; [tauto|apply WP].
  - apply fits_of; auto; [apply map_length|]. intros x I. apply in_concat_map in I. destruct I as [b [Hb I]]. eapply R4; eauto.
  - rewrite map_length, seq_length. auto.
  - intros lev HL. rewrite (nth_indep _ _ (eliminate_empty (find_target_boxes t P) (map (fun b => pick true (list3_list t n (extents P) (Some 0) b)) (find_target_boxes t P))))
      by (rewrite map_length, seq_length; auto).
    rewrite (map_nth (fun l => eliminate_empty (find_target_boxes t P) (map (fun b => pick true (list3_list t n (extents P) (Some l) b)) (find_target_boxes t P)))), seq_nth by auto.
    unfold eliminate_empty. cbn [fst snd plus]. rewrite combine_map_r. set (ne := filter _ _).
    assert (NE : forall q, In q ne -> In (fst q) (find_target_boxes t P) /\ snd q = pick true (list3_list t n (extents P) (Some lev) (fst q))).
    { intros q I. unfold ne in I. apply filter_In in I. destruct I as [I _]. apply in_map_iff in I. destruct I as [b [<- Hb]]. auto. }
    apply fits_of.
    + intros b I. apply in_map_iff in I. destruct I as [q [<- I]]. apply TB, NE, I.
    + rewrite !map_length. auto.
    + intros x I. apply in_concat in I. destruct I as [r [I Ix]]. apply in_map_iff in I. destruct I as [q [<- I]]. destruct (NE q I) as [N1 N2]. rewrite N2 in Ix. eapply R3; eauto.
  - intros c E. destruct (targets_have_extent (extents P)); [|discriminate]. injection E as <-.
    apply fits_of; auto; [apply map_length|]. intros x I. apply in_concat_map in I. destruct I as [b [Hb I]]. eapply R3; eauto.
  - intros c E. destruct (targets_have_extent (extents P)); [|discriminate]. injection E as <-.
    apply fits_merge; auto; [apply map_length|]. intros c [<-|[]] x I. unfold csr_of in I. cbn [lists] in I.
    apply in_concat_map in I. destruct I as [b [Hb I]]. eapply R4; eauto.
Qed.
Lemma traversal_fits t P tr : wf_tree t -> wf_params t P -> built_or_merged t P tr -> trav_fits t tr.
Proof.
  intros W WP [tr0 [E [->|M]]]; [eapply built_fits; eauto|]. destruct (built_fits t P tr0 W WP E) as [F1 F2 F3 F4 F5 F6 F7].
  unfold merge_close_lists in M. destruct (from_sep_close_smaller tr0) as [cs|] eqn:E1; [|discriminate]. destruct (from_sep_close_bigger tr0) as [cb|] eqn:E2; [|discriminate].
  injection M as <-. constructor; cbn [target_boxes neighbor_source_boxes target_or_target_parent_boxes from_sep_siblings from_sep_bigger from_sep_smaller_by_level
    from_sep_close_smaller from_sep_close_bigger]; auto; try discriminate.
  apply fits_merge; [apply F1|apply seq_length|]. intros c [<-|[<-|[<-|[]]]] x I; [apply (lf_entries _ _ _ F1); auto|apply (lf_entries _ _ _ (F6 cs eq_refl)); auto|apply (lf_entries _ _ _ (F7 cb eq_refl)); auto].
Qed.

(** ** Scans of masks *)
Lemma seg_scan_mask pm k : TreeBuild.seg_scan (fun _ => false) Z.add (fun i => bit (pm i)) k = z (mask_scan pm (S k)).
Proof.
  induction k as [|k IH]; cbn [TreeBuild.seg_scan]; [rewrite scan_S; destruct (pm 0); reflexivity|].
  rewrite IH, (scan_S pm (S k)), Nat2Z.inj_add. destruct (pm (S k)); reflexivity.
Qed.
Lemma scan_range pm n s e : s <= e <= n ->
  mask_scan pm e - mask_scan pm s = length (filter (fun i => (s <=? i) && (i <? e)) (filter pm (seq 0 n))).
Proof.
  intros H. rewrite !scan_length. replace n with (s + ((e - s) + (n - e))) by lia. rewrite !seq_app, !filter_app, !app_length.
  replace (seq 0 e) with (seq 0 s ++ seq s (e - s)) by (rewrite <- seq_app; f_equal; lia). rewrite filter_app, app_length.
  assert (G : forall a len (q : nat -> bool), (forall i, In i (seq a len) -> q i = false) -> length (filter q (filter pm (seq a len))) = 0).
  { intros a len q. induction (seq a len) as [|x l IH]; intros Q; auto. cbn [filter]. destruct (pm x); cbn [filter]; rewrite ?Q by (left; auto); apply IH; intros; apply Q; right; auto. }
  assert (G2 : forall a len (q : nat -> bool), (forall i, In i (seq a len) -> q i = true) -> length (filter q (filter pm (seq a len))) = length (filter pm (seq a len))).
  { intros a len q. induction (seq a len) as [|x l IH]; intros Q; auto. cbn [filter]. destruct (pm x); cbn [filter]; rewrite ?Q by (left; auto); cbn [length]; rewrite IH; auto; intros; apply Q; right; auto. }
  rewrite (G 0 s), (G2 (0 + s) (e - s)), (G (0 + s + (e - s)) (n - e)).
  - cbn [plus]. lia.
  - intros i I. apply in_seq in I. apply andb_false_iff. right. apply Nat.ltb_ge. lia.
  - intros i I. apply in_seq in I. apply andb_true_iff. split; [apply Nat.leb_le|apply Nat.ltb_lt]; lia.
  - intros i I. apply in_seq in I. apply andb_false_iff. left. apply Nat.leb_gt. lia.
Qed.

(** ** local_tree.py:198-284 *)
Section Local.
Variable t : tree.
Variable p : particles.
Variable cumul : side -> nat -> nat.
Variable have_extent : bool.
Variable tr : traversal.
Variable boxes : list nat.
Variable coords : side -> nat -> nat -> Z.
Variable radii : nat -> Z.
Variable d0 : device darr.
Hypothesis G : device_has_global t p cumul have_extent tr boxes coords radii d0.
Hypothesis RI : ranges_inside t p cumul.
Notation D := (dist_arguments t p have_extent tr boxes).
Notation nb := (nboxes t).
Notation inputs := (inputs d0).
Notation knows := (knows t).

Definition local_array (s : side) (a : darr) : Prop :=
  match a with
  | ScanIn | ScanFlag | ScanOut | Zeros | IndexStarts | IndexEnds => True
  | PMask s' | PIndex s' | LCoord s' _ | LRadii s' | LStarts s' | LCounts s' | LEnds s' | LCumul s' => s' = s
  | _ => False
  end.
Lemma inputs_keep_local s K K' : inputs K -> keeps (local_array s) K K' -> inputs K'.
Proof. intros I KE. apply (inputs_keep d0 _ K K' I KE). intros a L. destruct a; auto; destruct L. Qed.

Section Side.
Variable s : side.
Variable mask_arr : darr.
Hypothesis MA : mask_array mask_arr.
Variable bm : nat -> bool.
Variable rad : bool.
Hypothesis RD : rad = true -> s = Targets /\ have_extent = true.
Notation n := (count_of p s).
Notation st := (starts_of p s).
Notation cnt := (counts_of p s).
Notation pm := (particle_mask nb bm st cnt).
Notation idx := (filter pm (seq 0 n)).

(** the array of another side or purpose *)
Lemma other_array a : is_input a = true \/ mask_array a -> ~ local_array s a.
Proof. intros [H|H]; destruct a; cbn in *; auto; discriminate. Qed.

Lemma mark_particles_item K F f : forall k b, (exists m, len K (PMask s) = Some (z m) /\ b + k <= m) -> F (PMask s) = Some f -> (forall j, b <= j < b + k -> f j = Some 1%Z) ->
  item_ok K F (mark_particles (PMask s) k (z b)).
Proof.
  induction k as [|k IH]; intros b [m [L B]] E H; cbn [mark_particles]; [exact Logic.I|].
  apply item_store with (m := m) (f := f); auto; [lia|apply H; lia|]. replace (z b + 1)%Z with (z (S b)) by lia.
  apply IH; auto; [exists m; split; auto; lia|]. intros j Hj. apply H. lia.
Qed.
Lemma mark_particles_stores K i : forall k b, b <= i < b + k -> stores K (mark_particles (PMask s) k (z b)) (PMask s) i.
Proof.
  induction k as [|k IH]; intros b H; [lia|]. cbn [mark_particles]. destruct (Nat.eq_dec i b) as [->|N]; [apply stores_here|].
  apply stores_later. replace (z b + 1)%Z with (z (S b)) by lia. apply IH. lia.
Qed.

Lemma particle_mask_ok {R} (next : dhost R) Q K : inputs K -> knows K mask_arr bm -> has K (PMask s) n n (fun i => bit (no_boxes i)) ->
  (forall K', keeps (fun x => x = PMask s) K K' -> has K' (PMask s) n n (fun i => bit (pm i)) -> okd K' next Q) ->
  okd K (Launch nb (particle_mask_item s mask_arr) next) Q.
Proof.
  intros I HM HP O. assert (HS : has K (PStarts s) nb nb (fun b => z (st b))) by (apply I; [reflexivity|apply G]).
  assert (HC : has K (PCounts s) nb nb (fun b => z (cnt b))) by (apply I; [reflexivity|apply G]).
  apply launch_mark with (dst := PMask s) (nb := n) (m := no_boxes) (m' := pm); auto.
  - intros b Hb. unfold particle_mask_item. apply (item_load _ _ _ _ _ _ _ _ _ HM); [auto|apply only_other; intros ->; exact MA|].
    destruct (bm b) eqn:E; cbn [bit Z.eqb]; [|exact Logic.I].
    apply (item_load _ _ _ _ _ _ _ _ _ HS); [auto|apply only_other; discriminate|]. apply (item_load _ _ _ _ _ _ _ _ _ HC); [auto|apply only_other; discriminate|].
    rewrite Nat2Z.id. apply mark_particles_item with (f := fun k => Some (bit (pm k))); [|apply only_same|].
    + exists n. split; [apply HP|]. destruct (RI s b Hb). lia.
    + intros j Hj. replace (pm j) with true; auto. symmetry. apply pm_spec. exists b. split; auto. split; auto. apply in_seq. lia.
  - discriminate.
  - intros i Hi E. right. apply pm_spec in E. destruct E as [b [Hb [E J]]]. apply in_seq in J. exists b. split; auto. unfold particle_mask_item.
    apply (stores_load _ _ _ _ _ _ _ _ _ _ HM); auto. rewrite E. cbn [bit Z.eqb]. apply (stores_load _ _ _ _ _ _ _ _ _ _ HS); auto.
    apply (stores_load _ _ _ _ _ _ _ _ _ _ HC); auto. rewrite Nat2Z.id. apply mark_particles_stores. lia.
Qed.

Lemma mask_scan_ok {R} (next : dhost R) Q K : has K (PMask s) n n (fun i => bit (pm i)) -> has K (PIndex s) (n + 1) (n + 1) (fun _ => 0%Z) ->
  (forall K', keeps (fun x => x = ScanIn \/ x = ScanFlag \/ x = ScanOut \/ x = PIndex s) K K' -> has K' (PIndex s) (n + 1) (n + 1) (fun k => z (mask_scan pm k)) -> okd K' next Q) ->
  okd K (mask_scan_program n s next) Q.
Proof.
  intros HM HI O. unfold mask_scan_program. do 3 (apply ok_alloc; [lia|]).
  set (K1 := k_alloc darr darr_eq (k_alloc darr darr_eq (k_alloc darr darr_eq K ScanIn (z n)) ScanFlag (z n)) ScanOut (z n)).
  set (V := fun x => x = ScanIn \/ x = ScanFlag \/ x = ScanOut \/ x = PIndex s) in *.
  assert (KE1 : keeps V K K1) by (eapply keeps_trans; [eapply keeps_trans|]; apply keeps_alloc; unfold V; auto).
  assert (HM1 : has K1 (PMask s) n n (fun i => bit (pm i))) by (apply KE1; [unfold V; intuition discriminate|auto]).
  assert (HI1 : has K1 (PIndex s) (n + 1) (n + 1) (fun _ => 0%Z)) by (repeat (apply has_alloc_other; [discriminate|]); auto).
  apply launch_only with (a := ScanIn) (m := n) (f := fun i => bit (pm i)).
  - reflexivity.
  - intros i Hi. apply (item_load _ _ _ _ _ _ _ _ _ HM1); [auto|apply only_other; discriminate|].
    apply item_store with (m := n) (f := fun k => Some (bit (pm k))); auto; exact Logic.I.
  - intros k Hk. left. exists k. split; auto. apply (stores_load _ _ _ _ _ _ _ _ _ _ HM1); auto. apply stores_here.
  - intros K2 KE2 H2. assert (HF2 : has K2 ScanFlag n n (fun _ => 0%Z)) by (apply KE2; [discriminate|]; apply has_alloc_other; [discriminate|]; apply has_alloc_same; auto).
    assert (HO2 : has K2 ScanOut n n (fun _ => 0%Z)) by (apply KE2; [discriminate|]; apply has_alloc_same; auto).
    assert (HI2 : has K2 (PIndex s) (n + 1) (n + 1) (fun _ => 0%Z)) by (apply KE2; [discriminate|auto]).
    apply ok_scan with (n := n); [intros q [<-|[]]; apply H2|apply HF2|]. set (sc := mkScan _ _). set (K3 := k_scan darr darr_eq K2 sc n).
    assert (KE3 : keeps (fun x => x = ScanOut) K2 K3).
    { intros b m k g N H. destruct H as [A B C]. constructor; auto. intros j Hj. unfold K3. cbn [k_scan val]. unfold result_part, sc. cbn [scan_parts find snd fst].
      destruct (darr_eq b ScanOut); [contradiction|auto]. }
    assert (H3 : has K3 ScanOut n n (fun k => z (mask_scan pm (S k)))).
    { constructor; [apply HO2|lia|]. intros k Hk. destruct H2 as [L2 _ V2]. destruct HF2 as [LF _ VF]. unfold K3. cbn [k_scan val]. unfold result_part, sc. cbn [scan_parts find snd fst scan_flag].
      destruct (darr_eq ScanOut ScanOut); [|contradiction].
      replace (forallb _ _) with true by (symmetry; apply forallb_forall; intros i Hi; apply in_seq in Hi; rewrite V2, VF by lia; auto).
      destruct (Nat.ltb_spec k n); [|lia]. cbn [andb]. f_equal. rewrite <- seg_scan_mask. apply seg_scan_ext_le; intros i Hi; [rewrite VF by lia|rewrite V2 by lia]; auto. }
    assert (HI3 : has K3 (PIndex s) (n + 1) (n + 1) (fun _ => 0%Z)) by (apply KE3; [discriminate|auto]).
    apply launch_only with (a := PIndex s) (m := n + 1) (f := fun k => z (mask_scan pm k)).
    + apply HI3.
    + intros i Hi. apply (item_load _ _ _ _ _ _ _ _ _ H3); [auto|apply only_other; discriminate|].
      apply item_store with (m := n + 1) (f := fun k => Some (z (mask_scan pm k))); auto; [apply HI3|lia|apply only_same|exact Logic.I].
    + intros [|k] Hk; [right; apply HI3; lia|]. left. exists k. split; [lia|]. apply (stores_load _ _ _ _ _ _ _ _ _ _ H3); [lia|]. apply stores_here.
    + intros K4 KE4 H4. apply O; auto. eapply keeps_trans; [exact KE1|].
      eapply keeps_trans; [eapply keeps_weaken; [|exact KE2]; unfold V; intros b ->; auto|].
      eapply keeps_trans; [eapply keeps_weaken; [|exact KE3]; unfold V; intros b ->; auto|]. eapply keeps_weaken; [|exact KE4]. unfold V. intros b ->. auto.
Qed.

(** local_tree.py:233-257 *)
Definition fetched (x : darr) : option (nat -> option Z) :=
  match x with
  | LCoord Sources a => match s with Sources => if a <? dim t then Some (fun k => Some (coords s (nth k idx 0) a)) else None | Targets => None end
  | LCoord Targets a => match s with Targets => if a <? dim t then Some (fun k => Some (coords s (nth k idx 0) a)) else None | Sources => None end
  | LRadii Targets => if rad then Some (fun k => Some (radii (nth k idx 0))) else None
  | _ => None
  end.
Lemma fetched_coord a : a < dim t -> fetched (LCoord s a) = Some (fun k => Some (coords s (nth k idx 0) a)).
Proof. intros H. apply Nat.ltb_lt in H. unfold fetched. destruct s; rewrite H; auto. Qed.
Lemma fetched_none x : ~ (exists a, x = LCoord s a) -> x <> LRadii s -> fetched x = None.
Proof.
  intros N1 N2. unfold fetched. destruct x; auto; destruct s0; auto.
  - destruct s; auto. exfalso. apply N1. eauto.
  - destruct s; auto. exfalso. apply N1. eauto.
  - destruct rad; auto. destruct (RD eq_refl) as [E _]. rewrite E in N2. contradiction.
Qed.
Lemma idx_length : length idx = mask_scan pm n.
Proof. rewrite scan_length. auto. Qed.
Definition fetch_array (x : darr) : Prop := match x with LCoord s' _ | LRadii s' => s' = s | _ => False end.
Lemma fetch_ok {R} (next : dhost R) Q K : inputs K -> has K (PMask s) n n (fun i => bit (pm i)) -> has K (PIndex s) (n + 1) (n + 1) (fun k => z (mask_scan pm k)) ->
  (forall K', keeps fetch_array K K' -> (forall a, a < dim t -> has K' (LCoord s a) (length idx) (length idx) (fun k => coords s (nth k idx 0) a)) ->
     (rad = true -> has K' (LRadii s) (length idx) (length idx) (fun k => radii (nth k idx 0))) -> okd K' next Q) ->
  okd K (fetch_program D s rad (z (mask_scan pm n)) next) Q.
Proof.
  intros I HM HI O. unfold fetch_program. change (ds_dim D) with (dim t). change (ds_particles D s) with n. rewrite <- idx_length.
  apply ok_each_alloc; [lia|]. set (K1 := k_allocs darr_eq K (map (LCoord s) (seq 0 (dim t))) (z (length idx))).
  assert (KE1 : keeps fetch_array K K1).
  { intros b m k f N [A B C]. constructor; auto; unfold K1; cbn [k_allocs len val]; destruct (in_dec darr_eq b (map (LCoord s) (seq 0 (dim t)))) as [J|J]; auto;
      apply in_map_iff in J; destruct J as [a [<- _]]; cbn in N; contradiction. }
  assert (HC1 : forall a, a < dim t -> len K1 (LCoord s a) = Some (z (length idx))).
  { intros a Ha. unfold K1. cbn [k_allocs len]. destruct (in_dec darr_eq (LCoord s a) (map (LCoord s) (seq 0 (dim t)))) as [J|J]; auto.
    exfalso. apply J. apply in_map. apply in_seq. lia. }
  clearbody K1.
  assert (X : exists K2, keeps fetch_array K K2 /\ (forall a, a < dim t -> len K2 (LCoord s a) = Some (z (length idx))) /\ (rad = true -> len K2 (LRadii s) = Some (z (length idx))) /\
    forall (nx : dhost R), okd K2 nx Q -> okd K1 (alloc_if rad (LRadii s) (z (length idx)) nx) Q).
  { destruct rad eqn:ER.
    - exists (k_alloc darr darr_eq K1 (LRadii s) (z (length idx))). split; [eapply keeps_trans; [exact KE1|]; apply keeps_alloc; reflexivity|].
      split; [intros a Ha; cbn [k_alloc len]; destruct (darr_eq (LCoord s a) (LRadii s)); [discriminate|auto]|].
      split; [intros _; cbn [k_alloc len]; destruct (darr_eq (LRadii s) (LRadii s)); [auto|contradiction]|]. intros nx O2. apply ok_alloc; [lia|auto].
    - exists K1. split; auto. split; auto. split; [discriminate|]. intros nx O2. exact O2. }
  destruct X as [K2 [KE2 [HC2 [HR2 X]]]]. apply X. clear X K1 KE1 HC1.
  assert (I2 : inputs K2) by (apply (inputs_keep d0 _ K K2 I KE2); intros a L; destruct a; auto; destruct L).
  assert (HM2 : has K2 (PMask s) n n (fun i => bit (pm i))) by (apply KE2; [cbn; auto|auto]).
  assert (HI2 : has K2 (PIndex s) (n + 1) (n + 1) (fun k => z (mask_scan pm k))) by (apply KE2; [cbn; auto|auto]).
  assert (HP2 : forall a, a < dim t -> has K2 (PCoord s a) n n (fun i => coords s i a)) by (intros a Ha; apply I2; [reflexivity|apply G; auto]).
  assert (HQ2 : rad = true -> has K2 (PRadii s) n n radii) by (intros E; destruct (RD E) as [-> EX]; apply I2; [reflexivity|apply G; auto]).
  assert (SC : forall i, i < n -> pm i = true -> mask_scan pm i < length idx) by (intros i Hi E; rewrite idx_length; apply scan_lt; auto).
  apply ok_launch_items with (F := fetched).
  - intros i Hi. unfold fetch_item. change (ds_dim D) with (dim t). apply (item_load _ _ _ _ _ _ _ _ _ HM2); [auto|reflexivity|].
    destruct (pm i) eqn:E; cbn [bit Z.eqb]; [|exact Logic.I]. apply (item_load _ _ _ _ _ _ _ _ _ HI2); [lia|reflexivity|].
    apply item_for_each.
    + intros a nx Ia NX. apply in_seq in Ia. apply (item_load _ _ _ _ _ _ _ _ _ (HP2 a ltac:(lia))); [auto|reflexivity|].
      apply item_store with (m := length idx) (f := fun k => Some (coords s (nth k idx 0) a)); auto; [apply HC2; lia|apply fetched_coord; lia|].
      rewrite scan_nth by auto. auto.
    + destruct rad eqn:ER; [|exact Logic.I]. apply (item_load _ _ _ _ _ _ _ _ _ (HQ2 eq_refl)); [auto|reflexivity|].
      apply item_store with (m := length idx) (f := fun k => Some (radii (nth k idx 0))); auto; [|rewrite scan_nth by auto; auto|exact Logic.I].
      unfold fetched. destruct (RD eq_refl) as [-> _]. rewrite ER. auto.
  - intros a f m k w E L B V. left.
    assert (A : (exists ax, a = LCoord s ax /\ ax < dim t) \/ (a = LRadii s /\ rad = true)).
    { unfold fetched in E. destruct a; try discriminate E; destruct s0; try discriminate E.
      - destruct s; [|discriminate]. destruct (Nat.ltb_spec axis (dim t)); [|discriminate]. left. eauto.
      - destruct s; [discriminate|]. destruct (Nat.ltb_spec axis (dim t)); [|discriminate]. left. eauto.
      - destruct rad; [|discriminate]. destruct (RD eq_refl) as [ES _]. right. rewrite ES. auto. }
    assert (Lm : m = z (length idx)) by (destruct A as [[ax [-> Hx]]|[-> ER]]; [rewrite HC2 in L by auto|rewrite HR2 in L by auto]; injection L as <-; auto).
    destruct (nth_scan pm n k ltac:(lia)) as [Hi [EP ES]]. set (i := nth k idx 0) in *. exists i. split; auto. unfold fetch_item. change (ds_dim D) with (dim t).
    apply (stores_load _ _ _ _ _ _ _ _ _ _ HM2); auto. rewrite EP. cbn [bit Z.eqb]. apply (stores_load _ _ _ _ _ _ _ _ _ _ HI2); [lia|]. cbv beta. rewrite ES.
    destruct A as [[ax [-> Hx]]|[-> ER]].
    + apply stores_for_each with (x := ax); [apply in_seq; lia| |].
      * intros nx. apply (stores_load _ _ _ _ _ _ _ _ _ _ (HP2 ax Hx)); auto. apply stores_here.
      * intros y nx Iy S. apply in_seq in Iy. apply (stores_load _ _ _ _ _ _ _ _ _ _ (HP2 y ltac:(lia))); auto. apply stores_later. auto.
    + apply stores_after_each.
      * rewrite ER. apply (stores_load _ _ _ _ _ _ _ _ _ _ (HQ2 ER)); auto. apply stores_here.
      * intros y nx Iy S. apply in_seq in Iy. apply (stores_load _ _ _ _ _ _ _ _ _ _ (HP2 y ltac:(lia))); auto. apply stores_later. auto.
  - apply O.
    + eapply keeps_trans; [exact KE2|]. apply keeps_upd. intros b N. apply fetched_none; [intros [a ->]; apply N; reflexivity|intros ->; apply N; reflexivity].
    + intros a Ha. apply has_upd_some with (g := fun k => Some (coords s (nth k idx 0) a)); auto. apply fetched_coord. auto.
    + intros ER. apply has_upd_some with (g := fun k => Some (radii (nth k idx 0))); auto. unfold fetched. destruct (RD ER) as [-> _]. rewrite ER. auto.
Qed.

(** local_tree.py:261-274 *)
Definition lists_array (x : darr) : Prop := match x with LStarts s' | LCounts s' | LEnds s' | LCumul s' => s' = s | Zeros | IndexEnds | IndexStarts => True | _ => False end.
Lemma local_lists_ok {R} (next : dhost R) Q K : inputs K -> knows K mask_arr bm -> has K (PIndex s) (n + 1) (n + 1) (fun k => z (mask_scan pm k)) ->
  (forall K', keeps lists_array K K' -> has K' (LStarts s) nb nb (fun b => z (mask_scan pm (st b))) -> has K' (LCounts s) nb nb (fun b => z (if bm b then cnt b else 0)) ->
     has K' (LCumul s) nb nb (fun b => z (mask_scan pm (st b + cumul s b) - mask_scan pm (st b))) -> okd K' next Q) ->
  okd K (local_lists_program D s mask_arr next) Q.
Proof.
  intros I HM HI O. unfold local_lists_program. change (ds_nboxes D) with nb.
  assert (INP : forall K', keeps lists_array K K' -> inputs K' /\ knows K' mask_arr bm /\ has K' (PIndex s) (n + 1) (n + 1) (fun k => z (mask_scan pm k))).
  { intros K' KE. split; [apply (inputs_keep d0 _ K K' I KE); intros a L; destruct a; auto; destruct L|].
    split; [apply KE; auto; destruct mask_arr; cbn in *; auto|apply KE; cbn; auto]. }
  assert (STEP : forall K1 K2 a, keeps lists_array K K1 -> lists_array a -> keeps (fun x => x = a) K1 K2 -> keeps lists_array K K2).
  { intros K1 K2 a A B C. eapply keeps_trans; [exact A|]. eapply keeps_weaken; [|exact C]. intros b ->. auto. }
  assert (GS : forall K', inputs K' -> has K' (PStarts s) nb nb (fun b => z (st b))) by (intros K' I'; apply I'; [reflexivity|apply G]).
  assert (GC : forall K', inputs K' -> has K' (PCounts s) nb nb (fun b => z (cnt b))) by (intros K' I'; apply I'; [reflexivity|apply G]).
  assert (GU : forall K', inputs K' -> has K' (PCumul s) nb nb (fun b => z (cumul s b))) by (intros K' I'; apply I'; [reflexivity|apply G]).
  assert (P0 := keeps_refl lists_array K).
  apply indexed_ok with (m := n + 1) (j := st) (f := fun k => z (mask_scan pm k)); try discriminate; auto.
  { intros b Hb. destruct (RI s b Hb). lia. }
  intros K1 KE1 H1. assert (P1 := STEP K K1 (LStarts s) P0 eq_refl KE1). destruct (INP K1 P1) as [I1 [M1 X1]].
  apply ok_alloc; [lia|]. set (K2 := k_alloc darr darr_eq K1 Zeros (z nb)).
  assert (P2 : keeps lists_array K K2) by (eapply keeps_trans; [exact P1|]; apply keeps_alloc; exact Logic.I). destruct (INP K2 P2) as [I2 [M2 X2]].
  assert (H2 : has K2 (LStarts s) nb nb (fun b => z (mask_scan pm (st b)))) by (apply has_alloc_other; [discriminate|auto]).
  assert (Z2 : has K2 Zeros nb nb (fun _ => 0%Z)) by (apply has_alloc_same; auto). clearbody K2.
  apply elementwise3_ok with (fa := fun b => bit (bm b)) (fb := fun b => z (cnt b)) (fc := fun _ => 0%Z); try discriminate; auto; try (intros ->; exact MA); try (intros <-; exact MA).
  intros K3 KE3 H3. assert (P3 := STEP K2 K3 (LCounts s) P2 eq_refl KE3). destruct (INP K3 P3) as [I3 [M3 X3]].
  assert (S3 : has K3 (LStarts s) nb nb (fun b => z (mask_scan pm (st b)))) by (apply KE3; [discriminate|auto]).
  apply elementwise2_ok with (fa := fun b => z (st b)) (fb := fun b => z (cumul s b)); try discriminate; auto.
  intros K4 KE4 H4. assert (P4 := STEP K3 K4 (LEnds s) P3 eq_refl KE4). destruct (INP K4 P4) as [I4 [M4 X4]].
  apply indexed_ok with (m := n + 1) (j := fun b => st b + cumul s b) (f := fun k => z (mask_scan pm k)); try discriminate; auto.
  { apply has_ext with (1 := H4). intros k _. unfold sum_of. cbn [nth]. lia. }
  { intros b Hb. destruct (RI s b Hb). lia. }
  intros K5 KE5 H5. assert (P5 := STEP K4 K5 IndexEnds P4 Logic.I KE5). destruct (INP K5 P5) as [I5 [M5 X5]].
  apply indexed_ok with (m := n + 1) (j := st) (f := fun k => z (mask_scan pm k)); try discriminate; auto.
  { intros b Hb. destruct (RI s b Hb). lia. }
  intros K6 KE6 H6. assert (P6 := STEP K5 K6 IndexStarts P5 Logic.I KE6).
  apply elementwise2_ok with (fa := fun b => z (mask_scan pm (st b + cumul s b))) (fb := fun b => z (mask_scan pm (st b))); try discriminate; auto.
  { apply KE6; [discriminate|auto]. }
  intros K7 KE7 H7. assert (P7 := STEP K6 K7 (LCumul s) P6 eq_refl KE7). apply O; auto.
  - apply KE7; [discriminate|]. apply KE6; [discriminate|]. apply KE5; [discriminate|]. apply KE4; [discriminate|auto].
  - apply KE7; [discriminate|]. apply KE6; [discriminate|]. apply KE5; [discriminate|]. apply KE4; [discriminate|].
    apply has_ext with (1 := H3). intros k _. unfold where_of. cbn [nth]. destruct (bm k); auto.
  - apply has_ext with (1 := H7). intros k _. unfold difference_of. cbn [nth].
    rewrite Nat2Z.inj_sub; auto. apply scan_mono. lia.
Qed.

Lemma local_ok {R} (next : list nat -> dhost R) Q K : inputs K -> knows K mask_arr bm ->
  (forall K', keeps (local_array s) K K' ->
     has K' (LStarts s) nb nb (fun b => z (mask_scan pm (st b))) -> has K' (LCounts s) nb nb (fun b => z (if bm b then cnt b else 0)) ->
     has K' (LCumul s) nb nb (fun b => z (mask_scan pm (st b + cumul s b) - mask_scan pm (st b))) ->
     (forall a, a < dim t -> has K' (LCoord s a) (length idx) (length idx) (fun k => coords s (nth k idx 0) a)) ->
     (rad = true -> has K' (LRadii s) (length idx) (length idx) (fun k => radii (nth k idx 0))) -> okd K' (next idx) Q) ->
  okd K (local_program D s rad mask_arr next) Q.
Proof.
  intros I HM O. unfold local_program. change (ds_nboxes D) with nb. change (ds_particles D s) with n. cbv zeta.
  assert (NM : ~ local_array s mask_arr) by (apply other_array; auto).
  apply ok_alloc; [lia|]. set (K1 := k_alloc darr darr_eq K (PMask s) (z n)).
  assert (P1 : keeps (local_array s) K K1) by (apply keeps_alloc; reflexivity).
  apply particle_mask_ok; [apply (inputs_keep_local s K K1 I P1)|apply P1; auto|apply has_alloc_same; auto|].
  intros K2 KE2 H2. assert (P2 : keeps (local_array s) K K2) by (eapply keeps_trans; [exact P1|]; eapply keeps_weaken; [|exact KE2]; intros b ->; reflexivity).
  apply ok_alloc; [lia|]. set (K3 := k_alloc darr darr_eq K2 (PIndex s) (z (n + 1))).
  assert (H3 : has K3 (PIndex s) (n + 1) (n + 1) (fun _ => 0%Z)) by (apply has_alloc_same; auto).
  apply ok_assign with (first := 0) (n := z (n + 1)); [apply H3|cbn [length]; lia|]. set (K4 := k_assign darr darr_eq K3 (PIndex s) 0 [0%Z]).
  assert (H4 : has K4 (PIndex s) (n + 1) (n + 1) (fun _ => 0%Z)).
  { apply (has_assign_same darr darr_eq K3 (PIndex s) 0 [0%Z] (n + 1) (n + 1) (fun _ => 0%Z)); auto. intros k Hk. cbn [length plus]. destruct (_ && _) eqn:E; auto.
    destruct (k - 0) as [|[|]]; auto. }
  assert (P4 : keeps (local_array s) K K4) by (eapply keeps_trans; [exact P2|]; eapply keeps_trans; [apply keeps_alloc|apply keeps_assign]; reflexivity).
  assert (M4 : has K4 (PMask s) n n (fun i => bit (pm i))) by (apply has_assign_other; [discriminate|]; apply has_alloc_other; [discriminate|auto]).
  apply mask_scan_ok; auto. intros K5 KE5 H5.
  assert (P5 : keeps (local_array s) K K5) by (eapply keeps_trans; [exact P4|]; eapply keeps_weaken; [|exact KE5]; intros b [->|[->|[->| ->]]]; (reflexivity || exact Logic.I)).
  assert (M5 : has K5 (PMask s) n n (fun i => bit (pm i))) by (apply KE5; [intuition discriminate|auto]).
  apply ok_peek with (n := z (n + 1)) (v := z (mask_scan pm n)); [apply H5|lia|apply H5; lia|].
  assert (I5 := inputs_keep_local s K K5 I P5).
  apply fetch_ok; auto. intros K6 KE6 C6 R6.
  assert (P6 : keeps (local_array s) K K6) by (eapply keeps_trans; [exact P5|]; eapply keeps_weaken; [|exact KE6]; intros b E; destruct b; auto; destruct E).
  assert (M6 : has K6 (PMask s) n n (fun i => bit (pm i))) by (apply KE6; cbn; auto).
  apply local_lists_ok; [apply (inputs_keep_local s K K6 I P6)|apply P6; auto|apply KE6; cbn; auto|].
  intros K7 KE7 S7 C7 U7. apply to_host_ok with (f := fun i => bit (pm i)); [apply KE7; cbn; auto|].
  rewrite (filter_ext_in _ pm).
  2:{ intros i J. apply in_seq in J. rewrite nth_map_seq by lia. destruct (pm i); auto. }
  apply O; auto.
  - eapply keeps_trans; [exact P6|]; eapply keeps_weaken; [|exact KE7]; intros b E; destruct b; auto; destruct E.
Qed.
End Side.
End Local.

(** ** local_tree.py:158-185 *)
Lemma of_N_ldiff a b : Z.of_N (N.ldiff a b) = Z.ldiff (Z.of_N a) (Z.of_N b).
Proof. destruct a, b; reflexivity. Qed.
Lemma of_N_lor a b : Z.of_N (N.lor a b) = Z.lor (Z.of_N a) (Z.of_N b).
Proof. destruct a, b; reflexivity. Qed.
Lemma flags_value c cc f :
  (let f := Z.land (Z.of_N f) (Z.lnot (Z.of_N IS_TARGET_BOX)) in
   let f := Z.land f (Z.lnot (Z.of_N HAS_TARGET_CHILD_BOXES)) in
   let f := if (z c =? 0)%Z then f else Z.lor f (Z.of_N IS_TARGET_BOX) in
   if (z c <? z cc)%Z then Z.lor f (Z.of_N HAS_TARGET_CHILD_BOXES) else f)
  = Z.of_N (modify_target_flags (fun _ => c) (fun _ => cc) (fun _ => f) 0).
Proof.
  unfold modify_target_flags. cbv zeta. rewrite <- !Z.ldiff_land, <- !of_N_ldiff.
  replace (z c =? 0)%Z with (c =? 0) by (destruct (Nat.eqb_spec c 0); symmetry; [apply Z.eqb_eq|apply Z.eqb_neq]; lia).
  replace (z c <? z cc)%Z with (c <? cc) by (destruct (Nat.ltb_spec c cc); symmetry; [apply Z.ltb_lt|apply Z.ltb_ge]; lia).
  destruct (c =? 0), (c <? cc); rewrite ?of_N_lor; reflexivity.
Qed.
Lemma flags_ok {R} nb c cc fl (next : dhost R) Q K : has K (LCounts Targets) nb nb (fun b => z (c b)) -> has K (LCumul Targets) nb nb (fun b => z (cc b)) ->
  has K LFlags nb nb (fun b => Z.of_N (fl b)) ->
  (forall K', keeps (fun x => x = LFlags) K K' -> has K' LFlags nb nb (fun b => Z.of_N (modify_target_flags c cc fl b)) -> okd K' next Q) ->
  okd K (Launch nb modify_flags_item next) Q.
Proof.
  intros HC HU HF O. set (v := fun b => Z.of_N (modify_target_flags c cc fl b)).
  apply ok_launch_own with (F := only LFlags (fun k => Some (v k))) (T := fun i => [Get (LCounts Targets) i; Get (LCumul Targets) i; Get LFlags i; Put LFlags i (v i)]).
  - intros i Hi. unfold modify_flags_item. destruct HC as [LC _ VC], HU as [LU _ VU], HF as [LF _ VF].
    apply ev_load with (n := z nb) (v := z (c i)); auto; [lia|]. apply ev_load with (n := z nb) (v := z (cc i)); auto; [lia|].
    apply ev_load with (n := z nb) (v := Z.of_N (fl i)); auto; [lia|]. cbv beta. unfold v.
    change (modify_target_flags c cc fl i) with (modify_target_flags (fun _ => c i) (fun _ => cc i) (fun _ => fl i) 0). rewrite <- flags_value.
    apply ev_store with (n := z nb); auto; [lia|constructor].
  - intros i j a k w Hi Hj N P L. destruct P as [P|[P|[P|[P|[]]]]]; try discriminate. injection P as <- <- <-.
    destruct L as [L|[L|[L|[L|[]]]]]; try discriminate. injection L as L. congruence.
  - intros i x y a k w Hi E I. destruct x as [|x1 [|x2 [|x3 x]]]; cbn [app] in E.
    + destruct I.
    + injection E as E1 _. subst. destruct I as [I|[]]. discriminate.
    + injection E as E1 E2 _. subst. destruct I as [I|[I|[]]]; discriminate.
    + injection E as E1 E2 E3 E. subst. destruct I as [I|[I|[I|I]]]; try discriminate. destruct x as [|x4 x]; [destruct I|]. cbn [app] in E. injection E as _ E. destruct x; discriminate E.
  - intros i a k w Hi P. destruct P as [P|[P|[P|[P|[]]]]]; try discriminate. injection P as <- <- <-. exists (fun k => Some (v k)). split; [apply only_same|auto].
  - intros a f m k w E L B V. left. destruct (darr_eq a LFlags) as [->|N]; [|rewrite only_other in E by auto; discriminate].
    rewrite only_same in E. injection E as <-. rewrite (has_len _ _ _ _ _ _ HF) in L. injection L as <-. exists k, (v k). split; [lia|]. right; right; right; left. reflexivity.
  - apply O; [apply keeps_upd; intros b N; apply only_other; auto|]. apply has_upd_some with (g := fun k => Some (v k)); auto. apply HF.
Qed.

(** ** The whole program *)
Definition all_of (d : device darr) : knownd := mkKnown (fun a => Some (size d a)) (fun a k => Some (cells d a (z k))).
Lemma all_agrees d : agrees (all_of d) d.
Proof. unfold agrees, all_of. cbn [len val]. split; [intros a m E|intros a m k v L B E]; congruence. Qed.
Lemma all_inputs d : inputs d (all_of d).
Proof. intros a n f _ [S C]. constructor; [cbn [all_of len]; congruence|lia|]. intros k Hk. cbn [all_of val]. rewrite C; auto. Qed.
Lemma holds_array (K : knownd) d a n f : agrees K d -> has K a n n f -> array_holds d a n f.
Proof. intros [A1 A2] [L _ V]. split; [apply A1; auto|]. intros k Hk. apply (A2 a (z n)); auto. lia. Qed.

Theorem local_tree_on_device t P p cumul have_extent tr boxes coords radii d :
  wf_tree t -> wf_params t P -> built_or_merged t P tr -> (forall b, In b boxes -> b < nboxes t) -> ranges_inside t p cumul ->
  device_has_global t p cumul have_extent tr boxes coords radii d ->
  exists l, generate_local_tree t p (cumul Sources) (cumul Targets) have_extent tr boxes = Some l /\
    safe darr darr_eq (local_tree_program (dist_arguments t p have_extent tr boxes)) d /\
    forall r d', completes darr darr_eq (local_tree_program (dist_arguments t p have_extent tr boxes)) d r d' ->
      r = Some (lt_src_idx l, lt_tgt_idx l) /\ device_has_local t p cumul have_extent coords radii l d'.
Proof.
  intros W WP BM BR RI G. assert (TF := traversal_fits t P tr W WP BM).
  destruct (get_box_masks t tr have_extent boxes) as [bm|] eqn:EB.
  2:{ exfalso. unfold get_box_masks in EB. destruct (ancestor_mask_ok t W (responsible_mask boxes)) as [m [E _]]. rewrite E in EB. discriminate. }
  set (l := match generate_local_tree t p (cumul Sources) (cumul Targets) have_extent tr boxes with Some l => l | None => mkLocal bm t p (fun _ => 0) [] [] end).
  assert (EL : generate_local_tree t p (cumul Sources) (cumul Targets) have_extent tr boxes = Some l) by (unfold l, generate_local_tree; rewrite EB; auto).
  exists l. split; auto. set (D := dist_arguments t p have_extent tr boxes).
  assert (OK : okd (all_of d) (local_tree_program D) (fun r d' => r = Some (lt_src_idx l, lt_tgt_idx l) /\ device_has_local t p cumul have_extent coords radii l d')).
  { unfold local_tree_program. refine (masks_ok t W p cumul have_extent tr TF boxes BR coords radii d G _ _ _ (all_of d) bm (all_inputs d) EB _).
    intros K1 P1 R1 A1 S1 M1. assert (I1 : inputs d K1) by (apply (inputs_keep d _ (all_of d) K1 (all_inputs d) P1); intros []; intros []; auto).
    refine (local_ok t p cumul have_extent tr boxes coords radii d G RI Sources PointMask Logic.I (bm_point_src bm) false ltac:(discriminate) _ _ K1 I1 S1 _).
    intros K2 P2 S2 C2 U2 X2 _. assert (I2 := inputs_keep_local d Sources K1 K2 I1 P2).
    refine (local_ok t p cumul have_extent tr boxes coords radii d G RI Targets RespMask Logic.I (bm_responsible bm) have_extent ltac:(auto) _ _ K2 I2 _ _); [apply P2; cbn; auto|].
    intros K3 P3 S3 C3 U3 X3 Y3. assert (I3 := inputs_keep_local d Targets K2 K3 I2 P3).
    change (ds_nboxes D) with (nboxes t).
    apply elementwise1_ok with (fa := fun b => Z.of_N (box_flags t b)); [discriminate|apply I3; [reflexivity|apply G]|].
    intros K4 P4 F4. eapply flags_ok with (fl := box_flags t); [apply P4; [discriminate|exact C3]|apply P4; [discriminate|exact U3]|exact F4|].
    intros K5 P5 F5. apply ok_ret. intros d' A'.
    assert (K35 : keeps (fun x => x = LFlags) K3 K5) by (eapply keeps_trans; eauto).
    assert (KEEP : forall a n f, a <> LFlags -> has K3 a n n f -> array_holds d' a n f) by (intros a n f N H; apply (holds_array K5); auto).
    unfold l, generate_local_tree. rewrite EB. cbv zeta. cbn [lt_src_idx lt_tgt_idx]. split; [reflexivity|].
    constructor; cbn [lt_masks lt_particles lt_tree local_index lt_src_idx lt_tgt_idx box_flags].
    - apply KEEP; [discriminate|]. apply P3; [cbn; auto|]. apply P2; [cbn; auto|]. exact R1.
    - apply KEEP; [discriminate|]. apply P3; [cbn; auto|]. apply P2; [cbn; auto|]. exact A1.
    - apply KEEP; [discriminate|]. apply P3; [cbn; auto|]. apply P2; [cbn; auto|]. exact S1.
    - apply KEEP; [discriminate|]. apply P3; [cbn; auto|]. apply P2; [cbn; auto|]. exact M1.
    - intros [|]; (apply KEEP; [discriminate|]); [apply P3; [cbn; discriminate|exact S2]|exact S3].
    - intros [|]; (apply KEEP; [discriminate|]); [apply P3; [cbn; discriminate|exact C2]|exact C3].
    - intros s. assert (E : forall b, b < nboxes t -> starts_of p s b <= starts_of p s b + cumul s b <= count_of p s) by (intros b Hb; destruct (RI s b Hb); lia).
      destruct s; (apply KEEP; [discriminate|]); [apply P3; [cbn; discriminate|apply has_ext with (1 := U2)]|apply has_ext with (1 := U3)]; intros k Hk; f_equal; apply scan_range; auto.
    - intros [|] a Ha; (apply KEEP; [discriminate|]); [apply P3; [cbn; discriminate|apply X2; auto]|apply X3; auto].
    - intros E. apply KEEP; [discriminate|]. apply Y3. auto.
    - apply (holds_array K5); auto. }
  exact (OK d (all_agrees d)).
Qed.
