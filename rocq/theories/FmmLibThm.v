(** The FMM with pyfmmlib: the sum over routes, with the arguments of the boxes. *)
From Coq Require Import List Arith ZArith Lia Bool Permutation QArith Qcanon Qcabs.
From Verif Require Import Base Tree Spec TreeFacts Traversal SpecTraversal TraversalLists Coverage
  CoverageThm ListFacts LevelStarts MergeFacts SpecClasses ClassThm Fmm SpecFmm FmmFacts FmmThm FmmGen SpecFmmGen FmmGenFacts FmmGenThm
  Layout FmmLib SpecFmmLib FmmLibFacts.
Import ListNotations.
Local Open Scope nat_scope.

Section Built.
Variable t : tree.
Hypothesis W : wf_tree t.
Variable P : trav_params.
Hypothesis WP : wf_params t P.
Hypothesis LS : level_sorted t (level_start_box_nrs P).
Variable tr : traversal.
Hypothesis B : built_or_merged t P tr.
Notation ttpb := (target_or_target_parent_boxes tr).
Notation ls := (level_start_target_or_target_parent_box_nrs tr).

Lemma bm_lists : exists tr0, build_traversal t P = Some tr0 /\ ttpb = target_or_target_parent_boxes tr0 /\
  ls = level_start_target_or_target_parent_box_nrs tr0 /\
  from_sep_siblings tr = from_sep_siblings tr0 /\ from_sep_bigger tr = from_sep_bigger tr0.
Proof.
  destruct B as [tr0 [H0 [->|Mg]]]; exists tr0; split; auto.
  unfold merge_close_lists in Mg. destruct (from_sep_close_smaller tr0); [|discriminate].
  destruct (from_sep_close_bigger tr0); [|discriminate]. injection Mg as <-. auto.
Qed.
Lemma bm_ttpb : ttpb = find_target_or_target_parent_boxes t.
Proof. destruct bm_lists as [tr0 [H0 [-> _]]]. rewrite (tr_eq t W P WP tr0 H0). reflexivity. Qed.
Lemma bm_ls : ls = extract_level_starts t (level_start_box_nrs P) (find_target_or_target_parent_boxes t).
Proof. destruct bm_lists as [tr0 [H0 [_ [-> _]]]]. rewrite (tr_eq t W P WP tr0 H0). reflexivity. Qed.
Lemma bm_range b : In b ttpb -> b < nboxes t.
Proof. rewrite bm_ttpb. intros H. apply filter_In in H. destruct H as [H _]. apply in_seq in H. lia. Qed.
Lemma bm_NoDup : NoDup ttpb.
Proof. rewrite bm_ttpb. unfold find_target_or_target_parent_boxes. apply NoDup_filter, seq_NoDup. Qed.
Lemma bm_delimited : level_delimited t ls ttpb.
Proof. rewrite bm_ls, bm_ttpb. unfold find_target_or_target_parent_boxes. apply filter_delimited; auto. Qed.
Lemma bm_bounds l : l < nlevels t -> nth l ls 0 <= nth (l + 1) ls 0 <= length ttpb.
Proof.
  intros Hl. rewrite bm_ls, <- bm_ttpb.
  assert (SO : forall i j, i < j -> j < length ttpb -> nth i ttpb 0 < nth j ttpb 0).
  { rewrite bm_ttpb. unfold find_target_or_target_parent_boxes. apply filter_seq_sorted. }
  rewrite (extract_level_starts_eq t (wf_level_lt t W) (level_start_box_nrs P) LS ttpb bm_range SO).
  rewrite !nth_map_seq by lia. split.
  - apply (below_mono t (wf_level_lt t W) (level_start_box_nrs P) LS ttpb bm_range SO). lia.
  - apply (below_le t (wf_level_lt t W) (level_start_box_nrs P) LS ttpb bm_range SO).
Qed.
Lemma bm_sib_rows : rows_ok (from_sep_siblings tr) (length ttpb).
Proof.
  destruct bm_lists as [tr0 [H0 [-> [_ [-> _]]]]]. rewrite (tr_eq t W P WP tr0 H0). cbn.
  rewrite <- (map_length (list2_list t (well_sep_is_n_away P))). apply rows_ok_of.
Qed.
Lemma bm_big_rows : rows_ok (from_sep_bigger tr) (length ttpb).
Proof.
  destruct bm_lists as [tr0 [H0 [-> [_ [_ ->]]]]]. rewrite (tr_eq t W P WP tr0 H0). cbn.
  rewrite <- (map_length (fun b => pick true (list4_list t (well_sep_is_n_away P) (extents P) b))). apply rows_ok_of.
Qed.
Lemma bm_sib i x : i < length ttpb -> In x (csr_get (from_sep_siblings tr) i) ->
  x < nboxes t /\ box_level t x = box_level t (nth i ttpb 0).
Proof.
  intros Hi Hx. rewrite <- (entries_index ttpb) in Hx by (auto using bm_NoDup). 
  assert (I : In (nth i ttpb 0) ttpb) by (apply nth_In; auto). revert I Hx. generalize (nth i ttpb 0). intros A.
  destruct bm_lists as [tr0 [H0 [-> [_ [-> _]]]]]. intros I Hx.
  apply (list2_spec t W P WP tr0 H0 A I) in Hx. tauto.
Qed.
Lemma bm_big i x : i < length ttpb -> In x (csr_get (from_sep_bigger tr) i) -> x < nboxes t.
Proof.
  intros Hi Hx. rewrite <- (entries_index ttpb) in Hx by (auto using bm_NoDup). 
  assert (I : In (nth i ttpb 0) ttpb) by (apply nth_In; auto). revert I Hx. generalize (nth i ttpb 0). intros A.
  destruct bm_lists as [tr0 [H0 [-> [_ [_ ->]]]]]. intros I Hx.
  apply (list4_of_in_range t W P WP tr0 H0 A x I Hx).
Qed.

Lemma bm_anc_range A S : S < nboxes t -> In A (ancestors_or_self t S) -> A < nboxes t.
Proof. intros HS HA. apply in_chain in HA; auto. destruct HA as [k [Hk ->]]. apply up_lt; auto. Qed.

Section Lib.
Context {pt Wt D ang rmat : Type} {M L V : cmonoid}.
Notation str := (strength Wt D).
Variable lib : library pt str ang rmat M L V.
Hypothesis LIN : linear_library lib.
Variable wr : wrangler ang D.
Variable complex_dipole : Wt -> D -> Wt.
Hypothesis LE : level_start_box_nrs P (nlevels t) = nboxes t.
Variable p : particles.
Hypothesis OS : owned_once t (box_source_starts p) (box_source_counts_nonchild p) (nsources p).
Variables box_centers sources targets : nat -> pt.
Variable angle_between : nat -> nat -> ang.
Hypothesis ROT : forall rd, wr_rotation_data wr = Some rd -> rotation_data_fits tr angle_between rd.
Variable finish : V -> V.
Notation R := (level_routines lib wr box_centers sources targets angle_between finish).
Notation RB := (box_routines lib wr t box_centers sources targets angle_between finish).

Lemma owned_bound b : b < nboxes t -> box_source_counts_nonchild p b <> 0 ->
  box_source_starts p b + box_source_counts_nonchild p b <= nsources p.
Proof.
  intros Hb N. set (k := box_source_starts p b + (box_source_counts_nonchild p b - 1)).
  assert (I : In k (seq 0 (nsources p))).
  { eapply Permutation_in; [exact OS|]. apply in_concat_map. exists b. split; [apply in_seq; lia|]. apply in_seq. unfold k. lia. }
  apply in_seq in I. unfold k in I. lia.
Qed.

Lemma potentials_lib_eq w :
  potentials_lib lib wr complex_dipole t p (level_start_box_nrs P) box_centers sources targets tr w =
  Some (potentials_gen _ _ _ _ R t p (level_start_box_nrs P) tr (fun m => m) (source_strength wr complex_dipole w)).
Proof.
  unfold potentials_lib, potentials_gen. cbv zeta.
  rewrite (form_multipoles_lib_eq lib LIN wr complex_dipole t p (level_start_box_nrs P) box_centers sources targets angle_between finish).
  rewrite (coarsen_multipoles_lib_eq lib wr t (level_start_box_nrs P) box_centers sources targets angle_between finish).
  rewrite (multipole_to_local_eq lib wr t W (level_start_box_nrs P) LS LE box_centers sources targets angle_between finish
    ls ttpb bm_delimited bm_bounds bm_range (from_sep_siblings tr) bm_sib_rows bm_sib).
  2:{ intros rd E. destruct (ROT rd E) as [R1 R2]. split; auto. intros i k Hi Hk. apply R2. exists i. auto. }
  rewrite (form_locals_eq lib LIN wr complex_dipole t p (level_start_box_nrs P) LE box_centers sources targets angle_between finish
    ls ttpb bm_delimited bm_bounds bm_range (from_sep_bigger tr) bm_big_rows bm_big owned_bound).
  f_equal.
  rewrite !(eval_direct_lib_eq lib LIN wr complex_dipole p box_centers sources targets angle_between finish).
  assert (ED : forall c, eval_direct_lib lib wr complex_dipole p sources targets (target_boxes tr) c w =
     eval_direct_gen _ _ _ _ R p (target_boxes tr) c (source_strength wr complex_dipole w)).
  { intros c. apply eval_direct_lib_eq; auto. }
  destruct (from_sep_close_smaller tr), (from_sep_close_bigger tr); rewrite ?ED; reflexivity.
Qed.

Lemma raise_level k x m : raise R t k x m = raise RB t k x m.
Proof. revert x m. induction k as [|k IH]; intros; cbn [raise]; [auto|]. rewrite IH. reflexivity. Qed.
Lemma lower_level k x l : lower R t k x l = lower RB t k x l.
Proof. revert x l. induction k as [|k IH]; intros; cbn [lower]; [auto|]. rewrite IH. reflexivity. Qed.
Lemma listed_levels T S BB A : T < nboxes t -> listed t tr T S (ViaM2L BB A) -> In BB ttpb -> box_level t A = box_level t BB.
Proof.
  intros HT [_ [_ H]] HI. destruct bm_lists as [tr0 [H0 [E1 [_ [E2 _]]]]]. unfold list2_of in H. rewrite E1, E2 in H. rewrite E1 in HI.
  apply (list2_spec t W P WP tr0 H0 BB HI) in H. tauto.
Qed.
Lemma list2_ttpb BB A : In A (list2_of tr BB) -> In BB ttpb.
Proof.
  unfold list2_of, entries. intros H. apply in_concat_map in H. destruct H as [i [Hi H]]. apply in_seq in Hi.
  destruct (Nat.eqb_spec (nth i ttpb 0) BB) as [<-|]; [apply nth_In; lia|destruct H].
Qed.
Lemma contribution_level T i S j w r : T < nboxes t -> listed t tr T S r ->
  contribution R t T i S j w r = contribution RB t T i S j w r.
Proof.
  intros HT HL. unfold contribution. destruct r as [|BB A|A|BB]; cbv zeta.
  - reflexivity.
  - assert (E : box_level t A = box_level t BB).
    { apply (listed_levels T S); auto. destruct HL as [_ [_ HL]]. eapply list2_ttpb; eauto. }
    rewrite raise_level, lower_level. cbn [l2p m2l p2m level_routines box_routines].
    unfold level_frame, level_rotation, box_frame, box_rotation, order_of, uses_rotations. rewrite E. reflexivity.
  - rewrite raise_level. reflexivity.
  - rewrite lower_level. reflexivity.
Qed.

(** ** Exact routines *)
Section Exact.
Variable angle : pt -> pt -> ang.
Variable kern : pt -> pt -> str -> V.
Variable multipole : frame pt -> M -> list (pt * str) -> Prop.
Variable local : frame pt -> L -> list (pt * str) -> Prop.
Hypothesis EX : exact_library lib angle kern multipole local.
Hypothesis AN : forall A C, A < nboxes t -> C < nboxes t -> angle_between A C = angle (box_centers A) (box_centers C).
Hypothesis POS : forall l, (0 < level_to_rscale wr l)%Qc.
Notation fr := (box_frame wr t box_centers).
Lemma fr_pos b : (0 < fr_rscale (fr b))%Qc.
Proof. apply POS. Qed.
Hint Resolve fr_pos : core.

Lemma raise_exact k x m s : multipole (fr x) m s -> multipole (fr (up t k x)) (raise RB t k x m) s.
Proof.
  revert x m. induction k as [|k IH]; intros x m H; [exact H|]. cbn [raise].
  replace (up t (S k) x) with (up t k (box_parent t x)).
  2:{ change (box_parent t x) with (up t 1 x). rewrite up_up. f_equal. lia. }
  apply IH. cbn [m2m box_routines]. apply (ex_mpmp lib angle kern multipole local EX); auto.
Qed.
Lemma lower_exact k x l s : local (fr (up t k x)) l s -> local (fr x) (lower RB t k x l) s.
Proof.
  revert x. induction k as [|k IH]; intros x H; [exact H|]. cbn [lower l2l box_routines].
  apply (ex_locloc lib angle kern multipole local EX); auto. apply IH.
  replace (up t k (box_parent t x)) with (up t (S k) x); auto.
  change (box_parent t x) with (up t 1 x). rewrite up_up. f_equal. lia.
Qed.
Lemma anc_up A S : S < nboxes t -> In A (ancestors_or_self t S) -> up t (box_level t S - box_level t A) S = A.
Proof. intros HS HA. apply in_chain in HA; auto. destruct HA as [k [Hk ->]]. rewrite anc_level by auto. reflexivity. Qed.
Lemma one_source y x w : msum (map (fun xw => kern y (fst xw) (snd xw)) [(x, w)]) = kern y x w.
Proof. cbn. apply op_0_r. Qed.

Lemma contribution_exact T i S j w r : T < nboxes t -> S < nboxes t -> listed t tr T S r ->
  contribution RB t T i S j w r = kern (targets i) (sources j) w.
Proof.
  intros HT HS HL. rewrite <- (one_source (targets i) (sources j) w).
  assert (MP : forall A, In A (ancestors_or_self t S) ->
    multipole (fr A) (raise RB t (box_level t S - box_level t A) S (p2m RB (box_level t S) S j w)) [(sources j, w)]).
  { intros A HA. pose proof (raise_exact (box_level t S - box_level t A) S (p2m RB (box_level t S) S j w) [(sources j, w)]) as G.
    rewrite anc_up in G by auto. apply G. cbn [p2m box_routines]. apply (ex_formmp lib angle kern multipole local EX); auto. }
  assert (LO : forall C l, In C (ancestors_or_self t T) -> local (fr C) l [(sources j, w)] ->
    l2p RB (box_level t T) T i (lower RB t (box_level t T - box_level t C) T l) = msum (map (fun xw => kern (targets i) (fst xw) (snd xw)) [(sources j, w)])).
  { intros C l HC HL'. cbn [l2p box_routines]. apply (ex_taeval lib angle kern multipole local EX); auto.
    apply lower_exact. rewrite anc_up by auto. auto. }
  unfold contribution. destruct r as [|BB A|A|BB]; cbv zeta; cbn [listed] in HL.
  - rewrite one_source. cbn [p2p box_routines]. apply (ex_potall lib angle kern multipole local EX).
  - destruct HL as [HB [HA H2]]. apply LO; auto. cbn [m2l box_routines].
    assert (E : box_level t A = box_level t BB).
    { apply (listed_levels T S); [auto|split; auto|eapply list2_ttpb; eauto]. }
    apply (ex_mploc lib angle kern multipole local EX); auto.
    intros ro Ero. unfold box_rotation in Ero. destruct (Z.leb_spec (Z.of_nat (order_of wr t BB)) (rotmat_order wr)) as [Hle|]; [|discriminate].
    injection Ero as <-. cbn [rot_f rot_b rot_ldm rot_nterms rot_nterms1 box_frame fr_center fr_order].
    rewrite AN; [|apply (bm_anc_range A S); auto|apply (bm_anc_range BB T); auto].
    repeat (split; [reflexivity|]). assert (EO : order_of wr t A = order_of wr t BB) by (unfold order_of; rewrite E; auto). lia.
  - destruct HL as [HA _]. cbn [m2p box_routines]. apply (ex_mpeval lib angle kern multipole local EX); auto.
  - destruct HL as [HB _]. apply LO; auto. cbn [p2l box_routines]. apply (ex_formta lib angle kern multipole local EX); auto.
Qed.
End Exact.
End Lib.
End Built.
