(** Exact contents of the lists of a built traversal, in specification terms. *)
From Coq Require Import List Arith ZArith NArith Lia Bool Permutation.
From Verif Require Import Base Tree Spec TreeFacts Walk WalkFacts Traversal GeomFacts
  SpecTraversal TraversalLists Coverage CoverageThm.
Import ListNotations.

Lemma touching_sym t a b : touching t a b <-> touching t b a.
Proof. split; intros [x [H1 H2]]; exists x; auto. Qed.

Section Facts.
Variable t : tree.
Hypothesis W : wf_tree t.
Hypothesis F : wf_flags t.
Variable P : trav_params.
Hypothesis WP : wf_params t P.
Let n := well_sep_is_n_away P.
Let Hn : 1 <= n := proj1 WP.
Let ex := extents P.
Variable tr : traversal.
Hypothesis Htr : build_traversal t P = Some tr.

Lemma tr_eq : tr = the_traversal t P.
Proof. rewrite build_traversal_eq in Htr by auto. congruence. Qed.
Lemma tr_tb : target_boxes tr = find_target_boxes t P.
Proof. rewrite tr_eq. reflexivity. Qed.
Lemma tr_ttpb : target_or_target_parent_boxes tr = find_target_or_target_parent_boxes t.
Proof. rewrite tr_eq. reflexivity. Qed.
Lemma tr_tb_range T : In T (target_boxes tr) -> T < nboxes t.
Proof. rewrite tr_tb. apply tb_range; auto. Qed.
Lemma tr_ttpb_range T : In T (target_or_target_parent_boxes tr) -> T < nboxes t.
Proof. rewrite tr_ttpb. apply (ttpb_range t P); auto. Qed.

Lemma in_count x l l' : count x l = count x l' -> (In x l <-> In x l').
Proof. rewrite !count_In. intros ->. tauto. Qed.

Lemma adj_touching a b : a < nboxes t -> b < nboxes t -> (adj t a b = true <-> touching t a b).
Proof. intros. rewrite adj_near by auto. apply near_1_touching; auto. Qed.
Lemma adj_n_within a b : a < nboxes t -> b < nboxes t -> box_level t a = box_level t b ->
  (adj_n t n a b = true <-> within_n_boxes t n a b).
Proof. intros. rewrite adj_n_near by auto. apply near_within; auto. Qed.

(** *** Same-level lists *)
Lemma slnws_row b : b < nboxes t -> csr_get (same_level_non_well_sep_boxes tr) b = slnws_list t n b.
Proof.
  intros Hb. rewrite tr_eq. cbn [same_level_non_well_sep_boxes the_traversal]. unfold slnws_csr.
  rewrite csr_get_of by (rewrite map_length, seq_length; auto). apply nth_map_seq; auto.
Qed.
Lemma slnws_spec b : b < nboxes t ->
  NoDup (csr_get (same_level_non_well_sep_boxes tr) b) /\
  forall x, In x (csr_get (same_level_non_well_sep_boxes tr) b) <->
    x < nboxes t /\ x <> b /\ within_n_boxes t n b x.
Proof.
  intros Hb. rewrite slnws_row by auto. split; [apply slnws_NoDup; auto|].
  intros x. rewrite slnws_in by auto. split.
  - intros [H1 [H2 [H3 H4]]]. repeat split; auto. apply near_within in H4; auto. apply H4.
  - intros [H1 [H2 H3]]. assert (box_level t x = box_level t b) by (destruct H3; auto).
    repeat split; auto. apply near_within; auto.
Qed.
Lemma within_n_sym a b : within_n_boxes t n a b -> within_n_boxes t n b a.
Proof.
  intros [L H]. split; auto. intros i Hi. specialize (H i Hi). unfold box_rad in *. rewrite <- L. lia.
Qed.

(** *** List 1 *)
Lemma list1_spec T : In T (target_boxes tr) ->
  NoDup (list1_of tr T) /\
  forall x, In x (list1_of tr T) <-> x < nboxes t /\ is_source t x = true /\ touching t T x.
Proof.
  intros HT. pose proof (tr_tb_range T HT) as HTl.
  assert (C : forall x, count x (list1_of tr T) = count x (list1_list t T)).
  { intros x. rewrite tr_eq. apply list1_of_count. rewrite <- tr_tb. auto. }
  assert (I : forall x, In x (list1_of tr T) -> x < nboxes t).
  { intros x Hx. apply (in_count x _ _ (C x)) in Hx. eapply list1_in_range; eauto. }
  assert (K : forall x, x < nboxes t -> count x (list1_of tr T) = if is_source t x && adj t T x then 1 else 0).
  { intros x Hx. rewrite C. eapply list1_count; eauto. }
  split.
  - apply NoDup_count. intros x. destruct (in_dec Nat.eq_dec x (list1_of tr T)) as [i|i].
    + rewrite K by auto. destruct (_ && _); lia.
    + apply count_notIn in i. lia.
  - intros x. split.
    + intros Hx. pose proof (I x Hx) as Hxl. apply count_In in Hx. rewrite K in Hx by auto.
      destruct (is_source t x) eqn:E1, (adj t T x) eqn:E2; simpl in Hx; try lia.
      apply adj_touching in E2; auto.
    + intros [H1 [H2 H3]]. apply count_In. rewrite K by auto. apply adj_touching in H3; auto.
      rewrite H2, H3. simpl. lia.
Qed.

(** *** List 2 *)
Lemma list2_spec A : In A (target_or_target_parent_boxes tr) ->
  NoDup (list2_of tr A) /\
  forall B, In B (list2_of tr A) <->
    B < nboxes t /\ A <> 0 /\ B <> 0 /\ box_level t B = box_level t A /\
    ~ within_n_boxes t n A B /\ box_parent t A <> box_parent t B /\
    within_n_boxes t n (box_parent t A) (box_parent t B).
Proof.
  intros HA. pose proof (tr_ttpb_range A HA) as HAl.
  assert (C : forall x, count x (list2_of tr A) = count x (list2_list t n A)).
  { intros x. rewrite tr_eq. apply list2_of_count. rewrite <- tr_ttpb. auto. }
  assert (I : forall x, In x (list2_of tr A) -> x < nboxes t).
  { intros x Hx. apply (in_count x _ _ (C x)) in Hx. eapply list2_in_range in Hx; eauto. tauto. }
  split.
  - apply NoDup_count. intros x. destruct (in_dec Nat.eq_dec x (list2_of tr A)) as [i|i].
    + pose proof (I x i). rewrite C, list2_count by auto. destruct (_ && _); [|lia].
      apply NoDup_count. apply slnws_NoDup; auto. apply parent_lt; auto.
    + apply count_notIn in i. lia.
  - intros B. split.
    + intros HB. pose proof (I B HB) as HBl. apply count_In in HB. rewrite C, list2_count in HB by auto.
      destruct (Nat.eqb_spec A 0); [simpl in HB; lia|].
      destruct (Nat.eqb_spec B 0); [simpl in HB; lia|].
      destruct (adj_n t n A B) eqn:E; simpl in HB; [lia|].
      apply count_In in HB. apply slnws_in in HB; [|auto..|apply parent_lt; auto].
      destruct HB as [H1 [H2 [H3 H4]]].
      assert (L : box_level t B = box_level t A).
      { rewrite (parent_level t W B), (parent_level t W A) by (auto; lia). congruence. }
      repeat split; auto.
      * intros WN. apply adj_n_within in WN; auto. congruence.
      * apply near_within in H4; auto. apply H4.
    + intros [H1 [H2 [H3 [H4 [H5 [H6 H7]]]]]]. apply count_In. rewrite C, list2_count by auto.
      destruct (Nat.eqb_spec A 0); [congruence|]. destruct (Nat.eqb_spec B 0); [congruence|].
      destruct (adj_n t n A B) eqn:E.
      { exfalso. apply H5. apply adj_n_within in E; auto. }
      simpl. apply count_In. apply slnws_in; auto; [apply parent_lt; auto|].
      repeat split; auto; [apply parent_lt; auto|destruct H7; auto|].
      apply near_within; auto. destruct H7; auto.
Qed.

(** entries of list 2 are at level 2 or deeper *)
Lemma list2_level A B : In A (target_or_target_parent_boxes tr) -> In B (list2_of tr A) ->
  2 <= box_level t B.
Proof.
  intros HA HB. pose proof (tr_ttpb_range A HA) as HAl.
  apply list2_spec in HB; auto. destruct HB as [H1 [H2 [H3 [H4 [H5 [H6 H7]]]]]].
  pose proof (level_pos t W B H1 ltac:(lia)).
  destruct (Nat.eq_dec (box_level t B) 1) as [E|]; [|lia]. exfalso. apply H6.
  rewrite (level_0 t W (box_parent t A)), (level_0 t W (box_parent t B)); auto.
  - apply parent_lt; auto.
  - rewrite parent_level_pred by auto. lia.
  - apply parent_lt; auto.
  - rewrite parent_level_pred by auto. lia.
Qed.

(** *** List 3 *)
Definition holds_sources b := is_source t b = true \/ has_source_child t b = true.

Lemma list3_count_gen tag slev T B : T < nboxes t -> B < nboxes t ->
  ~ holds_sources B -> count B (pick tag (list3_list t n ex slev T)) = 0.
Proof.
  intros HT HB NH. rewrite list3_count_raw by auto. destruct (_ && _); auto.
  unfold list3_visit. rewrite flag_lor.
  unfold holds_sources, is_source, has_source_child in NH.
  destruct (flag (box_flags t B) IS_SOURCE_BOX); [tauto|].
  destruct (flag (box_flags t B) HAS_SOURCE_CHILD_BOXES); [tauto|].
  unfold pick; simpl. rewrite count_nil. lia.
Qed.

(** from_sep_smaller entries, in general: B is the first box on the way down from T's
    colleague that stops the descent *)
Lemma list3_level_count l T B : In T (target_boxes tr) -> B < nboxes t -> l < nlevels t ->
  holds_sources B ->
  count B (list3_level_of tr l T) =
  if (box_level t T <? box_level t B) && (l =? box_level t B) &&
     (forallb (fun j => negb (stop t ex T (anc t j B)))
              (seq (S (box_level t T)) (box_level t B - S (box_level t T))) && stop t ex T B)
  then count (anc t (box_level t T) B) (slnws_list t n T) else 0.
Proof.
  intros HT HB Hl HH. pose proof (tr_tb_range T HT) as HTl.
  rewrite tr_eq, list3_level_of_count by (auto; rewrite <- tr_tb; auto). fold n ex.
  rewrite list3_count_raw by auto.
  destruct (Nat.ltb_spec (box_level t T) (box_level t B)) as [L|L]; simpl andb; auto.
  rewrite list3_far_out by auto.
  destruct (Nat.eqb_spec l (box_level t B)) as [->|NE].
  2:{ rewrite andb_false_r. simpl. rewrite count_nil. destruct (forallb _ _); lia. }
  rewrite andb_true_r.
  assert (E2 : forall l0, (forall j, In j l0 -> j < box_level t B) ->
    forallb (fun k => snd (list3_visit t ex T (Some (box_level t B)) (anc t k B) 0)) l0 =
    forallb (fun j => negb (stop t ex T (anc t j B))) l0).
  { induction l0 as [|j l0 IH]; intros H; simpl; auto. rewrite IH by (intros; apply H; right; auto).
    f_equal. specialize (H j (or_introl eq_refl)). rewrite list3_desc; auto.
    - eapply (hsc_anc t W n); eauto.
    - rewrite anc_level by (auto; lia). lia. }
  rewrite E2 by (intros j Hj; apply in_seq in Hj; lia). clear E2.
  destruct (forallb _ _); simpl; auto.
  destruct (stop t ex T B); [rewrite count_cons, Nat.eqb_refl, count_nil; lia|rewrite count_nil; lia].
Qed.

Lemma list3_level_range l T x : In T (target_boxes tr) -> l < nlevels t ->
  In x (list3_level_of tr l T) -> x < nboxes t.
Proof.
  intros HT Hl. pose proof (tr_tb_range T HT) as HTl.
  rewrite tr_eq. intros Hx. apply count_In in Hx.
  rewrite list3_level_of_count in Hx by (auto; rewrite <- tr_tb; auto).
  apply count_In in Hx. unfold pick in Hx. apply in_map_iff in Hx.
  destruct Hx as [p [<- Hp]]. apply filter_In in Hp. destruct Hp as [Hp _].
  eapply list3_in_range; eauto.
Qed.

(** general (with or without extents) *)
Lemma list3_level_in l T B : In T (target_boxes tr) -> l < nlevels t ->
  (In B (list3_level_of tr l T) <->
   B < nboxes t /\ holds_sources B /\ box_level t B = l /\ box_level t T < l /\
   In (anc t (box_level t T) B) (slnws_list t n T) /\
   stop t ex T B = true /\
   forall k, box_level t T < k < l -> stop t ex T (anc t k B) = false).
Proof.
  intros HT Hl. pose proof (tr_tb_range T HT) as HTl. split.
  - intros HB. pose proof (list3_level_range l T B HT Hl HB) as HBl.
    apply count_In in HB.
    assert (HH : holds_sources B).
    { unfold holds_sources. destruct (is_source t B) eqn:E1; auto. destruct (has_source_child t B) eqn:E2; auto.
      exfalso. rewrite tr_eq, list3_level_of_count in HB by (auto; rewrite <- tr_tb; auto).
      fold n ex in HB. rewrite list3_count_gen in HB; auto; [lia|].
      unfold holds_sources. rewrite E1, E2. intuition discriminate. }
    rewrite list3_level_count in HB by auto.
    destruct (Nat.ltb_spec (box_level t T) (box_level t B)) as [L|L]; simpl in HB; [|lia].
    destruct (Nat.eqb_spec l (box_level t B)) as [->|NE]; simpl in HB; [|lia].
    destruct (forallb _ _) eqn:FB; simpl in HB; [|lia].
    destruct (stop t ex T B) eqn:ES; [|lia].
    apply count_In in HB. repeat (split; auto).
    intros k Hk. rewrite forallb_forall in FB.
    specialize (FB k ltac:(apply in_seq; lia)). apply negb_true_iff in FB. auto.
  - intros [HB [HH [HL [HLT [Hin [ES HA]]]]]]. apply count_In.
    rewrite list3_level_count by auto. rewrite HL, Nat.eqb_refl, ES, andb_true_r.
    rewrite (proj2 (Nat.ltb_lt _ _) HLT). simpl.
    rewrite (proj2 (forallb_forall _ _)).
    + apply count_In in Hin. auto.
    + intros k Hk. apply in_seq in Hk. rewrite HA by lia. auto.
Qed.

Lemma list3_level_NoDup l T : In T (target_boxes tr) -> l < nlevels t -> NoDup (list3_level_of tr l T).
Proof.
  intros HT Hl. pose proof (tr_tb_range T HT) as HTl.
  apply NoDup_count. intros x. destruct (in_dec Nat.eq_dec x (list3_level_of tr l T)) as [i|i].
  - pose proof i as i2. apply list3_level_in in i2; auto. destruct i2 as [H1 [H2 _]].
    rewrite list3_level_count by auto. destruct (_ && _); [|lia].
    apply NoDup_count. apply slnws_NoDup; auto.
  - apply count_notIn in i. lia.
Qed.

Lemma chain_at T B : B < nboxes t -> T < nboxes t -> box_level t T < box_level t B ->
  (In (anc t (box_level t T) B) (slnws_list t n T) <->
   exists C, In C (ancestors_or_self t B) /\ C <> T /\ within_n_boxes t n T C).
Proof.
  intros HB HT L. split.
  - intros Hin. exists (anc t (box_level t T) B). split; [apply in_chain; eauto; exists (box_level t T); split; auto; lia|].
    apply slnws_in in Hin; auto. destruct Hin as [H1 [H2 [H3 H4]]]. split; auto. apply near_within; auto.
  - intros [C [H1 [H2 H3]]]. apply in_chain in H1; auto. destruct H1 as [k [Hk ->]].
    assert (EK : k = box_level t T).
    { destruct H3 as [H3 _]. rewrite anc_level in H3; auto. }
    subst k. apply slnws_in; auto.
    split; [apply anc_lt; auto|]. split; [apply anc_level; auto; lia|]. split; auto.
    apply near_within; auto. rewrite anc_level; auto; lia.
Qed.

Lemma stop_noext T B : targets_have_extent ex = false -> stop t ex T B = negb (adj t T B).
Proof. intros E. unfold stop, is_far. rewrite E. simpl. apply andb_true_r. Qed.

Lemma list3_spec l T : targets_have_extent ex = false -> In T (target_boxes tr) -> l < nlevels t ->
  NoDup (list3_level_of tr l T) /\
  forall B, In B (list3_level_of tr l T) <->
   B < nboxes t /\ holds_sources B /\ box_level t B = l /\ box_level t T < l /\
   (exists C, In C (ancestors_or_self t B) /\ C <> T /\ within_n_boxes t n T C) /\
   ~ touching t T B /\
   forall A, In A (ancestors_or_self t B) -> box_level t T < box_level t A < l -> touching t T A.
Proof.
  intros NE HT Hl. split; [apply list3_level_NoDup; auto|].
  pose proof (tr_tb_range T HT) as HTl. intros B. rewrite list3_level_in by auto. split.
  - intros [HB [HH [HL [HLT [Hin [ES HA]]]]]]. repeat (split; auto).
    + apply chain_at; auto; lia.
    + rewrite stop_noext in ES by auto. apply negb_true_iff in ES. intros TC.
      apply adj_touching in TC; auto. congruence.
    + intros A HAc [L1 L2]. apply in_chain in HAc; auto. destruct HAc as [k [Hk ->]].
      rewrite anc_level in L1, L2 by auto.
      specialize (HA k (conj L1 L2)). rewrite stop_noext in HA by auto. apply negb_false_iff in HA.
      apply adj_touching in HA; auto. apply anc_lt; auto.
  - intros [HB [HH [HL [HLT [HC [NT HA]]]]]]. repeat (split; auto).
    + apply chain_at in HC; auto; lia.
    + rewrite stop_noext by auto. apply negb_true_iff.
      destruct (adj t T B) eqn:E; auto. apply adj_touching in E; auto; tauto.
    + intros k Hk. rewrite stop_noext by auto. apply negb_false_iff.
      apply adj_touching; auto; [apply anc_lt; auto|]. apply HA.
      * apply in_chain; auto. exists k. split; auto; lia.
      * rewrite anc_level; auto; lia.
Qed.

Lemma list3_level2 l T B : In T (target_boxes tr) -> l < nlevels t ->
  In B (list3_level_of tr l T) -> 2 <= box_level t B.
Proof.
  intros HT Hl H. pose proof (tr_tb_range T HT) as HTl.
  apply list3_level_in in H; auto. destruct H as [HB [HH [HL [HLT [Hin _]]]]].
  apply slnws_in in Hin; auto. destruct Hin as [_ [_ [NE _]]].
  destruct (Nat.eq_dec (box_level t T) 0) as [E|]; [|lia]. exfalso. apply NE.
  rewrite E, anc_0 by auto. symmetry. apply (level_0 t W); auto.
Qed.

(** *** List 4 *)
Lemma list4_of_in_range A x : In A (target_or_target_parent_boxes tr) ->
  In x (list4_of tr A) -> x < nboxes t.
Proof.
  intros HA. pose proof (tr_ttpb_range A HA) as HAl. rewrite tr_eq. intros Hx. apply count_In in Hx.
  rewrite list4_of_count in Hx by (rewrite <- tr_ttpb; auto). apply count_In in Hx.
  unfold pick in Hx. apply in_map_iff in Hx. destruct Hx as [p [<- Hp]]. apply filter_In in Hp.
  destruct Hp as [Hp _]. fold n ex in Hp.
  unfold list4_list in Hp.
  assert (G : forall tgt wl cur p, cur < nboxes t -> In p (list4_levels t n ex tgt wl cur) -> snd p < nboxes t).
  { intros tgt wl. induction wl as [|wl IH]; intros cur p0 Hc; simpl; [tauto|].
    rewrite in_app_iff, in_concat_map. intros [[x [H1 H2]]|H].
    - apply list4_entry_out in H2. rewrite H2. eapply slnws_in_range; eauto.
    - apply (IH (box_parent t cur)); auto. apply parent_lt; auto. }
  destruct (box_level t A =? 0); [simpl in Hp; tauto|].
  destruct (n =? 1).
  - apply (G A (box_level t A - 1) (box_parent t A)); auto. apply parent_lt; auto.
  - apply (G A (box_level t A) A); auto.
Qed.

Lemma list4_spec A : targets_have_extent ex = false -> In A (target_or_target_parent_boxes tr) ->
  NoDup (list4_of tr A) /\
  forall s, In s (list4_of tr A) <->
   s < nboxes t /\ is_source t s = true /\ box_level t s <= box_level t A /\
   (exists C, In C (ancestors_or_self t A) /\ C <> s /\ within_n_boxes t n C s) /\
   ~ touching t A s /\
   (box_level t A = box_level t s \/ touching t (box_parent t A) s).
Proof.
  intros NE HA. pose proof (tr_ttpb_range A HA) as HAl.
  assert (K : forall x, x < nboxes t -> count x (list4_of tr A) =
     if (1 <=? box_level t x) && (box_level t x <=? box_level t A)
     then count x (slnws_list t n (anc t (box_level t x) A)) *
       count x (pick true (list4_entry t ex n A (box_level t x) x)) else 0).
  { intros x Hx. rewrite tr_eq. rewrite list4_of_count by (rewrite <- tr_ttpb; auto).
    apply list4_count; auto. }
  assert (E : forall x, x < nboxes t -> 1 <= box_level t x -> box_level t x <= box_level t A ->
     In x (slnws_list t n (anc t (box_level t x) A)) ->
     count x (pick true (list4_entry t ex n A (box_level t x) x)) =
     if is_source t x && negb (adj t A x) &&
        ((box_level t A =? box_level t x) || adj t (box_parent t A) x) then 1 else 0).
  { intros x Hx L1 L2 Hin. unfold list4_entry. destruct (is_source t x); [|reflexivity].
    assert (A0 : 0 < A). { destruct A; [rewrite (wf_root_level t W) in L2; lia|lia]. }
    replace (is_adj t (box_center t A) (box_level t A) (box_center t x) (box_level t x))
      with (adj t A x) by reflexivity.
    replace (is_adj t (box_center t (box_parent t A)) (box_level t A - 1) (box_center t x) (box_level t x))
      with (adj t (box_parent t A) x) by (unfold adj; rewrite parent_level_pred by auto; auto).
    rewrite NE. destruct (adj t A x) eqn:EA; [reflexivity|]. simpl andb.
    destruct (Nat.eqb_spec (box_level t A) (box_level t x)) as [EL|NL]; simpl.
    - destruct (Nat.ltb_spec 1 n) as [L|L].
      + rewrite EL, Nat.ltb_irrefl, andb_false_r. simpl. unfold pick; simpl.
        rewrite count_cons, Nat.eqb_refl. reflexivity.
      + exfalso. assert (N1 : n = 1) by lia. apply slnws_in in Hin; auto using anc_lt.
        destruct Hin as [_ [_ [_ Hin]]]. rewrite <- EL, anc_self, N1 in Hin.
        apply adj_near in Hin; auto. congruence.
    - assert (E : (if 1 <? n then box_level t x <? box_level t A else true) = true).
      { destruct (1 <? n); auto. apply Nat.ltb_lt. lia. }
      rewrite E, andb_true_r.
      destruct (adj t (box_parent t A) x); simpl; unfold pick; simpl; auto.
      rewrite count_cons, Nat.eqb_refl. reflexivity. }
  split.
  - apply NoDup_count. intros x. destruct (in_dec Nat.eq_dec x (list4_of tr A)) as [i|i].
    + pose proof (list4_of_in_range A x HA i) as Hx. rewrite K by auto.
      destruct (Nat.leb_spec 1 (box_level t x)) as [L1|L1]; simpl; [|lia].
      destruct (Nat.leb_spec (box_level t x) (box_level t A)) as [L2|L2]; [|lia].
      destruct (in_dec Nat.eq_dec x (slnws_list t n (anc t (box_level t x) A))) as [j|j].
      * rewrite E by auto. rewrite count_NoDup_In; auto.
        -- destruct (_ && _); lia.
        -- apply slnws_NoDup; auto using anc_lt.
      * apply count_notIn in j. rewrite j. lia.
    + apply count_notIn in i. lia.
  - intros s. split.
    + intros Hs. pose proof (list4_of_in_range A s HA Hs) as Hsl. apply count_In in Hs. rewrite K in Hs by auto.
      destruct (Nat.leb_spec 1 (box_level t s)) as [L1|L1]; simpl in Hs; [|lia].
      destruct (Nat.leb_spec (box_level t s) (box_level t A)) as [L2|L2]; [|lia].
      assert (Hin : In s (slnws_list t n (anc t (box_level t s) A))) by (apply count_In; lia).
      rewrite E in Hs by auto.
      destruct (is_source t s) eqn:ES; simpl in Hs; [|lia].
      destruct (adj t A s) eqn:EA; simpl in Hs; [lia|].
      repeat (split; auto).
      * exists (anc t (box_level t s) A). split; [apply in_chain; eauto|].
        apply slnws_in in Hin; auto using anc_lt. destruct Hin as [_ [G1 [G2 G3]]]. split; auto.
        apply near_within; auto.
      * intros TC. apply adj_touching in TC; auto. congruence.
      * destruct (Nat.eqb_spec (box_level t A) (box_level t s)); auto. right.
        simpl in Hs. destruct (adj t (box_parent t A) s) eqn:EP; [|lia].
        apply adj_touching in EP; auto. apply parent_lt; auto.
    + intros [H1 [H2 [H3 [[C [HC [HC1 HC2]]] [H5 H6]]]]]. apply in_chain in HC; auto.
      destruct HC as [k [Hk ->]].
      assert (EK : k = box_level t s).
      { destruct HC2 as [L _]. rewrite anc_level in L; auto. }
      subst k.
      assert (Hin : In s (slnws_list t n (anc t (box_level t s) A))).
      { apply slnws_in; auto using anc_lt. destruct HC2 as [L WN].
        repeat split; auto. apply near_within; auto. split; auto. }
      assert (L1 : 1 <= box_level t s).
      { destruct (box_level t s) eqn:E0; [|lia]. exfalso. apply HC1.
        rewrite anc_0 by auto. symmetry. apply (level_0 t W); auto. }
      apply count_In. rewrite K by auto.
      rewrite (proj2 (Nat.leb_le _ _) L1), (proj2 (Nat.leb_le _ _) H3). simpl.
      rewrite E by auto. rewrite H2. destruct (adj t A s) eqn:EA.
      { exfalso. apply H5. apply adj_touching in EA; auto. }
      simpl. apply count_In in Hin.
      destruct H6 as [->|H6].
      * rewrite Nat.eqb_refl. simpl. lia.
      * apply adj_touching in H6; auto; [|apply parent_lt; auto]. rewrite H6, orb_true_r. lia.
Qed.

(** *** Duality (n = 1, no extents) *)
Lemma list34_dual B s : n = 1 -> targets_have_extent ex = false ->
  In s (target_boxes tr) -> In B (target_or_target_parent_boxes tr) ->
  is_source t s = true -> holds_sources B ->
  (In B (list3_level_of tr (box_level t B) s) <-> In s (list4_of tr B)).
Proof.
  intros N1 NE Hs HB Ss HH.
  pose proof (tr_tb_range s Hs) as Hsl. pose proof (tr_ttpb_range B HB) as HBl.
  rewrite (proj2 (list3_spec (box_level t B) s NE Hs (wf_level_lt t W B HBl))).
  rewrite (proj2 (list4_spec B NE HB)).
  split.
  - intros [_ [_ [_ [HLT [[C [HC [HC1 HC2]]] [NT HA]]]]]]. repeat (split; auto).
    + lia.
    + exists C. repeat split; auto; apply within_n_sym in HC2; apply HC2.
    + rewrite touching_sym. auto.
    + right. assert (B0 : 0 < B). { destruct B; [rewrite (wf_root_level t W) in HLT; lia|lia]. }
      rewrite touching_sym. destruct (Nat.eq_dec (box_level t s) (box_level t B - 1)) as [E|NEQ].
      * apply in_chain in HC; auto. destruct HC as [k [Hk ->]].
        assert (EK : k = box_level t s).
        { destruct HC2 as [L _]. rewrite anc_level in L; auto. }
        subst k. rewrite E, <- parent_is_anc in HC2 by auto.
        apply near_1_touching; auto; [apply parent_lt; auto|].
        rewrite N1 in HC2. apply near_within; auto. rewrite parent_level_pred; auto.
      * apply HA.
        -- apply in_chain; auto. exists (box_level t B - 1). split; [lia|]. apply parent_is_anc; auto.
        -- rewrite parent_level_pred by auto. lia.
  - intros [_ [_ [HLE [[C [HC [HC1 HC2]]] [NT HA]]]]].
    assert (HLT : box_level t s < box_level t B /\ touching t (box_parent t B) s).
    { apply in_chain in HC; auto. destruct HC as [k [Hk ->]].
      assert (EK : k = box_level t s).
      { destruct HC2 as [L _]. rewrite anc_level in L; auto. }
      subst k. destruct (Nat.eq_dec (box_level t s) (box_level t B)) as [E|NEQ].
      - exfalso. apply NT. rewrite E, anc_self in HC2. apply near_1_touching; auto.
        rewrite N1 in HC2. apply near_within; auto.
      - split; [lia|]. destruct HA; [congruence|auto]. }
    destruct HLT as [HLT TP]. repeat (split; auto).
    + exists C. repeat split; auto; apply within_n_sym in HC2; apply HC2.
    + rewrite touching_sym. auto.
    + intros A HAc [L1 L2]. apply in_chain in HAc; auto. destruct HAc as [k [Hk ->]].
      rewrite anc_level in L1, L2 by auto.
      assert (EA : anc t k B = anc t k (box_parent t B)) by (symmetry; apply anc_parent; auto).
      rewrite EA. apply adj_touching; auto; [apply anc_lt, parent_lt; auto|].
      apply adj_anc_r; auto; [apply parent_lt; auto|].
      apply adj_touching; auto; [apply parent_lt; auto|]. apply touching_sym. auto.
Qed.
End Facts.
