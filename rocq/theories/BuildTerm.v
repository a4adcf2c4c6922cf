(** The level loop of the tree builder ends, and which errors it can raise. *)
From Coq Require Import List Arith ZArith NArith Lia Bool Permutation.
From Verif Require Import Base Tree Walk Traversal Fmm TreeBuild ArrayFacts BuildInv BuildScan BuildIds BuildSort
  BuildAdvance BuildRenumber BuildStep BuildNext BuildLoop BuildDone.
Import ListNotations.

Section Term.
Variable inp : input.
Notation np := (npart inp).
Notation nch := (nchild inp).
Hypothesis WT : forall u, u < np -> (0 <= weight inp u <= INT_MAX)%Z.
Hypothesis MW : (0 <= max_weight inp)%Z.
Hypothesis NPOS : 0 < np.
Hypothesis GU : 0 < nboxes_guess inp.

(** ** The walk of the level restriction does not overrun its stack *)
Lemma tree_of_state_walkable st pth n : inv inp st pth -> nlev st <= S (s_level st) -> n = lst st (nlev st) ->
  walkable (tree_of_state inp st n).
Proof.
  intros I NL ->. assert (Y := i_layout _ _ _ I). assert (NP := nch_pos inp).
  assert (CH : forall m b, m < nch -> s_child st m b <> 0 -> used st b /\ s_child st 0 b <> 0).
  { intros m b Hm C. destruct (used_dec st Y b) as [U|U].
    - split; auto. intros Z. apply C. apply (i_leaf _ _ _ I); auto.
    - exfalso. apply C. apply (i_unused _ _ _ I b U); auto. }
  split; cbn [tree_of_state nboxes box_level nlevels box_child box_parent].
  - intros b Hb. destruct (level_spec st Y b Hb). lia.
  - intros m b Hb Hm. change (nchildren (tree_of_state inp st (lst st (nlev st)))) with nch in Hm.
    destruct (Nat.eq_dec (s_child st m b) 0) as [->|C]; [apply (used_lt st Y), (used_0 st Y)|].
    destruct (CH m b Hm C) as [U S]. apply (used_lt st Y). apply (i_split _ _ _ I); auto.
  - intros m b Hb Hm C. change (nchildren (tree_of_state inp st (lst st (nlev st)))) with nch in Hm.
    destruct (CH m b Hm C) as [U S]. destruct (i_split _ _ _ I b m U S Hm) as [U' E'].
    destruct (i_parent _ _ _ I _ U' C) as [U2 [k [Hk [E2 _]]]].
    rewrite E' in E2. apply app_inj_tail in E2. destruct E2 as [E2 _].
    apply (i_inj _ _ _ I) in E2; auto. rewrite <- E2. split; auto.
    assert (L1 := i_len _ _ _ I _ U'). assert (L2 := i_len _ _ _ I _ U). rewrite E', app_length in L1. cbn [length] in L1. lia.
  - intros m m' b Hb Hm Hm' C E. change (nchildren (tree_of_state inp st (lst st (nlev st)))) with nch in Hm, Hm'.
    destruct (CH m b Hm C) as [U S]. destruct (i_split _ _ _ I b m U S Hm) as [U' E'].
    destruct (i_split _ _ _ I b m' U S Hm') as [U2 E2]. rewrite <- E, E' in E2. apply app_inj_tail in E2. tauto.
Qed.
Lemma restrict_stack_ge l : l <= restrict_stack l.
Proof.
  unfold restrict_stack. assert (X := Nat.div_mod (l + 9) 10 ltac:(lia)).
  assert (X2 := Nat.mod_upper_bound (l + 9) 10 ltac:(lia)). lia.
Qed.
Lemma restrict_walk st pth n l force b : inv inp st pth -> nlev st = S (s_level st) -> n = lst st (nlev st) ->
  run_walk (tree_of_state inp st n) (restrict_visit st (tree_of_state inp st n) l force b) (restrict_stack (s_level st)) 0
  = Some (dfs (tree_of_state inp st n) (restrict_visit st (tree_of_state inp st n) l force b) (S (s_level st)) 0 0).
Proof.
  intros I NL E. assert (Y := i_layout _ _ _ I). assert (W := tree_of_state_walkable st pth n I ltac:(lia) E).
  assert (L0 : box_level (tree_of_state inp st n) 0 = 0) by apply (level_0 st Y).
  rewrite run_walk_correct'; auto.
  - rewrite L0. cbn [tree_of_state nlevels]. rewrite Nat.sub_0_r. auto.
  - rewrite E. apply (used_lt st Y), (used_0 st Y).
  - cbn [tree_of_state nlevels]. assert (X := restrict_stack_ge (s_level st)). lia.
Qed.
Lemma restrict_levels_total st pth n levels : inv inp st pth -> nlev st = S (s_level st) -> n = lst st (nlev st) ->
  forall force did, restrict_levels inp st n levels force did <> None.
Proof.
  intros I NL E. induction levels as [|l levels IH]; intros force did; cbn [restrict_levels]; [discriminate|].
  assert (R : forall bs, run_all (restrict_box inp st n l force) bs <> None).
  { induction bs as [|b bs IHb]; cbn [run_all]; [discriminate|]. unfold restrict_box at 1.
    destruct (s_has_children st b).
    - destruct (run_all (restrict_box inp st n l force) bs); congruence.
    - rewrite (restrict_walk st pth n l force b I NL E). cbn [option_map].
      destruct (run_all (restrict_box inp st n l force) bs); congruence. }
  specialize (R (seq (nth l (s_lstart st) 0) (nth l (s_used st) 0))).
  destruct (run_all _ _); [|congruence]. destruct (existsb _ _); [apply IH|discriminate].
Qed.
Lemma no_walk_failure st pth : good inp st pth -> step inp st <> Failed WalkFailed.
Proof.
  intros G E. assert (S := step_cases inp WT MW st pth G). rewrite E in S. destruct S as [LR [nl [nbn [NB [NR [NE RL]]]]]].
  assert (H := g_head _ _ _ G). revert RL. apply (restrict_levels_total _ (pth5 inp st pth nl nbn)).
  - apply advance_inv; auto.
  - rewrite (nlev5 inp st pth H). f_equal. symmetry. apply (h_level _ _ _ H).
  - rewrite (nlev5 inp st pth H). symmetry. apply (lst5_last inp st pth H nl nbn NB).
Qed.

(** ** Without extents every trip before the last finds a box to split *)
Definition progress (st : state) (pth : nat -> list nat) : Prop := s_final st = false ->
  exists b, used st b /\ length (pth b) + 1 = s_level st /\ (max_weight inp < Z.min INT_MAX (rweight inp (pth b)))%Z.
Lemma no_extent_dig u l : have_extent inp = false -> 0 < key inp u l.
Proof.
  intros E. unfold key, dig, morton, stop_descent. unfold have_extent in E. destruct (ext inp); [discriminate|]. cbn. lia.
Qed.
Lemma no_extent_childweight p : have_extent inp = false -> childweight inp p = rweight inp p.
Proof.
  intros E. rewrite childweight_eq. unfold rweight. do 2 f_equal. apply filter_ext. intros u.
  assert (X := no_extent_dig u (length p) E). apply Nat.ltb_lt in X. rewrite X, andb_true_r. auto.
Qed.
Lemma progress_run st pth : (max_weight inp < INT_MAX)%Z -> run inp st pth -> progress st pth.
Proof.
  intros MI. induction 1 as [E|st pth st' pt R IH T].
  - intros _. exists 0. split; [apply initial_used; auto|]. split; [symmetry; auto|].
    cbn [s_level initial_state] in E. rewrite rweight_root.
    destruct (Z.ltb_spec (max_weight inp) (zsum (map (weight inp) (seq 0 np)))); [lia|discriminate].
  - assert (G := run_good inp WT MW NPOS GU st pth R). assert (H := g_head _ _ _ G).
    destruct T as [g Hg|ns nbn LR NSlen NS0 NSle|nl nbn force did NB NR NE TI F RL O].
    + intros F. apply IH. exact F.
    + intros F. destruct (IH F) as [b [U [E1 E2]]].
      assert (MG := marked_good inp WT MW st pth G). assert (MH := g_head _ _ _ MG).
      exists (renumbering (marks inp st) ns b).
      assert (Ub : b < lst (marks inp st) (nlev (marks inp st))) by (apply (used_lt _ (i_layout _ _ _ (h_inv _ _ _ MH))); auto).
      split; [apply (used'_dst inp _ pth MH ns nbn); auto|].
      rewrite (pth'_dst inp _ pth MH ns nbn); auto.
    + intros F2. cbn [with_control s_final] in F2.
      destruct (s_oversize (marks inp st)) eqn:OV.
      2:{ destruct O as [O|O]; [discriminate|]. subst did. discriminate. }
      apply (over2_iff inp WT MW st pth G) in OV. destruct OV as [b [m [U [W [Hm SW]]]]].
      assert (Eb : length (pth b) + 1 = s_level st).
      { destruct W as [[W _]|[LR W]]; auto. exfalso. destruct (g_force _ _ _ G b W) as [_ [_ [_ F4]]].
        assert (Lf := h_force _ _ _ H LR b U W). assert (LI := g_light _ _ _ G b U Lf ltac:(lia)).
        rewrite (heavy_of_child inp WT (pth b) m) in LI; auto; [discriminate|apply LR_adaptive; auto]. }
      assert (M : moves inp st b) by (apply (will_moves inp WT st pth G b U W)).
      exists (nid inp st b m).
      split; [exact (proj2 (u5 inp st pth G nl nbn NB (nid inp st b m))
                (or_intror (ex_intro _ b (ex_intro _ m (conj M (conj Hm eq_refl))))))|].
      rewrite (p5n inp WT st pth G nl nbn NB NR) by auto. rewrite app_length. cbn [length with_control s_level].
      split; [change (s_level (st5 inp st nl nbn)) with (s_level st); lia|]. unfold subweight in SW. lia.
Qed.
Lemma no_assertion_failure st pth : (max_weight inp < INT_MAX)%Z -> run inp st pth -> step inp st <> Failed AssertionFailed.
Proof.
  intros MI R E. assert (G := run_good inp WT MW NPOS GU st pth R). assert (S := step_cases inp WT MW st pth G). rewrite E in S.
  destruct S as [HE [F Z]]. destruct (progress_run st pth MI R F) as [b [U [E1 E2]]].
  assert (X := not_heavy_last inp WT MW NPOS GU st pth G b Z U). rewrite <- (h_level _ _ _ (g_head _ _ _ G)) in X. specialize (X E1).
  unfold heavy in X. destruct (adaptive inp); [|discriminate]. apply Z.ltb_ge in X.
  change (zsum _) with (childweight inp (pth b)) in X. rewrite no_extent_childweight in X by auto. lia.
Qed.

(** ** Number of trips *)
Definition min_boxes (st : state) : nat :=
  nsum (map (minimal_length (marks inp st) (nused inp st)) (seq 0 (s_level st)))
  + minimal_new_length inp (marks inp st) (nused inp st) (new_leaves inp (marks inp st) (nused inp st)) (s_oversize (marks inp st)).
Definition settled (st : state) : Prop :=
  needs_renumbering (marks inp st) (nused inp st) = false /\ min_boxes st <= s_guess st.

Lemma nused_ext st st' pth pth' : good inp st pth -> good inp st' pth' -> nlev st' = nlev st ->
  (forall l, l <= nlev st -> usd st' l = usd st l) -> (forall l, l < nlev st -> nsp inp st' l = nsp inp st l) ->
  nused inp st' = nused inp st.
Proof.
  intros G G' EL EU EN. assert (H := g_head _ _ _ G). assert (H' := g_head _ _ _ G').
  assert (A := nu_length inp st pth H). assert (A' := nu_length inp st' pth' H').
  apply (nth_ext _ _ 0 0).
  - unfold nused. etransitivity; [exact A'|]. etransitivity; [|symmetry; exact A]. congruence.
  - intros k Hk. assert (Hk' : k < S (nlev st)) by (unfold nused, marks in Hk; rewrite A', EL in Hk; auto).
    destruct k as [|k]; [reflexivity|]. unfold nused, marks.
    rewrite (nu_S inp st' pth' H') by lia. rewrite (nu_S inp st pth H) by lia.
    rewrite EU, EN by lia. auto.
Qed.
Lemma over_ext st st' pth pth' : good inp st pth -> good inp st' pth' ->
  (forall b, used st b -> exists b', used st' b' /\ pth' b' = pth b /\ (will inp st pth b -> will inp st' pth' b')) ->
  (forall b', used st' b' -> exists b, used st b /\ pth' b' = pth b /\ (will inp st' pth' b' -> will inp st pth b)) ->
  s_oversize (marks inp st') = s_oversize (marks inp st).
Proof.
  intros G G' A B. apply eq_true_iff_eq. unfold marks.
  rewrite (over2_iff inp WT MW st pth G), (over2_iff inp WT MW st' pth' G'). split.
  - intros [b' [m [U [W [Hm E]]]]]. destruct (B b' U) as [b [U' [P W']]]. exists b, m. rewrite <- P. auto.
  - intros [b [m [U [W [Hm E]]]]]. destruct (A b U) as [b' [U' [P W']]]. exists b', m. rewrite P. auto.
Qed.
Lemma cntr_shift p q a b k : (forall i, i < k -> p (a + i) = q (b + i)) -> cntr p a (a + k) = cntr q b (b + k).
Proof.
  induction k; intros E.
  - rewrite !Nat.add_0_r, !cntr_empty by lia. auto.
  - rewrite !Nat.add_succ_r, !cntr_S by lia. rewrite IHk by auto. rewrite E by lia. auto.
Qed.
Lemma guess_settled st pth g : good inp st pth -> needs_renumbering (marks inp st) (nused inp st) = false ->
  min_boxes st <= g -> 0 < g -> settled (with_guess (marks inp st) g).
Proof.
  intros G NR Hg Hg'. assert (H := g_head _ _ _ G). assert (I := h_inv _ _ _ H). assert (Y := i_layout _ _ _ I).
  set (st' := with_guess (marks inp st) g).
  assert (G' : good inp st' pth) by (apply guess_good; auto; apply marked_good; auto).
  assert (H' := g_head _ _ _ G').
  assert (EW : forall b, will inp st' pth b <-> will inp st pth b) by reflexivity.
  assert (EU : nused inp st' = nused inp st).
  { apply (nused_ext st st' pth pth G G'); auto. intros l Hl. apply cntr_ext. intros b B1 B2.
    change (lst st' (S l)) with (lst st (S l)) in B2.
    assert (Hb : b < lst st (nlev st)) by (assert (X := lst_le st Y (S l) (nlev st)); lia).
    apply eq_true_iff_eq. split; intros S.
    - assert (U := splits_used inp MW st' pth H' b Hb S). apply (sp_will inp WT st pth G b U), EW.
      apply (sp_will inp WT st' pth G' b U). auto.
    - assert (U := splits_used inp MW st pth H b Hb S). apply (sp_will inp WT st' pth G' b U), EW.
      apply (sp_will inp WT st pth G b U). auto. }
  assert (EO : s_oversize (marks inp st') = s_oversize (marks inp st)).
  { apply (over_ext st st' pth pth G G').
    - intros b U. exists b. auto.
    - intros b U. exists b. auto. }
  unfold settled, min_boxes. rewrite EU, EO. split; [exact NR|exact Hg].
Qed.

Lemma renumber_settled st pth : good inp st pth -> level_restrict inp = true ->
  let ns := new_lstart inp (marks inp st) (nused inp st) (new_leaves inp (marks inp st) (nused inp st)) in
  let nbn := nth (s_level st) ns 0 + minimal_new_length inp (marks inp st) (nused inp st)
               (new_leaves inp (marks inp st) (nused inp st)) (s_oversize (marks inp st)) in
  settled (renumbered inp (marks inp st) ns nbn).
Proof.
  intros G LR ns nbn. assert (H := g_head _ _ _ G). assert (I := h_inv _ _ _ H). assert (Y := i_layout _ _ _ I).
  assert (MG : good inp (marks inp st) pth) by (apply marked_good; auto).
  set (st2 := marks inp st) in *. assert (MH := g_head _ _ _ MG). assert (MI := h_inv _ _ _ MH). assert (MY := i_layout _ _ _ MI).
  set (st' := renumbered inp st2 ns nbn).
  assert (NSlen : length ns = S (nlev st2)) by apply (new_lstart_length inp st2 pth MH).
  assert (NS0 : nth 0 ns 0 = 0) by apply new_lstart_0.
  assert (NSle := new_lstart_le inp st2 pth MH (nused inp st) (new_leaves inp st2 (nused inp st))). fold ns in NSle.
  assert (NSnu := new_lstart_ge_nu inp st2 pth MH (nused inp st) (new_leaves inp st2 (nused inp st))). fold ns in NSnu.
  set (pt := pth' inp st2 pth ns nbn).
  assert (G' : good inp st' pt) by (apply renumber_good; auto). assert (H' := g_head _ _ _ G').
  assert (Y' := i_layout _ _ _ (h_inv _ _ _ H')).
  assert (PD := pth'_dst inp st2 pth MH ns nbn NSlen NS0 NSle). fold pt in PD.
  assert (UD := used'_dst inp st2 pth MH ns nbn NSlen NS0 NSle). fold st' in UD.
  assert (UI := used'_inv inp st2 pth MH ns nbn NSlen NS0). fold st' in UI.
  assert (WD := renumber_will inp st2 pth MG ns nbn NSlen NS0 NSle). fold st' pt in WD.
  set (dst := renumbering st2 ns) in *.
  assert (EW : forall b, will inp st2 pth b <-> will inp st pth b) by reflexivity.
  assert (UL : forall b, used st2 b -> b < lst st2 (nlev st2)) by apply (used_lt st2 MY).
  assert (EU : nused inp st' = nused inp st).
  { apply (nused_ext st st' pth pt G G'); auto. intros l Hl. unfold nsp.
    change (lst st' (S l)) with (nth (S l) ns 0). change (lst st' l) with (nth l ns 0).
    assert (LE := NSle l Hl). change (lst st2 (S l)) with (lst st (S l)) in LE. change (lst st2 l) with (lst st l) in LE.
    assert (LL := lst_le st Y l (S l) ltac:(lia) ltac:(lia)).
    assert (LL2 := lst_le st Y (S l) (nlev st) ltac:(lia) ltac:(lia)).
    set (k := lst st (S l) - lst st l) in *.
    rewrite (cntr_split _ (nth l ns 0) (nth l ns 0 + k) (nth (S l) ns 0)) by lia.
    assert (DV : forall i, i < k -> dst (lst st l + i) = nth l ns 0 + i).
    { intros i Hi. unfold dst. rewrite (dst_val inp st2 pth MH ns NSlen NS0); [|change (lst st l + i < lst st (nlev st)); lia].
      change (s_blevel st2) with (s_blevel st). rewrite (lay_level st Y l (lst st l + i)) by lia.
      change (lst st2 l) with (lst st l). lia. }
    rewrite (cntr_none _ (nth l ns 0 + k) (nth (S l) ns 0)).
    - rewrite Nat.add_0_r. replace (lst st (S l)) with (lst st l + k) by lia. apply cntr_shift.
      intros i Hi. rewrite <- DV by auto. set (b := lst st l + i).
      assert (Hb : b < lst st2 (nlev st2)) by (change (b < lst st (nlev st)); unfold b; lia).
      apply eq_true_iff_eq. split; intros S.
      + assert (Hdb : dst b < lst st' (nlev st')).
        { change (dst b < nth (nlev st2) ns 0). unfold b. rewrite DV by auto.
          assert (Z := nst_le st2 ns NSlen NS0 NSle (Datatypes.S l) (nlev st2) ltac:(auto) ltac:(auto)). lia. }
        assert (U := splits_used inp MW st' pt H' (dst b) Hdb S).
        apply (sp_will inp WT st' pt G' (dst b) U) in S. apply UD in U; auto. apply WD in S; auto.
        apply (sp_will inp WT st pth G b U). apply EW. auto.
      + assert (U := splits_used inp MW st pth H b Hb S). apply (sp_will inp WT st pth G b U) in S. apply EW in S.
        apply (WD b U) in S. assert (U' : used st' (dst b)) by (apply UD; auto).
        apply (sp_will inp WT st' pt G' (dst b) U'). auto.
    - intros x X1 X2. apply not_true_is_false. intros S.
      assert (Hx : x < lst st' (nlev st')).
      { change (x < nth (nlev st2) ns 0).
        assert (Z := nst_le st2 ns NSlen NS0 NSle (Datatypes.S l) (nlev st2) ltac:(auto) ltac:(auto)). lia. }
      assert (U := splits_used inp MW st' pt H' x Hx S). apply (used_level st' Y') in U.
      rewrite (lay_level st' Y' l x) in U; [|auto|change (lst st' l) with (nth l ns 0); lia|exact X2].
      destruct U as [_ U]. change (lst st' l) with (nth l ns 0) in U. change (usd st' l) with (usd st l) in U.
      assert (Z := lay_used st Y l Hl). lia. }
  assert (EO : s_oversize (marks inp st') = s_oversize st2).
  { unfold st2. apply (over_ext st st' pth pt G G').
    - intros b U. exists (dst b). split; [apply UD; auto; apply UL; auto|]. split; [apply PD; apply UL; auto|].
      intros W. apply WD; auto.
    - intros b' U'. destruct (UI b' U') as [b [U ->]]. exists b. split; auto. split; [apply PD; auto|].
      intros W. apply WD in W; auto. }
  assert (EL : new_leaves inp (marks inp st') (nused inp st') = new_leaves inp st2 (nused inp st)) by (rewrite EU; reflexivity).
  assert (NR' : needs_renumbering (marks inp st') (nused inp st') = false).
  { apply not_true_is_false. intros E. apply existsb_exists in E. destruct E as [l [Hl E]]. apply in_seq in Hl.
    change (s_level (marks inp st')) with (s_level st) in Hl. rewrite (h_level _ _ _ H) in Hl.
    apply Nat.ltb_lt in E. unfold minimal_length in E. rewrite level_length_val in E. rewrite EU in E.
    assert (Z := NSnu l ltac:(change (nlev st2) with (nlev st); lia)).
    change (lst st' (S l)) with (nth (S l) ns 0) in E. change (lst st' l) with (nth l ns 0) in E. lia. }
  split; auto. unfold min_boxes. rewrite (proj2 (not_renumber inp st' pt G' NR')).
  rewrite EL, EU, EO.
  change (lst st' (nlev st')) with (nth (nlev st) ns 0). rewrite <- (h_level _ _ _ H).
  change (s_guess st') with (grow nbn (s_guess st) nbn).
  change (nbn <= grow nbn (s_guess st) nbn). apply grow_ge. apply (g_guess _ _ _ G).
Qed.
Lemma step_measure st pth st' : good inp st pth -> step inp st = Continue st' ->
  (s_level st' = S (s_level st)) \/ (s_level st' = s_level st /\ settled st' /\ ~ settled st).
Proof.
  intros G E. assert (C := step_cases inp WT MW st pth G). rewrite E in C. destruct C as [pt T].
  unfold step in E. destruct (nlevels_max inp <=? s_level st + 1); [discriminate|]. cbv zeta in E.
  change (marked inp (scanned inp st)) with (marks inp st) in E.
  change (new_used (marks inp st) (split_box_ids inp (scanned inp st))) with (nused inp st) in E.
  destruct (needs_renumbering (marks inp st) (nused inp st)) eqn:NR.
  - destruct (level_restrict inp) eqn:LR; [|discriminate]. cbn [negb] in E.
    destruct (list_eq_dec _ _ _); [discriminate|]. inversion E; subst. right.
    split; [reflexivity|]. split; [apply (renumber_settled st pth G LR)|]. intros [Z _]. congruence.
  - fold (min_boxes st) in E. change (s_guess (marks inp st)) with (s_guess st) in E.
    destruct (Nat.ltb_spec (s_guess st) (min_boxes st)) as [C|C].
    + inversion E; subst. right. split; [reflexivity|]. assert (Z := g_guess _ _ _ G).
      split; [apply (guess_settled st pth); auto; [apply grow_ge; auto|apply grow_pos; auto]|]. intros [_ X]. lia.
    + left. assert (AS : forall n, after_split inp (advance inp st (marks inp st) (split_box_ids inp (scanned inp st)) (nused inp st)
          (new_leaves inp (marks inp st) (nused inp st)) n) n = Continue st' -> s_level st' = S (s_level st)).
      { intros n AE. set (s5 := advance _ _ _ _ _ _ _) in AE.
        assert (L5 : s_level s5 = s_level st) by reflexivity. clearbody s5. unfold after_split in AE. cbv zeta in AE.
        destruct (s_final s5); [destruct (_ || _); discriminate|].
        destruct (level_restrict inp).
        - destruct (restrict_levels _ _ _ _ _ _) as [[f d]|]; [|discriminate].
          destruct (negb (s_oversize s5) && d); [inversion AE; cbn [with_control s_level]; lia|].
          destruct (negb (s_oversize s5)); [discriminate|]. inversion AE; cbn [with_control s_level]; lia.
        - destruct (negb (s_oversize s5)); [discriminate|]. inversion AE; cbn [with_control s_level]; lia. }
      destruct (_ =? _).
      * destruct (_ && _); [discriminate|]. destruct (negb _); [discriminate|]. apply (AS _ E).
      * apply (AS _ E).
Qed.
Lemma loop_fuel fuel : forall st pth, run inp st pth ->
  (2 * (nlevels_max inp - s_level st) + 1 < fuel \/ (settled st /\ 2 * (nlevels_max inp - s_level st) < fuel)) ->
  (max_weight inp < INT_MAX)%Z \/ have_extent inp = true ->
  match loop inp fuel st with
  | Done st' => exists st0 pth0 pt, run inp st0 pth0 /\ ends inp st0 pth0 st' pt
  | Failed e => e = MaxLevelsExceeded
  | Continue _ => False
  end.
Proof.
  induction fuel as [|fuel IH]; intros st pth R F MI; [lia|]. cbn [loop].
  assert (G := run_good inp WT MW NPOS GU st pth R). assert (C := step_cases inp WT MW st pth G).
  assert (NW := no_walk_failure st pth G).
  destruct (step inp st) as [st'|st'|e] eqn:E.
  - destruct C as [pt T]. assert (R' : run inp st' pt) by (eapply run_trans; eauto).
    apply (IH st' pt R'); auto.
    assert (LM : s_level st + 1 < nlevels_max inp).
    { unfold step in E. destruct (Nat.leb_spec (nlevels_max inp) (s_level st + 1)); [discriminate|auto]. }
    destruct (step_measure st pth st' G E) as [EL|[EL [S NS]]].
    + left. rewrite EL. destruct F as [F|[_ F]]; lia.
    + right. split; auto. rewrite EL. destruct F as [F|[F _]]; [lia|contradiction].
  - destruct C as [pt T]. exists st, pth, pt. auto.
  - destruct e; auto; try congruence; try contradiction. exfalso.
    destruct MI as [MI|HE]; [apply (no_assertion_failure st pth MI R E)|]. destruct C as [C _]. congruence.
Qed.
(** the level loop ends with a tree or with "maximum number of levels exceeded" *)
Theorem level_loop_result : (max_weight inp < INT_MAX)%Z \/ have_extent inp = true ->
  match level_loop inp with
  | Done st => exists pth, fin inp st pth
  | Failed e => e = MaxLevelsExceeded
  | Continue _ => False
  end.
Proof.
  intros MI. unfold level_loop. cbv zeta. destruct (Nat.eqb_spec (s_level (initial_state inp)) 0) as [E|E].
  - exists (fun _ => []). apply init_fin; auto.
  - assert (E1 : s_level (initial_state inp) = 1) by (cbn [s_level initial_state] in *; destruct (_ <? _)%Z; congruence).
    assert (X := loop_fuel (3 * nlevels_max inp + 3) (initial_state inp) (fun _ => []) (run_init inp E1)).
    specialize (X ltac:(left; lia) MI). destruct (loop inp _ _); auto.
    destruct X as [st0 [pth0 [pt [R T]]]]. exists pt. eapply ends_fin; eauto. apply run_good; auto.
Qed.
End Term.
(** every state in which the loop ends is described by [fin] *)
Theorem level_loop_fin inp st :
  (forall u, u < npart inp -> (0 <= weight inp u <= INT_MAX)%Z) -> (0 <= max_weight inp)%Z ->
  0 < npart inp -> 0 < nboxes_guess inp ->
  level_loop inp = Done st -> (exists pth, fin inp st pth) /\
    (st = initial_state inp \/ exists st0 pth0 pth, run inp st0 pth0 /\ ends inp st0 pth0 st pth /\ fin inp st pth).
Proof.
  intros WT MW NPOS GU E. unfold level_loop in E. cbv zeta in E.
  destruct (Nat.eqb_spec (s_level (initial_state inp)) 0) as [E0|E0].
  - inversion E; subst. split; [exists (fun _ => []); apply init_fin; auto|auto].
  - assert (E1 : s_level (initial_state inp) = 1) by (cbn [s_level initial_state] in *; destruct (_ <? _)%Z; congruence).
    assert (X : forall fuel s pth, run inp s pth -> loop inp fuel s = Done st ->
      exists st0 pth0 pt, run inp st0 pth0 /\ ends inp st0 pth0 st pt).
    { induction fuel as [|fuel IH]; intros s pth R L; [discriminate|]. cbn [loop] in L.
      assert (G := run_good inp WT MW NPOS GU s pth R). assert (C := step_cases inp WT MW s pth G).
      destruct (step inp s) as [s'|s'|e] eqn:ES; [|inversion L; subst|discriminate].
      - destruct C as [pt T]. apply (IH s' pt); auto. eapply run_trans; eauto.
      - destruct C as [pt T]. exists s, pth, pt. auto. }
    destruct (X _ _ _ (run_init inp E1) E) as [st0 [pth0 [pt [R T]]]].
    assert (F : fin inp st pt) by (eapply ends_fin; eauto; apply run_good; auto).
    split; [exists pt; auto|]. right. exists st0, pth0, pt. auto.
Qed.
