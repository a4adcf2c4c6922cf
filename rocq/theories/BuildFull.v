(** Every level of the finished tree holds particles; level_start_box_nrs. *)
From Coq Require Import List Arith ZArith NArith Lia Bool Permutation.
From Verif Require Import Base Tree Walk Traversal Fmm TreeBuild ArrayFacts BuildInv BuildScan BuildIds BuildSort
  BuildAdvance BuildRenumber BuildStep BuildNext BuildLoop BuildDone BuildTerm BuildPrune.
Import ListNotations.

Definition populated (inp : input) (st : state) (pth : nat -> list nat) : Prop :=
  exists u b, u < npart inp /\ used st b /\ length (pth b) + 1 = nlev st /\ reach inp u (pth b) = true.

Section Full.
Variable inp : input.
Notation np := (npart inp).
Notation nch := (nchild inp).
Hypothesis WT : forall u, u < np -> (0 <= weight inp u <= INT_MAX)%Z.
Hypothesis MW : (0 <= max_weight inp)%Z.
Hypothesis NPOS : 0 < np.
Hypothesis GU : 0 < nboxes_guess inp.
Hypothesis KIND : adaptive inp = true \/ have_extent inp = false.

Lemma heavy_particle p : adaptive inp = true -> heavy inp p = true ->
  exists u m, u < np /\ m < nch /\ reach inp u (p ++ [m]) = true.
Proof.
  intros A Hv. unfold heavy in Hv. rewrite A in Hv. apply Z.ltb_lt in Hv.
  assert (CW : (0 < childweight inp p)%Z) by (unfold childweight; lia). rewrite childweight_eq in CW.
  destruct (filter (fun u => reach inp u p && (0 <? key inp u (length p))) (seq 0 np)) as [|u l] eqn:E; [cbn in CW; lia|].
  assert (X : In u (filter (fun u => reach inp u p && (0 <? key inp u (length p))) (seq 0 np))) by (rewrite E; left; auto).
  apply filter_In in X. destruct X as [X1 X2]. apply in_seq in X1. apply andb_true_iff in X2. destruct X2 as [X2 X3].
  apply Nat.ltb_lt in X3. assert (KL := key_le inp u (length p)).
  exists u, (key inp u (length p) - 1). split; [lia|]. split; [lia|].
  rewrite reach_snoc, X2. apply Nat.eqb_eq. lia.
Qed.
Lemma no_extent_child u p : have_extent inp = false -> reach inp u p = true ->
  exists m, m < nch /\ reach inp u (p ++ [m]) = true.
Proof.
  intros E R. assert (K := no_extent_dig inp NPOS GU u (length p) E). assert (KL := key_le inp u (length p)).
  exists (key inp u (length p) - 1). split; [lia|]. rewrite reach_snoc, R. apply Nat.eqb_eq. lia.
Qed.
Lemma populated5 st pth nl nbn : good inp st pth -> populated inp st pth ->
  lst st (nlev st) + nth (nlev st) (nused inp st) 0 <= nbn ->
  (forall l, l < nlev st -> nth l (nused inp st) 0 <= lst st (S l) - lst st l) ->
  0 < nth (nlev st) (nused inp st) 0 ->
  populated inp (st5 inp st nl nbn) (pth5 inp st pth nl nbn).
Proof.
  intros G P NB NR NE. assert (H := g_head _ _ _ G).
  assert (X : exists u b m, u < np /\ m < nch /\ used st b /\ length (pth b) + 1 = nlev st /\ heavy inp (pth b) = true /\
                            reach inp u (pth b ++ [m]) = true).
  { destruct (adaptive inp) eqn:A.
    - apply (nu_L_pos_iff inp WT MW st pth G _ (le_n _)) in NE. destruct NE as [b [U [E Hv]]].
      destruct (heavy_particle _ A Hv) as [u [m [Hu [Hm R]]]]. exists u, b, m. auto 10.
    - destruct KIND as [K|K]; [discriminate|]. destruct P as [u [b [Hu [U [E R]]]]].
      destruct (no_extent_child u (pth b) K R) as [m [Hm R']]. exists u, b, m. repeat split; auto.
      unfold heavy. rewrite A. auto. }
  destruct X as [u [b [m [Hu [Hm [U [E [Hv R]]]]]]]].
  assert (M : moves inp st b). { apply (will_moves inp WT st pth G b U). left. rewrite (h_level _ _ _ H). auto. }
  exists u, (nid inp st b m). split; auto.
  split; [apply (u5 inp st pth G nl nbn NB); right; exists b, m; auto|].
  rewrite (p5n inp WT st pth G nl nbn NB NR) by auto. split; auto.
  rewrite app_length, (nlev5 inp st pth H). cbn [length]. lia.
Qed.
Lemma populated_run st pth : run inp st pth -> populated inp st pth.
Proof.
  induction 1 as [E|st pth st' pt R IH T].
  - exists 0, 0. split; auto. split; [apply initial_used; auto|]. split; reflexivity.
  - assert (G := run_good inp WT MW NPOS GU st pth R). assert (H := g_head _ _ _ G).
    destruct T as [g Hg|ns nbn LR NSlen NS0 NSle|nl nbn force did NB NR NE TI F RL O].
    + exact IH.
    + destruct IH as [u [b [Hu [U [E Rb]]]]].
      assert (MG := marked_good inp WT MW st pth G). assert (MH := g_head _ _ _ MG).
      exists u, (renumbering (marks inp st) ns b). split; auto.
      assert (Ub : b < lst (marks inp st) (nlev (marks inp st))) by (apply (used_lt _ (i_layout _ _ _ (h_inv _ _ _ MH))); auto).
      split; [apply (used'_dst inp _ pth MH ns nbn); auto|].
      rewrite (pth'_dst inp _ pth MH ns nbn); auto.
    + exact (populated5 st pth nl nbn G IH NB NR NE).
Qed.
Lemma populated_ends st pth st' pt : good inp st pth -> populated inp st pth -> ends inp st pth st' pt -> populated inp st' pt.
Proof.
  intros G P E. assert (H := g_head _ _ _ G). assert (I := h_inv _ _ _ H). assert (LP := lay_pos st (i_layout _ _ _ I)).
  destruct E as [E1 E2 E3|nl nbn NB NR E1 E2 E3|nl nbn force NB NR NE LR E1 RL O|nl nbn NB NR NE LR TI O].
  - exact P.
  - destruct P as [u [b [Hu [U [E Rb]]]]].
    assert (I5 : inv inp (st5 inp st nl nbn) (pth5 inp st pth nl nbn)) by (apply advance_inv; auto).
    assert (N5 := nlev5 inp st pth H nl nbn).
    assert (Z5 : usd (st5 inp st nl nbn) (nlev (st5 inp st nl nbn) - 1) = 0).
    { rewrite N5, usd5. replace (S (nlev st) - 1) with (nlev st) by lia. auto. }
    assert (P5 : 1 < nlev (st5 inp st nl nbn)) by lia.
    exists u, b. split; auto. split.
    + apply (drop_used inp (st5 inp st nl nbn) (pth5 inp st pth nl nbn) (s_leaves (st5 inp st nl nbn)) I5 P5 Z5).
      apply (u5 inp st pth G nl nbn NB). auto.
    + rewrite (p5o inp st pth G) by auto. split; auto.
      assert (D := drop_nlev (st5 inp st nl nbn) (s_leaves (st5 inp st nl nbn))). rewrite N5 in D.
      etransitivity; [exact E|]. symmetry. etransitivity; [exact D|]. lia.
  - exact (populated5 st pth nl nbn G P NB NR NE).
  - exact (populated5 st pth nl nbn G P NB NR NE).
Qed.
Theorem populated_done st : level_loop inp = Done st -> exists pth, fin inp st pth /\ populated inp st pth.
Proof.
  intros E. destruct (level_loop_fin inp st WT MW NPOS GU E) as [_ [->|[st0 [pth0 [pth [R [T Fn]]]]]]].
  - assert (E0 : s_level (initial_state inp) = 0 \/ s_level (initial_state inp) = 1)
      by (cbn [s_level initial_state]; destruct (_ <? _)%Z; auto).
    destruct E0 as [E0|E0].
    + exists (fun _ => []). split; [apply init_fin; auto|]. exists 0, 0. split; auto.
      split; [apply initial_used; auto|]. split; reflexivity.
    + destruct (level_loop_fin inp (initial_state inp) WT MW NPOS GU E) as [[pth Fn] _].
      exists pth. split; auto. assert (I := f_inv _ _ _ Fn). exists 0, 0. split; auto.
      split; [apply initial_used; auto|]. rewrite (pth_0 inp _ pth I). split; reflexivity.
  - exists pth. split; auto. apply (populated_ends st0 pth0 st pth); auto; [apply run_good; auto|apply populated_run; auto].
Qed.
End Full.

(** ** level_start_box_nrs after pruning *)
Lemma mono_cnt (f : nat -> nat) n l : (forall i j, i <= j -> j < n -> f i <= f j) ->
  forall i, i < n -> (f i < l <-> i < cnt (fun j => f j <? l) n).
Proof.
  assert (CS : forall p k, cnt p (S k) = cnt p k + (if p k then 1 else 0)).
  { intros p k. unfold cnt. rewrite seq_S, filter_app, app_length. cbn [plus filter]. destruct (p k); auto. }
  intros M. assert (G : forall k, k <= n -> forall i, i < k -> (f i < l <-> i < cnt (fun j => f j <? l) k)).
  { induction k as [|k IH]; intros Hk i Hi; [lia|]. rewrite CS.
    destruct (Nat.ltb_spec (f k) l) as [C|C].
    - assert (E : cnt (fun j => f j <? l) k = k).
      { assert (X := cnt_le (fun j => f j <? l) k). destruct k as [|k']; [reflexivity|].
        assert (M' := M k' (S k') ltac:(lia) ltac:(lia)). assert (Z := proj1 (IH ltac:(lia) k' ltac:(lia)) ltac:(lia)). lia. }
      rewrite E. assert (M' := M i k ltac:(lia) ltac:(lia)). lia.
    - rewrite Nat.add_0_r. destruct (Nat.eq_dec i k) as [->|].
      + assert (X := cnt_le (fun j => f j <? l) k). lia.
      + apply IH; lia. }
  intros i Hi. apply G; auto.
Qed.
Lemma prefix_from_nth a l : forall k, k <= length l -> nth k (prefix_from a l) 0 = a + nsum (firstn k l).
Proof.
  revert a. induction l as [|x l IH]; intros a k Hk; cbn [length] in Hk.
  - assert (k = 0) by lia. subst k. cbn. lia.
  - destruct k as [|k]; [cbn; lia|]. cbn [prefix_from nth firstn]. rewrite IH by lia.
    change (nsum (x :: firstn k l)) with (x + nsum (firstn k l)). lia.
Qed.
Lemma prefix_from_length a l : length (prefix_from a l) = S (length l).
Proof. revert a. induction l; intros; cbn [prefix_from length]; auto. Qed.

Section Starts.
Variable inp : input.
Variable st : state.
Variable pth : nat -> list nat.
Hypothesis F : fin inp st pth.
Hypothesis NPOS : 0 < npart inp.
Let I : inv inp st pth := f_inv inp st pth F.
Let Y : layout st := i_layout inp st pth I.
Notation ps := (prune inp st).
Notation n := (p_nboxes (prune inp st)).
Notation q := (pq inp st pth).
Notation P := (prune_pinv inp st pth F NPOS).
Hypothesis FULL : forall l, l < nlev st -> exists j, j < n /\ length (q j) = l.

Definition before (l : nat) : nat := cnt (fun j => length (q j) <? l) n.
Lemma before_spec l j : j < n -> (length (q j) < l <-> j < before l).
Proof. intros Hj. apply (mono_cnt (fun j => length (q j)) n l); auto. intros i k Hik Hk. apply (pi_mono _ _ _ _ P); auto. Qed.
Lemma before_le l : before l <= n.
Proof. apply cnt_le. Qed.
Lemma before_lt l : l < nlev st -> before l < before (S l).
Proof.
  intros Hl. destruct (FULL l Hl) as [j [Hj E]]. assert (A := before_spec l j Hj). assert (B := before_spec (S l) j Hj). lia.
Qed.
Lemma before_last l : nlev st <= l -> before l = n.
Proof.
  intros Hl. assert (X := before_le l). destruct (Nat.eq_dec (before l) n) as [|E]; auto. exfalso.
  assert (A := before_spec l (before l) ltac:(lia)). assert (B := pq_level_lt inp st pth F NPOS (before l) ltac:(lia)). lia.
Qed.
Lemma before_0 : before 0 = 0.
Proof. apply cnt_0. auto. Qed.
Lemma level_box_counts_eq l : l < nlev st ->
  level_box_counts st n (p_blevel ps) l = before (S l) - before l.
Proof.
  intros Hl. assert (BL := before_lt l Hl). assert (BN := before_le (S l)).
  assert (LV := pi_level _ _ _ _ P).
  assert (LB : forall j, j < n -> (p_blevel ps j = l <-> before l <= j < before (S l))).
  { intros j Hj. rewrite LV by auto. assert (A := before_spec l j Hj). assert (B := before_spec (S l) j Hj). lia. }
  unfold level_box_counts. apply scatter_in_eq.
  - apply in_map_iff. exists (before (S l) - 1). split.
    + f_equal; [apply LB; lia|]. rewrite seg_scan_nsum.
      rewrite (seg_begin_eq _ (before (S l) - 1) (before l)).
      * assert (N1 : forall len a, nsum (map (fun _ : nat => 1) (seq a len)) = len).
        { induction len; intros a; auto. cbn [seq map]. change (nsum (1 :: map (fun _ => 1) (seq (S a) len)))
            with (1 + nsum (map (fun _ => 1) (seq (S a) len))). rewrite IHlen. auto. }
        rewrite N1. lia.
      * lia.
      * destruct (Nat.eq_dec (before l) 0) as [|E]; [left; auto|right]. apply negb_true_iff, Nat.eqb_neq.
        rewrite (proj2 (LB (before l) ltac:(lia))) by lia. intros E2. symmetry in E2. apply LB in E2; lia.
      * intros j J1 J2. apply negb_false_iff, Nat.eqb_eq.
        rewrite (proj2 (LB j ltac:(lia))) by lia. symmetry. apply LB; lia.
    + apply filter_In. split; [apply in_seq; lia|]. destruct (Nat.eq_dec (before (S l)) n) as [E|E].
      * apply orb_true_iff. left. apply Nat.eqb_eq. lia.
      * apply orb_true_iff. right. apply negb_true_iff, Nat.eqb_neq.
        rewrite (proj2 (LB (before (S l) - 1) ltac:(lia))) by lia. intros E2. symmetry in E2. apply LB in E2; lia.
  - intros v Hv. apply in_map_iff in Hv. destruct Hv as [i [Ei Hi]]. assert (E1 := f_equal fst Ei). assert (E2 := f_equal snd Ei). cbn [fst snd] in E1, E2. rewrite <- E2. clear Ei E2.
    apply filter_In in Hi. destruct Hi as [Hi Ce]. apply in_seq in Hi.
    assert (Li : before l <= i < before (S l)) by (apply LB; [lia|auto]).
    assert (Ei : i = before (S l) - 1).
    { apply orb_true_iff in Ce. destruct Ce as [Ce|Ce].
      - apply Nat.eqb_eq in Ce. lia.
      - apply negb_true_iff, Nat.eqb_neq in Ce. destruct (Nat.eq_dec i (before (S l) - 1)) as [|Z]; auto. exfalso. apply Ce.
        rewrite E1. symmetry. apply LB; lia. }
    rewrite seg_scan_nsum. rewrite (seg_begin_eq _ i (before l)).
    + assert (N1 : forall len a, nsum (map (fun _ : nat => 1) (seq a len)) = len).
      { induction len; intros a; auto. cbn [seq map]. change (nsum (1 :: map (fun _ => 1) (seq (S a) len)))
          with (1 + nsum (map (fun _ => 1) (seq (S a) len))). rewrite IHlen. auto. }
      rewrite N1. lia.
    + lia.
    + destruct (Nat.eq_dec (before l) 0) as [|E]; [left; auto|right]. apply negb_true_iff, Nat.eqb_neq.
      rewrite (proj2 (LB (before l) ltac:(lia))) by lia. intros E2. symmetry in E2. apply LB in E2; lia.
    + intros j J1 J2. apply negb_false_iff, Nat.eqb_eq.
      rewrite (proj2 (LB j ltac:(lia))) by lia. symmetry. apply LB; lia.
Qed.
Lemma p_lstart_length : length (p_lstart ps) = S (nlev st).
Proof.
  cbn [prune p_lstart]. destruct (was_pruned inp); [|apply (lay_len st Y)].
  rewrite prefix_from_length, map_length, seq_length. auto.
Qed.
Lemma p_lstart_nth l : l <= nlev st -> nth l (p_lstart ps) 0 = before l.
Proof.
  intros Hl. cbn [prune p_lstart]. destruct (was_pruned inp) eqn:WP.
  - rewrite prefix_from_nth by (rewrite map_length, seq_length; auto).
    rewrite firstn_map. assert (FS : firstn l (seq 0 (nlev st)) = seq 0 l).
    { replace (nlev st) with (l + (nlev st - l)) by lia. rewrite seq_app, firstn_app, seq_length.
      rewrite Nat.sub_diag. cbn [firstn]. rewrite app_nil_r. apply firstn_all2. rewrite seq_length. auto. }
    change (length (s_used st)) with (nlev st). rewrite FS. clear FS.
    induction l as [|l IH]; [rewrite before_0; reflexivity|].
    rewrite seq_S, map_app, nsum_app, Nat.add_assoc, IH by lia. cbn [map plus].
    change (p_blevel (prune inp st)) with (pruned (src_boxes inp st) (s_blevel st) 0) in *.
    assert (E := level_box_counts_eq l ltac:(lia)). cbn [prune p_blevel p_nboxes] in E. rewrite E.
    assert (X := before_lt l ltac:(lia)). change (nsum [before (S l) - before l]) with (before (S l) - before l + 0). lia.
  - (* nothing pruned: old ids are box ids *)
    unfold was_pruned in WP. apply orb_false_iff in WP. destruct WP as [SK LR]. apply negb_false_iff in SK.
    change (nth l (s_lstart st) 0) with (lst st l).
    assert (SB : src_boxes inp st = seq 0 (lst st (nlev st))).
    { unfold src_boxes. rewrite SK, LR, (nboxes_built_eq inp st pth F). auto. }
    assert (NN : n = lst st (nlev st)) by (cbn [prune p_nboxes]; rewrite SB, seq_length; auto).
    assert (OL : forall j, j < n -> old inp st j = j) by (intros j Hj; unfold old; rewrite SB, seq_nth; lia).
    assert (QL : forall j, j < n -> (length (q j) < l <-> j < lst st l)).
    { intros j Hj. unfold pq. rewrite OL by auto.
      destruct (level_spec st Y j) as [L1 L2]; [lia|]. rewrite (i_len _ _ _ I).
      - split; intros C.
        + assert (X := lst_le st Y (S (s_blevel st j)) l). lia.
        + destruct (Nat.lt_ge_cases (s_blevel st j) l) as [|C']; auto. assert (X := lst_le st Y l (s_blevel st j)). lia.
      - exists (s_blevel st j). split; auto. assert (T := f_tight _ _ _ F LR _ L1). lia. }
    assert (LN := lst_le st Y l (nlev st) Hl (le_n _)).
    destruct (Nat.lt_trichotomy (lst st l) (before l)) as [C|[C|C]]; auto; exfalso.
    + assert (X := before_le l). assert (A := before_spec l (lst st l) ltac:(lia)). assert (B := QL (lst st l) ltac:(lia)). lia.
    + assert (A := before_spec l (before l) ltac:(lia)). assert (B := QL (before l) ltac:(lia)). lia.
Qed.
End Starts.

(** all levels hold boxes after pruning *)
Lemma prune_full inp st pth : fin inp st pth -> 0 < npart inp ->
  skip_prune inp = true \/ populated inp st pth ->
  forall l, l < nlev st -> exists j, j < p_nboxes (prune inp st) /\ length (pq inp st pth j) = l.
Proof.
  intros F NPOS C l Hl. assert (I := f_inv _ _ _ F). assert (Y := i_layout _ _ _ I).
  assert (X : exists b, used st b /\ length (pth b) = l /\ keep inp st b = true).
  { destruct C as [SK|[u [b [Hu [U [E R]]]]]].
    - assert (NE := f_nonempty _ _ _ F l Hl).
      assert (U : used st (lst st l)) by (exists l; split; auto; lia).
      exists (lst st l). split; auto. split.
      + rewrite (i_len _ _ _ I _ U). apply (used_at_level st Y). split; auto. lia.
      + unfold keep. rewrite SK. apply (usedb_spec st Y). auto.
    - assert (E2 : pth b = firstn l (pth b) ++ skipn l (pth b)) by (symmetry; apply firstn_skipn).
      destruct (prefix_used inp st pth I b _ _ U E2) as [a [Ua Ea]]. exists a. split; auto.
      split; [rewrite Ea, firstn_length; lia|]. apply (used_keep inp st pth F); auto.
      rewrite (i_cumul _ _ _ I a Ua). apply cnt_pos. exists u. split; auto. rewrite E2 in R. apply reach_app in R. rewrite Ea. auto. }
  destruct X as [b [U [E K]]].
  assert (IS : In b (src_boxes inp st)) by (apply (in_src inp st pth F NPOS); split; auto; apply (used_lt st Y); auto).
  destruct (in_src_old inp st b IS) as [j [Hj ->]]. exists j. split; auto.
Qed.
