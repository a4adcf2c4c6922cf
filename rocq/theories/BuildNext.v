(** A trip through the level loop that splits boxes keeps the loop invariant. *)
From Coq Require Import List Arith ZArith NArith Lia Bool Permutation.
From Verif Require Import Base Tree Walk Traversal Fmm TreeBuild ArrayFacts BuildInv BuildScan BuildIds BuildSort
  BuildAdvance BuildRenumber BuildStep.
Import ListNotations.

(** what the level restriction marks *)
Lemma run_all_combine {A} (f : nat -> option A) l hits : run_all f l = Some hits ->
  length hits = length l /\ forall b h, In (b, h) (combine l hits) -> In b l /\ f b = Some h.
Proof.
  revert hits. induction l as [|x l IH]; intros hits E; cbn [run_all] in E.
  - inversion E. split; auto. intros b h [].
  - destruct (f x) eqn:F; [|discriminate]. destruct (run_all f l) eqn:R; [|discriminate]. inversion E; subst.
    destruct (IH _ eq_refl) as [A1 A2]. split; [cbn; lia|]. intros b h [E2|Hin].
    + inversion E2; subst. split; [left; auto|auto].
    + destruct (A2 b h Hin). split; [right; auto|auto].
Qed.
Lemma scatter_true_iff keys (old : nat -> bool) x :
  scatter (map (fun bh : nat * bool => (fst bh, true)) keys) old x = true <-> In x (map fst keys) \/ old x = true.
Proof.
  destruct (in_dec Nat.eq_dec x (map fst keys)) as [E|E].
  - split; auto. intros _. apply scatter_in_eq.
    + apply in_map_iff in E. destruct E as [bh [<- Hb]]. apply in_map_iff. exists bh. auto.
    + intros v Hv. apply in_map_iff in Hv. destruct Hv as [bh [E2 _]]. inversion E2; auto.
  - rewrite scatter_notin.
    + tauto.
    + intros v Hv. apply E. apply in_map_iff in Hv. destruct Hv as [bh [E2 Hb]]. inversion E2; subst.
      apply in_map. auto.
Qed.
Lemma restrict_levels_marks inp st n levels : forall force did force' did',
  restrict_levels inp st n levels force did = Some (force', did') ->
  (forall b, force b = true -> force' b = true) /\
  (forall b, force' b = true -> force b = true \/
     exists l, In l levels /\ nth l (s_lstart st) 0 <= b < nth l (s_lstart st) 0 + nth l (s_used st) 0 /\
               s_has_children st b = false) /\
  (did' = true -> did = true \/ exists b, force' b = true).
Proof.
  induction levels as [|l levels IH]; intros force did force' did' E; cbn [restrict_levels] in E.
  - inversion E; subst. auto.
  - destruct (run_all _ _) as [hits|] eqn:R; [|discriminate].
    destruct (run_all_combine _ _ _ R) as [R1 R2].
    destruct (existsb (fun h => h) hits) eqn:EX.
    + destruct (IH _ _ _ _ E) as [A [B C]]. split; [|split].
      * intros b Hb. apply A. apply scatter_true_iff. auto.
      * intros b Hb. destruct (B b Hb) as [D|[l' [D1 D2]]].
        -- apply scatter_true_iff in D. destruct D as [D|D]; [right|left; auto].
           apply in_map_iff in D. destruct D as [[b' h] [<- D]]. apply filter_In in D. destruct D as [D1 D2].
           cbn in D2 |- *. subst h. destruct (R2 b' true D1) as [D2 D3]. apply in_seq in D2.
           exists l. split; [left; auto|]. split; [lia|]. unfold restrict_box in D3.
           destruct (s_has_children st b'); [congruence|auto].
        -- right. exists l'. split; [right; auto|auto].
      * intros _. right. apply existsb_exists in EX. destruct EX as [h [Hh ->]].
        apply In_nth with (d := true) in Hh. destruct Hh as [j [Hj Ej]].
        exists (nth j (seq (nth l (s_lstart st) 0) (nth l (s_used st) 0)) 0).
        apply A. apply scatter_true_iff. left. apply in_map_iff.
        exists (nth j (combine (seq (nth l (s_lstart st) 0) (nth l (s_used st) 0)) hits) (0, true)).
        assert (Hj' : j < length (combine (seq (nth l (s_lstart st) 0) (nth l (s_used st) 0)) hits))
          by (rewrite combine_length; lia).
        split; [rewrite combine_nth by auto; auto|]. apply filter_In. split; [apply nth_In; auto|].
        rewrite combine_nth by auto. cbn. auto.
    + inversion E; subst. auto.
Qed.

(** changing the control variables and the marks *)
Section Control.
Variable inp : input.
Variable st : state.
Variable pth : nat -> list nat.
Variables (level : nat) (force : nat -> bool) (over final : bool).
Notation st6 := (with_control st level force over final).
Lemma control_inv : inv inp st pth -> (forall b, ~ used st b -> force b = false) -> inv inp st6 pth.
Proof.
  intros I F. pose proof I as [J1 J2 J3 J4 J5 J6 J7 J8 J9 J10 J11 J12 J13 J14 J15 J16 J17]. split; auto.
  - pose proof J1 as [Y1 Y2 Y3 Y4 Y6 Y7]. split; auto.
  - intros b U. destruct (J17 b U) as [K1 [K2 [K3 [K4 K5]]]]. repeat (split; auto).
Qed.
Lemma control_head : inv inp st pth -> (forall b, ~ used st b -> force b = false) ->
  level = nlev st ->
  (forall l, l < nlev st -> lst st l < lst st (S l)) ->
  (level_restrict inp = false -> forall l, l < nlev st -> lst st l + usd st l = lst st (S l)) ->
  (forall b, used st b -> s_child st 0 b <> 0 -> s_has_children st b = true) ->
  (level_restrict inp = true -> forall b, used st b -> force b = true -> s_child st 0 b = 0) ->
  (forall b, used st b -> s_has_children st b = true -> s_child st 0 b <> 0) ->
  head inp st6 pth.
Proof.
  intros I F E H1 H2 H3 H4 H5. split; auto.
  - apply control_inv; auto.
  - intros b U S Z. exfalso. apply (H5 b U S Z).
Qed.
Lemma control_good : head inp st6 pth ->
  (forall b a, used st b -> a < idim inp -> s_center st b a = path_center inp (pth b) a) ->
  (forall b, used st b -> s_child st 0 b = 0 -> length (pth b) + 1 < level -> heavy inp (pth b) = false) ->
  over = false ->
  (forall b, force b = true ->
    level_restrict inp = true /\ used st b /\ 0 < length (pth b) /\ length (pth b) + 3 <= level) ->
  (final = true -> level_restrict inp = true /\
    (forall b, used st b -> s_child st 0 b = 0 -> heavy inp (pth b) = false) /\ (exists b, force b = true)) ->
  (level_restrict inp = false -> forall b, used st b -> s_child st 0 b <> 0 -> heavy inp (pth b) = true) ->
  (forall l, l < nlev st -> 0 < usd st l) -> 0 < s_guess st -> good inp st6 pth.
Proof.
  intros H1 H2 H3 H4 H5 H6 H7 H8 H9. split; auto. cbn [with_control s_oversize]. congruence.
Qed.
End Control.

Section Next.
Variable inp : input.
Notation np := (npart inp).
Notation nch := (nchild inp).
Hypothesis WT : forall u, u < np -> (0 <= weight inp u <= INT_MAX)%Z.
Hypothesis MW : (0 <= max_weight inp)%Z.
Variable st : state.
Variable pth : nat -> list nat.
Hypothesis G : good inp st pth.
Let H := g_head inp st pth G.
Let I := h_inv inp st pth H.
Let Y := i_layout inp st pth I.
Notation st1 := (scanned inp st).
Notation st2 := (marked inp st1).
Notation L := (nlev st).
Notation n := (lst st L).
Notation sp := (splits inp st1).
Notation ids := (split_box_ids inp st1).
Notation nu := (new_used st2 ids).
Variables (nl : list nat) (nbn : nat).
Hypothesis NB : n + nth L nu 0 <= nbn.
Hypothesis NR : forall l, l < L -> nth l nu 0 <= lst st (S l) - lst st l.
Notation st5 := (st5 inp st nl nbn).
Notation pth5 := (pth5 inp st pth nl nbn).
Notation moves := (moves inp st).
Notation nid := (nid inp st).

Let I5 : inv inp st5 pth5 := advance_inv inp WT MW st pth H nl nbn NB NR.
Let Y5 : layout st5 := i_layout inp st5 pth5 I5.
Lemma u5 x : used st5 x <-> used st x \/ exists b m, moves b /\ m < nch /\ x = nid b m.
Proof. apply (used5_iff inp st pth H nl nbn NB). Qed.
Lemma p5o x : used st x -> pth5 x = pth x.
Proof. apply (pth5_old inp st pth H nl nbn). Qed.
Lemma p5n b m : moves b -> m < nch -> pth5 (nid b m) = pth b ++ [m].
Proof. apply (pth5_new inp WT st pth H nl nbn NB NR). Qed.
Lemma c5n b m : moves b -> m < nch -> s_child st5 m b = nid b m.
Proof. apply (child5_new inp WT st pth H nl nbn NB). Qed.
Lemma c5o b m : ~ moves b -> m < nch -> s_child st5 m b = s_child st m b.
Proof. apply (child5_old inp WT st pth H nl nbn NB). Qed.
Lemma moves_will b : moves b -> will inp st pth b.
Proof. intros M. apply (sp_will inp WT st pth G b); [apply (moves_used inp MW st pth H); auto|apply M]. Qed.
Lemma will_moves b : used st b -> will inp st pth b -> moves b.
Proof. intros U W. split; [apply (used_lt st Y); auto|]. apply (sp_will inp WT st pth G b); auto. Qed.
Lemma not_used_not_moves b : ~ used st b -> ~ moves b.
Proof. intros U M. apply U, (moves_used inp MW st pth H); auto. Qed.
Lemma nid_leaf b m k : moves b -> m < nch -> k < nch -> s_child st5 k (nid b m) = 0.
Proof.
  intros M Hm Hk. assert (U := nid_not_used inp st pth H nl nbn NB NR b m M Hm).
  rewrite c5o; auto; [|apply not_used_not_moves; auto]. apply (i_unused inp st pth I (nid b m) U). auto.
Qed.
Lemma hc5 x : s_has_children st5 x = if x <? n then s_has_children st x || sp x else false.
Proof. apply (has_children2 inp st pth H). Qed.
Lemma marks5 x : used st5 x -> s_child st5 0 x <> 0 -> s_has_children st5 x = true.
Proof.
  intros U S. assert (NP := nch_pos inp). apply u5 in U. destruct U as [U|[b [m [M [Hm ->]]]]].
  - rewrite hc5. assert (X := used_lt st Y x U). apply Nat.ltb_lt in X. rewrite X.
    destruct (moves_dec inp st x) as [M|M].
    + destruct M as [_ M]. rewrite M. apply orb_true_r.
    + rewrite c5o in S by auto. rewrite (h_marks inp st pth H x U S). auto.
  - exfalso. apply S. apply nid_leaf; auto.
Qed.
Lemma pending5 x : used st5 x -> s_has_children st5 x = true -> s_child st5 0 x <> 0.
Proof.
  intros U S Z. assert (NP := nch_pos inp). rewrite hc5 in S. apply u5 in U. destruct U as [U|[b [m [M [Hm ->]]]]].
  - assert (X := used_lt st Y x U). destruct (moves_dec inp st x) as [M|M].
    + rewrite c5n in Z by auto. apply (moves_nid_nonzero inp st pth H nbn NB x 0 M Z).
    + rewrite c5o in Z by auto. apply Nat.ltb_lt in X. rewrite X in S. apply orb_true_iff in S. destruct S as [S|S].
      * apply M. apply will_moves; auto. apply (h_pending inp st pth H); auto.
      * apply M. split; [apply Nat.ltb_lt; auto|auto].
  - assert (U := nid_not_used inp st pth H nl nbn NB NR b m M Hm).
    destruct (Nat.ltb_spec (nid b m) n) as [C|C]; [|discriminate].
    destruct (i_unused inp st pth I (nid b m) U) as [_ [_ [HC _]]]. rewrite HC in S. cbn in S.
    apply U. apply (splits_used inp MW st pth H); auto.
Qed.
Lemma center5 x a : used st5 x -> a < idim inp -> s_center st5 x a = path_center inp (pth5 x) a.
Proof.
  intros U Ha. apply u5 in U. destruct U as [U|[b [m [M [Hm ->]]]]].
  - rewrite (center5_old inp WT st pth H nl nbn NB NR) by auto. rewrite p5o by auto.
    apply (g_center inp st pth G); auto.
  - rewrite (center5_new inp WT st pth H nl nbn NB NR) by auto. rewrite p5n by auto.
    rewrite kernel_map_lt by auto. rewrite path_center_snoc. unfold new_center.
    assert (U := moves_used inp MW st pth H b M).
    rewrite (i_len inp st pth I b U). rewrite <- (g_center inp st pth G b a U Ha). reflexivity.
Qed.
Lemma light5 x : used st5 x -> s_child st5 0 x = 0 -> length (pth5 x) + 1 <= L -> heavy inp (pth5 x) = false.
Proof.
  intros U Lf Hl. assert (NP := nch_pos inp). apply u5 in U. destruct U as [U|[b [m [M [Hm ->]]]]].
  - rewrite p5o in * by auto. destruct (moves_dec inp st x) as [M|M].
    + rewrite c5n in Lf by auto. exfalso. apply (moves_nid_nonzero inp st pth H nbn NB x 0 M Lf).
    + rewrite c5o in Lf by auto. destruct (Nat.eq_dec (length (pth x) + 1) L) as [E|E].
      * apply not_true_is_false. intros T. apply M. apply will_moves; auto. left.
        rewrite (h_level inp st pth H). auto.
      * apply (g_light inp st pth G); auto. rewrite (h_level inp st pth H). lia.
  - rewrite p5n in * by auto. rewrite app_length in Hl. cbn [length] in Hl.
    assert (U := moves_used inp MW st pth H b M). assert (Lb := moves_leaf inp WT MW st pth H b M).
    destruct (moves_will b M) as [[E _]|[LR F]]; [rewrite (h_level inp st pth H) in E; lia|].
    assert (LI := g_light inp st pth G b U Lb). rewrite (h_level inp st pth H) in LI.
    apply not_true_is_false. intros T. apply heavy_parent in T; auto; [|apply LR_adaptive; auto].
    rewrite LI in T by lia. discriminate.
Qed.
Lemma small5 x : s_oversize st2 = false -> used st5 x -> length (pth5 x) = L -> 
  (Z.min INT_MAX (rweight inp (pth5 x)) <= max_weight inp)%Z.
Proof.
  intros O U E. apply u5 in U. destruct U as [U|[b [m [M [Hm ->]]]]].
  - exfalso. rewrite p5o in E by auto. rewrite (i_len inp st pth I x U) in E. apply (used_level st Y) in U.
    destruct U. lia.
  - rewrite p5n by auto. apply Z.nlt_ge. intros C. assert (T : s_oversize st2 = true); [|congruence].
    apply (over2_iff inp WT MW st pth G). exists b, m. split; [apply (moves_used inp MW st pth H); auto|].
    split; [apply moves_will; auto|]. split; auto.
Qed.
Lemma usd_L : usd st L = 0.
Proof. unfold usd. apply nth_overflow. unfold nlev. auto. Qed.
Lemma nu_L_pos_iff : 0 < nth L nu 0 <-> exists b, used st b /\ length (pth b) + 1 = L /\ heavy inp (pth b) = true.
Proof.
  assert (LP := lay_pos st Y). assert (NP := nch_pos inp).
  assert (E : nth L nu 0 = nch * nsp inp st (L - 1)).
  { replace L with (S (L - 1)) at 1 by lia. rewrite (nu_S inp st pth H) by lia.
    replace (S (L - 1)) with L by lia. rewrite usd_L. auto. }
  rewrite E. split.
  - intros P. assert (P' : 0 < nsp inp st (L - 1)) by (destruct (nsp inp st (L - 1)); lia).
    unfold nsp in P'. destruct (cntr_nth _ _ _ _ P') as [b [Hb [S _]]].
    replace (Datatypes.S (L - 1)) with L in Hb by lia.
    assert (U : used st b) by (apply (splits_used inp MW st pth H b); auto; lia).
    assert (EL : s_blevel st b = L - 1). { apply (lay_level st Y); try lia. replace (Datatypes.S (L - 1)) with L by lia. lia. }
    exists b. split; auto. rewrite (i_len inp st pth I b U). split; [lia|].
    apply (sp_will inp WT st pth G b U) in S. destruct S as [[_ S]|[_ F]]; auto.
    destruct (g_force inp st pth G b F) as [_ [_ [_ F4]]]. rewrite (i_len inp st pth I b U), (h_level inp st pth H) in F4. lia.
  - intros [b [U [Eb Hb]]].
    assert (M : moves b). { apply will_moves; auto. left. rewrite (h_level inp st pth H). auto. }
    rewrite (i_len inp st pth I b U) in Eb.
    destruct (moves_level inp st pth H b M) as [M1 M2].
    assert (X := cntr_pos sp (lst st (L - 1)) (lst st (S (L - 1))) b).
    replace (s_blevel st b) with (L - 1) in M2 by lia. destruct M as [_ M].
    specialize (X (proj1 M2) (proj2 M2) M). unfold nsp. nia.
Qed.

Lemma split5 : level_restrict inp = false -> forall b, used st5 b -> s_child st5 0 b <> 0 -> heavy inp (pth5 b) = true.
Proof.
  assert (NP := nch_pos inp). intros LR b U S.
  apply u5 in U. destruct U as [U|[b' [m [M [Hm ->]]]]].
  - rewrite p5o by auto. destruct (moves_dec inp st b) as [M|M].
    + destruct (moves_will b M) as [[_ W]|[W _]]; auto. congruence.
    + rewrite c5o in S by auto. apply (g_split inp st pth G); auto.
  - exfalso. apply S, nid_leaf; auto.
Qed.

(** the state at the head of the next trip *)
Variables (force : nat -> bool) (final : bool).
Hypothesis NE : 0 < nth L nu 0.
Hypothesis TI : level_restrict inp = false -> nbn = n + nth L nu 0.
Hypothesis FO : forall b, force b = true -> level_restrict inp = true /\ used st5 b /\ 0 < length (pth5 b) /\
  length (pth5 b) + 2 <= L /\ s_has_children st5 b = false.
Hypothesis FI : final = true -> level_restrict inp = true /\ s_oversize st2 = false /\ exists b, force b = true.
Notation st6 := (with_control st5 (s_level st5 + 1) force false final).

Lemma level5 : s_level st5 = L.
Proof. apply (h_level inp st pth H). Qed.
Lemma next_head : head inp st6 pth5.
Proof.
  assert (NL := nlev5 inp st pth H nl nbn).
  apply control_head; auto.
  - intros b U. apply not_true_is_false. intros F. apply FO in F. destruct F as [_ [F _]]. contradiction.
  - rewrite level5, NL. lia.
  - intros l Hl. rewrite NL in Hl.
    destruct (Nat.eq_dec l L) as [->|E].
    + rewrite (lst5_last inp st pth H nl nbn NB), (lst5 inp st pth H nl nbn NB) by lia. lia.
    + rewrite !(lst5 inp st pth H nl nbn NB) by lia. apply (h_strict inp st pth H). lia.
  - intros LR l Hl. rewrite NL in Hl. rewrite usd5.
    destruct (Nat.eq_dec l L) as [->|E].
    + rewrite (lst5_last inp st pth H nl nbn NB), (lst5 inp st pth H nl nbn NB) by lia. rewrite TI; auto.
    + rewrite !(lst5 inp st pth H nl nbn NB) by lia. assert (X := h_tight inp st pth H LR l ltac:(lia)).
      assert (X2 := usd_le_nu inp st pth H nbn NB l ltac:(lia)). assert (X3 := NR l ltac:(lia)). lia.
  - apply marks5.
  - intros _ b U F. destruct (Nat.eq_dec (s_child st5 0 b) 0) as [|N]; auto.
    exfalso. apply marks5 in N; auto. apply FO in F. destruct F as [_ [_ [_ [_ F]]]]. congruence.
  - apply pending5.
Qed.
Theorem next_good : good inp st6 pth5.
Proof.
  assert (NP := nch_pos inp). assert (NL := nlev5 inp st pth H nl nbn).
  apply control_good; auto.
  - apply next_head.
  - apply center5.
  - intros b U Lf Hl. apply light5; auto. rewrite level5 in Hl. lia.
  - intros b F. destruct (FO b F) as [F1 [F2 [F3 [F4 _]]]]. split; auto. split; auto. split; auto.
    rewrite level5. lia.
  - intros E. destruct (FI E) as [F1 [F2 F3]]. split; auto. split; auto.
    intros b U Lf.
    assert (LL : length (pth5 b) <= L).
    { rewrite (i_len inp st5 pth5 I5 b U). assert (X := used_level st5 Y5 b U). destruct X as [X _]. rewrite NL in X. lia. }
    destruct (Nat.eq_dec (length (pth5 b)) L) as [E2|E2]; [|apply light5; auto; lia].
    assert (SM := small5 b F2 U E2). apply not_true_is_false. intros T.
    apply heavy_adaptive in T; [|apply LR_adaptive; auto]. assert (X := childweight_le inp WT (pth5 b)). lia.
  - apply split5.
  - intros l Hl. rewrite NL in Hl. rewrite usd5.
    destruct (Nat.eq_dec l L) as [->|E]; auto.
    assert (X := usd_le_nu inp st pth H nbn NB l ltac:(lia)). assert (X2 := g_nonempty inp st pth G l). lia.
  - apply (g_guess inp st pth G).
Qed.
End Next.
