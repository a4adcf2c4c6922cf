(** The box splitter on the device (BuildDevice.v) computes the splitter of TreeBuild.v. *)
From Coq Require Import List Arith ZArith NArith Lia Bool Permutation.
From Verif Require Import Base Tree Walk Traversal Fmm TreeBuild ArrayFacts Kernel Device DeviceRules BuildDevice BuildInv
  BuildScan BuildIds BuildSort BuildAdvance BuildRenumber BuildStep BuildNext BuildLoop BuildTerm BuildPrune BuildView DevMorton DevSplitScan.
Import ListNotations.

Lemma scatter_in_cases {A} n (w : list (nat * A)) old x :
  (exists v, In (x, v) w /\ scatter_in n w old x = v) \/ scatter_in n w old x = old x.
Proof.
  unfold scatter_in. destruct (Nat.lt_ge_cases x n).
  - rewrite kernel_map_lt by auto. destruct (scatter_cases w old x) as [[v [A1 A2]]|[A1 A2]]; eauto.
  - rewrite kernel_map_ge by auto. auto.
Qed.

Lemma zsum_z (f : nat -> nat) l : zsum (map (fun k => z (f k)) l) = z (nsum (map f l)).
Proof. induction l as [|x l IH]; auto. cbn [map]. unfold zsum, nsum in *. cbn [fold_right]. lia. Qed.

Section Test.
Variable inp : input.
Variable level : nat.
(** the cells read by the test whether a box is split *)
Definition test_touches (has force : bool) (lev b : nat) : list (touch array) :=
  Get HasChildren b :: (if has then [Get Levels b] else []) ++
  (if has && (lev + 1 =? level) then [] else if level_restrict inp then [Get ForceSplit b] else []).
Lemma split_test_evals K g b has force lev next T :
  len K HasChildren = Some g -> (z b < g)%Z -> val K HasChildren b = Some (bool_z has) ->
  len K Levels = Some g -> (has = true -> val K Levels b = Some (z lev)) ->
  (level_restrict inp = true -> len K ForceSplit = Some g /\ val K ForceSplit b = Some (bool_z force)) ->
  evals K (next ((has && (lev + 1 =? level)) || (level_restrict inp && force))) T ->
  evals K (split_test inp level (z b) next) (test_touches has force lev b ++ T).
Proof.
  intros L1 B V1 L2 V2 F E. unfold split_test, test_touches. cbn [app].
  assert (FO : has && (lev + 1 =? level) = false ->
    evals K (if level_restrict inp then Load ForceSplit (z b) (fun v => next (negb (v =? 0)%Z)) else next false)
      ((if level_restrict inp then [Get ForceSplit b] else []) ++ T)).
  { intros X. rewrite X in E. cbn [orb] in E. destruct (level_restrict inp); cbn [app andb] in *; auto.
    destruct (F eq_refl) as [F1 F2]. eapply ev_load; [exact F1|exact B|exact F2|]. rewrite bool_z_nz. exact E. }
  eapply ev_load; [exact L1|exact B|exact V1|]. destruct has; cbn [bool_z Z.eqb andb app] in *.
  - eapply ev_load; [exact L2|exact B|apply V2; auto|].
    replace (z lev + 1 =? z level)%Z with (lev + 1 =? level) by (rewrite <- eqb_z; f_equal; lia).
    destruct (lev + 1 =? level) eqn:X; cbn [app orb] in *; auto.
  - apply FO. auto.
Qed.
Lemma test_gets has force lev b a k : In (Get a k) (test_touches has force lev b) ->
  k = b /\ (a = HasChildren \/ a = ForceSplit \/ (a = Levels /\ has = true)).
Proof. unfold test_touches. intros X. touches X; injection X as <- <-; auto 10. Qed.
Lemma test_puts has force lev b a k v : ~ In (Put a k v) (test_touches has force lev b).
Proof. unfold test_touches. intros X. touches X. Qed.
End Test.

Section Splitter.
Variable inp : input.
Notation nch := (nchild inp).
Notation np := (npart inp).
Hypothesis WT : forall u, u < np -> (0 <= weight inp u <= INT_MAX)%Z.
Hypothesis MW : (0 <= max_weight inp)%Z.
Variable st : state.
Variable pth : nat -> list nat.
Hypothesis G : good inp st pth.
Hypothesis RM : roomy inp st.
Hypothesis NM : s_level st + 1 < nlevels_max inp.
Let H := g_head inp st pth G.
Let I := h_inv inp st pth H.
Let Y := i_layout inp st pth I.
Notation L := (nlev st).
Notation n := (lst st L).
Notation st1 := (scanned inp st).
Notation st2 := (marked inp st1).
Notation sp := (splits inp st1).
Notation ids := (split_box_ids inp st1).
Notation nu := (new_used st2 ids).
Notation ids_tmp := (ids_tmp inp st).
Notation level := (s_level st).
Notation moves := (moves inp st).
Notation nid := (nid inp st).
Variables (nl : list nat) (nbn : nat).
Hypothesis NB : n + nth L nu 0 <= nbn.
Hypothesis NR : forall l, l < L -> nth l nu 0 <= lst st (S l) - lst st l.
Hypothesis GB : nbn <= s_guess st.
Notation st3 := (with_level_counts st2 (s_lstart st2 ++ [nbn]) nu nl).
Notation st4 := (splitter inp st3 nbn ids).
Notation s5 := (st5 inp st nl nbn).

(** structs loaded from the morton bin counts of a box *)
Definition bv (b : nat) (f : field) : Z := match f with Cnt j => z (s_bins st3 b j) | Wt m => s_wts st3 b m end.
Definition bvs (b : nat) : field -> Z := field_of (fields inp) (map (bv b) (fields inp)).
Lemma bvs_cnt b j : used st b -> j <= nch -> bvs b (Cnt j) = z (s_bins st3 b j).
Proof.
  intros U Hj. unfold bvs. destruct (field_in inp (Cnt j)) eqn:F.
  - apply field_in_iff in F. rewrite (field_of_map (fields inp) (bv b)) by auto. reflexivity.
  - rewrite (field_of_notin (fields inp) (bv b)) by (rewrite field_in_iff; congruence).
    destruct j; cbn [field_in] in F; [|apply Nat.ltb_ge in F; lia].
    rewrite (bins_val inp st pth H nl nbn b 0 U Hj). rewrite (kcount_0_no_extent inp (pth b) F). auto.
Qed.

Definition child_start (b m : nat) : nat := new_box_start st3 b m.
Definition child_center (b m a : nat) : Z := new_center inp st3 b m a.
Definition split_child_touches (b m : nat) : list (touch array) :=
  [Get SplitIds b; Put Parents (nid b m) (z b); Put (Children m) b (z (nid b m)); Get Levels b;
   Put Levels (nid b m) (z (s_blevel st b + 1)); Put Counts (nid b m) (z (s_bins st3 b (S m)))] ++
  (if 0 <? s_bins st3 b (S m)
   then [Get Starts b; Put StartFlags (child_start b m) 1%Z; Put Starts (nid b m) (z (child_start b m))] else []) ++
  concat (map (fun a => [Get (Centers a) b; Put (Centers a) (nid b m) (child_center b m a)]) (axes inp)).
Definition splitter_touches (b : nat) : list (touch array) :=
  test_touches inp level (s_has_children st2 b) (s_force st b) (s_blevel st b) b ++
  (if do_split inp st3 b then map (fun f => Get (BoxBin f) b) (fields inp) ++
     concat (map (split_child_touches b) (seq 0 nch)) else []).

Notation K3 := (view inp st3 ids_tmp).
Lemma moves_guess b : moves b -> b < s_guess st.
Proof. intros [M _]. assert (X := r_guess inp st RM). lia. Qed.
Lemma child_start_np b m : moves b -> m < nch -> 0 < s_bins st3 b (S m) -> child_start b m < np.
Proof.
  intros M Hm K. assert (U := moves_used inp MW st pth H b M). rewrite (bins_val inp st pth H nl nbn b (S m) U ltac:(lia)) in K.
  unfold child_start. rewrite (new_box_start_val inp MW st pth H nl nbn NB b m M Hm).
  destruct (start_lt inp MW st pth H nbn NB b m M Hm K) as [A [B C]]. lia.
Qed.
Lemma split_child_evals b m nx T : moves b -> m < nch -> evals K3 nx T ->
  evals K3 (split_child inp b (bvs b) m nx) (split_child_touches b m ++ T).
Proof.
  intros M Hm E. assert (U := moves_used inp MW st pth H b M). assert (Hg := moves_guess b M).
  assert (HN := nid_lt inp st pth H nl nbn NB NR b m M Hm).
  assert (NI := new_box_id_val inp st pth H b m (proj1 M) (proj2 M)).
  assert (IV := ids_val inp st pth H b (proj1 M)). destruct (level_spec st Y b (proj1 M)) as [L1 L2].
  rewrite cntr_S, (proj2 M) in IV by lia.
  unfold split_child, split_child_touches. rewrite <- !app_assoc. cbn [app].
  eapply ev_load with (v := z (ids b)).
  { reflexivity. }
  { change (s_guess st3) with (s_guess st). assert (X := moves_guess b M). lia. }
  { cbn [view val cellv DevSplitScan.ids_tmp]. destruct M as [Mn _]. destruct (Nat.ltb_spec b n); [auto|lia]. }
  cbv zeta.
  assert (NE : (z (ids b) - z nch + z m)%Z = z (nid b m)) by (unfold new_box_id in NI; lia).
  rewrite NE.
  eapply ev_store; [reflexivity|change (s_guess st3) with (s_guess st); lia|].
  eapply ev_store.
  { cbn [view len lenv]. destruct (Nat.ltb_spec m nch); [reflexivity|lia]. }
  { change (s_guess st3) with (s_guess st). lia. }
  eapply ev_load; [reflexivity|change (s_guess st3) with (s_guess st); lia|reflexivity|].
  change (s_blevel st3 b) with (s_blevel st b).
  replace (z (s_blevel st b) + 1)%Z with (z (s_blevel st b + 1)) by lia.
  eapply ev_store; [reflexivity|change (s_guess st3) with (s_guess st); lia|].
  rewrite (bvs_cnt b (S m) U ltac:(lia)).
  eapply ev_store; [reflexivity|change (s_guess st3) with (s_guess st); lia|].
  assert (A : evals K3 (for_each (axes inp) (fun a nx =>
      Load (Centers a) (z b) (fun x =>
      Store (Centers a) (z (nid b m))
        (x + morton_sign (idim inp) m a * (the_root_extent inp / i32_shl1 (1 + Z.to_nat (z (s_blevel st b + 1)))))%Z nx)) nx)
      (concat (map (fun a => [Get (Centers a) b; Put (Centers a) (nid b m) (child_center b m a)]) (axes inp)) ++ T)).
  { apply (evals_for_each array); auto. intros a nx' Tx Ha Ev. apply in_seq in Ha. cbn [app].
    assert (LC : len K3 (Centers a) = Some (z (s_guess st))).
    { cbn [view len lenv]. destruct (Nat.ltb_spec a (idim inp)); [reflexivity|lia]. }
    eapply ev_load; [exact LC|lia|reflexivity|]. rewrite Nat2Z.id.
    apply (ev_store array) with (n := z (s_guess st)); [exact LC|lia|exact Ev]. }
  replace (0 <? z (s_bins st3 b (S m)))%Z with (0 <? s_bins st3 b (S m)).
  2:{ destruct (Nat.ltb_spec 0 (s_bins st3 b (S m))); symmetry; [apply Z.ltb_lt|apply Z.ltb_ge]; lia. }
  destruct (Nat.ltb_spec 0 (s_bins st3 b (S m))) as [Q|Q]; cbn [app]; [|exact A].
  assert (SN := child_start_np b m M Hm Q).
  eapply ev_load; [reflexivity|change (s_guess st3) with (s_guess st); lia|reflexivity|].
  replace (z (s_start st3 b) + zsum (map (fun k => bvs b (Cnt k)) (seq 0 (S m))))%Z with (z (child_start b m)).
  2:{ unfold child_start, new_box_start. rewrite (map_ext_in (fun k => bvs b (Cnt k)) (fun k => z (s_bins st3 b k))).
      - rewrite (zsum_z (s_bins st3 b)). lia.
      - intros k Hk. apply in_seq in Hk. apply bvs_cnt; auto. lia. }
  eapply ev_store; [reflexivity|lia|].
  eapply ev_store; [reflexivity|change (s_guess st3) with (s_guess st); lia|]. exact A.
Qed.
Lemma splitter_evals b : b < nbn -> evals K3 (splitter_item inp level b) (splitter_touches b).
Proof.
  intros Hb. unfold splitter_item, splitter_touches.
  apply split_test_evals with (g := z (s_guess st)).
  - reflexivity.
  - lia.
  - reflexivity.
  - reflexivity.
  - reflexivity.
  - intros LR. cbn [view len val lenv cellv]. rewrite LR. split; reflexivity.
  - change (s_has_children st2 b && (s_blevel st b + 1 =? level) || level_restrict inp && s_force st b) with (do_split inp st3 b).
    destruct (do_split inp st3 b) eqn:D; [|constructor].
    apply (do_split_moves inp WT st pth H nl nbn) in D. assert (Hg := moves_guess b D).
    apply evals_load_struct with (g := bv b) (n := z (s_guess st)).
    + intros f Hf. apply field_in_iff in Hf. cbn [view len val lenv cellv]. rewrite Hf. destruct f; repeat split; auto; lia.
    + rewrite <- (app_nil_r (concat _)). apply (evals_for_each array); [|constructor].
      intros m nx Tx Hm Ev. apply in_seq in Hm. apply split_child_evals; auto. lia.
Qed.

Inductive split_put (b : nat) : array -> nat -> Z -> Prop :=
| sp_parent m : m < nch -> split_put b Parents (nid b m) (z b)
| sp_child m : m < nch -> split_put b (Children m) b (z (nid b m))
| sp_level m : m < nch -> split_put b Levels (nid b m) (z (s_blevel st b + 1))
| sp_count m : m < nch -> split_put b Counts (nid b m) (z (s_bins st3 b (S m)))
| sp_flag m : m < nch -> 0 < s_bins st3 b (S m) -> split_put b StartFlags (child_start b m) 1%Z
| sp_start m : m < nch -> 0 < s_bins st3 b (S m) -> split_put b Starts (nid b m) (z (child_start b m))
| sp_center m a : m < nch -> a < idim inp -> split_put b (Centers a) (nid b m) (child_center b m a).
Lemma splitter_puts b a k v : In (Put a k v) (splitter_touches b) <-> moves b /\ split_put b a k v.
Proof.
  unfold splitter_touches. split.
  - intros X. apply in_app_or in X. destruct X as [X|X]; [destruct (test_puts _ _ _ _ _ _ _ _ _ X)|].
    destruct (do_split inp st3 b) eqn:D; [|destruct X]. apply (do_split_moves inp WT st pth H nl nbn) in D. split; auto.
    apply in_app_or in X. destruct X as [X|X]; [touches X|]. apply in_concat_map in X. destruct X as [m [Hm X]]. apply in_seq in Hm.
    assert (Hm' : m < nch) by lia. unfold split_child_touches in X. touches X; injection X as <- <- <-.
    + constructor; auto.
    + constructor; auto.
    + constructor; auto.
    + constructor; auto.
    + apply Nat.ltb_lt in E. constructor; auto.
    + apply Nat.ltb_lt in E. constructor; auto.
    + apply in_seq in Hy. constructor; auto. lia.
  - intros [M P]. apply in_or_app. right. rewrite (proj2 (do_split_moves inp WT st pth H nl nbn b) M). apply in_or_app. right.
    apply in_concat_map.
    assert (J : forall m, m < nch -> In (Put a k v) (split_child_touches b m) -> exists x, In x (seq 0 nch) /\ In (Put a k v) (split_child_touches b x)).
    { intros m Hm X. exists m. split; auto. apply in_seq. lia. }
    destruct P as [m Hm|m Hm|m Hm|m Hm|m Hm Q|m Hm Q|m a Hm Ha]; apply (J m Hm); unfold split_child_touches.
    + right. left. auto.
    + right. right. left. auto.
    + do 4 right. left. auto.
    + do 5 right. left. auto.
    + apply Nat.ltb_lt in Q. rewrite Q. do 7 right. left. auto.
    + apply Nat.ltb_lt in Q. rewrite Q. do 8 right. left. auto.
    + apply in_or_app. right. apply in_or_app. right. apply in_concat_map. exists a. split; [apply in_seq; lia|]. right. left. auto.
Qed.
Lemma splitter_gets b a k : In (Get a k) (splitter_touches b) -> k = b /\
  match a with
  | HasChildren | ForceSplit | BoxBin _ | SplitIds => True
  | Levels | Starts | Centers _ => used st b
  | _ => False
  end.
Proof.
  unfold splitter_touches. intros X. apply in_app_or in X. destruct X as [X|X].
  - apply test_gets in X. destruct X as [-> [->|[->|[-> X]]]]; auto. split; auto.
    rewrite (has_children2 inp st pth H) in X. destruct (Nat.ltb_spec b n) as [Hb|]; [|discriminate X].
    destruct (used_dec st Y b) as [U|U]; auto. destruct (i_unused inp st pth I b U) as [_ [_ [HC _]]]. rewrite HC in X. cbn [orb] in X.
    apply (splits_used inp MW st pth H); auto.
  - destruct (do_split inp st3 b) eqn:D; [|destruct X]. apply (do_split_moves inp WT st pth H nl nbn) in D.
    assert (U := moves_used inp MW st pth H b D). unfold split_child_touches in X. touches X; injection X as <- <-; auto.
Qed.
Lemma splitter_launch {R} (next : host array R) (Q : R -> device array -> Prop) :
  okd (view inp st4 ids_tmp) next Q -> okd K3 (Launch nbn (splitter_item inp level) next) Q.
Proof.
  intros O. apply ok_launch_sep with (T := splitter_touches) (K' := view inp st4 ids_tmp); auto.
  - intros b Hb. apply splitter_evals; auto.
  - intros b c a k v Hb Hc X Z. apply splitter_puts in X. destruct X as [M X]. apply splitter_gets in Z. destruct Z as [-> Z].
    destruct X; auto; apply (nid_not_used inp st pth H nl nbn NB NR b m M); auto.
  - intros b a k v Hb X. apply splitter_puts in X. destruct X as [M X]. assert (U := moves_used inp MW st pth H b M).
    destruct X as [m Hm|m Hm|m Hm|m Hm|m Hm K|m Hm K|m a Hm Ha]; cbn [view val cellv].
    + change (s_parent st4) with (s_parent s5). rewrite (parent5_new inp WT st pth H nl nbn NB NR b m M Hm). reflexivity.
    + change (s_child st4) with (s_child s5). rewrite (child5_new inp WT st pth H nl nbn NB b m M Hm). reflexivity.
    + rewrite (level5_new inp WT st pth H nl nbn NB NR b m M Hm). do 2 f_equal. lia.
    + rewrite (bins_val inp st pth H nl nbn b (S m) U ltac:(lia)).
      rewrite <- (cumul5_new inp WT MW st pth H nl nbn NB NR b m M Hm). reflexivity.
    + assert (SN := child_start_np b m M Hm K). assert (F : s_start_flag st4 (child_start b m) = true); [|rewrite F; auto].
      apply (proj2 (flag5 inp WT MW st pth H nl nbn NB (child_start b m) SN)). right. exists b, m. split; auto. split; auto.
      rewrite <- (bins_val inp st pth H nl nbn b (S m) U ltac:(lia)). split; auto. apply (new_box_start_val inp MW st pth H nl nbn NB); auto.
    + unfold child_start. rewrite (new_box_start_val inp MW st pth H nl nbn NB b m M Hm).
      rewrite (bins_val inp st pth H nl nbn b (S m) U ltac:(lia)) in K.
      rewrite <- (start5_new inp WT MW st pth H nl nbn NB NR b m M Hm K). reflexivity.
    + assert (C : s_center st4 (nid b m) a = child_center b m a); [|rewrite C; auto].
      change (s_center st4) with (s_center s5). rewrite (center5_new inp WT st pth H nl nbn NB NR b m M Hm).
      rewrite kernel_map_lt by auto. reflexivity.
  - intros a m k w. cbn [view len val]. destruct a; cbn [cellv]; auto; intros Lm Hk E.
    + (* StartFlags *)
      cbn [lenv] in Lm. injection Lm as <-.
      cbn [splitter s_start_flag] in E.
      match type of E with Some (bool_z (scatter_in ?nn ?w ?o k)) = _ => destruct (scatter_in_cases nn w o k) as [[v [X1 X2]]|X2]; rewrite X2 in E end; [left|auto].
      apply (nonempty_writes_in inp WT MW st pth H nl nbn NB) in X1. destruct X1 as [b [m [M [Hm [K X]]]]]. injection X as -> ->.
      assert (U := moves_used inp MW st pth H b M).
      exists b, 1%Z. split; [apply (Nat.lt_le_trans _ n); [apply M|lia]|]. apply splitter_puts. split; auto.
      rewrite <- (bins_val inp st pth H nl nbn b (S m) U ltac:(lia)) in K. apply sp_flag; auto.
    + (* Starts *)
      cbn [splitter s_start] in E.
      match type of E with Some (z (scatter_in ?nn ?w ?o k)) = _ => destruct (scatter_in_cases nn w o k) as [[v [X1 X2]]|X2]; rewrite X2 in E end; [left|auto].
      apply (nonempty_writes_in inp WT MW st pth H nl nbn NB) in X1. destruct X1 as [b [j [M [Hm [K X]]]]]. injection X as -> ->.
      assert (U := moves_used inp MW st pth H b M). rewrite (new_box_id_val inp st pth H b j (proj1 M) (proj2 M)).
      exists b, (z (child_start b j)). split; [apply (Nat.lt_le_trans _ n); [apply M|lia]|]. apply splitter_puts. split; auto.
      rewrite <- (bins_val inp st pth H nl nbn b (S j) U ltac:(lia)) in K. apply sp_start; auto.
    + (* Counts *)
      cbn [splitter s_cumul] in E.
      match type of E with Some (z (scatter_in ?nn ?w ?o k)) = _ => destruct (scatter_in_cases nn w o k) as [[v [X1 X2]]|X2]; rewrite X2 in E end; [left|auto].
      apply (split_writes_in inp WT st pth H nl nbn NB (fun b m => s_bins st3 b (S m))) in X1. destruct X1 as [b [j [M [Hm [-> ->]]]]].
      exists b, (z (s_bins st3 b (S j))). split; [apply (Nat.lt_le_trans _ n); [apply M|lia]|]. apply splitter_puts. split; auto. constructor; auto.
    + (* Parents *)
      cbn [splitter s_parent] in E.
      match type of E with Some (z (scatter_in ?nn ?w ?o k)) = _ => destruct (scatter_in_cases nn w o k) as [[v [X1 X2]]|X2]; rewrite X2 in E end; [left|auto].
      apply (split_writes_in inp WT st pth H nl nbn NB (fun b m => b)) in X1. destruct X1 as [b [j [M [Hm [-> ->]]]]].
      exists b, (z b). split; [apply (Nat.lt_le_trans _ n); [apply M|lia]|]. apply splitter_puts. split; auto. constructor; auto.
    + (* Children *)
      cbn [lenv] in Lm. destruct (Nat.ltb_spec m0 nch) as [Hm|]; [|discriminate Lm].
      cbn [splitter s_child] in E. rewrite kernel_map_lt in E by auto.
      match type of E with Some (z (scatter_in ?nn ?w ?o k)) = _ => destruct (scatter_in_cases nn w o k) as [[v [X1 X2]]|X2]; rewrite X2 in E end; [left|auto].
      apply in_map_iff in X1. destruct X1 as [b [X1 X3]]. apply (split_boxes_in inp WT st pth H nl nbn NB) in X3. injection X1 as -> <-.
      exists k, (z (nid k m0)). split; [apply (Nat.lt_le_trans _ n); [apply X3|lia]|]. apply splitter_puts. split; auto. constructor; auto.
    + (* Centers *)
      cbn [lenv] in Lm. destruct (Nat.ltb_spec a (idim inp)) as [Ha|]; [|discriminate Lm].
      cbn [splitter s_center] in E.
      match type of E with Some (scatter_in ?nn ?w ?o k a) = _ => destruct (scatter_in_cases nn w o k) as [[v [X1 X2]]|X2]; rewrite X2 in E end; [left|auto].
      apply (split_writes_in inp WT st pth H nl nbn NB (fun b m => kernel_map (idim inp) (new_center inp st3 b m) (fun _ => 0%Z))) in X1.
      destruct X1 as [b [j [M [Hm [-> ->]]]]].
      exists b, (child_center b j a). split; [apply (Nat.lt_le_trans _ n); [apply M|lia]|]. apply splitter_puts. split; auto. constructor; auto.
    + (* Levels *)
      cbn [splitter s_blevel] in E.
      match type of E with Some (z (scatter_in ?nn ?w ?o k)) = _ => destruct (scatter_in_cases nn w o k) as [[v [X1 X2]]|X2]; rewrite X2 in E end; [left|auto].
      apply (split_writes_in inp WT st pth H nl nbn NB (fun b m => s_blevel st3 b + 1)) in X1. destruct X1 as [b [j [M [Hm [-> ->]]]]].
      exists b, (z (s_blevel st b + 1)). split; [apply (Nat.lt_le_trans _ n); [apply M|lia]|]. apply splitter_puts. split; auto. constructor; auto.
Qed.
End Splitter.
