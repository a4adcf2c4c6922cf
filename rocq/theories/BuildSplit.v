(** Sources and targets of the boxes of the finished tree. *)
From Coq Require Import List Arith ZArith NArith Lia Bool Permutation.
From Verif Require Import Base Tree Walk Traversal Fmm SpecFmm TreeBuild ArrayFacts BuildInv BuildPrune.
Import ListNotations.

Section Split.
Variable inp : input.
Variable ps : pstate.
Variable q : nat -> list nat.
Variable sp : nat -> bool.
Hypothesis P : pinv inp ps q sp.
Notation np := (npart inp).
Notation nch := (nchild inp).
Notation n := (p_nboxes ps).
Notation user := (p_user ps).
Notation start := (p_start ps).
Notation cumul := (p_cumul ps).
Notation boxof := (p_box ps).

(** ** Paths *)
Lemma q_prefix j p r : j < n -> q j = p ++ r -> exists j', j' < n /\ q j' = p.
Proof.
  revert j p. induction r as [|m r IH] using rev_ind; intros j p Hj E.
  - rewrite app_nil_r in E. exists j. auto.
  - destruct (Nat.eq_dec j 0) as [->|J0].
    + rewrite (pi_root _ _ _ _ P) in E. destruct p; destruct r; discriminate.
    + destruct (pi_parent _ _ _ _ P j Hj J0) as [Hp [k [Hk [E' _]]]].
      rewrite E', app_assoc in E. apply app_inj_tail in E. destruct E as [E _]. apply (IH (p_parent ps j) p Hp E).
Qed.
Lemma q_child j x m r : j < n -> x < n -> q x = q j ++ m :: r ->
  m < nch /\ p_child ps m j <> 0 /\ p_child ps m j < n /\ q (p_child ps m j) = q j ++ [m].
Proof.
  intros Hj Hx E. replace (q j ++ m :: r) with ((q j ++ [m]) ++ r) in E by (rewrite <- app_assoc; auto).
  destruct (q_prefix x _ _ Hx E) as [c [Hc Ec]]. destruct (pi_child_back _ _ _ _ P m j c Hj Hc Ec) as [Hm Ek].
  rewrite Ek. repeat split; auto. intros ->. rewrite (pi_root _ _ _ _ P) in Ec. destruct (q j); discriminate.
Qed.
Lemma q_lt j : j < n -> j <> 0 -> p_parent ps j < j.
Proof.
  intros Hj J0. destruct (pi_parent _ _ _ _ P j Hj J0) as [Hp [m [Hm [E _]]]].
  destruct (Nat.lt_ge_cases (p_parent ps j) j) as [|C]; auto. exfalso.
  assert (X := pi_mono _ _ _ _ P j (p_parent ps j) C Hp). rewrite E, app_length in X. cbn [length] in X. lia.
Qed.
Lemma q_len_le j : j < n -> length (q j) <= j.
Proof.
  induction j as [j IH] using lt_wf_ind. intros Hj. destruct (Nat.eq_dec j 0) as [->|J0].
  - rewrite (pi_root _ _ _ _ P). cbn. lia.
  - assert (L := q_lt j Hj J0). destruct (pi_parent _ _ _ _ P j Hj J0) as [Hp [m [Hm [E _]]]].
    assert (X := IH _ L Hp). rewrite E, app_length. cbn [length]. lia.
Qed.
Lemma child_nonzero_path m j : j < n -> m < nch -> p_child ps m j <> 0 -> p_child ps m j < n /\ q (p_child ps m j) = q j ++ [m].
Proof. intros Hj Hm C. split; [apply (pi_child_lt _ _ _ _ P); auto|apply (pi_child _ _ _ _ P); auto]. Qed.

(** ** Particles *)
Lemma user_lt i : i < np -> user i < np.
Proof. intros. apply (perm_lt np); auto. apply (pi_perm _ _ _ _ P). Qed.
Lemma reach_nonempty j i : j < n -> i < np -> reach inp (user i) (q j) = true -> 0 < cumul j.
Proof.
  intros Hj Hi R. rewrite (pi_cumul _ _ _ _ P j Hj). apply cnt_pos. exists (user i). split; auto. apply user_lt; auto.
Qed.
Lemma reach_in j i : j < n -> i < np -> reach inp (user i) (q j) = true -> start j <= i < start j + cumul j.
Proof. intros Hj Hi R. apply (pi_range _ _ _ _ P); auto. eapply reach_nonempty; eauto. Qed.
Lemma in_reach j i : j < n -> start j <= i < start j + cumul j -> i < np /\ reach inp (user i) (q j) = true.
Proof.
  intros Hj R. assert (C : 0 < cumul j) by lia. assert (X := pi_range_np _ _ _ _ P j Hj C).
  split; [lia|]. apply (pi_range _ _ _ _ P); auto. lia.
Qed.
Lemma sub_range j x r : j < n -> x < n -> q x = q j ++ r -> 0 < cumul x ->
  start j <= start x /\ start x + cumul x <= start j + cumul j.
Proof.
  intros Hj Hx E C.
  assert (A : forall i, start x <= i < start x + cumul x -> start j <= i < start j + cumul j).
  { intros i Hi. destruct (in_reach x i Hx Hi) as [Hn R]. apply reach_in; auto. rewrite E in R. apply reach_app in R. auto. }
  assert (A1 := A (start x) ltac:(lia)). assert (A2 := A (start x + cumul x - 1) ltac:(lia)). lia.
Qed.
Lemma leaf_own j i : j < n -> sp j = false -> i < np -> reach inp (user i) (q j) = true -> boxof i = j.
Proof.
  intros Hj S Hi R. destruct (pi_box _ _ _ _ P i Hi) as [Hb [Rb D]]. destruct (D j Hj R) as [r E].
  destruct r as [|m r]; [rewrite app_nil_r in E; apply (pi_inj _ _ _ _ P); auto|]. exfalso.
  destruct (q_child j (boxof i) m r Hj Hb E) as [Hm [C _]]. apply C. apply (pi_leaf _ _ _ _ P); auto.
Qed.
Lemma split_own j i : j < n -> sp j = true -> i < np -> reach inp (user i) (q j) = true ->
  (boxof i = j <-> key inp (user i) (length (q j)) = 0).
Proof.
  intros Hj S Hi R. destruct (pi_box _ _ _ _ P i Hi) as [Hb [Rb D]]. split.
  - intros E. destruct (key inp (user i) (length (q j))) as [|m] eqn:K; auto. exfalso.
    assert (KL := key_le inp (user i) (length (q j))).
    assert (R' : reach inp (user i) (q j ++ [m]) = true) by (rewrite reach_snoc, R, K; apply Nat.eqb_refl).
    assert (C := pi_split _ _ _ _ P m j (user i) Hj ltac:(lia) S (user_lt i Hi) R').
    destruct (child_nonzero_path m j Hj ltac:(lia) C) as [Hc Ec]. rewrite <- Ec in R'.
    destruct (D _ Hc R') as [r Er]. rewrite E, Ec, <- app_assoc in Er. cbn [app] in Er.
    assert (L := f_equal (@length nat) Er). rewrite app_length in L. cbn [length] in L. lia.
  - intros K. destruct (D j Hj R) as [r E].
    destruct r as [|m r]; [rewrite app_nil_r in E; apply (pi_inj _ _ _ _ P); auto|]. exfalso.
    rewrite E in Rb. apply reach_digit in Rb. unfold key in K. rewrite Rb in K. discriminate.
Qed.
(** number of particles whose box it is *)
Definition own (j : nat) : nat := if sp j then kcount inp (q j) 0 else rcount inp (q j).
Lemma own_le j : j < n -> own j <= cumul j.
Proof. intros Hj. rewrite (pi_cumul _ _ _ _ P j Hj). unfold own. destruct (sp j); [apply kcount_le|auto]. Qed.
Lemma kless_mono p k k' : k <= k' -> kless inp p k <= kless inp p k'.
Proof.
  intros H. apply cnt_mono. intros u Hu E. apply andb_true_iff in E. destruct E as [E1 E2]. rewrite E1. cbn [andb].
  apply Nat.ltb_lt in E2. apply Nat.ltb_lt. lia.
Qed.
Lemma kless_1 p : kless inp p 1 = kcount inp p 0.
Proof. rewrite kless_S. assert (E : kless inp p 0 = 0) by (apply cnt_0; intros; apply andb_false_r). lia. Qed.
Lemma child_range m j : j < n -> m < nch -> p_child ps m j <> 0 -> 0 < cumul (p_child ps m j) ->
  start (p_child ps m j) = start j + kless inp (q j) (S m) /\ cumul (p_child ps m j) = kcount inp (q j) (S m).
Proof.
  intros Hj Hm C C0. split; [apply (pi_order _ _ _ _ P); auto|].
  destruct (child_nonzero_path m j Hj Hm C) as [Hc Ec]. rewrite (pi_cumul _ _ _ _ P _ Hc), Ec. apply rcount_snoc.
Qed.
(** key of a particle in a split box: the children's ranges follow in order *)
Lemma key_order j i m : j < n -> sp j = true -> i < np -> reach inp (user i) (q j) = true ->
  key inp (user i) (length (q j)) = S m ->
  start j + kless inp (q j) (S m) <= i < start j + kless inp (q j) (S m) + kcount inp (q j) (S m).
Proof.
  intros Hj S Hi R K. assert (KL := key_le inp (user i) (length (q j))).
  assert (R' : reach inp (user i) (q j ++ [m]) = true) by (rewrite reach_snoc, R, K; apply Nat.eqb_refl).
  assert (C := pi_split _ _ _ _ P m j (user i) Hj ltac:(lia) S (user_lt i Hi) R').
  destruct (child_nonzero_path m j Hj ltac:(lia) C) as [Hc Ec]. rewrite <- Ec in R'.
  assert (N0 := reach_nonempty _ i Hc Hi R'). assert (X := reach_in _ i Hc Hi R').
  destruct (child_range m j Hj ltac:(lia) C N0) as [E1 E2]. lia.
Qed.
Lemma kcount_range' j k : j < n -> 0 < cumul j ->
  kcount inp (q j) k = cntr (fun i => key inp (user i) (length (q j)) =? k) (start j) (start j + cumul j).
Proof.
  intros Hj C. unfold kcount. rewrite <- (cnt_perm _ user np (pi_perm _ _ _ _ P)).
  rewrite (cnt_range _ np (start j) (start j + cumul j)).
  - apply cntr_ext. intros i H1 H2. destruct (in_reach j i Hj ltac:(lia)) as [_ R]. rewrite R. auto.
  - lia.
  - apply (pi_range_np _ _ _ _ P j Hj C).
  - intros i Hi H. apply andb_true_iff in H. apply reach_in; tauto.
Qed.
Lemma own_range j i : j < n -> i < np -> (boxof i = j <-> 0 < cumul j /\ start j <= i < start j + own j).
Proof.
  intros Hj Hi. split.
  - intros E. destruct (pi_box _ _ _ _ P i Hi) as [Hb [Rb D]]. rewrite E in Rb.
    assert (C := reach_nonempty j i Hj Hi Rb). assert (X := reach_in j i Hj Hi Rb). split; auto. split; [lia|].
    unfold own. destruct (sp j) eqn:S; [|rewrite <- (pi_cumul _ _ _ _ P j Hj); lia].
    assert (K := proj1 (split_own j i Hj S Hi Rb) E).
    (* positions below start + kcount are all of key 0, hence i cannot be later *)
    destruct (Nat.lt_ge_cases i (start j + kcount inp (q j) 0)) as [|GE]; auto. exfalso.
    assert (Z := kcount_range' j 0 Hj C).
    assert (LE := kcount_le inp (q j) 0). rewrite <- (pi_cumul _ _ _ _ P j Hj) in LE.
    rewrite (cntr_split _ (start j) (start j + kcount inp (q j) 0)) in Z by lia.
    rewrite cntr_all in Z; [|lia|].
    + assert (PZ := cntr_pos (fun i => key inp (user i) (length (q j)) =? 0) (start j + kcount inp (q j) 0) (start j + cumul j) i
                     GE ltac:(lia) ltac:(apply Nat.eqb_eq; auto)). lia.
    + intros i' H1 H2. apply Nat.eqb_eq. destruct (key inp (user i') (length (q j))) as [|m] eqn:K'; auto. exfalso.
      destruct (in_reach j i' Hj ltac:(lia)) as [Hi' R'].
      assert (Y := key_order j i' m Hj S Hi' R' K'). assert (Mo := kless_mono (q j) 1 (Datatypes.S m) ltac:(lia)).
      rewrite kless_1 in Mo. lia.
  - intros [C R]. assert (OL := own_le j Hj). destruct (in_reach j i Hj ltac:(lia)) as [_ Rc].
    unfold own in *. destruct (sp j) eqn:S; [|apply leaf_own; auto].
    apply (split_own j i Hj S Hi Rc). destruct (key inp (user i) (length (q j))) as [|m] eqn:K'; auto. exfalso.
    assert (Y := key_order j i m Hj S Hi Rc K'). assert (Mo := kless_mono (q j) 1 (Datatypes.S m) ltac:(lia)).
    rewrite kless_1 in Mo. lia.
Qed.

(** ** Walking up the parents *)
Lemma walk_up_sound f cond b x : b < n -> In x (walk_up ps f cond b) -> x < n /\ cond x = true /\ exists r, q b = q x ++ r.
Proof.
  revert b. induction f as [|f IH]; intros b Hb; cbn [walk_up]; [contradiction|].
  destruct (cond b) eqn:C; [|contradiction]. intros [E|E].
  - subst x. split; auto. split; auto. exists []. rewrite app_nil_r. auto.
  - destruct (Nat.eqb_spec (p_parent ps b) b) as [E'|E']; [contradiction|].
    assert (B0 : b <> 0) by (intros ->; apply E', (pi_parent0 _ _ _ _ P)).
    destruct (pi_parent _ _ _ _ P b Hb B0) as [Hp [m [Hm [Ep _]]]].
    destruct (IH _ Hp E) as [H1 [H2 [r Hr]]]. split; auto. split; auto. exists (r ++ [m]). rewrite Ep, Hr, app_assoc. auto.
Qed.
Lemma walk_up_complete f cond b x r : b < n -> x < n -> q b = q x ++ r -> length r < f ->
  (forall y r1 r2, y < n -> q b = q y ++ r2 -> q y = q x ++ r1 -> cond y = true) -> In x (walk_up ps f cond b).
Proof.
  revert b r. induction f as [|f IH]; intros b r Hb Hx E L C; [lia|]. cbn [walk_up].
  rewrite (C b r []) by (rewrite ?app_nil_r; auto).
  induction r as [|m r _] using rev_ind.
  - left. apply (pi_inj _ _ _ _ P); auto. rewrite app_nil_r in E. auto.
  - right. assert (B0 : b <> 0) by (intros ->; rewrite (pi_root _ _ _ _ P) in E; destruct (q x); destruct r; discriminate).
    assert (PL := q_lt b Hb B0). destruct (Nat.eqb_spec (p_parent ps b) b) as [E'|E']; [lia|].
    destruct (pi_parent _ _ _ _ P b Hb B0) as [Hp [m' [Hm [Ep _]]]].
    rewrite Ep, app_assoc in E. apply app_inj_tail in E. destruct E as [E ->].
    rewrite app_length in L. cbn [length] in L.
    apply (IH _ r Hp Hx E); [lia|]. intros y r1 r2 Hy E1 E2. apply (C y r1 (r2 ++ [m]) Hy); auto.
    rewrite Ep, E1, app_assoc. auto.
Qed.
Lemma starts_here_iff i x : i < np -> (In x (starts_here ps i) <-> x < n /\ 0 < cumul x /\ start x = i).
Proof.
  intros Hi. destruct (pi_box _ _ _ _ P i Hi) as [Hb [Rb D]]. unfold starts_here. split.
  - intros H. destruct (walk_up_sound _ _ _ _ Hb H) as [Hx [C [r E]]]. apply Nat.eqb_eq in C.
    split; auto. split; auto. rewrite E in Rb. apply reach_app in Rb. eapply reach_nonempty; eauto.
  - intros [Hx [C E]]. destruct (in_reach x i Hx ltac:(lia)) as [_ R]. destruct (D x Hx R) as [r Er].
    apply (walk_up_complete _ _ _ x r Hb Hx Er).
    + assert (X := q_len_le (boxof i) Hb). rewrite Er, app_length in X. lia.
    + intros y r1 r2 Hy E1 E2. apply Nat.eqb_eq.
      assert (Ry : reach inp (user i) (q y) = true) by (rewrite E1 in Rb; apply reach_app in Rb; auto).
      assert (X := reach_in y i Hy Hi Ry). assert (C2 := reach_nonempty y i Hy Hi Ry).
      assert (X2 := sub_range x y r1 Hx Hy E2 C2). lia.
Qed.
Lemma ends_here_iff i x : i < np -> (In x (ends_here ps i) <-> x < n /\ 0 < cumul x /\ start x + cumul x = i + 1).
Proof.
  intros Hi. destruct (pi_box _ _ _ _ P i Hi) as [Hb [Rb D]]. unfold ends_here. split.
  - intros H. destruct (walk_up_sound _ _ _ _ Hb H) as [Hx [C [r E]]]. apply Nat.eqb_eq in C.
    split; auto. split; [|lia]. rewrite E in Rb. apply reach_app in Rb. eapply reach_nonempty; eauto.
  - intros [Hx [C E]]. destruct (in_reach x i Hx ltac:(lia)) as [_ R]. destruct (D x Hx R) as [r Er].
    apply (walk_up_complete _ _ _ x r Hb Hx Er).
    + assert (X := q_len_le (boxof i) Hb). rewrite Er, app_length in X. lia.
    + intros y r1 r2 Hy E1 E2. apply Nat.eqb_eq.
      assert (Ry : reach inp (user i) (q y) = true) by (rewrite E1 in Rb; apply reach_app in Rb; auto).
      assert (X := reach_in y i Hy Hi Ry). assert (C2 := reach_nonempty y i Hy Hi Ry).
      assert (X2 := sub_range x y r1 Hx Hy E2 C2). lia.
Qed.
(** what the writes at the ends of ranges leave *)
Lemma scatter_starts {A} (val : nat -> A) old x : x < n ->
  scatter (concat (map (fun i => map (fun b => (b, val i)) (starts_here ps i)) (seq 0 np))) old x
  = if cumul x =? 0 then old x else val (start x).
Proof.
  intros Hx.
  assert (W : forall v, In (x, v) (concat (map (fun i => map (fun b => (b, val i)) (starts_here ps i)) (seq 0 np))) <->
                        0 < cumul x /\ v = val (start x)).
  { intros v. rewrite in_concat. split.
    - intros [l [Hl Hv]]. apply in_map_iff in Hl. destruct Hl as [i [El Hi]]. apply in_seq in Hi. subst l.
      apply in_map_iff in Hv. destruct Hv as [b [Eb Hb]]. inversion Eb; subst.
      apply starts_here_iff in Hb; [|lia]. destruct Hb as [_ [C E]]. subst i. auto.
    - intros [C ->]. assert (NP := pi_range_np _ _ _ _ P x Hx C).
      exists (map (fun b => (b, val (start x))) (starts_here ps (start x))). split.
      + apply in_map_iff. exists (start x). split; auto. apply in_seq. lia.
      + apply in_map_iff. exists x. split; auto. apply starts_here_iff; [lia|auto]. }
  destruct (Nat.eqb_spec (cumul x) 0) as [E|E].
  - apply scatter_notin. intros v Hv. apply W in Hv. lia.
  - apply scatter_in_eq; [apply W; split; auto; lia|]. intros v Hv. apply W in Hv. tauto.
Qed.
Lemma scatter_ends {A} (val : nat -> nat -> A) old x : x < n ->
  scatter (concat (map (fun i => map (fun b => (b, val i b)) (ends_here ps i)) (seq 0 np))) old x
  = if cumul x =? 0 then old x else val (start x + cumul x - 1) x.
Proof.
  intros Hx.
  assert (W : forall v, In (x, v) (concat (map (fun i => map (fun b => (b, val i b)) (ends_here ps i)) (seq 0 np))) <->
                        0 < cumul x /\ v = val (start x + cumul x - 1) x).
  { intros v. rewrite in_concat. split.
    - intros [l [Hl Hv]]. apply in_map_iff in Hl. destruct Hl as [i [El Hi]]. apply in_seq in Hi. subst l.
      apply in_map_iff in Hv. destruct Hv as [b [Eb Hb]]. inversion Eb; subst.
      apply ends_here_iff in Hb; [|lia]. destruct Hb as [_ [C E]]. split; auto. f_equal; lia.
    - intros [C ->]. assert (NP := pi_range_np _ _ _ _ P x Hx C).
      exists (map (fun b => (b, val (start x + cumul x - 1) b)) (ends_here ps (start x + cumul x - 1))). split.
      + apply in_map_iff. exists (start x + cumul x - 1). split; auto. apply in_seq. lia.
      + apply in_map_iff. exists x. split; auto. apply ends_here_iff; [lia|]. repeat split; auto. lia. }
  destruct (Nat.eqb_spec (cumul x) 0) as [E|E].
  - apply scatter_notin. intros v Hv. apply W in Hv. lia.
  - apply scatter_in_eq; [apply W; split; auto; lia|]. intros v Hv. apply W in Hv. tauto.
Qed.
Lemma scatter_nonchild {A} (val : nat -> A) old x : x < n -> sp x = true ->
  scatter (map (fun i => (boxof i, val i)) (filter (last_nonchild ps) (seq 0 np))) old x
  = if own x =? 0 then old x else val (start x + own x - 1).
Proof.
  intros Hx S. assert (NC : p_nonchild ps x = own x) by (unfold own; rewrite S; apply (pi_nonchild _ _ _ _ P); auto).
  assert (OL := own_le x Hx).
  assert (W : forall v, In (x, v) (map (fun i => (boxof i, val i)) (filter (last_nonchild ps) (seq 0 np))) <->
                        0 < own x /\ v = val (start x + own x - 1)).
  { intros v. rewrite in_map_iff. split.
    - intros [i [E Hi]]. assert (E1 := f_equal fst E). assert (E2 := f_equal snd E). cbn [fst snd] in E1, E2. clear E. apply filter_In in Hi. destruct Hi as [Hi C]. apply in_seq in Hi.
      unfold last_nonchild in C. rewrite E1, NC in C. apply Nat.eqb_eq in C.
      apply (own_range x i Hx ltac:(lia)) in E1. split; [lia|]. rewrite <- E2. f_equal. lia.
    - intros [C ->]. assert (NP := pi_range_np _ _ _ _ P x Hx ltac:(lia)).
      assert (B : boxof (start x + own x - 1) = x) by (apply own_range; auto; lia).
      exists (start x + own x - 1). split; [rewrite B; auto|]. apply filter_In. split; [apply in_seq; lia|].
      unfold last_nonchild. rewrite B, NC. apply Nat.eqb_eq. lia. }
  destruct (Nat.eqb_spec (own x) 0) as [E|E].
  - apply scatter_notin. intros v Hv. apply W in Hv. lia.
  - apply scatter_in_eq; [apply W; split; auto; lia|]. intros v Hv. apply W in Hv. tauto.
Qed.

(** ** Numbering the sources and the targets *)
Notation isS := (is_source_particle inp ps).
Notation isT := (is_target_particle inp ps).
Lemma cnt_S p k : cnt p (S k) = cnt p k + (if p k then 1 else 0).
Proof. unfold cnt. rewrite seq_S, filter_app, app_length. cbn [plus filter]. destruct (p k); auto. Qed.
Lemma cnt_cntr p a b : a <= b -> cnt p b = cnt p a + cntr p a b.
Proof.
  intros H. unfold cnt, cntr. rewrite (seq_split b a) by auto. rewrite filter_app, app_length. auto.
Qed.
Lemma source_numbers_eq i : i < np -> source_numbers inp ps i = cnt isS i.
Proof. intros Hi. unfold source_numbers. rewrite kernel_map_lt; auto. Qed.
Lemma isT_S i : isT i = negb (isS i).
Proof. reflexivity. Qed.
Lemma cnt_complement i : cnt isT i = i - cnt isS i.
Proof.
  assert (X : cnt isT i + cnt isS i = i).
  { induction i; auto. rewrite !cnt_S, isT_S. destruct (isS i); cbn [negb]; lia. }
  lia.
Qed.
Notation R := (split_particles inp ps).
Lemma source_starts_eq x : x < n -> sp_source_starts R x = if cumul x =? 0 then 0 else cnt isS (start x).
Proof.
  intros Hx. cbn [split_particles sp_source_starts]. rewrite (scatter_starts (source_numbers inp ps)) by auto.
  destruct (Nat.eqb_spec (cumul x) 0); auto. apply source_numbers_eq.
  assert (X := pi_range_np _ _ _ _ P x Hx ltac:(lia)). lia.
Qed.
Lemma target_starts_eq x : x < n -> sp_target_starts R x = if cumul x =? 0 then 0 else cnt isT (start x).
Proof.
  intros Hx. cbn [split_particles sp_target_starts].
  rewrite (scatter_starts (fun i => i - source_numbers inp ps i)) by auto.
  destruct (Nat.eqb_spec (cumul x) 0); auto. rewrite source_numbers_eq, cnt_complement; auto.
  assert (X := pi_range_np _ _ _ _ P x Hx ltac:(lia)). lia.
Qed.
Lemma source_cumul_eq x : x < n -> sp_source_cumul R x = cntr isS (start x) (start x + cumul x).
Proof.
  intros Hx. cbn [split_particles sp_source_cumul].
  rewrite (scatter_ends (fun i b => source_numbers inp ps i + (if isS i then 1 else 0) - source_numbers inp ps (start b))) by auto.
  destruct (Nat.eqb_spec (cumul x) 0) as [E|E]; [rewrite E, Nat.add_0_r, cntr_empty; auto|].
  assert (X := pi_range_np _ _ _ _ P x Hx ltac:(lia)). rewrite !source_numbers_eq by lia.
  rewrite <- cnt_S. replace (S (start x + cumul x - 1)) with (start x + cumul x) by lia.
  rewrite (cnt_cntr isS (start x)) by lia. lia.
Qed.
Lemma target_cumul_eq x : x < n -> sp_target_cumul R x = cntr isT (start x) (start x + cumul x).
Proof.
  intros Hx. cbn [split_particles sp_target_cumul].
  rewrite (scatter_ends (fun i b => i - source_numbers inp ps i + 1 - (if isS i then 1 else 0) - (start b - source_numbers inp ps (start b)))) by auto.
  destruct (Nat.eqb_spec (cumul x) 0) as [E|E]; [rewrite E, Nat.add_0_r, cntr_empty; auto|].
  assert (X := pi_range_np _ _ _ _ P x Hx ltac:(lia)). rewrite !source_numbers_eq by lia.
  rewrite <- !cnt_complement.
  assert (Z := cnt_S isT (start x + cumul x - 1)). replace (S (start x + cumul x - 1)) with (start x + cumul x) in Z by lia.
  rewrite isT_S in Z. rewrite (cnt_cntr isT (start x)) in Z by lia.
  destruct (isS (start x + cumul x - 1)); cbn [negb] in Z; lia.
Qed.
Lemma source_nonchild_eq x : x < n -> sp x = true -> sp_source_nonchild R x = cntr isS (start x) (start x + own x).
Proof.
  intros Hx S. cbn [split_particles sp_source_nonchild]. assert (OL := own_le x Hx).
  rewrite (scatter_nonchild (fun i => source_numbers inp ps i + (if isS i then 1 else 0) - source_numbers inp ps (start (boxof i)))) by auto.
  destruct (Nat.eqb_spec (own x) 0) as [E|E]; [rewrite E, Nat.add_0_r, cntr_empty; auto|].
  assert (X := pi_range_np _ _ _ _ P x Hx ltac:(lia)).
  assert (B : boxof (start x + own x - 1) = x) by (apply own_range; auto; lia). rewrite B.
  rewrite !source_numbers_eq by lia.
  rewrite <- cnt_S. replace (Datatypes.S (start x + own x - 1)) with (start x + own x) by lia.
  rewrite (cnt_cntr isS (start x)) by lia. lia.
Qed.
Lemma target_nonchild_eq x : x < n -> sp x = true -> sp_target_nonchild R x = cntr isT (start x) (start x + own x).
Proof.
  intros Hx S. cbn [split_particles sp_target_nonchild]. assert (OL := own_le x Hx).
  rewrite (scatter_nonchild (fun i => i - source_numbers inp ps i + 1 - (if isS i then 1 else 0)
             - (start (boxof i) - source_numbers inp ps (start (boxof i))))) by auto.
  destruct (Nat.eqb_spec (own x) 0) as [E|E]; [rewrite E, Nat.add_0_r, cntr_empty; auto|].
  assert (X := pi_range_np _ _ _ _ P x Hx ltac:(lia)).
  assert (B : boxof (start x + own x - 1) = x) by (apply own_range; auto; lia). rewrite B.
  rewrite !source_numbers_eq by lia. rewrite <- !cnt_complement.
  assert (Z := cnt_S isT (start x + own x - 1)). replace (Datatypes.S (start x + own x - 1)) with (start x + own x) in Z by lia.
  rewrite isT_S in Z. rewrite (cnt_cntr isT (start x)) in Z by lia.
  destruct (isS (start x + own x - 1)); cbn [negb] in Z; lia.
Qed.

(** rank of the positions satisfying a predicate *)
Section Rank.
Variable p : nat -> bool.
Lemma cnt_le_mono a b : a <= b -> cnt p a <= cnt p b.
Proof. intros. rewrite (cnt_cntr p a b) by auto. lia. Qed.
Lemma rank_lt i k : p i = true -> i < k -> cnt p i < cnt p k.
Proof. intros E H. assert (X := cnt_S p i). rewrite E in X. assert (Y := cnt_le_mono (S i) k H). lia. Qed.
Lemma rank_inj i k : p i = true -> p k = true -> cnt p i = cnt p k -> i = k.
Proof.
  intros E1 E2 E. destruct (Nat.lt_trichotomy i k) as [C|[C|C]]; auto.
  - assert (X := rank_lt i k E1 C). lia.
  - assert (X := rank_lt k i E2 C). lia.
Qed.
Lemma rank_surj r k : r < cnt p k -> exists i, i < k /\ p i = true /\ cnt p i = r.
Proof.
  induction k; intros H; [cbn in H; lia|]. rewrite cnt_S in H. destruct (p k) eqn:E.
  - destruct (Nat.eq_dec r (cnt p k)) as [->|]; [exists k; auto|]. destruct IHk as [i Hi]; [lia|]. exists i. intuition lia.
  - destruct IHk as [i Hi]; [lia|]. exists i. intuition lia.
Qed.
Lemma scatter_rank (val : nat -> nat) i m : i < m -> p i = true ->
  scatter (map (fun k => (cnt p k, val k)) (filter p (seq 0 m))) (fun _ => 0) (cnt p i) = val i.
Proof.
  intros Hi E. apply (scatter_map_in (cnt p) val).
  - apply filter_In. split; auto. apply in_seq. lia.
  - intros y Hy Ey. apply filter_In in Hy. f_equal. apply rank_inj; tauto.
Qed.
End Rank.
Lemma perm_owned (N M : nat) (s c : nat -> nat) (owner : nat -> nat) :
  (forall k, k < N -> owner k < M /\ s (owner k) <= k < s (owner k) + c (owner k)) ->
  (forall b k, b < M -> s b <= k < s b + c b -> k < N /\ owner k = b) ->
  Permutation (concat (map (fun b => seq (s b) (c b)) (seq 0 M))) (seq 0 N).
Proof.
  intros A B. apply NoDup_Permutation; [|apply seq_NoDup|].
  - assert (X : forall bs, NoDup bs -> (forall b, In b bs -> b < M) -> NoDup (concat (map (fun b => seq (s b) (c b)) bs))).
    { induction bs as [|b bs IH]; intros ND Hb; cbn [map concat]; [constructor|]. inversion ND; subst.
      assert (ND2 := IH H2 (fun x Hx => Hb x (or_intror Hx))). clear IH.
      assert (DJ : forall k, In k (seq (s b) (c b)) -> ~ In k (concat (map (fun b => seq (s b) (c b)) bs))).
      { intros k K1 K2. apply in_seq in K1. apply in_concat in K2. destruct K2 as [l [L1 L2]].
        apply in_map_iff in L1. destruct L1 as [b' [El Hb']]. subst l. apply in_seq in L2.
        destruct (B b k (Hb b (or_introl eq_refl)) K1) as [_ O1]. destruct (B b' k (Hb b' (or_intror Hb')) L2) as [_ O2].
        congruence. }
      revert ND2 DJ. generalize (concat (map (fun b => seq (s b) (c b)) bs)). intros l2 ND2 DJ.
      assert (ND1 := seq_NoDup (c b) (s b)). revert ND1 DJ. generalize (seq (s b) (c b)). intros l1.
      induction l1 as [|x l1 IH]; intros ND1 DJ; cbn [app]; auto. inversion ND1; subst. constructor.
      - intros Hx. apply in_app_or in Hx. destruct Hx as [Hx|Hx]; [contradiction|]. apply (DJ x (or_introl eq_refl) Hx).
      - apply IH; auto. intros k Hk. apply DJ. right. auto. }
    apply X; [apply seq_NoDup|]. intros b Hb. apply in_seq in Hb. lia.
  - intros k. rewrite in_concat, in_seq. split.
    + intros [l [L1 L2]]. apply in_map_iff in L1. destruct L1 as [b [El Hb]]. subst l. apply in_seq in Hb, L2.
      destruct (B b k ltac:(lia) L2). lia.
    + intros Hk. destruct (A k ltac:(lia)) as [H1 H2]. exists (seq (s (owner k)) (c (owner k))). split.
      * apply in_map_iff. exists (owner k). split; auto. apply in_seq. lia.
      * apply in_seq. lia.
Qed.
(** the own ranges of ranks *)
Lemma owned_rank (p : nat -> bool) (s c : nat -> nat) :
  (forall x, x < n -> 0 < c x -> s x = cnt p (start x)) ->
  (forall x, x < n -> c x = cntr p (start x) (start x + own x)) ->
  Permutation (concat (map (fun b => seq (s b) (c b)) (seq 0 n))) (seq 0 (cnt p np)).
Proof.
  intros SS C.
  assert (RK : forall k, k < cnt p np -> exists i, i < np /\ p i = true /\ cnt p i = k) by (intros; apply rank_surj; auto).
  assert (F : exists owner : nat -> nat, forall k, k < cnt p np -> exists i, i < np /\ p i = true /\ cnt p i = k /\ owner k = boxof i).
  { exists (fun k => boxof (length (filter (fun i => cnt p (S i) <=? k) (seq 0 np)))).
    intros k Hk. destruct (RK k Hk) as [i [Hi [E1 E2]]]. exists i. repeat split; auto. f_equal.
    rewrite (filter_ext_in' _ (fun j => j <? i)).
    - change (cnt (fun j => j <? i) np = i). rewrite (cnt_cntr _ i) by lia.
      rewrite cntr_none; [|intros; apply Nat.ltb_ge; lia]. rewrite Nat.add_0_r.
      assert (X : cntr (fun j => j <? i) 0 i = i - 0) by (apply cntr_all; [lia|intros; apply Nat.ltb_lt; lia]).
      unfold cntr in X. rewrite Nat.sub_0_r in X. exact X.
    - intros j Hj. apply eq_true_iff_eq. rewrite Nat.leb_le, Nat.ltb_lt. split; intros Z.
      + destruct (Nat.lt_ge_cases j i); auto. assert (Y := cnt_le_mono p (Datatypes.S i) (Datatypes.S j) ltac:(lia)).
        rewrite cnt_S, E1 in Y. lia.
      + assert (Y := cnt_le_mono p (Datatypes.S j) i Z). lia. }
  destruct F as [owner F].
  assert (INR : forall x i, x < n -> i < np -> p i = true -> (boxof i = x <-> s x <= cnt p i < s x + c x)).
  { intros x i Hx Hi Ei. rewrite (own_range x i Hx Hi). split.
    - intros [C0 RR]. assert (CP : 0 < c x) by (rewrite C by auto; apply (cntr_pos p _ _ i); auto; lia).
      rewrite SS by auto. rewrite C by auto.
      rewrite (cnt_cntr p (start x) i) by lia.
      assert (Z := cntr_lt p (start x) i (start x + own x) ltac:(lia) ltac:(lia) Ei). lia.
    - intros RR. assert (CP : 0 < c x) by lia. rewrite SS in RR by auto. rewrite C in RR, CP by auto.
      assert (C0 : 0 < own x) by (assert (Z := cntr_le p (start x) (start x + own x)); lia).
      assert (OL := own_le x Hx). split; [lia|].
      rewrite <- (cnt_cntr p (start x) (start x + own x)) in RR by lia. split.
      + destruct (Nat.le_gt_cases (start x) i); auto. assert (Z := rank_lt p i (start x) Ei ltac:(lia)). lia.
      + destruct (Nat.lt_ge_cases i (start x + own x)); auto. assert (Z := cnt_le_mono p (start x + own x) i ltac:(lia)). lia. }
  apply perm_owned with (owner := owner).
  - intros k Hk. destruct (F k Hk) as [i [Hi [E1 [E2 E3]]]]. rewrite E3.
    destruct (pi_box _ _ _ _ P i Hi) as [Hb _]. split; auto. rewrite <- E2. apply INR; auto.
  - intros x k Hx Hk. assert (CP : 0 < c x) by lia.
    assert (KN : k < cnt p np).
    { rewrite SS in Hk by auto. rewrite C in Hk, CP by auto.
      assert (C0 : 0 < own x) by (assert (Z := cntr_le p (start x) (start x + own x)); lia).
      assert (OL := own_le x Hx). assert (X := pi_range_np _ _ _ _ P x Hx ltac:(lia)).
      rewrite <- (cnt_cntr p (start x) (start x + own x)) in Hk by lia.
      assert (Z := cnt_le_mono p (start x + own x) np ltac:(lia)). lia. }
    split; auto. destruct (F k KN) as [i [Hi [E1 [E2 E3]]]]. rewrite E3. apply INR; auto. rewrite E2. auto.
Qed.
End Split.
