(** The arrays of the tree builder after pruning. *)
From Coq Require Import List Arith ZArith NArith Lia Bool Permutation.
From Verif Require Import Base Tree Walk Traversal Fmm TreeBuild ArrayFacts BuildInv BuildScan BuildIds BuildSort
  BuildAdvance BuildRenumber BuildStep BuildNext BuildLoop BuildDone.
Import ListNotations.

(** [q j]: path of box [j], [sp j]: box [j] has been subdivided *)
Record pinv (inp : input) (ps : pstate) (q : nat -> list nat) (sp : nat -> bool) : Prop := {
  pi_pos : 0 < p_nboxes ps;
  pi_root : q 0 = [];
  pi_level : forall j, j < p_nboxes ps -> p_blevel ps j = length (q j);
  pi_mono : forall j j', j <= j' -> j' < p_nboxes ps -> length (q j) <= length (q j');
  pi_inj : forall j j', j < p_nboxes ps -> j' < p_nboxes ps -> q j = q j' -> j = j';
  pi_child_lt : forall m j, j < p_nboxes ps -> m < nchild inp -> p_child ps m j < p_nboxes ps;
  pi_child : forall m j, j < p_nboxes ps -> m < nchild inp -> p_child ps m j <> 0 -> q (p_child ps m j) = q j ++ [m];
  pi_child_back : forall m j j', j < p_nboxes ps -> j' < p_nboxes ps -> q j' = q j ++ [m] -> m < nchild inp /\ p_child ps m j = j';
  pi_parent0 : p_parent ps 0 = 0;
  pi_parent : forall j, j < p_nboxes ps -> j <> 0 -> p_parent ps j < p_nboxes ps /\
    exists m, m < nchild inp /\ q j = q (p_parent ps j) ++ [m] /\ p_child ps m (p_parent ps j) = j;
  pi_perm : Permutation (map (p_user ps) (seq 0 (npart inp))) (seq 0 (npart inp));
  pi_cumul : forall j, j < p_nboxes ps -> p_cumul ps j = rcount inp (q j);
  pi_range : forall j i, j < p_nboxes ps -> 0 < p_cumul ps j -> i < npart inp ->
    (p_start ps j <= i < p_start ps j + p_cumul ps j <-> reach inp (p_user ps i) (q j) = true);
  pi_range_np : forall j, j < p_nboxes ps -> 0 < p_cumul ps j -> p_start ps j + p_cumul ps j <= npart inp;
  pi_box : forall i, i < npart inp -> p_box ps i < p_nboxes ps /\ reach inp (p_user ps i) (q (p_box ps i)) = true /\
    forall j, j < p_nboxes ps -> reach inp (p_user ps i) (q j) = true -> exists r, q (p_box ps i) = q j ++ r;
  pi_order : forall m j, j < p_nboxes ps -> m < nchild inp -> p_child ps m j <> 0 -> 0 < p_cumul ps (p_child ps m j) ->
    p_start ps (p_child ps m j) = p_start ps j + kless inp (q j) (S m);
  pi_leaf : forall m j, j < p_nboxes ps -> m < nchild inp -> sp j = false -> p_child ps m j = 0;
  pi_split : forall m j u, j < p_nboxes ps -> m < nchild inp -> sp j = true -> u < npart inp ->
    reach inp u (q j ++ [m]) = true -> p_child ps m j <> 0;
  pi_nonchild : forall j, j < p_nboxes ps -> sp j = true -> p_nonchild ps j = kcount inp (q j) 0;
  pi_marks : forall j, j < p_nboxes ps -> sp j = true -> p_has_children ps j = true;
  pi_center : forall j a, j < p_nboxes ps -> a < idim inp -> p_center ps j a = path_center inp (q j) a
}.

Lemma filter_seq_sorted (p : nat -> bool) n : forall a i j, i < j -> j < length (filter p (seq a n)) ->
  nth i (filter p (seq a n)) 0 < nth j (filter p (seq a n)) 0.
Proof.
  induction n; intros a i j Hij Hj; cbn [seq filter] in *; [cbn in Hj; lia|].
  destruct (p a); [|apply IHn; auto]. destruct j as [|j]; [lia|]. cbn [nth length] in *.
  destruct i as [|i]; [|apply IHn; lia].
  assert (X : In (nth j (filter p (seq (S a) n)) 0) (filter p (seq (S a) n))) by (apply nth_In; lia).
  apply filter_In in X. destruct X as [X _]. apply in_seq in X. lia.
Qed.
Lemma filter_all_seq (p : nat -> bool) l : (forall x, In x l -> p x = true) -> filter p l = l.
Proof. induction l as [|x l IH]; intros H; cbn [filter]; auto. rewrite (H x) by (left; auto). f_equal. apply IH. intros; apply H; right; auto. Qed.
Lemma filter_none_seq (p : nat -> bool) l : (forall x, In x l -> p x = false) -> filter p l = [].
Proof. induction l as [|x l IH]; intros H; cbn [filter]; auto. rewrite (H x) by (left; auto). apply IH. intros; apply H; right; auto. Qed.
Lemma last_nth {A} (l : list A) d : last l d = nth (length l - 1) l d.
Proof.
  induction l as [|x l IH]; auto. destruct l as [|y l]; auto. change (last (x :: y :: l) d) with (last (y :: l) d).
  rewrite IH. cbn [length]. replace (S (S (length l)) - 1) with (S (S (length l) - 1)) by lia. reflexivity.
Qed.

Lemma key_no_extent inp u l : have_extent inp = false -> 0 < key inp u l.
Proof.
  intros E. unfold key, dig, morton, stop_descent. unfold have_extent in E. destruct (ext inp); [discriminate|]. cbn. lia.
Qed.
Lemma kcount_0_no_extent inp p : have_extent inp = false -> kcount inp p 0 = 0.
Proof.
  intros E. apply cnt_0. intros u Hu. assert (X := key_no_extent inp u (length p) E).
  destruct (Nat.eqb_spec (key inp u (length p)) 0); [lia|]. apply andb_false_r.
Qed.

Section Keep.
Variable inp : input.
Variable st : state.
Variable pth : nat -> list nat.
Hypothesis F : fin inp st pth.
Notation np := (npart inp).
Notation nch := (nchild inp).
Let I : inv inp st pth := f_inv inp st pth F.
Let Y : layout st := i_layout inp st pth I.
Notation N := (lst st (nlev st)).

Lemma nboxes_built_eq : nboxes_built st = N.
Proof. unfold nboxes_built, lst. rewrite last_nth, (lay_len st Y). f_equal. lia. Qed.
Definition keep (b : nat) : bool := if skip_prune inp then usedb st b else negb (s_cumul st b =? 0).
Lemma used_segments k : k <= nlev st ->
  concat (map (fun l => seq (lst st l) (usd st l)) (seq 0 k)) = filter (usedb st) (seq 0 (lst st k)).
Proof.
  induction k as [|k IH]; intros Hk.
  - rewrite (lay_0 st Y). reflexivity.
  - rewrite seq_S, map_app, concat_app, IH by lia. cbn [map concat]. rewrite app_nil_r, Nat.add_0_l.
    assert (LU := lay_used st Y k ltac:(lia)). assert (LN := lst_le st Y (S k) (nlev st) Hk (le_n _)).
    rewrite (seq_split (lst st (S k)) (lst st k)) by lia. rewrite filter_app. f_equal.
    replace (lst st (S k) - lst st k) with (usd st k + (lst st (S k) - lst st k - usd st k)) by lia.
    rewrite seq_app, filter_app. rewrite filter_all_seq.
    + rewrite filter_none_seq; [rewrite app_nil_r; auto|]. intros x Hx. apply in_seq in Hx.
      apply not_true_is_false. intros E. apply (usedb_spec st Y) in E. apply (used_level st Y) in E.
      rewrite (lay_level st Y k x) in E by lia. destruct E. lia.
    + intros x Hx. apply in_seq in Hx. apply (usedb_spec st Y). exists k. split; lia.
Qed.
Lemma src_filter : src_boxes inp st = filter keep (seq 0 N).
Proof.
  unfold src_boxes. rewrite nboxes_built_eq. unfold keep. destruct (skip_prune inp); cbn [negb]; auto.
  destruct (level_restrict inp) eqn:LR; [apply (used_segments (nlev st) (le_n _))|].
  symmetry. apply filter_all_seq. intros b Hb. apply in_seq in Hb. apply (usedb_spec st Y).
  destruct (level_spec st Y b) as [L1 L2]; [lia|]. exists (s_blevel st b). split; auto.
  assert (T := f_tight inp st pth F LR _ L1). lia.
Qed.
Lemma keep_used b : keep b = true -> b < N -> used st b.
Proof.
  unfold keep. intros K Hb. destruct (skip_prune inp); [apply (usedb_spec st Y); auto|].
  destruct (used_dec st Y b) as [U|U]; auto. destruct (i_unused _ _ _ I b U) as [_ [C _]]. rewrite C in K. discriminate.
Qed.
Lemma used_keep b : used st b -> 0 < s_cumul st b -> keep b = true.
Proof.
  intros U C. unfold keep. destruct (skip_prune inp); [apply (usedb_spec st Y); auto|].
  destruct (Nat.eqb_spec (s_cumul st b) 0); auto; lia.
Qed.
Lemma rcount_prefix p r : rcount inp (p ++ r) <= rcount inp p.
Proof. apply cnt_mono. intros u Hu. apply reach_app. Qed.
Lemma keep_parent b : used st b -> keep b = true -> b <> 0 -> keep (s_parent st b) = true.
Proof.
  intros U K B. destruct (i_parent _ _ _ I b U B) as [U' [m [Hm [E _]]]].
  unfold keep in *. destruct (skip_prune inp); [apply (usedb_spec st Y); auto|].
  destruct (Nat.eqb_spec (s_cumul st b) 0) as [|C]; [discriminate|].
  destruct (Nat.eqb_spec (s_cumul st (s_parent st b)) 0) as [C'|]; auto. exfalso.
  rewrite (i_cumul _ _ _ I b U), E in C. rewrite (i_cumul _ _ _ I _ U') in C'.
  assert (X := rcount_prefix (pth (s_parent st b)) [m]). lia.
Qed.
Hypothesis NPOS : 0 < np.
Lemma keep_0 : keep 0 = true.
Proof.
  apply used_keep; [apply (used_0 st Y)|]. rewrite (i_cumul _ _ _ I 0 (used_0 st Y)), (pth_0 inp st pth I).
  apply cnt_pos. exists 0. split; auto.
Qed.

Notation src := (src_boxes inp st).
Notation dst := (dst_boxes src).
Definition old (j : nat) : nat := nth j (src_boxes inp st) 0.
Lemma in_src b : In b src <-> b < N /\ keep b = true.
Proof. rewrite src_filter, filter_In, in_seq. intuition lia. Qed.
Lemma src_sorted i j : i < j -> j < length src -> old i < old j.
Proof. unfold old. rewrite src_filter. apply filter_seq_sorted. Qed.
Lemma old_in j : j < length src -> In (old j) src.
Proof. intros. apply nth_In; auto. Qed.
Lemma old_used j : j < length src -> used st (old j).
Proof. intros H. apply old_in, in_src in H. apply keep_used; tauto. Qed.
Lemma old_keep j : j < length src -> keep (old j) = true.
Proof. intros H. apply old_in, in_src in H. tauto. Qed.
Lemma old_inj i j : i < length src -> j < length src -> old i = old j -> i = j.
Proof.
  intros Hi Hj E. destruct (Nat.lt_trichotomy i j) as [C|[C|C]]; auto.
  - assert (X := src_sorted i j C Hj). lia.
  - assert (X := src_sorted j i C Hi). lia.
Qed.
Lemma in_combine_src b j : In (b, j) (combine src (seq 0 (length src))) <-> j < length src /\ b = old j.
Proof.
  unfold old. generalize (src_boxes inp st). intros l.
  assert (X : forall a, In (b, j) (combine l (seq a (length l))) <-> a <= j < a + length l /\ b = nth (j - a) l 0).
  { induction l as [|x l IH]; intros a; cbn [length seq combine In].
    - split; [contradiction|lia].
    - rewrite IH. split.
      + intros [E|[E1 E2]].
        * inversion E; subst. split; [lia|]. rewrite Nat.sub_diag. auto.
        * split; [lia|]. replace (j - a) with (S (j - S a)) by lia. auto.
      + intros [E1 E2]. destruct (Nat.eq_dec j a) as [->|E].
        * left. rewrite Nat.sub_diag in E2. cbn in E2. congruence.
        * right. split; [lia|]. replace (j - a) with (S (j - S a)) in E2 by lia. auto. }
  rewrite X. rewrite Nat.sub_0_r. split; intros [A B]; split; auto; lia.
Qed.
Lemma dst_old j : j < length src -> dst (old j) = j.
Proof.
  intros Hj. unfold dst_boxes. apply scatter_in_eq.
  - apply in_combine_src. auto.
  - intros v Hv. apply in_combine_src in Hv. destruct Hv as [Hv E]. symmetry. apply old_inj; auto.
Qed.
Lemma dst_out b : ~ In b src -> dst b = 0.
Proof.
  intros H. unfold dst_boxes. rewrite scatter_notin; auto. intros v Hv. apply in_combine_src in Hv.
  destruct Hv as [Hv ->]. apply H, old_in. auto.
Qed.
Lemma in_src_old b : In b src -> exists j, j < length src /\ b = old j.
Proof. intros H. apply (In_nth _ _ 0) in H. destruct H as [j [Hj E]]. exists j. auto. Qed.
Lemma src_pos : 0 < length src.
Proof.
  assert (X : In 0 src). { apply in_src. split; [apply (used_lt st Y), (used_0 st Y)|apply keep_0]. }
  destruct src; [contradiction|cbn; lia].
Qed.
Lemma old_0 : old 0 = 0.
Proof.
  assert (X : In 0 src). { apply in_src. split; [apply (used_lt st Y), (used_0 st Y)|apply keep_0]. }
  destruct (in_src_old 0 X) as [j [Hj E]]. destruct j; auto. assert (Z := src_sorted 0 (S j) ltac:(lia) Hj). lia.
Qed.
Lemma dst_0 : dst 0 = 0.
Proof. assert (X := dst_old 0 src_pos). rewrite old_0 in X. auto. Qed.
Lemma dst_lt b : dst b < length src.
Proof.
  destruct (in_dec Nat.eq_dec b src) as [H|H].
  - destruct (in_src_old b H) as [j [Hj ->]]. rewrite dst_old; auto.
  - rewrite dst_out by auto. apply src_pos.
Qed.
Lemma dst_nonzero b : dst b <> 0 -> old (dst b) = b.
Proof.
  intros H. destruct (in_dec Nat.eq_dec b src) as [E|E].
  - destruct (in_src_old b E) as [j [Hj ->]]. rewrite dst_old; auto.
  - rewrite dst_out in H by auto. contradiction.
Qed.
Lemma old_dst b : In b src -> old (dst b) = b.
Proof. intros E. destruct (in_src_old b E) as [j [Hj ->]]. rewrite dst_old; auto. Qed.
Lemma old_parent j : j < length src -> j <> 0 -> In (s_parent st (old j)) src.
Proof.
  intros Hj N0. assert (U := old_used j Hj).
  assert (B : old j <> 0). { rewrite <- old_0. intros E. apply old_inj in E; auto. apply src_pos. }
  destruct (i_parent _ _ _ I (old j) U B) as [U' _]. apply in_src. split; [apply (used_lt st Y); auto|].
  apply keep_parent; auto. apply old_keep; auto.
Qed.
Lemma level_mono_used b b' : used st b -> used st b' -> b <= b' -> s_blevel st b <= s_blevel st b'.
Proof.
  intros U U' H. destruct (Nat.le_gt_cases (s_blevel st b) (s_blevel st b')) as [|C]; auto. exfalso.
  apply (used_level st Y) in U, U'. destruct U as [U1 U2], U' as [U1' U2'].
  assert (X := lst_le st Y (S (s_blevel st b')) (s_blevel st b)). assert (X2 := lay_used st Y _ U1'). lia.
Qed.

Definition pq (j : nat) : list nat := pth (old j).
Definition psp (j : nat) : bool := negb (s_child st 0 (old j) =? 0).
Notation ps := (prune inp st).
Lemma child0_all b m : used st b -> m < nch -> s_child st m b <> 0 -> s_child st 0 b <> 0.
Proof. intros U Hm C E. apply C. apply (i_leaf _ _ _ I); auto. Qed.
Theorem prune_pinv : pinv inp ps pq psp.
Proof.
  assert (SP := src_pos).
  assert (PC : forall m j, j < length src -> m < nch -> p_child ps m j = dst (s_child st m (old j))).
  { intros m j Hj Hm. cbn [prune p_child]. rewrite kernel_map_lt by auto. unfold pruned. rewrite kernel_map_lt by auto. auto. }
  assert (PR : forall A (ary : nat -> A) z j, j < length src -> pruned src ary z j = ary (old j)).
  { intros A ary z j Hj. unfold pruned. rewrite kernel_map_lt by auto. auto. }
  assert (PB : forall i, i < np -> p_box ps i = dst (s_box st i)).
  { intros i Hi. cbn [prune p_box]. rewrite kernel_map_lt by auto. auto. }
  assert (BX : forall i, i < np -> In (s_box st i) src).
  { intros i Hi. destruct (i_box _ _ _ I i Hi) as [U [R _]]. apply in_src. split; [apply (used_lt st Y); auto|].
    apply used_keep; auto. apply (reach_cumul inp st pth I _ i); auto. }
  assert (CH : forall m j, j < length src -> m < nch -> dst (s_child st m (old j)) <> 0 ->
    s_child st 0 (old j) <> 0 /\ pq (dst (s_child st m (old j))) = pq j ++ [m]).
  { intros m j Hj Hm C. assert (C0 : s_child st m (old j) <> 0) by (intros Z; rewrite Z, dst_0 in C; auto).
    assert (U := old_used j Hj). assert (S := child0_all _ m U Hm C0). split; auto.
    unfold pq. rewrite dst_nonzero by auto. apply (i_split _ _ _ I); auto. }
  assert (CU : forall j, j < length src -> p_cumul ps j = rcount inp (pq j)).
  { intros j Hj. cbn [prune p_cumul]. rewrite PR by auto. apply (i_cumul _ _ _ I). apply old_used; auto. }
  assert (CB : forall m j j', j < length src -> j' < length src -> pq j' = pq j ++ [m] -> m < nch /\ p_child ps m j = j').
  { intros m j j' Hj Hj' E. unfold pq in E. assert (U := old_used j Hj). assert (U' := old_used j' Hj').
    destruct (prefix_split inp st pth I (old j) (old j') m [] U U' E) as [S Hm]. split; auto.
    rewrite PC by auto. destruct (i_split _ _ _ I (old j) m U S Hm) as [U2 E2]. rewrite <- E in E2.
    apply (i_inj _ _ _ I) in E2; auto. rewrite E2. apply dst_old; auto. }
  split.
  - exact SP.
  - unfold pq. rewrite old_0. apply (pth_0 inp st pth I).
  - intros j Hj. cbn [prune p_blevel]. rewrite PR by auto. symmetry. apply (i_len _ _ _ I). apply old_used; auto.
  - intros j j' Hjj Hj'. change (p_nboxes ps) with (length src) in Hj'. unfold pq.
    assert (Hj : j < length src) by lia.
    rewrite !(i_len _ _ _ I) by (apply old_used; auto). apply level_mono_used; try (apply old_used; auto).
    destruct (Nat.eq_dec j j') as [->|]; auto. assert (X := src_sorted j j' ltac:(lia) Hj'). lia.
  - intros j j' Hj Hj' E. apply (i_inj _ _ _ I) in E; try (apply old_used; auto). apply old_inj; auto.
  - intros m j Hj Hm. rewrite PC by auto. apply dst_lt.
  - intros m j Hj Hm C. rewrite PC in * by auto. apply CH; auto.
  - exact CB.
  - cbn [prune p_parent]. rewrite PR by auto. rewrite old_0, (i_root_parent _ _ _ I). apply dst_0.
  - intros j Hj N0. change (p_nboxes ps) with (length src) in *.
    assert (PP : p_parent ps j = dst (s_parent st (old j))) by (cbn [prune p_parent]; rewrite PR by auto; auto).
    rewrite PP. split; [apply dst_lt|].
    assert (U := old_used j Hj).
    assert (B : old j <> 0). { rewrite <- old_0. intros E. apply old_inj in E; auto. }
    destruct (i_parent _ _ _ I (old j) U B) as [U' [m [Hm [E1 E2]]]]. exists m.
    assert (E : pq j = pq (dst (s_parent st (old j))) ++ [m]).
    { unfold pq. rewrite old_dst by (apply old_parent; auto). auto. }
    split; auto. split; auto. apply CB; auto. apply dst_lt.
  - apply (i_perm _ _ _ I).
  - exact CU.
  - intros j i Hj C Hi. change (p_nboxes ps) with (length src) in *. cbn [prune p_cumul p_start p_user] in *. rewrite PR in C by auto.
    rewrite !PR by auto. apply (i_range _ _ _ I); auto. apply old_used; auto.
  - intros j Hj C. change (p_nboxes ps) with (length src) in *. cbn [prune p_cumul p_start] in *. rewrite PR in C by auto.
    rewrite !PR by auto. apply (i_range_np _ _ _ I); auto. apply old_used; auto.
  - intros i Hi. rewrite PB by auto. split; [apply dst_lt|]. unfold pq. rewrite old_dst by auto.
    cbn [prune p_user]. destruct (i_box _ _ _ I i Hi) as [U [R _]]. split; auto.
    intros j Hj Rj. apply (box_deepest inp st pth I); auto. apply old_used; auto.
  - intros m j Hj Hm C0 C. assert (LT : p_child ps m j < length src) by (rewrite PC by auto; apply dst_lt).
    cbn [prune p_start]. rewrite !PR by auto. cbn [prune p_cumul] in C. rewrite PR in C by auto.
    rewrite PC in * by auto. destruct (CH m j Hj Hm C0) as [S _]. rewrite dst_nonzero in * by auto.
    apply (i_order _ _ _ I); auto. apply old_used; auto.
  - intros m j Hj Hm S. rewrite PC by auto. apply negb_false_iff, Nat.eqb_eq in S.
    rewrite (i_leaf _ _ _ I); auto; [apply dst_0|apply old_used; auto].
  - intros m j u Hj Hm S Hu R. rewrite PC by auto. apply negb_true_iff, Nat.eqb_neq in S.
    destruct (i_split _ _ _ I (old j) m (old_used j Hj) S Hm) as [U' E'].
    assert (IS : In (s_child st m (old j)) src).
    { apply in_src. split; [apply (used_lt st Y); auto|]. apply used_keep; auto. rewrite (i_cumul _ _ _ I _ U').
      apply cnt_pos. exists u. split; auto. rewrite E'. auto. }
    intros Z. assert (X := old_dst _ IS). rewrite Z, old_0 in X. rewrite <- X, (pth_0 inp st pth I) in E'.
    destruct (pth (old j)); discriminate.
  - intros j Hj S. cbn [prune p_nonchild]. rewrite PR by auto. apply negb_true_iff, Nat.eqb_neq in S.
    unfold nonchild_counts. destruct (have_extent inp) eqn:HE; [|symmetry; apply kcount_0_no_extent; auto].
    assert (U := old_used j Hj). rewrite nboxes_built_eq. rewrite kernel_map_lt by (apply (used_lt st Y); auto).
    rewrite (lay_len st Y). replace (Datatypes.S (nlev st) - 2) with (nlev st - 1) by lia.
    change (nth (nlev st - 1) (s_lstart st) 0) with (lst st (nlev st - 1)).
    destruct (i_split _ _ _ I (old j) 0 U S (nch_pos inp)) as [U' E'].
    assert (L1 := i_len _ _ _ I _ U'). assert (L2 := i_len _ _ _ I _ U). rewrite E', app_length in L1. cbn [length] in L1.
    assert (A := used_level st Y _ U). assert (A' := used_level st Y _ U'). destruct A as [A1 A2], A' as [A1' A2'].
    assert (X := lay_used st Y _ A1). assert (X2 := lst_le st Y (Datatypes.S (s_blevel st (old j))) (nlev st - 1)).
    destruct (Nat.leb_spec (lst st (nlev st - 1)) (old j)) as [C|C]; [lia|].
    destruct (Nat.eqb_spec (s_cumul st (old j)) 0) as [C0|C0].
    + rewrite (i_cumul _ _ _ I _ U) in C0. assert (Z := kcount_le inp (pth (old j)) 0). unfold pq. lia.
    + apply (i_bins _ _ _ I); auto. lia.
  - intros j Hj S. cbn [prune p_has_children]. rewrite PR by auto. apply negb_true_iff, Nat.eqb_neq in S.
    apply (f_marks _ _ _ F); auto. apply old_used; auto.
  - intros j a Hj Ha. cbn [prune p_center]. rewrite PR by auto. apply (f_center _ _ _ F); auto. apply old_used; auto.
Qed.
Lemma prune_pending : level_restrict inp && have_extent inp = false ->
  forall j, j < p_nboxes ps -> p_has_children ps j = true -> psp j = true.
Proof.
  intros P j Hj. cbn [prune p_has_children]. unfold pruned. rewrite kernel_map_lt by auto. intros E.
  apply negb_true_iff, Nat.eqb_neq. apply (f_pending _ _ _ F P); auto. apply old_used; auto.
Qed.
Lemma prune_light : (max_weight inp < INT_MAX)%Z ->
  forall j, j < p_nboxes ps -> psp j = false -> (childweight inp (pq j) <= max_weight inp)%Z.
Proof.
  intros M j Hj E. apply negb_false_iff, Nat.eqb_eq in E. apply (f_light _ _ _ F M); auto. apply old_used; auto.
Qed.
Lemma prune_split : level_restrict inp = false ->
  forall j, j < p_nboxes ps -> psp j = true -> heavy inp (pq j) = true.
Proof.
  intros M j Hj E. apply negb_true_iff, Nat.eqb_neq in E. apply (f_split _ _ _ F M); auto. apply old_used; auto.
Qed.
(** with pruning the boxes are the non-empty ones *)
Lemma prune_nonempty : skip_prune inp = false -> forall j, j < p_nboxes ps -> 0 < p_cumul ps j.
Proof.
  intros SK j Hj. cbn [prune p_cumul]. unfold pruned. rewrite kernel_map_lt by auto. assert (K := old_keep j Hj).
  unfold keep in K. rewrite SK in K. fold (old j). destruct (Nat.eqb_spec (s_cumul st (old j)) 0); [discriminate|lia].
Qed.

(** ** level_start_box_nrs *)
Definition level_count (l : nat) : nat := length (filter (fun j => length (pq j) =? l) (seq 0 (p_nboxes ps))).
Lemma pq_level_lt j : j < p_nboxes ps -> length (pq j) < nlev st.
Proof.
  intros Hj. unfold pq. assert (U := old_used j Hj). rewrite (i_len _ _ _ I _ U). apply (used_level st Y) in U. apply U.
Qed.
End Keep.
