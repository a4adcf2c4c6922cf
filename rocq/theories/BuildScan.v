(** The morton scan computes the bin counts and weights of all boxes. *)
From Coq Require Import List Arith ZArith NArith Lia Bool Permutation.
From Verif Require Import Base Tree Walk Traversal Fmm TreeBuild ArrayFacts BuildInv.
Import ListNotations.

Section Scan.
Variable inp : input.
Notation np := (npart inp).
Notation nch := (nchild inp).
Hypothesis WT : forall u, u < np -> (0 <= weight inp u <= INT_MAX)%Z.
Variable st : state.
Variable pth : nat -> list nat.
Hypothesis I : inv inp st pth.
Let Y := i_layout inp st pth I.
Notation flags := (s_start_flag st).
Notation mn := (morton_nrs inp st).
Notation bc := (bin_counts inp st mn).
Notation bw := (bin_wts inp st mn).

Lemma mn_val i : i < np -> mn i = key inp (s_user st i) (length (pth (s_box st i))).
Proof.
  intros Hi. unfold morton_nrs. rewrite kernel_map_lt by auto.
  destruct (i_box inp st pth I i Hi) as [U _]. rewrite (i_len inp st pth I _ U). auto.
Qed.
Lemma mn_le i : i < np -> mn i <= nch.
Proof. intros Hi. rewrite mn_val by auto. apply key_le. Qed.
Lemma bc_val i k : i < np -> k <= nch -> bc i k = cntr (fun j => mn j =? k) (seg_begin flags i) (S i).
Proof.
  intros Hi Hk. unfold bin_counts. rewrite kernel_map_lt by auto. rewrite kernel_map_lt by lia.
  apply (seg_scan_count flags (fun j => mn j =? k)).
Qed.
Lemma bc_total i : i < np -> nsum (map (bc i) (seq 0 (S nch))) = S i - seg_begin flags i.
Proof.
  intros Hi. rewrite (map_ext_in _ (fun k => length (filter (fun j => mn j =? k)
      (seq (seg_begin flags i) (S i - seg_begin flags i))))).
  - rewrite filter_key_sum. apply (cntr_all (fun j => mn j <? S nch)).
    + assert (X := seg_begin_le flags i). lia.
    + intros j H1 H2. apply Nat.ltb_lt. assert (X := mn_le j). lia.
  - intros k Hk. apply in_seq in Hk. apply bc_val; auto. lia.
Qed.

Lemma own_range i : i < np ->
  s_start st (s_box st i) <= i < s_start st (s_box st i) + s_cumul st (s_box st i).
Proof.
  intros Hi. destruct (i_box inp st pth I i Hi) as [U [R _]]. apply (in_range inp st pth I); auto.
Qed.
Lemma flag_at b : used st b -> 0 < s_cumul st b -> s_start st b = 0 \/ flags (s_start st b) = true.
Proof.
  intros U C. destruct (Nat.eq_dec (s_start st b) 0); auto. right.
  assert (X := i_range_np inp st pth I b U C). apply (i_flag inp st pth I); try lia. exists b. auto.
Qed.
Lemma seg_ge i : i < np -> s_start st (s_box st i) <= seg_begin flags i.
Proof.
  intros Hi. destruct (Nat.lt_ge_cases (seg_begin flags i) (s_start st (s_box st i))) as [H|]; auto.
  exfalso. destruct (i_box inp st pth I i Hi) as [U [R _]]. assert (X := own_range i Hi).
  assert (F : flags (s_start st (s_box st i)) = false) by (apply (seg_begin_gap flags i); lia).
  destruct (flag_at (s_box st i) U) as [Z|Z]; [lia|lia|congruence].
Qed.
(** no segment starts inside a leaf *)
Lemma leaf_no_flag b j : used st b -> s_child st 0 b = 0 -> 0 < s_cumul st b ->
  s_start st b < j -> j < s_start st b + s_cumul st b -> flags j = false.
Proof.
  intros U Lf C H1 H2. destruct (flags j) eqn:F; auto. exfalso.
  assert (Hj : j < np) by (assert (X := i_range_np inp st pth I b U C); lia).
  apply (i_flag inp st pth I) in F; try lia. destruct F as [b' [U' [C' S']]].
  assert (R : reach inp (s_user st j) (pth b) = true) by (apply (i_range inp st pth I b j U C Hj); lia).
  assert (R' : reach inp (s_user st j) (pth b') = true) by (apply (i_range inp st pth I b' j U' C' Hj); lia).
  assert (B := leaf_box inp st pth I b j U Lf Hj R).
  destruct (box_deepest inp st pth I b' j U' Hj R') as [r E]. rewrite B in E.
  assert (Hs : s_start st b < np) by lia.
  assert (R1 : reach inp (s_user st (s_start st b)) (pth b) = true) by (apply (i_range inp st pth I b _ U C Hs); lia).
  rewrite E in R1. apply reach_app in R1. apply (i_range inp st pth I b' _ U' C' Hs) in R1. lia.
Qed.
Lemma seg_leaf i : i < np -> s_child st 0 (s_box st i) = 0 -> seg_begin flags i = s_start st (s_box st i).
Proof.
  intros Hi Lf. destruct (i_box inp st pth I i Hi) as [U [R _]]. assert (X := own_range i Hi).
  apply seg_begin_eq.
  - lia.
  - apply flag_at; auto. lia.
  - intros j H1 H2. apply (leaf_no_flag (s_box st i)); auto; lia.
Qed.

Lemma last_full i : i < np -> is_last_in_box inp st bc i = true ->
  let b := s_box st i in
  seg_begin flags i = s_start st b /\ S i = s_start st b + s_cumul st b /\
  (forall j, s_start st b <= j -> j < s_start st b + s_cumul st b -> s_box st j = b).
Proof.
  intros Hi HL. unfold is_last_in_box in HL. rewrite bc_total in HL by auto. apply Nat.eqb_eq in HL.
  assert (X := own_range i Hi). assert (X2 := seg_ge i Hi).
  assert (E1 : seg_begin flags i = s_start st (s_box st i)) by lia.
  assert (E2 : S i = s_start st (s_box st i) + s_cumul st (s_box st i)) by lia.
  split; [auto|split; [auto|]]. intros j H1 H2.
  destruct (i_box inp st pth I i Hi) as [U [R D]].
  assert (C : 0 < s_cumul st (s_box st i)) by lia.
  assert (Hj : j < np) by lia.
  assert (Rj : reach inp (s_user st j) (pth (s_box st i)) = true) by (apply (i_range inp st pth I _ j U C Hj); lia).
  destruct (Nat.eq_dec (s_child st 0 (s_box st i)) 0) as [Lf|Sp].
  - apply (leaf_box inp st pth I); auto.
  - specialize (D Sp). destruct (box_deepest inp st pth I _ j U Hj Rj) as [r E].
    destruct (i_box inp st pth I j Hj) as [Uj [Rj' _]].
    destruct r as [|m r].
    { rewrite app_nil_r in E. apply (i_inj inp st pth I); auto. }
    exfalso. destruct (prefix_split inp st pth I _ _ m r U Uj E) as [_ Hm].
    destruct (i_split inp st pth I _ m U Sp Hm) as [Uc Ec].
    assert (Rc : reach inp (s_user st j) (pth (s_child st m (s_box st i))) = true).
    { rewrite Ec. rewrite E in Rj'.
      replace (pth (s_box st i) ++ m :: r) with ((pth (s_box st i) ++ [m]) ++ r) in Rj' by (rewrite <- app_assoc; auto).
      apply reach_app in Rj'. auto. }
    assert (Cc := reach_cumul inp st pth I _ j Uc Hj Rc).
    assert (O := i_order inp st pth I _ m U Sp Hm Cc).
    (* particle i itself stays, so the child starts later *)
    assert (K : 0 < kless inp (pth (s_box st i)) (S m)).
    { apply cnt_pos. exists (s_user st i). split; [apply (perm_lt np); auto; apply (i_perm inp st pth I)|].
      rewrite R. simpl. apply Nat.ltb_lt. unfold key. rewrite D. simpl. lia. }
    assert (F : flags (s_start st (s_child st m (s_box st i))) = false).
    { assert (Xc := in_range inp st pth I _ j Uc Hj Rc). apply (seg_begin_gap flags i); lia. }
    destruct (flag_at _ Uc Cc) as [Z|Z]; [lia|congruence].
Qed.
Lemma last_is_last i : i < np -> s_child st 0 (s_box st i) = 0 ->
  S i = s_start st (s_box st i) + s_cumul st (s_box st i) -> is_last_in_box inp st bc i = true.
Proof.
  intros Hi Lf E. unfold is_last_in_box. rewrite bc_total by auto. apply Nat.eqb_eq.
  rewrite seg_leaf by auto. lia.
Qed.

Lemma full_bins i k : i < np -> is_last_in_box inp st bc i = true -> k <= nch ->
  bc i k = kcount inp (pth (s_box st i)) k.
Proof.
  intros Hi HL Hk. destruct (last_full i Hi HL) as [E1 [E2 A]].
  destruct (i_box inp st pth I i Hi) as [U _]. assert (X := own_range i Hi).
  rewrite bc_val, E1, E2 by auto. rewrite (kcount_range inp st pth I) by (auto; lia).
  apply cntr_ext. intros j H1 H2. rewrite mn_val by lia. rewrite (A j) by auto. auto.
Qed.
Lemma full_wts i m : i < np -> is_last_in_box inp st bc i = true -> m < nch ->
  bw i m = subweight inp (pth (s_box st i)) m.
Proof.
  intros Hi HL Hm. destruct (last_full i Hi HL) as [E1 [E2 A]].
  destruct (i_box inp st pth I i Hi) as [U _]. assert (X := own_range i Hi).
  assert (PU := i_perm inp st pth I).
  unfold bin_wts. rewrite !kernel_map_lt by auto.
  rewrite seg_scan_sat.
  2:{ intros j Hj. destruct (mn j =? S m); [|split; [lia|unfold INT_MAX; lia]]. apply WT. apply (perm_lt np); auto. lia. }
  rewrite E1. unfold subweight, rweight. f_equal. rewrite zsum_filter.
  assert (P : Permutation (map (fun u => if reach inp u (pth (s_box st i) ++ [m]) then weight inp u else 0%Z) (seq 0 np))
      (map (fun j => if reach inp (s_user st j) (pth (s_box st i) ++ [m]) then weight inp (s_user st j) else 0%Z) (seq 0 np))).
  { rewrite <- (map_map (s_user st) (fun u => if reach inp u (pth (s_box st i) ++ [m]) then weight inp u else 0%Z)).
    apply Permutation_map. symmetry. auto. }
  rewrite (zsum_perm _ _ P).
  rewrite (zsum_range _ np (s_start st (s_box st i)) (S i)); try lia.
  - f_equal. apply map_ext_in. intros j Hj. apply in_seq in Hj.
    rewrite mn_val by lia. rewrite (A j) by lia. rewrite reach_snoc.
    rewrite (proj1 (i_range inp st pth I (s_box st i) j U ltac:(lia) ltac:(lia))) by lia. auto.
  - intros j Hj N. rewrite reach_snoc. destruct (reach inp (s_user st j) (pth (s_box st i))) eqn:R; auto.
    exfalso. apply N. rewrite E2. apply (in_range inp st pth I); auto.
Qed.

Lemma scanned_bins b k : used st b -> k <= nch -> s_bins (scanned inp st) b k = kcount inp (pth b) k.
Proof.
  intros U Hk. cbn [scanned with_scan s_bins]. unfold box_bins.
  destruct (scatter_cases (map (fun i => (s_box st i, bc i)) (filter (is_last_in_box inp st bc) (seq 0 np)))
                          (s_bins st) b) as [[v [H1 H2]]|[H1 H2]]; rewrite H2.
  - apply in_map_iff in H1. destruct H1 as [i [E Hi]]. apply filter_In in Hi. destruct Hi as [Hi HL].
    apply in_seq in Hi. inversion E; subst. apply full_bins; auto. lia.
  - destruct (Nat.eq_dec (s_child st 0 b) 0) as [Lf|]; [|apply (i_bins inp st pth I); auto].
    destruct (Nat.eq_dec (s_cumul st b) 0) as [C|C]; [apply (i_bins inp st pth I); auto|].
    exfalso. assert (X := i_range_np inp st pth I b U ltac:(lia)).
    set (i := s_start st b + s_cumul st b - 1). assert (Hi : i < np) by lia.
    assert (B : s_box st i = b).
    { apply (leaf_box inp st pth I); auto. apply (i_range inp st pth I b i U); lia. }
    apply (H1 (bc i)). apply in_map_iff. exists i. split; [congruence|].
    apply filter_In. split; [apply in_seq; lia|]. apply last_is_last; auto; rewrite B; auto; lia.
Qed.
Lemma scanned_wts b m : used st b -> m < nch -> s_wts (scanned inp st) b m = subweight inp (pth b) m.
Proof.
  intros U Hk. cbn [scanned with_scan s_wts]. unfold box_wts.
  destruct (scatter_cases (map (fun i => (s_box st i, bw i)) (filter (is_last_in_box inp st bc) (seq 0 np)))
                          (s_wts st) b) as [[v [H1 H2]]|[H1 H2]]; rewrite H2.
  - apply in_map_iff in H1. destruct H1 as [i [E Hi]]. apply filter_In in Hi. destruct Hi as [Hi HL].
    apply in_seq in Hi. inversion E; subst. apply full_wts; auto. lia.
  - destruct (Nat.eq_dec (s_child st 0 b) 0) as [Lf|]; [|apply (i_wts inp st pth I); auto].
    destruct (Nat.eq_dec (s_cumul st b) 0) as [C|C]; [apply (i_wts inp st pth I); auto|].
    exfalso. assert (X := i_range_np inp st pth I b U ltac:(lia)).
    set (i := s_start st b + s_cumul st b - 1). assert (Hi : i < np) by lia.
    assert (B : s_box st i = b).
    { apply (leaf_box inp st pth I); auto. apply (i_range inp st pth I b i U); lia. }
    apply (H1 (bw i)). apply in_map_iff. exists i. split; [congruence|].
    apply filter_In. split; [apply in_seq; lia|]. apply last_is_last; auto; rewrite B; auto; lia.
Qed.
Lemma scanned_unused b : ~ used st b ->
  s_bins (scanned inp st) b = s_bins st b /\ s_wts (scanned inp st) b = s_wts st b.
Proof.
  intros U. cbn [scanned with_scan s_wts s_bins]. unfold box_wts, box_bins.
  split; apply scatter_map_notin; intros i Hi; apply filter_In in Hi; destruct Hi as [Hi _];
    apply in_seq in Hi; intros E; apply U; rewrite <- E; apply (i_box inp st pth I); lia.
Qed.

Lemma scanned_inv : inv inp (scanned inp st) pth.
Proof.
  pose proof I as [J1 J2 J3 J4 J5 J6 J7 J8 J9 J10 J11 J12 J13 J14 J15 J16 J17]. split; auto.
  - destruct Y. split; auto.
  - intros b k U _ Hk. apply scanned_bins; auto.
  - intros b m U _ Hm. apply scanned_wts; auto.
  - intros b U. destruct (scanned_unused b U) as [E1 E2]. rewrite E1, E2. apply (J17 b U).
Qed.
End Scan.
