(** The finished tree: particles, flags, structure. *)
From Coq Require Import List Arith ZArith NArith Lia Bool Permutation.
From Verif Require Import Base Tree Walk Traversal Fmm SpecFmm TreeBuild ArrayFacts BuildInv BuildPrune BuildSplit.
Import ListNotations.

Lemma cnt_true n : cnt (fun _ => true) n = n.
Proof. unfold cnt. rewrite filter_all_seq by auto. apply seq_length. Qed.
Lemma cntr_true a b : cntr (fun _ => true) a b = b - a.
Proof. unfold cntr. rewrite filter_all_seq by auto. apply seq_length. Qed.
Lemma cnt_ltb k n : k <= n -> cnt (fun u => u <? k) n = k.
Proof.
  intros H. rewrite (cnt_cntr _ k) by auto. rewrite cntr_none; [|intros; apply Nat.ltb_ge; auto].
  rewrite Nat.add_0_r. rewrite (cnt_ext _ (fun _ => true)); [apply cnt_true|]. intros i Hi. apply Nat.ltb_lt. auto.
Qed.

Section Finish.
Variable inp : input.
Variable ps : pstate.
Variable q : nat -> list nat.
Variable sp : nat -> bool.
Hypothesis P : pinv inp ps q sp.
Hypothesis PEND : forall j, j < p_nboxes ps -> p_has_children ps j = true -> sp j = true.
Hypothesis NS : nsrc inp <= npart inp.
Hypothesis SAME : same inp = true -> nsrc inp = npart inp.
Notation np := (npart inp).
Notation nch := (nchild inp).
Notation n := (p_nboxes ps).
Notation user := (p_user ps).
Notation start := (p_start ps).
Notation cumul := (p_cumul ps).
Notation boxof := (p_box ps).
Notation own := (own inp q sp).
Definition the_split : split := if same inp then share_particles inp ps else split_particles inp ps.
Notation R := the_split.

(** positions of sources and of targets *)
Definition src_pos (i : nat) : bool := same inp || is_source_particle inp ps i.
Definition tgt_pos (i : nat) : bool := same inp || is_target_particle inp ps i.
Definition ntgt : nat := if same inp then np else np - nsrc inp.
Lemma src_pos_same : same inp = true -> forall i, src_pos i = true.
Proof. unfold src_pos. intros ->. auto. Qed.
Lemma cnt_src : cnt src_pos np = nsrc inp.
Proof.
  unfold src_pos. destruct (same inp) eqn:S.
  - cbn [orb]. rewrite cnt_true. symmetry. apply SAME; auto.
  - cbn [orb]. unfold is_source_particle. rewrite (cnt_perm (fun u => u <? nsrc inp) user np (pi_perm _ _ _ _ P)). apply cnt_ltb. auto.
Qed.
Lemma cnt_tgt : cnt tgt_pos np = ntgt.
Proof.
  assert (X := cnt_src). unfold tgt_pos, ntgt. destruct (same inp) eqn:S.
  - cbn [orb]. apply cnt_true.
  - cbn [orb]. rewrite cnt_complement. f_equal. unfold src_pos in X. rewrite S in X. cbn [orb] in X. auto.
Qed.
Lemma has_children_sp j : j < n -> p_has_children ps j = sp j.
Proof.
  intros Hj. apply eq_true_iff_eq. split; [apply PEND; auto|apply (pi_marks _ _ _ _ P); auto].
Qed.
Lemma cntr_ext' p p' a b : (forall i, p i = p' i) -> cntr p a b = cntr p' a b.
Proof. intros E. apply cntr_ext. auto. Qed.

Lemma fin_source_starts x : x < n -> 0 < cumul x -> sp_source_starts R x = cnt src_pos (start x).
Proof.
  intros Hx C. unfold the_split, src_pos. destruct (same inp); cbn [orb].
  - cbn [share_particles sp_source_starts]. rewrite cnt_true. auto.
  - rewrite (source_starts_eq inp ps q sp P) by auto. destruct (Nat.eqb_spec (cumul x) 0); [lia|auto].
Qed.
Lemma fin_target_starts x : x < n -> 0 < cumul x -> sp_target_starts R x = cnt tgt_pos (start x).
Proof.
  intros Hx C. unfold the_split, tgt_pos. destruct (same inp); cbn [orb].
  - cbn [share_particles sp_target_starts]. rewrite cnt_true. auto.
  - rewrite (target_starts_eq inp ps q sp P) by auto. destruct (Nat.eqb_spec (cumul x) 0); [lia|auto].
Qed.
Lemma fin_source_cumul x : x < n -> sp_source_cumul R x = cntr src_pos (start x) (start x + cumul x).
Proof.
  intros Hx. unfold the_split, src_pos. destruct (same inp); cbn [orb].
  - cbn [share_particles sp_source_cumul]. rewrite cntr_true. lia.
  - apply (source_cumul_eq inp ps q sp P); auto.
Qed.
Lemma fin_target_cumul x : x < n -> sp_target_cumul R x = cntr tgt_pos (start x) (start x + cumul x).
Proof.
  intros Hx. unfold the_split, tgt_pos. destruct (same inp); cbn [orb].
  - cbn [share_particles sp_target_cumul]. rewrite cntr_true. lia.
  - apply (target_cumul_eq inp ps q sp P); auto.
Qed.
Lemma own_sp_no_extent j : have_extent inp = false -> sp j = true -> own j = 0.
Proof. intros E S. unfold BuildSplit.own. rewrite S. apply kcount_0_no_extent; auto. Qed.
Lemma own_leaf j : j < n -> sp j = false -> own j = cumul j.
Proof. intros Hj S. unfold BuildSplit.own. rewrite S. symmetry. apply (pi_cumul _ _ _ _ P); auto. Qed.
Lemma nonchild_source_eq x : x < n -> sp x = true ->
  nonchild_source_count inp R x = cntr src_pos (start x) (start x + own x).
Proof.
  intros Hx S. unfold nonchild_source_count. destruct (have_extent inp) eqn:HE.
  - unfold the_split, src_pos. destruct (same inp); cbn [orb].
    + cbn [share_particles sp_source_nonchild]. rewrite cntr_true, (pi_nonchild _ _ _ _ P) by auto.
      unfold BuildSplit.own. rewrite S. lia.
    + apply (source_nonchild_eq inp ps q sp P); auto.
  - rewrite own_sp_no_extent by auto. rewrite cntr_empty; auto. lia.
Qed.
Lemma nonchild_target_eq x : x < n -> sp x = true ->
  nonchild_target_count inp R x = cntr tgt_pos (start x) (start x + own x).
Proof.
  intros Hx S. unfold nonchild_target_count. destruct (have_extent inp) eqn:HE.
  - unfold the_split, tgt_pos. destruct (same inp); cbn [orb].
    + cbn [share_particles sp_target_nonchild]. rewrite cntr_true, (pi_nonchild _ _ _ _ P) by auto.
      unfold BuildSplit.own. rewrite S. lia.
    + apply (target_nonchild_eq inp ps q sp P); auto.
  - rewrite own_sp_no_extent by auto. rewrite cntr_empty; auto. lia.
Qed.
Notation snc := (info_source_nonchild inp ps R).
Notation tnc := (info_target_nonchild inp ps R).
Lemma src_tgt_sum a b : same inp = false -> cntr src_pos a b + cntr tgt_pos a b = b - a.
Proof.
  intros S. rewrite <- cntr_or.
  - rewrite (cntr_ext' _ (fun _ => true)); [apply cntr_true|]. intros i. unfold src_pos, tgt_pos, is_target_particle.
    rewrite S. cbn [orb]. destruct (is_source_particle inp ps i); auto.
  - intros i _ _. unfold src_pos, tgt_pos, is_target_particle. rewrite S. cbn [orb]. intros ->. auto.
Qed.
Lemma snc_eq x : x < n -> snc x = cntr src_pos (start x) (start x + own x).
Proof.
  intros Hx. unfold info_source_nonchild. rewrite kernel_map_lt by auto. rewrite has_children_sp by auto.
  destruct (sp x) eqn:S; [apply nonchild_source_eq; auto|]. rewrite own_leaf by auto. rewrite <- fin_source_cumul by auto.
  unfold the_split. destruct (same inp); auto.
Qed.
Lemma tnc_eq x : x < n -> tnc x = cntr tgt_pos (start x) (start x + own x).
Proof.
  intros Hx. unfold info_target_nonchild. rewrite kernel_map_lt by auto. rewrite has_children_sp by auto.
  destruct (sp x) eqn:S; [apply nonchild_target_eq; auto|]. rewrite own_leaf by auto.
  assert (FC := fin_source_cumul x Hx). destruct (same inp) eqn:SM.
  - rewrite (cntr_ext' _ (fun _ => true)) by (intros; unfold tgt_pos; rewrite SM; auto). rewrite cntr_true. lia.
  - rewrite FC. assert (X := src_tgt_sum (start x) (start x + cumul x) SM). lia.
Qed.

(** ** Ids *)
Lemma source_ids_rank i : i < np -> src_pos i = true -> sp_source_ids R (cnt src_pos i) = user i.
Proof.
  intros Hi. unfold the_split. unfold src_pos. destruct (same inp) eqn:S; cbn [orb]; intros E.
  - rewrite cnt_true. auto.
  - cbn [split_particles sp_source_ids]. 
    rewrite (map_ext_in _ (fun k => (cnt (is_source_particle inp ps) k, user k))).
    + apply scatter_rank; auto.
    + intros k Hk. apply filter_In in Hk. destruct Hk as [Hk _]. apply in_seq in Hk. rewrite source_numbers_eq; [auto|lia].
Qed.
Lemma target_ids_rank i : i < np -> tgt_pos i = true -> sp_target_ids R (cnt tgt_pos i) = user i.
Proof.
  intros Hi. unfold the_split. unfold tgt_pos. destruct (same inp) eqn:S; cbn [orb]; intros E.
  - rewrite cnt_true. auto.
  - cbn [split_particles sp_target_ids].
    rewrite (map_ext_in _ (fun k => (cnt (is_target_particle inp ps) k, user k))).
    + apply scatter_rank; auto.
    + intros k Hk. apply filter_In in Hk. destruct Hk as [Hk _]. apply in_seq in Hk.
      rewrite source_numbers_eq by lia. rewrite cnt_complement. auto.
Qed.
Lemma source_position k : k < nsrc inp -> exists i, i < np /\ src_pos i = true /\ cnt src_pos i = k /\ sp_source_ids R k = user i.
Proof.
  intros Hk. rewrite <- cnt_src in Hk. destruct (rank_surj src_pos k np Hk) as [i [Hi [E1 E2]]].
  exists i. repeat split; auto. rewrite <- E2. apply source_ids_rank; auto.
Qed.
Lemma target_position k : k < ntgt -> exists i, i < np /\ tgt_pos i = true /\ cnt tgt_pos i = k /\ sp_target_ids R k = user i.
Proof.
  intros Hk. rewrite <- cnt_tgt in Hk. destruct (rank_surj tgt_pos k np Hk) as [i [Hi [E1 E2]]].
  exists i. repeat split; auto. rewrite <- E2. apply target_ids_rank; auto.
Qed.
Lemma src_user i : i < np -> src_pos i = true -> user i < nsrc inp.
Proof.
  intros Hi. unfold src_pos. destruct (same inp) eqn:S; cbn [orb].
  - intros _. rewrite SAME by auto. apply (user_lt inp ps q sp P). auto.
  - unfold is_source_particle. apply Nat.ltb_lt.
Qed.
(** first user id of a target *)
Definition tgt_base : nat := if same inp then 0 else nsrc inp.
Lemma tgt_user i : i < np -> tgt_pos i = true -> tgt_base <= user i < tgt_base + ntgt.
Proof.
  intros Hi. assert (U := user_lt inp ps q sp P i Hi). unfold tgt_pos, tgt_base, ntgt. destruct (same inp); cbn [orb]; [lia|].
  unfold is_target_particle, is_source_particle. intros E. apply negb_true_iff, Nat.ltb_ge in E. lia.
Qed.
Lemma user_inj i j : i < np -> j < np -> user i = user j -> i = j.
Proof. apply perm_inj, (pi_perm _ _ _ _ P). Qed.
Lemma source_ids_perm : Permutation (map (sp_source_ids R) (seq 0 (nsrc inp))) (seq 0 (nsrc inp)).
Proof.
  apply perm_of_inj.
  - intros k Hk. destruct (source_position k Hk) as [i [Hi [E1 [E2 E3]]]]. rewrite E3. apply src_user; auto.
  - intros k k' Hk Hk' E. destruct (source_position k Hk) as [i [Hi [E1 [E2 E3]]]].
    destruct (source_position k' Hk') as [i' [Hi' [E1' [E2' E3']]]]. rewrite E3, E3' in E. apply user_inj in E; auto. congruence.
Qed.
Lemma target_ids_range k : k < ntgt -> tgt_base <= sp_target_ids R k < tgt_base + ntgt.
Proof. intros Hk. destruct (target_position k Hk) as [i [Hi [E1 [E2 E3]]]]. rewrite E3. apply tgt_user; auto. Qed.
Lemma target_ids_inj k k' : k < ntgt -> k' < ntgt -> sp_target_ids R k = sp_target_ids R k' -> k = k'.
Proof.
  intros Hk Hk' E. destruct (target_position k Hk) as [i [Hi [E1 [E2 E3]]]].
  destruct (target_position k' Hk') as [i' [Hi' [E1' [E2' E3']]]]. rewrite E3, E3' in E. apply user_inj in E; auto. congruence.
Qed.
(** sorted_target_ids inverts the order of the targets *)
Lemma sorted_target_ids_inv k : k < ntgt -> sp_sorted_target_ids R (sp_target_ids R k - tgt_base) = k.
Proof.
  intros Hk. destruct (target_position k Hk) as [i [Hi [E1 [E2 E3]]]]. rewrite E3. rewrite <- E2.
  assert (TA := tgt_user). assert (TU := TA i Hi E1). revert E1 TU TA. unfold the_split, tgt_pos, tgt_base. destruct (same inp) eqn:S; cbn [orb]; intros E1 TU TA.
  - rewrite cnt_true, Nat.sub_0_r. cbn [share_particles sp_sorted_target_ids].
    apply (scatter_map_in user (fun i => i)); [apply in_seq; lia|].
    intros y Hy Ey. apply in_seq in Hy. apply user_inj; auto. lia.
  - cbn [split_particles sp_sorted_target_ids].
    rewrite (map_ext_in _ (fun k => (user k - nsrc inp, cnt (is_target_particle inp ps) k))).
    + apply (scatter_map_in (fun i => user i - nsrc inp) (cnt (is_target_particle inp ps))).
      * apply filter_In. split; auto. apply in_seq. lia.
      * intros y Hy Ey. apply filter_In in Hy. destruct Hy as [Hy Ty]. apply in_seq in Hy.
        assert (TY := TA y ltac:(lia) Ty).
        f_equal. apply user_inj; auto; lia.
    + intros y Hy. apply filter_In in Hy. destruct Hy as [Hy _]. apply in_seq in Hy.
      rewrite source_numbers_eq by lia. rewrite cnt_complement. auto.
Qed.
Lemma target_ids_surj u : tgt_base <= u < tgt_base + ntgt -> exists k, k < ntgt /\ sp_target_ids R k = u.
Proof.
  intros Hu. assert (Un : u < np) by (unfold tgt_base, ntgt in Hu; destruct (same inp); lia).
  destruct (perm_surj np user u (pi_perm _ _ _ _ P) Un) as [i [Hi Ei]].
  assert (T : tgt_pos i = true).
  { unfold tgt_pos, tgt_base in *. destruct (same inp); auto. cbn [orb]. unfold is_target_particle, is_source_particle.
    apply negb_true_iff, Nat.ltb_ge. lia. }
  exists (cnt tgt_pos i). split; [rewrite <- cnt_tgt; apply rank_lt; auto|]. rewrite target_ids_rank; auto.
Qed.
Lemma sorted_target_lt j : j < ntgt -> sp_sorted_target_ids R j < ntgt /\ sp_target_ids R (sp_sorted_target_ids R j) = tgt_base + j.
Proof.
  intros Hj. destruct (target_ids_surj (tgt_base + j) ltac:(lia)) as [k [Hk E]].
  assert (X := sorted_target_ids_inv k Hk). rewrite E in X. replace (tgt_base + j - tgt_base) with j in X by lia.
  rewrite X. auto.
Qed.

(** ** Ownership *)
Lemma sources_owned : Permutation (concat (map (fun b => seq (sp_source_starts R b) (snc b)) (seq 0 n))) (seq 0 (nsrc inp)).
Proof.
  rewrite <- cnt_src. apply (owned_rank inp ps q sp P src_pos).
  - intros x Hx C. apply fin_source_starts; auto. rewrite snc_eq in C by auto.
    assert (OL := own_le inp ps q sp P x Hx). assert (Z := cntr_le src_pos (start x) (start x + own x)). lia.
  - apply snc_eq.
Qed.
Lemma targets_owned : Permutation (concat (map (fun b => seq (sp_target_starts R b) (tnc b)) (seq 0 n))) (seq 0 ntgt).
Proof.
  rewrite <- cnt_tgt. apply (owned_rank inp ps q sp P tgt_pos).
  - intros x Hx C. apply fin_target_starts; auto. rewrite tnc_eq in C by auto.
    assert (OL := own_le inp ps q sp P x Hx). assert (Z := cntr_le tgt_pos (start x) (start x + own x)). lia.
  - apply tnc_eq.
Qed.
(** the particle at tree position [k] of the sources belongs to box [x] iff that is its box *)
Lemma source_own x k : x < n -> sp_source_starts R x <= k < sp_source_starts R x + snc x ->
  exists i, i < np /\ src_pos i = true /\ sp_source_ids R k = user i /\ boxof i = x.
Proof.
  intros Hx Hk. assert (OL := own_le inp ps q sp P x Hx). rewrite snc_eq in Hk by auto.
  assert (Z := cntr_le src_pos (start x) (start x + own x)).
  rewrite fin_source_starts in Hk by (auto; lia). rewrite <- (cnt_cntr src_pos) in Hk by lia.
  destruct (rank_surj src_pos k (start x + own x)) as [i [Hi [E1 E2]]]; [lia|].
  assert (GE : start x <= i).
  { destruct (Nat.le_gt_cases (start x) i); auto. assert (Y := rank_lt src_pos i (start x) E1 ltac:(lia)). lia. }
  assert (X := pi_range_np _ _ _ _ P x Hx ltac:(lia)).
  exists i. split; [lia|]. split; auto. split; [rewrite <- E2; apply source_ids_rank; auto; lia|].
  apply (own_range inp ps q sp P); auto; lia.
Qed.
Lemma target_own x k : x < n -> sp_target_starts R x <= k < sp_target_starts R x + tnc x ->
  exists i, i < np /\ tgt_pos i = true /\ sp_target_ids R k = user i /\ boxof i = x.
Proof.
  intros Hx Hk. assert (OL := own_le inp ps q sp P x Hx). rewrite tnc_eq in Hk by auto.
  assert (Z := cntr_le tgt_pos (start x) (start x + own x)).
  rewrite fin_target_starts in Hk by (auto; lia). rewrite <- (cnt_cntr tgt_pos) in Hk by lia.
  destruct (rank_surj tgt_pos k (start x + own x)) as [i [Hi [E1 E2]]]; [lia|].
  assert (GE : start x <= i).
  { destruct (Nat.le_gt_cases (start x) i); auto. assert (Y := rank_lt tgt_pos i (start x) E1 ltac:(lia)). lia. }
  assert (X := pi_range_np _ _ _ _ P x Hx ltac:(lia)).
  exists i. split; [lia|]. split; auto. split; [rewrite <- E2; apply target_ids_rank; auto; lia|].
  apply (own_range inp ps q sp P); auto; lia.
Qed.
(** the source at tree position [k] lies in the cumulative range of box [x] iff it reaches it *)
Lemma source_cumul_range x k : x < n -> k < nsrc inp ->
  (0 < sp_source_cumul R x /\ sp_source_starts R x <= k < sp_source_starts R x + sp_source_cumul R x <->
   reach inp (sp_source_ids R k) (q x) = true).
Proof.
  intros Hx Hk. destruct (source_position k Hk) as [i [Hi [E1 [E2 E3]]]]. rewrite E3.
  assert (CR : 0 < cumul x -> (sp_source_starts R x <= k < sp_source_starts R x + sp_source_cumul R x <->
                               start x <= i < start x + cumul x)).
  { intros C. rewrite fin_source_starts, fin_source_cumul by auto.
    rewrite <- (cnt_cntr src_pos) by lia. rewrite <- E2. split.
    - intros [A B]. split.
      + destruct (Nat.le_gt_cases (start x) i); auto. assert (Y := rank_lt src_pos i (start x) E1 ltac:(lia)). lia.
      + destruct (Nat.lt_ge_cases i (start x + cumul x)); auto.
        assert (Y := cnt_le_mono src_pos (start x + cumul x) i ltac:(lia)). lia.
    - intros [A B]. split; [apply cnt_le_mono; auto|apply rank_lt; auto]. }
  split.
  - intros [C0 A]. assert (C : 0 < cumul x).
    { rewrite fin_source_cumul in C0 by auto. assert (Z := cntr_le src_pos (start x) (start x + cumul x)). lia. }
    apply CR in A; auto. apply (in_reach inp ps q sp P x i Hx A).
  - intros Rr. assert (C := reach_nonempty inp ps q sp P x i Hx Hi Rr). assert (A := reach_in inp ps q sp P x i Hx Hi Rr).
    split; [|apply CR; auto]. rewrite fin_source_cumul by auto. apply (cntr_pos src_pos _ _ i); auto; lia.
Qed.
Lemma target_cumul_range x k : x < n -> k < ntgt ->
  (0 < sp_target_cumul R x /\ sp_target_starts R x <= k < sp_target_starts R x + sp_target_cumul R x <->
   reach inp (sp_target_ids R k) (q x) = true).
Proof.
  intros Hx Hk. destruct (target_position k Hk) as [i [Hi [E1 [E2 E3]]]]. rewrite E3.
  assert (CR : 0 < cumul x -> (sp_target_starts R x <= k < sp_target_starts R x + sp_target_cumul R x <->
                               start x <= i < start x + cumul x)).
  { intros C. rewrite fin_target_starts, fin_target_cumul by auto.
    rewrite <- (cnt_cntr tgt_pos) by lia. rewrite <- E2. split.
    - intros [A B]. split.
      + destruct (Nat.le_gt_cases (start x) i); auto. assert (Y := rank_lt tgt_pos i (start x) E1 ltac:(lia)). lia.
      + destruct (Nat.lt_ge_cases i (start x + cumul x)); auto.
        assert (Y := cnt_le_mono tgt_pos (start x + cumul x) i ltac:(lia)). lia.
    - intros [A B]. split; [apply cnt_le_mono; auto|apply rank_lt; auto]. }
  split.
  - intros [C0 A]. assert (C : 0 < cumul x).
    { rewrite fin_target_cumul in C0 by auto. assert (Z := cntr_le tgt_pos (start x) (start x + cumul x)). lia. }
    apply CR in A; auto. apply (in_reach inp ps q sp P x i Hx A).
  - intros Rr. assert (C := reach_nonempty inp ps q sp P x i Hx Hi Rr). assert (A := reach_in inp ps q sp P x i Hx Hi Rr).
    split; [|apply CR; auto]. rewrite fin_target_cumul by auto. apply (cntr_pos tgt_pos _ _ i); auto; lia.
Qed.

(** ** Child ranges *)
Definition weighted (p : nat -> bool) (j : nat) : nat := cntr p (start j) (start j + cumul j).
Lemma cntr_kless j p k : j < n -> sp j = true -> k <= nch ->
  cntr p (start j) (start j + kless inp (q j) (S k)) =
  cntr p (start j) (start j + own j) + nsum (map (fun m => if p_child ps m j =? 0 then 0 else weighted p (p_child ps m j)) (seq 0 k)).
Proof.
  intros Hj S. induction k as [|k IH]; intros Hk.
  - cbn [seq map]. rewrite kless_1. unfold BuildSplit.own. rewrite S. change (nsum []) with 0. lia.
  - rewrite seq_S, map_app, nsum_app, Nat.add_assoc, <- IH by lia. cbn [map plus].
    rewrite (kless_S inp (q j) (Datatypes.S k)).
    rewrite (cntr_split p (start j) (start j + kless inp (q j) (Datatypes.S k))) by lia. f_equal.
    set (c := p_child ps k j). change (nsum [if c =? 0 then 0 else weighted p c]) with ((if c =? 0 then 0 else weighted p c) + 0).
    rewrite Nat.add_0_r.
    assert (KC : kcount inp (q j) (Datatypes.S k) = rcount inp (q j ++ [k])) by (symmetry; apply rcount_snoc).
    destruct (Nat.eqb_spec c 0) as [E|E].
    + assert (Z : rcount inp (q j ++ [k]) = 0).
      { apply cnt_0. intros u Hu. apply not_true_is_false. intros Ru.
        apply (pi_split _ _ _ _ P k j u Hj ltac:(lia) S Hu Ru). exact E. }
      rewrite cntr_empty; auto. lia.
    + destruct (child_nonzero_path inp ps q sp P k j Hj ltac:(lia) E) as [Hc Ec]. fold c in Hc, Ec.
      assert (CC : cumul c = kcount inp (q j) (Datatypes.S k)) by (rewrite KC, (pi_cumul _ _ _ _ P c Hc), Ec; auto).
      unfold weighted. destruct (Nat.eq_dec (cumul c) 0) as [Z|Z].
      * rewrite !cntr_empty; auto; lia.
      * destruct (child_range inp ps q sp P k j Hj ltac:(lia) E) as [E1 E2]; [fold c; lia|]. fold c in E1. rewrite E1, CC.
        f_equal. lia.
Qed.
Lemma weighted_children j p : j < n ->
  weighted p j = cntr p (start j) (start j + own j) +
                 nsum (map (fun m => if p_child ps m j =? 0 then 0 else weighted p (p_child ps m j)) (seq 0 nch)).
Proof.
  intros Hj. destruct (sp j) eqn:S.
  - rewrite <- cntr_kless by auto. rewrite kless_all. unfold weighted. rewrite (pi_cumul _ _ _ _ P j Hj). auto.
  - unfold weighted. rewrite own_leaf by auto. rewrite (map_ext_in _ (fun _ => 0)).
    + assert (Z : nsum (map (fun _ : nat => 0) (seq 0 nch)) = 0) by (induction (seq 0 nch); auto). lia.
    + intros m Hm. apply in_seq in Hm. rewrite (pi_leaf _ _ _ _ P m j Hj ltac:(lia) S). auto.
Qed.
(** where a child's range begins *)
Lemma child_begin j m p : j < n -> m < nch -> p_child ps m j <> 0 -> 0 < weighted p (p_child ps m j) ->
  cnt p (start (p_child ps m j)) = cnt p (start j) + cntr p (start j) (start j + own j) +
    nsum (map (fun m => if p_child ps m j =? 0 then 0 else weighted p (p_child ps m j)) (seq 0 m)).
Proof.
  intros Hj Hm C W.
  assert (S : sp j = true).
  { destruct (sp j) eqn:S; auto. exfalso. apply C. apply (pi_leaf _ _ _ _ P); auto. }
  assert (C0 : 0 < cumul (p_child ps m j)).
  { unfold weighted in W. assert (Z := cntr_le p (start (p_child ps m j)) (start (p_child ps m j) + cumul (p_child ps m j))). lia. }
  destruct (child_range inp ps q sp P m j Hj Hm C C0) as [E1 _]. rewrite E1.
  rewrite (cnt_cntr p (start j)) by lia. rewrite cntr_kless by (auto; lia). lia.
Qed.

(** ** Flags *)
Lemma flags_split x : x < n -> sp x = true ->
  info_flags inp ps R x =
  mask_if (negb (tnc x =? 0)) IS_TARGET_BOX (mask_if (negb (snc x =? 0)) IS_SOURCE_BOX HAS_SOURCE_OR_TARGET_CHILD_BOXES).
Proof.
  intros Hx S. unfold info_flags. rewrite kernel_map_lt by auto. rewrite has_children_sp, S by auto.
  assert (E1 : nonchild_source_count inp R x = snc x) by (rewrite snc_eq, nonchild_source_eq; auto).
  assert (E2 : nonchild_target_count inp R x = tnc x) by (rewrite tnc_eq, nonchild_target_eq; auto).
  rewrite E1, E2. set (a := snc x). set (b := tnc x).
  destruct (same inp).
  - destruct (negb (cumul x - (a + b) =? 0)); reflexivity.
  - destruct (negb (sp_target_cumul R x - b =? 0)), (negb (sp_source_cumul R x - a =? 0)); reflexivity.
Qed.
Lemma flags_leaf x : x < n -> sp x = false ->
  info_flags inp ps R x = mask_if (negb (tnc x =? 0)) IS_TARGET_BOX (mask_if (negb (snc x =? 0)) IS_SOURCE_BOX 0%N).
Proof.
  intros Hx S. unfold info_flags, info_target_nonchild, info_source_nonchild. rewrite !kernel_map_lt by auto.
  rewrite !has_children_sp, S by auto. destruct (same inp); auto.
  destruct (cumul x =? 0); reflexivity.
Qed.
Definition flagged (f : N) (m : N) : bool := flag f m.
Lemma flags_source x : x < n -> flag (info_flags inp ps R x) IS_SOURCE_BOX = negb (snc x =? 0).
Proof.
  intros Hx. destruct (sp x) eqn:S; [rewrite flags_split by auto|rewrite flags_leaf by auto];
    destruct (negb (tnc x =? 0)), (negb (snc x =? 0)); reflexivity.
Qed.
Lemma flags_target x : x < n -> flag (info_flags inp ps R x) IS_TARGET_BOX = negb (tnc x =? 0).
Proof.
  intros Hx. destruct (sp x) eqn:S; [rewrite flags_split by auto|rewrite flags_leaf by auto];
    destruct (negb (tnc x =? 0)), (negb (snc x =? 0)); reflexivity.
Qed.
Lemma flags_source_child x : x < n -> flag (info_flags inp ps R x) HAS_SOURCE_CHILD_BOXES = sp x.
Proof.
  intros Hx. destruct (sp x) eqn:S; [rewrite flags_split by auto|rewrite flags_leaf by auto];
    destruct (negb (tnc x =? 0)), (negb (snc x =? 0)); reflexivity.
Qed.
Lemma flags_target_child x : x < n -> flag (info_flags inp ps R x) HAS_TARGET_CHILD_BOXES = sp x.
Proof.
  intros Hx. destruct (sp x) eqn:S; [rewrite flags_split by auto|rewrite flags_leaf by auto];
    destruct (negb (tnc x =? 0)), (negb (snc x =? 0)); reflexivity.
Qed.
End Finish.
