(** Facts about LocalTree.v. *)
From Coq Require Import List Arith ZArith NArith Lia Bool Permutation.
From Verif Require Import Base Tree Spec TreeFacts Traversal SpecTraversal Fmm SpecFmm FmmFacts FmmThm
  Tools ToolsFacts Partition PartitionFacts LocalTree SpecDist.
From Verif Require TreeBuild ArrayFacts.
Import ListNotations.

Lemma pm_spec nb bm st c i :
  particle_mask nb bm st c i = true <-> exists b, b < nb /\ bm b = true /\ In i (seq (st b) (c b)).
Proof.
  unfold particle_mask.
  assert (G : forall l s, fold_left (fun pm b => if bm b then fold_left mark (seq (st b) (c b)) pm else pm) l s i = true <->
     s i = true \/ exists b, In b l /\ bm b = true /\ In i (seq (st b) (c b))).
  { induction l as [|b l IH]; intros s; cbn [fold_left].
    - split; auto. intros [H|[b [[] _]]]; auto.
    - rewrite IH. destruct (bm b) eqn:R.
      + rewrite fold_mark, orb_true_iff, existsb_eqb. split.
        * intros [[H|H]|[j [Hj H]]]; auto; right; [exists b|exists j]; simpl; auto.
        * intros [H|[j [[<-|Hj] [H1 H2]]]]; auto. right. exists j. auto.
      + split; intros [H|[j [Hj H]]]; auto; right; exists j; [simpl; auto|]. destruct Hj as [<-|Hj]; [|auto]. destruct H. congruence. }
  rewrite G. unfold no_boxes. split.
  - intros [H|[b [Hb H]]]; [discriminate|]. apply in_seq in Hb. exists b. split; [lia|auto].
  - intros [b [Hb H]]. right. exists b. split; [apply in_seq; lia|auto].
Qed.

(** ** Positions of kept particles *)
Lemma scan_S pm i : mask_scan pm (S i) = mask_scan pm i + (if pm i then 1 else 0).
Proof. unfold mask_scan. rewrite seq_S, map_app, nsum_app. cbn [map]. change (nsum [if pm (0 + i) then 1 else 0]) with ((if pm i then 1 else 0) + 0). lia. Qed.
Lemma scan_length pm i : mask_scan pm i = length (filter pm (seq 0 i)).
Proof.
  induction i as [|i IH]; [reflexivity|]. rewrite scan_S, IH, seq_S, filter_app, app_length. cbn [filter Nat.add].
  destruct (pm i); reflexivity.
Qed.
Lemma scan_mono pm i j : i <= j -> mask_scan pm i <= mask_scan pm j.
Proof. induction 1; auto. rewrite scan_S. lia. Qed.
Lemma scan_lt pm i j : i < j -> pm i = true -> mask_scan pm i < mask_scan pm j.
Proof. intros H E. assert (X := scan_mono pm (S i) j H). rewrite scan_S, E in X. lia. Qed.
Lemma scan_run pm s c : (forall i, In i (seq s c) -> pm i = true) -> forall j, j <= c -> mask_scan pm (s + j) = mask_scan pm s + j.
Proof.
  intros H. induction j as [|j IH]; intros Hj; [rewrite !Nat.add_0_r; auto|].
  rewrite Nat.add_succ_r, scan_S, IH, H by (try lia; apply in_seq; lia). lia.
Qed.
Lemma scan_nth pm n i d : i < n -> pm i = true -> nth (mask_scan pm i) (filter pm (seq 0 n)) d = i.
Proof.
  intros Hi E. replace n with (i + S (n - i - 1)) by lia. rewrite seq_app, filter_app. cbn [seq filter Nat.add]. rewrite E, scan_length.
  rewrite app_nth2 by lia. rewrite Nat.sub_diag. reflexivity.
Qed.
Lemma nth_scan pm n k : k < length (filter pm (seq 0 n)) ->
  let i := nth k (filter pm (seq 0 n)) 0 in i < n /\ pm i = true /\ mask_scan pm i = k.
Proof.
  intros Hk i. assert (HI : In i (filter pm (seq 0 n))) by (apply nth_In; auto).
  apply filter_In in HI. destruct HI as [Hi E]. apply in_seq in Hi. split; [lia|]. split; auto.
  assert (X := scan_nth pm n i 0 ltac:(lia) E).
  assert (L : mask_scan pm i < length (filter pm (seq 0 n))).
  { rewrite <- scan_length. apply scan_lt; auto. lia. }
  apply (proj1 (NoDup_nth (filter pm (seq 0 n)) 0)); auto. apply NoDup_filter, seq_NoDup.
Qed.

(** gathered particles *)
Lemma fetch_at {A} pm n order (x old : nat -> A) k : Permutation order (seq 0 n) -> k < length (filter pm (seq 0 n)) ->
  fetch_local pm order x old k = x (nth k (filter pm (seq 0 n)) 0).
Proof.
  intros PM Hk. destruct (nth_scan pm n k Hk) as [Hi [E S]]. set (i := nth k (filter pm (seq 0 n)) 0) in *.
  unfold fetch_local. apply ArrayFacts.scatter_in_eq.
  - apply in_map_iff. exists i. split; [rewrite S; auto|]. apply filter_In. split; auto.
    eapply Permutation_in; [symmetry; exact PM|]. apply in_seq. lia.
  - intros v H. apply in_map_iff in H. destruct H as [j [EJ Hj]]. apply filter_In in Hj. destruct Hj as [Hj E2].
    inversion EJ. f_equal. destruct (Nat.lt_trichotomy j i) as [L|[L|L]]; auto.
    + assert (Y := scan_lt pm j i L E2). lia.
    + assert (Y := scan_lt pm i j L E). lia.
Qed.

(** ** One set of particles *)
Section Lists.
Variable t : tree.
Variables (n : nat) (bm : mask) (st cnt cumul : nat -> nat).
Hypothesis O : owned_once t st cnt n.
Let pm := particle_mask (nboxes t) bm st cnt.
Let L := local_particle_lists (nboxes t) n bm st cnt cumul.

Lemma own_range b i : b < nboxes t -> In i (seq (st b) (cnt b)) -> i < n.
Proof.
  intros Hb Hi. assert (X : In i (seq 0 n)); [|apply in_seq in X; lia].
  eapply Permutation_in; [exact O|]. apply in_concat_map. exists b. split; auto. apply in_seq. lia.
Qed.
Lemma own_unique b b' i : b < nboxes t -> b' < nboxes t -> In i (seq (st b) (cnt b)) -> In i (seq (st b') (cnt b')) -> b = b'.
Proof.
  intros Hb Hb' H1 H2. destruct (owner_exists t st cnt n i O (own_range b i Hb H1)) as [T [_ [_ U]]].
  rewrite (proj1 (U b Hb)), (proj1 (U b' Hb')); auto; apply covers_in; auto.
Qed.
Lemma pm_own b i : b < nboxes t -> In i (seq (st b) (cnt b)) -> pm i = bm b.
Proof.
  intros Hb Hi. destruct (bm b) eqn:E.
  - apply pm_spec. exists b. auto.
  - destruct (pm i) eqn:E2; auto. apply pm_spec in E2. destruct E2 as [b' [Hb' [B H]]].
    rewrite (own_unique b b' i) in E; auto. congruence.
Qed.
(** the local range of a kept box picks out its particles *)
Lemma local_range b : b < nboxes t -> bm b = true ->
  map (fun k => nth k (ll_idx L) 0) (seq (ll_starts L b) (ll_counts L b)) = seq (st b) (cnt b).
Proof.
  intros Hb E. unfold L, local_particle_lists. cbn [ll_idx ll_starts ll_counts]. fold pm. rewrite E.
  assert (A : forall i, In i (seq (st b) (cnt b)) -> pm i = true) by (intros; rewrite (pm_own b); auto).
  apply (nth_ext _ _ 0 0); rewrite map_length, !seq_length; auto. intros j Hj.
  rewrite (nth_indep _ 0 (nth 0 (filter pm (seq 0 n)) 0)) by (rewrite map_length, seq_length; auto).
  rewrite (map_nth (fun k => nth k (filter pm (seq 0 n)) 0)). rewrite !seq_nth by auto.
  rewrite <- (scan_run pm (st b) (cnt b) A j) by lia.
  assert (HI : In (st b + j) (seq (st b) (cnt b))) by (apply in_seq; lia).
  apply scan_nth; [apply (own_range b); auto|auto].
Qed.
Lemma local_none b : bm b = false -> ll_counts L b = 0.
Proof. intros E. unfold L. cbn. rewrite E. auto. Qed.
Lemma idx_spec i : In i (ll_idx L) <-> exists b, b < nboxes t /\ bm b = true /\ In i (seq (st b) (cnt b)).
Proof.
  unfold L. cbn [local_particle_lists ll_idx]. rewrite filter_In, pm_spec, in_seq. split; [tauto|]. intros [b [Hb [E H]]].
  split; [|eauto]. assert (X := own_range b i Hb H). lia.
Qed.
(** a kept box covers local position [k] iff it owns the particle there *)
Lemma local_covers k b : k < length (ll_idx L) -> b < nboxes t ->
  (covers (ll_starts L b) (ll_counts L b) k = true <-> covers (st b) (cnt b) (nth k (ll_idx L) 0) = true).
Proof.
  intros Hk Hb. rewrite !covers_in. destruct (nth_scan pm n k Hk) as [Hi [E S]].
  change (ll_idx L) with (filter pm (seq 0 n)) in *. set (i := nth k (filter pm (seq 0 n)) 0) in *.
  split.
  - intros H. destruct (bm b) eqn:B; [|rewrite local_none in H by auto; destruct H].
    rewrite <- local_range by auto. apply in_map_iff. exists k. split; auto.
  - intros H. assert (B : bm b = true) by (rewrite <- (pm_own b i); auto).
    unfold L. cbn [local_particle_lists ll_starts ll_counts]. fold pm. rewrite B.
    assert (A : forall i, In i (seq (st b) (cnt b)) -> pm i = true) by (intros; rewrite (pm_own b); auto).
    apply in_seq in H. assert (R := scan_run pm (st b) (cnt b) A (i - st b) ltac:(lia)).
    replace (st b + (i - st b)) with i in R by lia. apply in_seq. lia.
Qed.
End Lists.

Section Flags.
Variable t : tree.
Hypothesis W : wf_tree t.
Variables (n : nat) (bm : mask) (st cnt cumul : nat -> nat).
Hypothesis O : owned_once t st cnt n.
Hypothesis N : nested_ranges t st cnt cumul.
Let L := local_particle_lists (nboxes t) n bm st cnt cumul.
Let pm := particle_mask (nboxes t) bm st cnt.

Lemma scan_own b : b < nboxes t -> mask_scan pm (st b) + ll_counts L b <= mask_scan pm (st b + cnt b).
Proof.
  intros Hb. unfold L. cbn. destruct (bm b) eqn:E.
  - rewrite scan_run with (c := cnt b); auto. intros i Hi. unfold pm. rewrite (pm_own t n bm st cnt O b); auto.
  - rewrite Nat.add_0_r. apply scan_mono. lia.
Qed.
Lemma counts_cumul b : b < nboxes t -> ll_counts L b <= ll_cumul L b.
Proof.
  intros Hb. assert (X := scan_own b Hb). assert (Y := nr_own _ _ _ _ N b Hb).
  assert (Z := scan_mono pm (st b + cnt b) (st b + cumul b) ltac:(lia)).
  assert (E : ll_cumul L b = mask_scan pm (st b + cumul b) - mask_scan pm (st b)) by reflexivity. lia.
Qed.
Lemma child_cumul m b : b < nboxes t -> m < nchildren t -> box_child t m b <> 0 -> 0 < ll_cumul L (box_child t m b) ->
  ll_counts L b < ll_cumul L b.
Proof.
  intros Hb Hm C H. set (c := box_child t m b) in *.
  assert (EC : ll_cumul L c = mask_scan pm (st c + cumul c) - mask_scan pm (st c)) by reflexivity.
  assert (EB : ll_cumul L b = mask_scan pm (st b + cumul b) - mask_scan pm (st b)) by reflexivity.
  assert (P : 0 < cumul c). { destruct (cumul c) eqn:E; [|lia]. rewrite Nat.add_0_r in EC. lia. }
  destruct (nr_child _ _ _ _ N m b Hb Hm C P) as [H1 H2]. fold c in H1, H2.
  assert (X := scan_own b Hb). assert (Y := scan_mono pm _ _ H1). assert (Z := scan_mono pm _ _ H2). lia.
Qed.

(** the rebuilt flags *)
Lemma flag_ldiff f m1 m2 : N.land m1 m2 = 0%N -> flag (N.ldiff f m1) m2 = flag f m2.
Proof.
  intros H. unfold flag. f_equal. f_equal. apply N.bits_inj. intros k. rewrite !N.land_spec, N.ldiff_spec.
  assert (X : N.testbit (N.land m1 m2) k = false) by (rewrite H; apply N.bits_0). rewrite N.land_spec in X.
  destruct (N.testbit f k), (N.testbit m1 k), (N.testbit m2 k); auto.
Qed.
Lemma flag_ldiff_same f m : flag (N.ldiff f m) m = false.
Proof.
  unfold flag. apply negb_false_iff, N.eqb_eq. apply N.bits_inj. intros k. rewrite N.land_spec, N.ldiff_spec, N.bits_0.
  destruct (N.testbit f k), (N.testbit m k); auto.
Qed.
Lemma flag_or f m1 m2 : N.land m1 m2 = 0%N -> flag (N.lor f m1) m2 = flag f m2.
Proof.
  intros H. unfold flag. f_equal. f_equal. apply N.bits_inj. intros k. rewrite !N.land_spec, N.lor_spec.
  assert (X : N.testbit (N.land m1 m2) k = false) by (rewrite H; apply N.bits_0). rewrite N.land_spec in X.
  destruct (N.testbit f k), (N.testbit m1 k), (N.testbit m2 k); auto.
Qed.
Lemma flag_or_same f m : m <> 0%N -> flag (N.lor f m) m = true.
Proof.
  intros H. unfold flag. apply negb_true_iff, N.eqb_neq. intros E. apply H. apply N.bits_inj. intros k. rewrite N.bits_0.
  assert (X : N.testbit (N.land (N.lor f m) m) k = false) by (rewrite E; apply N.bits_0). rewrite N.land_spec, N.lor_spec in X.
  destruct (N.testbit f k), (N.testbit m k); auto.
Qed.
Lemma modify_source cn cc f b m : m = IS_SOURCE_BOX \/ m = HAS_SOURCE_CHILD_BOXES ->
  flag (modify_target_flags cn cc f b) m = flag (f b) m.
Proof.
  intros H. unfold modify_target_flags.
  assert (E : N.land IS_TARGET_BOX m = 0%N /\ N.land HAS_TARGET_CHILD_BOXES m = 0%N) by (destruct H as [->| ->]; split; reflexivity).
  destruct E as [E1 E2]. destruct (_ <? _), (_ =? _); rewrite ?flag_or by auto; rewrite !flag_ldiff by auto; auto.
Qed.
Lemma modify_is_target cn cc f b : flag (modify_target_flags cn cc f b) IS_TARGET_BOX = negb (cn b =? 0).
Proof.
  unfold modify_target_flags.
  destruct (_ <? _); rewrite ?(flag_or _ HAS_TARGET_CHILD_BOXES) by reflexivity; (destruct (cn b =? 0); cbn [negb];
  [rewrite flag_ldiff by reflexivity; apply flag_ldiff_same|apply flag_or_same; discriminate]).
Qed.
Lemma modify_has_child cn cc f b : flag (modify_target_flags cn cc f b) HAS_TARGET_CHILD_BOXES = (cn b <? cc b).
Proof.
  unfold modify_target_flags.
  destruct (_ <? _); [apply flag_or_same; discriminate|].
  destruct (cn b =? 0); rewrite ?(flag_or _ IS_TARGET_BOX) by reflexivity; apply flag_ldiff_same.
Qed.
(** a kept particle in the cumulative range but not of the box itself *)
Lemma has_child_spec b : b < nboxes t ->
  (ll_counts L b < ll_cumul L b <-> exists i, pm i = true /\ st b + cnt b <= i < st b + cumul b).
Proof.
  intros Hb. assert (EB : ll_cumul L b = mask_scan pm (st b + cumul b) - mask_scan pm (st b)) by reflexivity.
  assert (OWN := nr_own _ _ _ _ N b Hb).
  assert (EO : mask_scan pm (st b + cnt b) = mask_scan pm (st b) + ll_counts L b).
  { unfold L. cbn [local_particle_lists ll_counts]. destruct (bm b) eqn:E.
    - apply scan_run with (c := cnt b); auto. intros i Hi. unfold pm. rewrite (pm_own t n bm st cnt O b); auto.
    - assert (G : forall j, j <= cnt b -> mask_scan pm (st b + j) = mask_scan pm (st b)).
      { induction j as [|j IH]; intros Hj; [rewrite Nat.add_0_r; auto|]. rewrite Nat.add_succ_r, scan_S, IH by lia.
        unfold pm. rewrite (pm_own t n bm st cnt O b) by (auto; apply in_seq; lia). rewrite E. lia. }
      rewrite G; lia. }
  assert (G : forall a k, mask_scan pm a < mask_scan pm (a + k) <-> exists i, pm i = true /\ a <= i < a + k).
  { intros a k. induction k as [|k IH]; [rewrite Nat.add_0_r; split; [lia|intros [i [_ H]]; lia]|].
    rewrite Nat.add_succ_r, scan_S. assert (M := scan_mono pm a (a + k) ltac:(lia)). destruct (pm (a + k)) eqn:E.
    - split; [intros _; exists (a + k); split; [auto|lia]|lia].
    - rewrite Nat.add_0_r, IH. split; intros [i [H1 H2]]; exists i; (split; [auto|]); [lia|].
      destruct (Nat.eq_dec i (a + k)) as [->|]; [congruence|lia]. }
  specialize (G (st b + cnt b) (cumul b - cnt b)). replace (st b + cnt b + (cumul b - cnt b)) with (st b + cumul b) in G by lia.
  rewrite <- G. assert (M := scan_mono pm (st b) (st b + cumul b) ltac:(lia)). lia.
Qed.
(** the number of kept particles in a range *)
Lemma cumul_spec b : ll_cumul L b = length (filter pm (seq (st b) (cumul b))).
Proof.
  assert (EB : ll_cumul L b = mask_scan pm (st b + cumul b) - mask_scan pm (st b)) by reflexivity.
  rewrite EB, !scan_length, seq_app, filter_app, app_length. cbn [Nat.add]. lia.
Qed.
End Flags.

Lemma local_restricted t n bm st cnt cumul : owned_once t st cnt n ->
  let L := local_particle_lists (nboxes t) n bm st cnt cumul in
  restricted t bm st cnt n (ll_idx L) (ll_starts L) (ll_counts L).
Proof.
  intros O L. set (pm := particle_mask (nboxes t) bm st cnt). split.
  - intros i j IJ J. change (ll_idx L) with (filter pm (seq 0 n)) in *.
    destruct (nth_scan pm n i ltac:(lia)) as [_ [_ S1]]. destruct (nth_scan pm n j J) as [_ [_ S2]].
    destruct (le_lt_dec (nth j (filter pm (seq 0 n)) 0) (nth i (filter pm (seq 0 n)) 0)) as [X|X]; auto.
    apply (scan_mono pm) in X. lia.
  - intros i. unfold L. rewrite (idx_spec t n bm st cnt cumul O). split.
    + intros [b [Hb [E H]]]. split; [eapply own_range; eauto|]. apply in_seq in H. eauto.
    + intros [_ [b [Hb [E H]]]]. exists b. rewrite in_seq. auto.
  - intros b Hb E. unfold L. cbn [local_particle_lists ll_starts ll_counts ll_idx]. rewrite E. fold pm. rewrite <- scan_length.
    assert (A : forall i, In i (seq (st b) (cnt b)) -> pm i = true) by (intros i Hi; unfold pm; rewrite (pm_own t n bm st cnt O b); auto).
    rewrite <- (scan_run pm (st b) (cnt b) A (cnt b)) by lia. destruct (cnt b) eqn:C.
    + rewrite Nat.add_0_r. destruct (le_lt_dec (st b) n) as [X|X]; [apply scan_mono; auto|].
      replace (st b) with (n + (st b - n)) by lia. induction (st b - n) as [|d IH]; [rewrite Nat.add_0_r; auto|].
      rewrite Nat.add_succ_r, scan_S. destruct (pm (n + d)) eqn:PM; [|lia]. unfold pm in PM. apply pm_spec in PM.
      destruct PM as [b' [Hb' [_ Y]]]. apply (own_range t n st cnt O b' _ Hb') in Y. lia.
    + apply scan_mono. assert (X := own_range t n st cnt O b (st b + n0) Hb ltac:(apply in_seq; lia)). lia.
  - intros b Hb E. apply local_range; auto.
  - intros b E. apply local_none; auto.
Qed.
