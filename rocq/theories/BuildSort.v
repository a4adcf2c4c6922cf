(** The particle renumbering sorts the particles of every split box by child. *)
From Coq Require Import List Arith ZArith NArith Lia Bool Permutation.
From Verif Require Import Base Tree Walk Traversal Fmm TreeBuild ArrayFacts BuildInv BuildScan BuildIds.
Import ListNotations.

Section Sort.
Variable inp : input.
Notation np := (npart inp).
Notation nch := (nchild inp).
Hypothesis WT : forall u, u < np -> (0 <= weight inp u <= INT_MAX)%Z.
Hypothesis MW : (0 <= max_weight inp)%Z.
Variable st : state.
Variable pth : nat -> list nat.
Hypothesis H : head inp st pth.
Let I := h_inv inp st pth H.
Let Y := i_layout inp st pth I.
Notation st1 := (scanned inp st).
Notation st2 := (marked inp st1).
Notation L := (nlev st).
Notation n := (lst st L).
Notation sp := (splits inp st1).
Notation ids := (split_box_ids inp st1).
Notation nu := (new_used st2 ids).
Variables (nl : list nat) (nbn : nat).
Notation st3 := (with_level_counts st2 (s_lstart st2 ++ [nbn]) nu nl).
Notation mn := (morton_nrs inp st).
Notation bc := (bin_counts inp st mn).
Notation ti := (target_index inp st3 mn bc).

Lemma has_children2 b : s_has_children st2 b = if b <? n then s_has_children st b || sp b else false.
Proof.
  cbn [marked with_split s_has_children]. cbn [scanned with_scan s_level s_lstart s_has_children].
  rewrite (h_level inp st pth H). fold (lst st L). destruct (Nat.ltb_spec b n).
  - rewrite kernel_map_lt; auto.
  - rewrite kernel_map_ge by auto. apply (i_unused inp st pth I). intros U. apply (used_lt st Y) in U. lia.
Qed.
Lemma do_split_val b : do_split inp st3 b = (b <? n) && sp b.
Proof.
  unfold do_split. cbn [with_level_counts s_has_children s_force s_blevel s_level].
  change (s_has_children (marked inp st1) b) with (s_has_children st2 b). rewrite has_children2.
  cbn [marked with_split scanned with_scan s_force s_blevel s_level].
  destruct (Nat.ltb_spec b n) as [Hb|Hb]; cbn [andb].
  2:{ destruct (i_unused inp st pth I b) as [_ [_ [_ [F _]]]].
      - intros U. apply (used_lt st Y) in U. lia.
      - rewrite F, andb_false_r. auto. }
  destruct (sp b) eqn:S.
  - rewrite orb_true_r. cbn [andb]. unfold splits in S. cbn [scanned with_scan s_blevel s_level s_force] in S.
    apply orb_true_iff in S. destruct S as [S|S].
    + apply andb_true_iff in S. destruct S as [-> _]. auto.
    + rewrite S. apply orb_true_r.
  - rewrite orb_false_r. destruct (level_restrict inp && s_force st b) eqn:F.
    + exfalso. unfold splits in S. cbn [scanned with_scan s_blevel s_level s_force] in S. rewrite F, orb_true_r in S. discriminate.
    + rewrite orb_false_r. destruct (s_has_children st b) eqn:HC; auto.
      destruct (Nat.eqb_spec (s_blevel st b + 1) (s_level st)) as [E|E]; auto. exfalso.
      destruct (used_dec st Y b) as [U|U].
      * destruct (Nat.eq_dec (s_child st 0 b) 0) as [Lf|Sp].
        -- apply (h_pending inp st pth H b U HC) in Lf.
           apply (splits_iff inp WT st pth H b U) in Lf. congruence.
        -- destruct (i_split inp st pth I b 0 U Sp (nch_pos inp)) as [U' E'].
           assert (X := i_len inp st pth I _ U'). rewrite E', app_length in X. cbn [length] in X.
           rewrite (i_len inp st pth I _ U) in X.
           apply (used_level st Y) in U'. destruct U' as [U' _]. rewrite (h_level inp st pth H) in E. lia.
      * destruct (i_unused inp st pth I b U) as [_ [_ [HC' _]]]. congruence.
Qed.

(** boxes whose particles move *)
Definition moves (b : nat) : Prop := b < n /\ sp b = true.
Lemma moves_used b : moves b -> used st b.
Proof. intros [H1 H2]. apply (splits_used inp MW st pth H); auto. Qed.
Lemma moves_leaf b : moves b -> s_child st 0 b = 0.
Proof. intros M. apply (splits_leaf inp WT st pth H); [apply moves_used; auto|apply M]. Qed.
Lemma moves_dec b : moves b \/ ~ moves b.
Proof. unfold moves. destruct (Nat.lt_ge_cases b n), (sp b); intuition (try lia; try congruence). Qed.
Lemma do_split_moves b : do_split inp st3 b = true <-> moves b.
Proof. rewrite do_split_val, andb_true_iff, Nat.ltb_lt. reflexivity. Qed.

Lemma bins_val b k : used st b -> k <= nch -> s_bins st3 b k = kcount inp (pth b) k.
Proof. intros U Hk. apply (scanned_bins inp st pth I b k U Hk). Qed.

(** position among the particles of the box: smaller keys first, then the original order *)
Lemma ti_val i : i < np -> moves (s_box st i) ->
  ti i = s_start st (s_box st i) + kless inp (pth (s_box st i)) (mn i)
         + cntr (fun j => mn j =? mn i) (s_start st (s_box st i)) i.
Proof.
  intros Hi M. assert (U := moves_used _ M). assert (Lf := moves_leaf _ M).
  unfold target_index. cbn [with_level_counts s_box s_start]. change (s_box st2 i) with (s_box st i).
  rewrite (proj2 (do_split_moves _) M). change (s_start st2 ?b) with (s_start st b).
  assert (R := own_range inp st pth I i Hi).
  rewrite (bc_val inp st i (mn i)) by (auto; apply (mn_le inp st pth I); auto).
  rewrite (seg_leaf inp st pth I i Hi Lf). rewrite cntr_S by lia. rewrite Nat.eqb_refl.
  rewrite <- kless_sum.
  assert (K := mn_le inp st pth I i Hi).
  assert (E : (if 0 <? mn i then s_bins st3 (s_box st i) 0 else 0)
     + nsum (map (fun m => if S m <? mn i then s_bins st3 (s_box st i) (S m) else 0) (seq 0 nch))
     = nsum (map (kcount inp (pth (s_box st i))) (seq 0 (mn i)))).
  { transitivity (nsum (map (fun k => if k <? mn i then s_bins st3 (s_box st i) k else 0) (seq 0 (S nch)))).
    - cbn [seq map]. rewrite <- seq_shift, map_map. reflexivity.
    - replace (S nch) with (mn i + (S nch - mn i)) by lia. rewrite seq_app, map_app, nsum_app.
      rewrite (nsum_map_0 _ (seq (0 + mn i) _)).
      + rewrite Nat.add_0_r. f_equal. apply map_ext_in. intros k Hk. apply in_seq in Hk.
        destruct (Nat.ltb_spec k (mn i)); [|lia]. apply bins_val; auto. lia.
      + intros k Hk. apply in_seq in Hk. destruct (Nat.ltb_spec k (mn i)); auto. lia. }
  lia.
Qed.
Lemma ti_stay i : i < np -> ~ moves (s_box st i) -> ti i = i.
Proof.
  intros Hi M. unfold target_index. cbn [with_level_counts s_box]. change (s_box st2 i) with (s_box st i).
  destruct (do_split inp st3 (s_box st i)) eqn:D; auto. apply do_split_moves in D. contradiction.
Qed.
(** keys of the particles of a leaf *)
Lemma leaf_keys b k : moves b -> 0 < s_cumul st b ->
  kcount inp (pth b) k = cntr (fun j => mn j =? k) (s_start st b) (s_start st b + s_cumul st b).
Proof.
  intros M C. assert (U := moves_used _ M). rewrite (kcount_range inp st pth I b k U C).
  assert (X := i_range_np inp st pth I b U C).
  apply cntr_ext. intros j J1 J2. rewrite (mn_val inp st pth I j) by lia. f_equal. f_equal. f_equal. f_equal.
  symmetry. apply (leaf_box inp st pth I); auto; [apply moves_leaf; auto|lia|].
  apply (i_range inp st pth I b j U C); lia.
Qed.
Lemma ti_key_range i : i < np -> moves (s_box st i) ->
  s_start st (s_box st i) + kless inp (pth (s_box st i)) (mn i) <= ti i
    < s_start st (s_box st i) + kless inp (pth (s_box st i)) (S (mn i)).
Proof.
  intros Hi M. rewrite ti_val by auto. rewrite kless_S. assert (R := own_range inp st pth I i Hi).
  rewrite leaf_keys by (auto; lia).
  assert (X := cntr_lt (fun j => mn j =? mn i) (s_start st (s_box st i)) i
     (s_start st (s_box st i) + s_cumul st (s_box st i)) ltac:(lia) ltac:(lia) (Nat.eqb_refl _)). lia.
Qed.
Lemma ti_range i : i < np -> moves (s_box st i) ->
  s_start st (s_box st i) <= ti i < s_start st (s_box st i) + s_cumul st (s_box st i).
Proof.
  intros Hi M. assert (X := ti_key_range i Hi M).
  rewrite (i_cumul inp st pth I _ (moves_used _ M)).
  assert (X2 := kless_le inp (pth (s_box st i)) (S (mn i))). lia.
Qed.
Lemma kless_mono p k k' : k <= k' -> kless inp p k <= kless inp p k'.
Proof. intros K. induction K; auto. rewrite kless_S. lia. Qed.
(** all the positions of a leaf belong to it *)
Lemma leaf_positions b j : used st b -> s_child st 0 b = 0 -> s_start st b <= j -> j < s_start st b + s_cumul st b ->
  j < np /\ s_box st j = b.
Proof.
  intros U Lf J1 J2. assert (C : 0 < s_cumul st b) by lia. assert (X := i_range_np inp st pth I b U C).
  split; [lia|]. apply (leaf_box inp st pth I); auto; [lia|]. apply (i_range inp st pth I b j U C); lia.
Qed.
Lemma ti_lt i : i < np -> ti i < np.
Proof.
  intros Hi. destruct (moves_dec (s_box st i)) as [M|M].
  - assert (X := ti_range i Hi M). apply (leaf_positions (s_box st i)); [apply moves_used|apply moves_leaf|lia|lia]; auto.
  - rewrite ti_stay; auto.
Qed.
(** a particle stays within the positions of its box *)
Lemma ti_box i : i < np -> s_box st (ti i) = s_box st i.
Proof.
  intros Hi. destruct (moves_dec (s_box st i)) as [M|M].
  - assert (X := ti_range i Hi M). apply leaf_positions; [apply moves_used|apply moves_leaf|lia|lia]; auto.
  - rewrite ti_stay; auto.
Qed.
Lemma ti_inj i j : i < np -> j < np -> ti i = ti j -> i = j.
Proof.
  intros Hi Hj E. assert (B : s_box st i = s_box st j) by (rewrite <- (ti_box i Hi), <- (ti_box j Hj); congruence).
  destruct (moves_dec (s_box st i)) as [M|M].
  - assert (X := ti_key_range i Hi M). assert (M' := M). rewrite B in M'. assert (X' := ti_key_range j Hj M').
    rewrite <- B in X'. rewrite <- E in X'.
    destruct (Nat.lt_trichotomy (mn i) (mn j)) as [C|[C|C]].
    + assert (K := kless_mono (pth (s_box st i)) (S (mn i)) (mn j) C). lia.
    + rewrite ti_val in E by auto. rewrite (ti_val j) in E by auto. rewrite <- B, <- C in E.
      assert (R := own_range inp st pth I i Hi). assert (R' := own_range inp st pth I j Hj). rewrite <- B in R'.
      apply (cntr_inj (fun j => mn j =? mn i) (s_start st (s_box st i))); try lia.
      * apply Nat.eqb_refl.
      * apply Nat.eqb_eq. auto.
    + assert (K := kless_mono (pth (s_box st i)) (S (mn j)) (mn i) C). lia.
  - assert (M' := M). rewrite B in M'. rewrite !ti_stay in E; auto.
Qed.
Lemma ti_perm : Permutation (map ti (seq 0 np)) (seq 0 np).
Proof. apply perm_of_inj; [apply ti_lt|apply ti_inj]. Qed.
Lemma ti_surj j : j < np -> exists i, i < np /\ ti i = j.
Proof. intros Hj. apply (perm_surj np ti j ti_perm Hj). Qed.

(** the positions of every used box are kept *)
Lemma ti_used_range b i : used st b -> 0 < s_cumul st b -> i < np ->
  (s_start st b <= ti i < s_start st b + s_cumul st b <-> reach inp (s_user st i) (pth b) = true).
Proof.
  intros U C Hi. rewrite (i_range inp st pth I b (ti i) U C (ti_lt i Hi)).
  destruct (moves_dec (s_box st i)) as [M|M]; [|rewrite ti_stay by auto; reflexivity].
  assert (Hj := ti_lt i Hi). set (j := ti i) in *.
  assert (B : s_box st j = s_box st i) by (apply ti_box; auto).
  assert (X : forall i j, i < np -> j < np -> s_box st j = s_box st i ->
    reach inp (s_user st i) (pth b) = true -> reach inp (s_user st j) (pth b) = true).
  { intros i0 j0 Hi0 Hj0 B0 R. destruct (box_deepest inp st pth I b i0 U Hi0 R) as [r E].
    destruct (i_box inp st pth I j0 Hj0) as [_ [R' _]]. rewrite B0, E in R'. apply reach_app in R'. auto. }
  split; apply X; auto.
Qed.
(** positions of the particles going to child [m] *)
Lemma ti_child_range b m i : moves b -> m < nch -> 0 < kcount inp (pth b) (S m) -> i < np ->
  (s_start st b + kless inp (pth b) (S m) <= ti i < s_start st b + kless inp (pth b) (S m) + kcount inp (pth b) (S m)
   <-> reach inp (s_user st i) (pth b ++ [m]) = true).
Proof.
  intros M Hm K Hi. assert (U := moves_used _ M). assert (Lf := moves_leaf _ M).
  assert (C : 0 < s_cumul st b).
  { rewrite (i_cumul inp st pth I b U). assert (X := kcount_le inp (pth b) (S m)). lia. }
  rewrite reach_snoc, andb_true_iff, Nat.eqb_eq. rewrite <- (Nat.add_assoc (s_start st b)), <- kless_S.
  split.
  - intros R. assert (R1 : s_start st b <= ti i < s_start st b + s_cumul st b).
    { rewrite (i_cumul inp st pth I b U). assert (X := kless_le inp (pth b) (S (S m))). lia. }
    apply (ti_used_range b i U C Hi) in R1. split; auto.
    assert (B := leaf_box inp st pth I b i U Lf Hi R1).
    assert (X := ti_key_range i Hi). rewrite B in X. specialize (X M).
    rewrite (mn_val inp st pth I i Hi), B in X.
    set (k := key inp (s_user st i) (length (pth b))) in *.
    destruct (Nat.lt_trichotomy k (S m)) as [E|[E|E]]; auto.
    + assert (X2 := kless_mono (pth b) (S k) (S m) E). lia.
    + assert (X2 := kless_mono (pth b) (S (S m)) k E). lia.
  - intros [R1 E]. assert (B := leaf_box inp st pth I b i U Lf Hi R1).
    assert (X := ti_key_range i Hi). rewrite B in X. specialize (X M).
    rewrite (mn_val inp st pth I i Hi), B, E in X. lia.
Qed.
End Sort.
