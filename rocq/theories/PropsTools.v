(** Properties C31, C34, C46 and C56: array helpers and the communication pattern of tools.py. *)
From Coq Require Import List Arith ZArith Lia Bool Permutation.
From Verif Require Import Base Traversal TreeBuild ArrayFacts Tools ToolsFacts Comm CommFacts CommRuns.
Import ListNotations.

(** ** C31: in a non-empty non-decreasing array, bsearch terminates with the largest index whose
    element is not above the key, or -1 if all elements are. *)
Theorem C31_last_not_above : forall (arr : nat -> Z) (len : nat) (key : Z),
  0 < len -> (forall i j, i <= j -> j < len -> (arr i <= arr j)%Z) ->
  exists result, bsearch arr len key = Some result /\
    match result with
    | None => forall i, i < len -> (key < arr i)%Z
    | Some i => i < len /\ (arr i <= key)%Z /\ forall j, i < j -> j < len -> (key < arr j)%Z
    end.
Proof.
  intros arr len key L SO. destruct (bsearch_correct arr len key L) as [[E H]|[i [E [H1 [H2 H3]]]]]; rewrite E; eexists; (split; [reflexivity|]).
  - intros i I. specialize (SO 0 i ltac:(lia) I). lia.
  - split; auto. split; auto. intros j J1 J2. destruct H3 as [H3|H3]; [lia|]. specialize (SO (S i) j ltac:(lia) J2). lia.
Qed.
(** Unsorted arrays: it still terminates, at a place where the array steps over the key. *)
Theorem C31_terminates : forall (arr : nat -> Z) (len : nat) (key : Z), 0 < len -> bsearch arr len key <> None.
Proof. intros arr len key L. destruct (bsearch_correct arr len key L) as [[E _]|[i [E _]]]; rewrite E; discriminate. Qed.
Definition bsearch_example (i : nat) : Z := nth i [2; 3; 3; 3; 7; 9]%Z 0%Z.
Example C31_meets : 0 < 6 /\ (forall i j, i <= j -> j < 6 -> (bsearch_example i <= bsearch_example j)%Z) /\
  map (bsearch bsearch_example 6) [1; 2; 3; 5; 8; 9; 100]%Z =
  [Some None; Some (Some 0); Some (Some 3); Some (Some 3); Some (Some 4); Some (Some 5); Some (Some 5)].
Proof.
  split; [lia|]. split; [|reflexivity]. intros i j H J.
  do 6 (destruct j as [|j]; [do 6 (destruct i as [|i]; [cbn; lia|]); lia|]). lia.
Qed.

(** ** C34: the communication pattern.  [pat_at rank size s] is the pattern of [rank] in a
    communicator of [size] ranks after [s] calls of advance(). *)
(** at the same stage, sinks and sources match up *)
Theorem C34_sinks_match_sources : forall size s r q pr pq,
  r < size -> q < size -> pat_at r size s = Some pr -> pat_at q size s = Some pq -> pat_done pr = false ->
  (In q (pat_sinks pr) <-> pat_done pq = false /\ In r (pat_sources pq)).
Proof.
  intros size s r q pr pq R Q ER EQ D. split.
  - intros I. destruct (source_link size s r q R) as [p [E1 [E2 E3]]]; [exists pr; auto|]. rewrite EQ in E1. inversion E1; subst p. auto.
  - intros [DQ I]. destruct (link_source size s r q pq Q EQ DQ I) as [_ [p [E1 [E2 E3]]]]. rewrite ER in E1. inversion E1; subst p. auto.
Qed.
(** partners exist: a sink is a rank of the communicator that has reached the stage *)
Theorem C34_partners_exist : forall size s r q pr,
  r < size -> pat_at r size s = Some pr -> pat_done pr = false -> In q (pat_sinks pr) \/ In q (pat_sources pr) ->
  q < size /\ q <> r /\ exists pq, pat_at q size s = Some pq /\ pat_done pq = false.
Proof.
  intros size s r q pr R E D [I|I].
  - assert (L : link size s r q) by (exists pr; auto). split; [eapply link_lt; eauto|]. split.
    + intros ->. destruct (link_spec size s r r R L) as [p [_ [_ [_ [_ [_ [_ [X Y]]]]]]]]. lia.
    + destruct (source_link size s r q R L) as [p [E1 [E2 _]]]. eauto.
  - destruct (link_source size s q r pr R E D I) as [Q L]. split; auto. split.
    + intros ->. destruct (link_spec size s r r R L) as [p [_ [_ [_ [_ [_ [_ [X Y]]]]]]]]. lia.
    + destruct L as [p [E1 [E2 _]]]. eauto.
Qed.
(** every rank is done after at most ceil(log2 size) stages, and never raises before *)
Theorem C34_done_in_log2_stages : forall size r, r < size ->
  exists s p, s <= Nat.log2_up size /\ pat_at r size s = Some p /\ pat_done p = true /\
  (forall s', s' < s -> exists p', pat_at r size s' = Some p' /\ pat_done p' = false).
Proof.
  intros size r R.
  assert (X : forall k, (exists s p, s <= k /\ pat_at r size s = Some p /\ pat_done p = true) \/
                        exists p, pat_at r size k = Some p /\ pat_done p = false).
  { induction k as [|k [[s [p [H1 H2]]]|[p [H1 H2]]]].
    - cbn [pat_at]. destruct (pat_done (pat_init r size)) eqn:D; [left; exists 0, (pat_init r size); auto|right; eauto].
    - left. exists s, p. split; auto.
    - destruct (pat_advance p) as [p'|] eqn:A; [|unfold pat_advance in A; rewrite H2 in A; discriminate].
      assert (E : pat_at r size (S k) = Some p') by (cbn [pat_at]; rewrite H1; auto).
      destruct (pat_done p') eqn:D; [left; exists (S k), p'; auto|right; eauto]. }
  assert (Y : exists s p, s <= Nat.log2_up size /\ pat_at r size s = Some p /\ pat_done p = true).
  { destruct (X (Nat.log2_up size)) as [Y|[p [H1 H2]]]; auto. destruct (stage_bound size r _ p R H1) as [_ Z]. rewrite Z in H2 by auto. discriminate. }
  destruct Y as [s [p [H1 [H2 H3]]]]. exists s, p. split; auto. split; auto. split; auto. intros s' L.
  destruct (pat_at_mono size r s' s p ltac:(lia) H2) as [q [Q1 Q2]]. eauto.
Qed.
(** no ordered pair of ranks exchanges messages in two stages *)
Theorem C34_no_pair_twice : forall size r q s s' p p',
  r < size -> pat_at r size s = Some p -> pat_done p = false -> In q (pat_sinks p) ->
  pat_at r size s' = Some p' -> pat_done p' = false -> In q (pat_sinks p') -> s = s'.
Proof. intros size r q s s' p p' R E D I E' D' I'. apply (link_once size s s' r q R); [exists p|exists p']; auto. Qed.
(** what a message is about: the ranks of messages() are exactly one half of the current group,
    the sink belongs to it and the sender does not *)
Theorem C34_messages_are_for_the_other_half : forall size s r p q,
  r < size -> pat_at r size s = Some p -> pat_done p = false -> In q (pat_sinks p) ->
  fst (pat_messages p) <= q < snd (pat_messages p) /\ ~ (fst (pat_messages p) <= r < snd (pat_messages p)) /\ snd (pat_messages p) <= size.
Proof.
  intros size s r p q R E D I. destruct (link_spec size s r q R) as [p' [E' [_ [O [RK [_ [B [SD M]]]]]]]]; [exists p; auto|].
  rewrite E in E'. inversion E'; subst p'. rewrite messages_eq, RK. destruct O. destruct (Nat.ltb_spec r (pat_mid p)); cbn [fst snd]; lia.
Qed.
(** for every other rank there is exactly one stage whose messages are for it *)
Theorem C34_each_rank_addressed_once : forall size r q, r < size -> q < size -> r <> q ->
  exists s p, (pat_at r size s = Some p /\ pat_done p = false /\ fst (pat_messages p) <= q < snd (pat_messages p)) /\
  forall s' p', pat_at r size s' = Some p' -> pat_done p' = false -> fst (pat_messages p') <= q < snd (pat_messages p') -> s' = s.
Proof.
  intros size r q R Q N.
  assert (EX : exists s p, pat_at r size s = Some p /\ pat_done p = false /\ fst (pat_messages p) <= q < snd (pat_messages p)).
  { assert (X : forall k s p, pat_right p - pat_left p <= k -> pat_at r size s = Some p -> pat_left p <= q < pat_right p ->
              exists s p, pat_at r size s = Some p /\ pat_done p = false /\ fst (pat_messages p) <= q < snd (pat_messages p)).
    { induction k as [|k IH]; intros s p K E B; [lia|]. destruct (pat_at_ok size r s p R E) as [O RK].
      assert (D : pat_done p = false). { apply Nat.eqb_neq. destruct O. lia. }
      assert (M := mid_between size p O D).
      destruct (Nat.ltb_spec r (pat_mid p)) as [L|L]; destruct (Nat.ltb_spec q (pat_mid p)) as [L'|L'].
      - destruct (pat_advance p) as [p'|] eqn:A; [|unfold pat_advance in A; rewrite D in A; discriminate].
        assert (E' : pat_at r size (S s) = Some p') by (cbn [pat_at]; rewrite E; auto).
        unfold pat_advance in A. rewrite D, RK in A. apply Nat.ltb_lt in L. rewrite L in A. inversion A; subst p'.
        eapply IH; [|exact E'|]; cbn [pat_left pat_right]; lia.
      - exists s, p. split; auto. split; auto. rewrite messages_eq, RK. apply Nat.ltb_lt in L. rewrite L. cbn. lia.
      - exists s, p. split; auto. split; auto. rewrite messages_eq, RK. apply Nat.ltb_ge in L. rewrite L. cbn. lia.
      - destruct (pat_advance p) as [p'|] eqn:A; [|unfold pat_advance in A; rewrite D in A; discriminate].
        assert (E' : pat_at r size (S s) = Some p') by (cbn [pat_at]; rewrite E; auto).
        unfold pat_advance in A. rewrite D, RK in A. apply Nat.ltb_ge in L. rewrite L in A. inversion A; subst p'.
        eapply IH; [|exact E'|]; cbn [pat_left pat_right]; lia. }
    apply (X size 0 (pat_init r size)); auto; cbn; lia. }
  destruct EX as [s [p [E [D B]]]]. exists s, p. split; auto. intros s' p' E' D' B'.
  assert (ONE : forall s p s' p', s < s' -> pat_at r size s = Some p -> pat_done p = false -> fst (pat_messages p) <= q < snd (pat_messages p) ->
            pat_at r size s' = Some p' -> pat_done p' = false -> fst (pat_messages p') <= q < snd (pat_messages p') -> False).
  { clear - R. intros s p s' p' L E D B E' D' B'. destruct (pat_at_mono size r (S s) s' p' L E') as [t [T _]].
    destruct (group_nested size r (S s) t s' p' R T E' L) as [N1 N2]. cbn [pat_at] in T. rewrite E in T. unfold pat_advance in T. rewrite D in T.
    destruct (pat_at_ok size r s p R E) as [O RK]. destruct (pat_at_ok size r s' p' R E') as [O' RK'].
    assert (M := mid_between size p O D). assert (M' := mid_between size p' O' D').
    rewrite messages_eq, RK in B. rewrite messages_eq, RK' in B'. rewrite RK in T.
    destruct (Nat.ltb_spec r (pat_mid p)); inversion T; subst t; cbn [pat_left pat_right] in N1, N2;
    destruct (Nat.ltb_spec r (pat_mid p')); cbn [fst snd] in B, B'; lia. }
  destruct (lt_eq_lt_dec s s') as [[H|H]|H]; auto; exfalso; eapply (ONE _ _ _ _ H); eauto.
Qed.
(** a rank that is done has nothing to receive *)
Theorem C34_done_has_no_sources : forall size s r p, r < size -> pat_at r size s = Some p -> pat_done p = true -> pat_sources p = [].
Proof.
  intros size s r p R E D. destruct (pat_at_ok size r s p R E) as [[O1 O2 O3 O4] RK]. unfold pat_done in D. apply Nat.eqb_eq in D.
  assert (X := half (pat_left p + pat_right p)). rewrite <- O4 in X.
  unfold pat_sources. destruct (Nat.ltb_spec (pat_rank p) (pat_mid p)); [lia|]. cbv zeta.
  destruct (Nat.eqb_spec (pat_rank p + 1) (pat_right p)); [|lia]. destruct (Nat.eqb_spec (pat_left p + (pat_rank p - pat_mid p)) (pat_mid p)); [auto|lia].
Qed.
(** seven ranks: rank 2 receives from two, rank 6 from none; all stages of rank 3 *)
Example C34_meets :
  map (fun r => option_map (fun p => (pat_sources p, pat_sinks p, pat_messages p, pat_done p)) (pat_at r 7 0)) [2; 3; 6] =
  [Some ([5; 6], [5], (3, 7), false); Some ([0], [0], (0, 3), false); Some ([], [2], (0, 3), false)] /\
  map (fun s => option_map (fun p => (pat_sources p, pat_sinks p, pat_done p)) (pat_at 3 7 s)) [0; 1; 2; 3] =
  [Some ([0], [0], false); Some ([5], [5], false); Some ([4], [4], false); Some ([], [2], true)].
Proof. split; reflexivity. Qed.

(** ** C56 (refuted): a rank that is done still reports a sink (callers have to ask done() first). *)
Theorem C56_done_has_no_sinks_refuted : exists size s r p, r < size /\ pat_at r size s = Some p /\ pat_done p = true /\ pat_sinks p <> [].
Proof. exists 4, 2, 3. eexists. split; [lia|]. split; [reflexivity|]. split; [reflexivity|]. discriminate. Qed.

(** ** C46: mask compression and index reversal. *)
(** the indices with a non-zero mask entry, in ascending order; the mask is contiguous and the
    output type can hold its indices *)
Theorem C46_list_of_mask : forall bits n data,
  0 < bits -> (Z.of_nat n <= 2 ^ (Z.of_nat bits - 1))%Z ->
  compress_list bits n 1 data = map Z.of_nat (filter (fun i => negb (data (1 * i)%nat =? 0)%Z) (seq 0 n)).
Proof.
  intros bits n data B N. unfold compress_list. rewrite (compress_row bits n data B N). f_equal. apply filter_ext. intros i. rewrite Nat.mul_1_l. auto.
Qed.
(** two dimensions: row [i] of the result lists the columns [j] with mask[i,j] non-zero, for all
    strides *)
Theorem C46_lists_of_mask : forall bits nrows ncols outer inner data,
  0 < bits -> (Z.of_nat ncols <= 2 ^ (Z.of_nat bits - 1))%Z ->
  let '(starts, lists) := compress_matrix bits nrows ncols outer inner data in
  length starts = S nrows /\ nth 0 starts 0 = 0 /\ nth nrows starts 0 = length lists /\
  forall i, i < nrows ->
    nth i starts 0 <= nth (S i) starts 0 /\
    firstn (nth (S i) starts 0 - nth i starts 0) (skipn (nth i starts 0) lists) =
    map Z.of_nat (filter (fun j => negb (data (outer * i + inner * j)%nat =? 0)%Z) (seq 0 ncols)).
Proof.
  intros bits nrows ncols outer inner data B N. unfold compress_matrix.
  set (row := fun i => concat _). set (rows := map row (seq 0 nrows)).
  assert (LR : length rows = nrows) by (unfold rows; rewrite map_length, seq_length; auto).
  split; [rewrite prefix_from_length, map_length, LR; auto|]. split; [rewrite prefix_from_nth by lia; auto|]. split.
  - rewrite prefix_from_nth by (rewrite map_length; lia). rewrite firstn_all2 by (rewrite map_length; lia). cbn [plus].
    clear. induction rows as [|x l IH]; cbn [map concat]; auto. rewrite app_length, <- IH. reflexivity.
  - intros i I. rewrite !prefix_from_nth by (rewrite map_length; lia). rewrite !Nat.add_0_l.
    rewrite nsum_firstn_S by (rewrite map_length; lia). split; [lia|].
    rewrite skipn_concat_nth by lia. rewrite (skipn_nth_cons rows i []) by lia. cbn [concat].
    change (nth i (map (@length Z) rows) 0) with (nth i (map (@length Z) rows) (@length Z [])). rewrite map_nth.
    replace (nsum (firstn i (map (@length Z) rows)) + length (nth i rows []) - nsum (firstn i (map (@length Z) rows))) with (length (nth i rows [])) by lia.
    rewrite firstn_app, firstn_all, Nat.sub_diag. cbn [firstn]. rewrite app_nil_r.
    unfold rows. rewrite nth_map_seq by auto. unfold row.
    rewrite (compress_row bits ncols (fun j => data (outer * i + j * inner)) B N). f_equal. apply filter_ext. intros j. rewrite (Nat.mul_comm inner j). auto.
Qed.
(** reverse_index_array: for distinct indices within the target, whatever the order of the
    parallel writes, result[indices[i]] = i, and the fill value elsewhere *)
Theorem C46_reverse_index : forall indices fill order,
  NoDup indices -> Permutation order (seq 0 (length indices)) ->
  (forall i, i < length indices -> reverse_index_array indices fill order (nth i indices 0) = i) /\
  (forall k, ~ In k indices -> reverse_index_array indices fill order k = fill).
Proof.
  intros indices fill order ND PM. unfold reverse_index_array. split.
  - intros i I. apply (scatter_map_in (fun i => nth i indices 0) (fun i => i)).
    + apply (Permutation_in _ (Permutation_sym PM)), in_seq. lia.
    + intros y Hy E. apply (Permutation_in _ PM), in_seq in Hy. apply (proj1 (NoDup_nth indices 0) ND); auto; lia.
  - intros k K. apply (scatter_map_notin (fun i => nth i indices 0) (fun i => i)). intros x Hx E.
    apply (Permutation_in _ PM), in_seq in Hx. apply K. rewrite <- E. apply nth_In. lia.
Qed.
(** for a permutation the result is the inverse permutation *)
Theorem C46_reverse_index_inverse : forall indices fill order,
  Permutation indices (seq 0 (length indices)) -> Permutation order (seq 0 (length indices)) ->
  forall k, k < length indices -> reverse_index_array indices fill order k < length indices /\ nth (reverse_index_array indices fill order k) indices 0 = k.
Proof.
  intros indices fill order PI PO k K.
  assert (ND : NoDup indices) by (eapply Permutation_NoDup; [apply Permutation_sym, PI|apply seq_NoDup]).
  assert (IN : In k indices) by (apply (Permutation_in _ (Permutation_sym PI)), in_seq; lia).
  destruct (In_nth _ _ 0 IN) as [i [I E]]. assert (X := proj1 (C46_reverse_index indices fill order ND PO) i I). rewrite E in X. rewrite X. auto.
Qed.
Example C46_meets :
  compress_list 8 5 1 (fun i => nth i [0; 3; 0; 1; 1]%Z 0%Z) = [1; 3; 4]%Z /\
  compress_matrix 8 2 3 1 2 (fun i => nth i [1; 0; 0; 0; 1; 1]%Z 0%Z) = ([0; 2; 3], [0; 2; 2]%Z) /\
  map (reverse_index_array [2; 0; 3] 9 [1; 2; 0]) [0; 1; 2; 3] = [1; 9; 0; 2].
Proof. repeat split; reflexivity. Qed.

(** ** C57 (refuted): a one-dimensional mask that is a strided view is not read through its strides. *)
Theorem C57_strided_masks_refuted : exists bits n stride data,
  0 < bits /\ (Z.of_nat n <= 2 ^ (Z.of_nat bits - 1))%Z /\
  compress_list bits n stride data <> map Z.of_nat (filter (fun i => negb (data (stride * i)%nat =? 0)%Z) (seq 0 n)).
Proof. exists 8, 2, 2, (fun i => nth i [1; 0; 1; 0]%Z 0%Z). split; [lia|]. split; [cbn; lia|]. vm_compute. discriminate. Qed.
(** ** C58 (refuted): without list_dtype the indices are stored in the type of the mask, which for
    an 8-bit mask of more than 128 entries is too small. *)
Theorem C58_default_list_type_refuted : exists n data,
  compress_list 8 n 1 data <> map Z.of_nat (filter (fun i => negb (data (1 * i)%nat =? 0)%Z) (seq 0 n)).
Proof. exists 129, (fun i => if i =? 128 then 1%Z else 0%Z). vm_compute. discriminate. Qed.

Print Assumptions C31_last_not_above.
Print Assumptions C31_terminates.
Print Assumptions C34_sinks_match_sources.
Print Assumptions C34_partners_exist.
Print Assumptions C34_done_in_log2_stages.
Print Assumptions C34_no_pair_twice.
Print Assumptions C34_messages_are_for_the_other_half.
Print Assumptions C34_each_rank_addressed_once.
Print Assumptions C34_done_has_no_sources.
Print Assumptions C56_done_has_no_sinks_refuted.
Print Assumptions C46_list_of_mask.
Print Assumptions C46_lists_of_mask.
Print Assumptions C46_reverse_index.
Print Assumptions C46_reverse_index_inverse.
Print Assumptions C57_strided_masks_refuted.
Print Assumptions C58_default_list_type_refuted.
