(** Property C113: the work is distributed evenly. *)
From Coq Require Import List Arith ZArith NArith Lia Bool Permutation QArith Qcanon.
From Verif Require Import Base Tree Spec TreeFacts Traversal SpecTraversal Fmm Partition PartitionFacts PropsPartition
  Cost CostFacts FmmLib SpecFmmLib DistributedLib Runner RunnerFacts PropsRunner BalanceFacts.
From Verif Require ExampleBuild PropsDistBuild TreeBuild.
Import ListNotations.
Local Open Scope nat_scope.

Section Glue.
Variable t : tree.
Hypothesis W : wf_tree t.
Variable z : nat -> Z.
Hypothesis NN : forall b, b < nboxes t -> (0 <= z b)%Z.
Variables size r : nat.
Variable l : list nat.
Hypothesis Hr : r < size.
Hypothesis HP : partition_work t z size r = Responsible l.

(** what the rank gets, and what the ranks up to it get *)
Lemma rank_segment : exists order a b,
  Permutation order (seq 0 (nboxes t)) /\ length order = nboxes t /\ l = py_slice order a b /\
  concat (map (fun q => boxes_of (partition_work t z size q)) (seq 0 (r + 1))) = py_slice order 0 b /\
  let P := prefix (map z order) in let total := zsum (map z (seq 0 (nboxes t))) in
  P (nboxes t) = total /\
  (Z.of_nat r * total <= P a * Z.of_nat size)%Z /\ a < b /\ b <= nboxes t /\
  (r + 1 < size -> (a < b - 1 -> (P (b - 1)%nat * Z.of_nat size <= Z.of_nat (r + 1) * total)%Z) /\
                   (b < nboxes t -> (Z.of_nat (r + 1) * total < P b * Z.of_nat size)%Z)) /\
  (r + 1 = size -> b = nboxes t).
Proof.
  destruct (C36_dfs_order t W) as [order [EO [PO _]]].
  assert (LO : length order = nboxes t) by (rewrite (Permutation_length PO), seq_length; auto).
  unfold partition_work in *. destruct (nboxes t <? size) eqn:S0; [discriminate|]. apply Nat.ltb_ge in S0. rewrite EO in *. cbv zeta in *.
  set (total := zsum (map z (seq 0 (nboxes t)))) in *.
  set (segs := segment_loop (nboxes t) size total (map z order) 0 0 0 0) in *.
  destruct (nth_error segs r) as [[a b]|] eqn:EN; [|discriminate]. injection HP as <-. exists order, a, b. split; auto. split; auto. split; auto.
  destruct (segment_chain (nboxes t) size total (map z order) 0 0 0 0%Z) as [C _]; try lia; [rewrite map_length; auto|..].
  { intros X. apply map_eq_nil in X. subst order. cbn in LO. lia. }
  fold segs in C. destruct (chain_prefix order segs 0 (nboxes t) r a b C EN) as [_ [AB [BN CP]]]. split.
  - rewrite <- CP. rewrite Nat.add_1_r. clear - EN. revert EN. generalize segs as sg. clear. intros sg EN.
    assert (G : forall sg r ab, nth_error sg r = Some ab -> concat (map (fun q => boxes_of match nth_error sg q with
        | Some (s, e) => Responsible (py_slice order s e) | None => Uninitialised end) (seq 0 (S r))) =
      concat (map (fun p => py_slice order (fst p) (snd p)) (firstn (S r) sg))).
    { induction sg0 as [|[x y] sg0 IH]; intros q ab H; [destruct q; discriminate|]. destruct q as [|q]; [reflexivity|].
      cbn [nth_error] in H. specialize (IH q ab H). rewrite <- cons_seq, <- seq_shift. cbn [map]. rewrite map_map. cbn [nth_error boxes_of concat].
      rewrite IH. reflexivity. }
    apply (G sg r _ EN).
  - cbv zeta. assert (TOT : prefix (map z order) (nboxes t) = total).
    { unfold prefix. rewrite firstn_all2 by (rewrite map_length; lia). apply zsum_perm, Permutation_map. auto. }
    split; auto.
    assert (NN' : forall c, In c (map z order) -> (0 <= c)%Z).
    { intros c Hc. apply in_map_iff in Hc. destruct Hc as [x [<- Hx]]. apply NN. apply (Permutation_in _ PO), in_seq in Hx. lia. }
    assert (TN : (0 <= total)%Z) by (rewrite <- TOT; apply zsum_firstn_nonneg; auto).
    assert (X := segments_cut (map z order) size total NN' (map z order) 0 0 0 eq_refl ltac:(lia) ltac:(lia) ltac:(lia) ltac:(auto)
      ltac:(change (prefix (map z order) 0) with 0%Z; lia) ltac:(lia) r a b). rewrite map_length, LO in X. apply X. exact EN.
Qed.
Lemma balanced_Z : exists front x, l = front ++ [x] /\
  (Z.of_nat size * zsum (map z front) <= zsum (map z (seq 0 (nboxes t))))%Z /\
  (r + 1 = size -> (Z.of_nat size * zsum (map z l) <= zsum (map z (seq 0 (nboxes t))))%Z).
Proof.
  destruct rank_segment as [order [a [b [PO [LO [EL [_ [TOT [LOW [AB [BN [UP LAST]]]]]]]]]]]]. cbv zeta in *.
  set (total := zsum (map z (seq 0 (nboxes t)))) in *.
  destruct (slice_last order a b AB ltac:(lia)) as [x EX].
  assert (NO : forall c, In c (map z order) -> (0 <= c)%Z).
  { intros c Hc. apply in_map_iff in Hc. destruct Hc as [y [<- Hy]]. apply NN. apply (Permutation_in _ PO), in_seq in Hy. lia. }
  assert (TN : (0 <= total)%Z) by (rewrite <- TOT; apply zsum_firstn_nonneg; auto).
  assert (Zx : (0 <= z x)%Z).
  { apply NO, in_map. assert (In x (py_slice order a b)) by (rewrite EX; apply in_or_app; simpl; auto).
    unfold py_slice in H. apply (in_skipn x a). rewrite <- (firstn_skipn (b - a) (skipn a order)). apply in_or_app. auto. }
  assert (CL := slice_cost z order a b ltac:(lia) ltac:(lia)). assert (CF := slice_cost z order a (b - 1) ltac:(lia) ltac:(lia)).
  assert (CX : (zsum (map z (py_slice order a b)) = zsum (map z (py_slice order a (b - 1))) + z x)%Z).
  { rewrite EX, map_app, zsum_app. cbn [map]. change (zsum [z x]) with (z x + 0)%Z. lia. }
  assert (LST : r + 1 = size -> (Z.of_nat size * zsum (map z l) <= total)%Z).
  { intros E. rewrite EL, CL. specialize (LAST E). rewrite LAST, TOT. nia. }
  exists (py_slice order a (b - 1)), x. split; [rewrite EL; auto|]. split; auto.
  destruct (Nat.eq_dec (r + 1) size) as [E|E].
  - specialize (LST E). rewrite EL, CX in LST. nia.
  - destruct (UP ltac:(lia)) as [U _]. destruct (Nat.eq_dec a (b - 1)) as [E2|E2].
    + rewrite CF, <- E2. lia.
    + specialize (U ltac:(lia)). rewrite CF. nia.
Qed.
Lemma served_first_Z : r + 1 < size ->
  let done := concat (map (fun q => boxes_of (partition_work t z size q)) (seq 0 (r + 1))) in
  Permutation done (seq 0 (nboxes t)) \/ (Z.of_nat (r + 1) * zsum (map z (seq 0 (nboxes t))) < Z.of_nat size * zsum (map z done))%Z.
Proof.
  intros E done. destruct rank_segment as [order [a [b [PO [LO [EL [ED [TOT [LOW [AB [BN [UP LAST]]]]]]]]]]]]. cbv zeta in *.
  unfold done. rewrite ED. destruct (Nat.eq_dec b (nboxes t)) as [EB|EB].
  - left. rewrite EB. unfold py_slice. rewrite Nat.sub_0_r. cbn [skipn]. rewrite firstn_all2 by lia. auto.
  - right. destruct (UP E) as [_ U]. specialize (U ltac:(lia)). rewrite (slice_cost z order 0 b) by lia.
    change (prefix (map z order) 0) with 0%Z. lia.
Qed.
End Glue.

Lemma of_Z_scale_le d n x y : (0 < d)%Qc -> (of_Z n * (d * x) <= d * y)%Qc -> (of_Z n * x <= y)%Qc.
Proof.
  intros D H. replace (of_Z n * (d * x))%Qc with (d * (of_Z n * x))%Qc in H by ring. destruct (Qclt_le_dec y (of_Z n * x)) as [K|K]; auto.
  exfalso. apply (scale_lt d _ _ D) in K. exact (Qclt_not_le _ _ K H).
Qed.
(** C113.  Without its last box a rank costs at most a fair share of the total, and the last rank
    costs at most a fair share. *)
Theorem C113_at_most_one_box_too_many : forall t cost size r l, wf_tree t -> (forall b, b < nboxes t -> (0 <= cost b)%Qc) ->
  r < size -> partition_work_q t cost size r = Responsible l ->
  let total := qcost_of cost (seq 0 (nboxes t)) in
  exists front b, l = front ++ [b] /\ (of_Z (Z.of_nat size) * qcost_of cost front <= total)%Qc /\
    (r + 1 = size -> (of_Z (Z.of_nat size) * qcost_of cost l <= total)%Qc).
Proof.
  intros t cost size r l W NN Hr HP total. destruct (integer_costs t cost) as [z H]. destruct (H (order_below t W)) as [[d [D EZ]] E].
  rewrite (E 1%Qc) in HP; [|apply one_pos|lia|intros; ring].
  assert (NZ : forall b, b < nboxes t -> (0 <= z b)%Z).
  { intros b Hb. apply of_Z_le. rewrite of_Z_0, EZ by auto. rewrite <- (Qcmult_0_l (cost b)). apply Qcmult_le_compat_r; auto. apply Qclt_le_weak; auto. }
  destruct (balanced_Z t W z NZ size r l Hr HP) as [front [x [EL [B1 B2]]]].
  destruct (rank_segment t W z NZ size r l Hr HP) as [order [a [b [PO [_ [EL' _]]]]]].
  assert (IN : forall y, In y l -> y < nboxes t).
  { intros y Hy. rewrite EL' in Hy. unfold py_slice in Hy. assert (In y order).
    { apply (in_skipn y a). rewrite <- (firstn_skipn (b - a) (skipn a order)). apply in_or_app. auto. }
    apply (Permutation_in _ PO), in_seq in H0. lia. }
  assert (ST : of_Z (zsum (map z (seq 0 (nboxes t)))) = (d * total)%Qc) by (apply (scaled_sum d cost z (nboxes t)); auto; intros y Hy; apply in_seq in Hy; lia).
  exists front, x. split; auto. split; [|intros LA; specialize (B2 LA)].
  - apply of_Z_le in B1. rewrite of_Z_mul, ST, (scaled_sum d cost z (nboxes t)) in B1; auto; [apply (of_Z_scale_le d); auto|].
    intros y Hy. apply IN. rewrite EL. apply in_or_app. auto.
  - apply of_Z_le in B2. rewrite of_Z_mul, ST, (scaled_sum d cost z (nboxes t)) in B2; auto. apply (of_Z_scale_le d); auto.
Qed.
(** No rank but the last stops early: unless no box is left, the ranks up to it together cost more
    than their shares. *)
Theorem C113_no_rank_stops_early : forall t cost size r l, wf_tree t -> (forall b, b < nboxes t -> (0 <= cost b)%Qc) ->
  r + 1 < size -> partition_work_q t cost size r = Responsible l ->
  let total := qcost_of cost (seq 0 (nboxes t)) in
  let done := concat (map (fun q => boxes_of (partition_work_q t cost size q)) (seq 0 (r + 1))) in
  Permutation done (seq 0 (nboxes t)) \/ (of_Z (Z.of_nat (r + 1)) * total < of_Z (Z.of_nat size) * qcost_of cost done)%Qc.
Proof.
  intros t cost size r l W NN Hr HP total done. destruct (integer_costs t cost) as [z H]. destruct (H (order_below t W)) as [[d [D EZ]] E].
  assert (E' : forall q, partition_work_q t cost size q = partition_work t z size q) by (intros q; apply (E 1%Qc); [apply one_pos|lia|intros; ring]).
  rewrite E' in HP.
  assert (NZ : forall b, b < nboxes t -> (0 <= z b)%Z).
  { intros b Hb. apply of_Z_le. rewrite of_Z_0, EZ by auto. rewrite <- (Qcmult_0_l (cost b)). apply Qcmult_le_compat_r; auto. apply Qclt_le_weak; auto. }
  assert (ED : done = concat (map (fun q => boxes_of (partition_work t z size q)) (seq 0 (r + 1)))).
  { unfold done. f_equal. apply map_ext. intros q. rewrite E'. auto. }
  destruct (rank_segment t W z NZ size r l ltac:(lia) HP) as [order [a [b [PO [_ [_ [ED2 _]]]]]]]. rewrite <- ED in ED2.
  assert (IN : forall y, In y done -> y < nboxes t).
  { intros y Hy. rewrite ED2 in Hy. unfold py_slice in Hy. assert (In y order).
    { apply (in_skipn y 0). rewrite <- (firstn_skipn (b - 0) (skipn 0 order)). apply in_or_app. auto. }
    apply (Permutation_in _ PO), in_seq in H0. lia. }
  assert (X := served_first_Z t W z NZ size r l ltac:(lia) HP Hr). cbv zeta in X. rewrite <- ED in X. destruct X as [X|X]; [left; auto|right].
  apply of_Z_lt in X. rewrite !of_Z_mul, (scaled_sum d cost z (nboxes t) (seq 0 _) EZ), (scaled_sum d cost z (nboxes t) done EZ) in X; auto.
  - apply (scale_lt d); auto. fold total in X. replace (d * (of_Z (Z.of_nat (r + 1)) * total))%Qc with (of_Z (Z.of_nat (r + 1)) * (d * total))%Qc by ring.
    replace (d * (of_Z (Z.of_nat size) * qcost_of cost done))%Qc with (of_Z (Z.of_nat size) * (d * qcost_of cost done))%Qc by ring. auto.
  - intros y Hy. apply in_seq in Hy. lia.
Qed.

(** ** Non-vacuity: the example of C112 *)
Example ex_balance : exists t cost l, wf_tree t /\ (forall b, b < nboxes t -> (0 <= cost b)%Qc) /\ partition_work_q t cost 3 1 = Responsible l.
Proof.
  destruct ex_runner as [B [tr [gw [_ [I [CB [NN [_ [S2 [SH _]]]]]]]]]].
  pose proof (input_tree _ _ _ _ _ I) as W. destruct (input_traversal _ _ _ _ _ I) as [FT HP].
  assert (CN : forall b, b < nboxes (TreeBuild.b_tree B) -> (0 <= runner_costs (TreeBuild.b_tree B) (TreeBuild.b_particles B) tr gw None b)%Qc)
    by (intros b _; apply (runner_costs_nonneg _ (PropsDistBuild.run_params B true)); auto).
  destruct (proj2 (C112_all_ranks_served _ _ 3 W ltac:(lia) S2 CN) SH 1 ltac:(lia)) as [l E].
  exists (TreeBuild.b_tree B), (runner_costs (TreeBuild.b_tree B) (TreeBuild.b_particles B) tr gw None), l. auto.
Qed.

Print Assumptions C113_at_most_one_box_too_many.
Print Assumptions C113_no_rank_stops_early.
