(** Facts about Tools.v *)
From Coq Require Import List Arith ZArith Lia Bool Permutation.
From Verif Require Import Base Traversal TreeBuild ArrayFacts Tools.
Import ListNotations.

(** ** bsearch *)
Section BSearch.
Variables (arr : nat -> Z) (len : nat) (val : Z).
Lemma bsearch_loop_correct : forall fuel l r,
  l < r -> r <= len -> r - l <= fuel -> (arr l <= val)%Z -> (r = len \/ (val < arr r)%Z) ->
  exists i, bsearch_loop fuel arr len val l r = Some (Some i) /\ i < len /\ (arr i <= val)%Z /\ (S i = len \/ (val < arr (S i))%Z).
Proof.
  induction fuel as [|fuel IH]; intros l r L R F A Z; [lia|]. cbn [bsearch_loop]. cbv zeta.
  set (i := l + (r - l) / 2).
  assert (D : 2 * ((r - l) / 2) <= r - l < 2 * ((r - l) / 2) + 2).
  { assert (X := Nat.div_mod (r - l) 2 ltac:(lia)). assert (Y := Nat.mod_upper_bound (r - l) 2 ltac:(lia)). lia. }
  assert (I : l <= i < r) by (unfold i; lia).
  destruct (Z.leb_spec (arr i) val) as [C|C]; cbn [andb].
  - destruct (Nat.eqb_spec i (len - 1)) as [E|E]; cbn [orb].
    { exists i. split; [auto|]. split; [lia|]. split; [auto|]. left. lia. }
    replace (i + 1) with (S i) by lia. destruct (Z.ltb_spec val (arr (S i))) as [E'|E'].
    { exists i. split; [auto|]. split; [lia|]. auto. }
    assert (N : r - l <> 1).
    { intros N. assert (X : i = l) by (unfold i; rewrite N; cbn; lia). replace r with (S i) in Z by lia. destruct Z; lia. }
    apply IH; auto; unfold i in *; lia.
  - assert (N : i <> l) by (intros N; rewrite N in C; lia). apply IH; auto; lia.
Qed.
Lemma bsearch_correct : 0 < len ->
  (bsearch arr len val = Some None /\ (val < arr 0%nat)%Z) \/
  (exists i, bsearch arr len val = Some (Some i) /\ i < len /\ (arr i <= val)%Z /\ (S i = len \/ (val < arr (S i))%Z)).
Proof.
  intros L. unfold bsearch. destruct (Z.ltb_spec val (arr 0)); auto. right. apply bsearch_loop_correct; auto; lia.
Qed.
End BSearch.

(** ** Lists from masks *)
Lemma cast_int_id bits x : (0 < bits)%nat -> (- 2 ^ (Z.of_nat bits - 1) <= x < 2 ^ (Z.of_nat bits - 1))%Z -> cast_int bits x = x.
Proof.
  intros B H. unfold cast_int. assert (E : (2 ^ Z.of_nat bits = 2 * 2 ^ (Z.of_nat bits - 1))%Z).
  { rewrite <- Z.pow_succ_r by lia. f_equal. lia. }
  rewrite Z.mod_small by lia. lia.
Qed.
Lemma compress_row bits ncols (f : nat -> Z) : (0 < bits)%nat -> (Z.of_nat ncols <= 2 ^ (Z.of_nat bits - 1))%Z ->
  concat (map (fun j => if (f j =? 0)%Z then [] else [cast_int bits (Z.of_nat j)]) (seq 0 ncols)) =
  map Z.of_nat (filter (fun j => negb (f j =? 0)%Z) (seq 0 ncols)).
Proof.
  intros B N. assert (X : forall j, In j (seq 0 ncols) -> (j < ncols)%nat) by (intros j Hj; apply in_seq in Hj; lia).
  revert X. generalize (seq 0 ncols). induction l as [|x l IH]; intros X; cbn [map concat filter]; auto.
  rewrite IH by (intros; apply X; right; auto). destruct (f x =? 0)%Z; cbn [negb app map]; auto.
  rewrite cast_int_id; auto. specialize (X x (or_introl eq_refl)). split; [|lia].
  assert (0 <= 2 ^ (Z.of_nat bits - 1))%Z by (apply Z.pow_nonneg; lia). lia.
Qed.

(** ** Communication pattern *)
Lemma half n : 2 * (n / 2) <= n < 2 * (n / 2) + 2.
Proof. assert (X := Nat.div_mod n 2 ltac:(lia)). assert (Y := Nat.mod_upper_bound n 2 ltac:(lia)). lia. Qed.

(** the group of ranks [left, right) a pattern belongs to *)
Record pat_ok (size : nat) (p : pattern) : Prop := {
  ok_left : pat_left p <= pat_rank p;
  ok_right : pat_rank p < pat_right p;
  ok_size : pat_right p <= size;
  ok_mid : pat_mid p = (pat_left p + pat_right p) / 2
}.
Lemma pat_at_ok size rank s p : rank < size -> pat_at rank size s = Some p -> pat_ok size p /\ pat_rank p = rank.
Proof.
  revert p. induction s as [|s IH]; intros p R H; cbn [pat_at] in H.
  - inversion H; subst p. split; auto. constructor; cbn [pat_init pat_left pat_rank pat_right pat_mid]; auto; lia.
  - destruct (pat_at rank size s) as [p0|] eqn:E; [|discriminate]. destruct (IH p0 R eq_refl) as [[O1 O2 O3 O4] E0].
    unfold pat_advance in H. destruct (pat_done p0) eqn:D; [discriminate|]. unfold pat_done in D. apply Nat.eqb_neq in D.
    assert (X := half (pat_left p0 + pat_right p0)). rewrite <- O4 in X.
    destruct (Nat.ltb_spec (pat_rank p0) (pat_mid p0)); inversion H; subst p; cbn [pat_rank]; split; auto; constructor; cbn [pat_left pat_rank pat_right pat_mid]; auto; try lia.
    + rewrite Nat.add_comm. auto.
Qed.
(** ranks in the same group stay together until they are separated *)
Lemma same_group size rank q s p : rank < size -> pat_at rank size s = Some p -> pat_left p <= q < pat_right p ->
  exists p', pat_at q size s = Some p' /\ pat_rank p' = q /\ pat_left p' = pat_left p /\ pat_right p' = pat_right p /\ pat_mid p' = pat_mid p.
Proof.
  intros R. revert p. induction s as [|s IH]; intros p H Q; cbn [pat_at] in *.
  - inversion H; subst p. eexists. split; [reflexivity|]. auto.
  - destruct (pat_at rank size s) as [p0|] eqn:E; [|discriminate].
    destruct (pat_at_ok size rank s p0 R E) as [[O1 O2 O3 O4] E0].
    unfold pat_advance in H. destruct (pat_done p0) eqn:D; [discriminate|].
    assert (X := half (pat_left p0 + pat_right p0)). rewrite <- O4 in X.
    destruct (IH p0 eq_refl) as [p' [H1 [H2 [H3 [H4 H5]]]]].
    { destruct (pat_rank p0 <? pat_mid p0) in H; inversion H; subst p; cbn in Q; lia. }
    rewrite H1. unfold pat_advance. unfold pat_done in D |- *. rewrite H3, H4, D, H5, H2.
    destruct (Nat.ltb_spec (pat_rank p0) (pat_mid p0)); inversion H; subst p; cbn [pat_left pat_right pat_mid] in *.
    + destruct (Nat.ltb_spec q (pat_mid p0)); [|lia]. eexists. split; [reflexivity|]. auto.
    + destruct (Nat.ltb_spec q (pat_mid p0)); [lia|]. eexists. split; [reflexivity|]. auto.
Qed.
(** a group that is not done splits into two non-empty halves *)
Lemma mid_between size p : pat_ok size p -> pat_done p = false -> pat_left p < pat_mid p < pat_right p.
Proof.
  intros [O1 O2 O3 O4] D. unfold pat_done in D. apply Nat.eqb_neq in D.
  assert (X := half (pat_left p + pat_right p)). rewrite <- O4 in X. lia.
Qed.
Lemma halves size p : pat_ok size p -> pat_right p - pat_mid p = pat_mid p - pat_left p \/ pat_right p - pat_mid p = S (pat_mid p - pat_left p).
Proof. intros [O1 O2 O3 O4]. assert (X := half (pat_left p + pat_right p)). rewrite <- O4 in X. lia. Qed.

(** sinks and sources of a rank in the group [l, r) split at m *)
Definition sink_of (l m r rank : nat) : nat :=
  if rank <? m then m + (rank - l) else if rank - m =? m - l then m - 1 else l + (rank - m).
Lemma sinks_eq size p : pat_ok size p -> pat_done p = false -> pat_sinks p = [sink_of (pat_left p) (pat_mid p) (pat_right p) (pat_rank p)].
Proof.
  intros O D. assert (M := mid_between size p O D). assert (H := halves size p O). destruct O as [O1 O2 O3 O4].
  unfold pat_sinks, sink_of. destruct (Nat.ltb_spec (pat_rank p) (pat_mid p)) as [L|L]; f_equal.
  - destruct (Nat.eqb_spec (pat_mid p + (pat_rank p - pat_left p)) (pat_right p)); lia.
  - destruct (Nat.eqb_spec (pat_left p + (pat_rank p - pat_mid p)) (pat_mid p)), (Nat.eqb_spec (pat_rank p - pat_mid p) (pat_mid p - pat_left p)); lia.
Qed.
Lemma sources_iff size p q : pat_ok size p -> pat_done p = false ->
  (In q (pat_sources p) <-> pat_left p <= q < pat_right p /\ sink_of (pat_left p) (pat_mid p) (pat_right p) q = pat_rank p).
Proof.
  intros O D. assert (M := mid_between size p O D). assert (H := halves size p O). destruct O as [O1 O2 O3 O4]. clear O4.
  unfold pat_sources, sink_of. cbv zeta.
  destruct (Nat.ltb_spec (pat_rank p) (pat_mid p)) as [L|L].
  - destruct (Nat.eqb_spec (pat_rank p + 1) (pat_mid p)); cbn [andb];
      [destruct (Nat.eqb_spec (pat_mid p + (pat_rank p - pat_left p)) (pat_right p));
       [|destruct (Nat.eqb_spec (pat_mid p + (pat_rank p - pat_left p) + 2) (pat_right p))]|];
    cbn [In]; destruct (Nat.ltb_spec q (pat_mid p)); destruct (Nat.eqb_spec (q - pat_mid p) (pat_mid p - pat_left p)); lia.
  - destruct (Nat.eqb_spec (pat_rank p + 1) (pat_right p)); cbn [andb];
      [destruct (Nat.eqb_spec (pat_left p + (pat_rank p - pat_mid p)) (pat_mid p));
       [|destruct (Nat.eqb_spec (pat_left p + (pat_rank p - pat_mid p) + 2) (pat_mid p))]|];
    cbn [In]; destruct (Nat.ltb_spec q (pat_mid p)); destruct (Nat.eqb_spec (q - pat_mid p) (pat_mid p - pat_left p)); lia.
Qed.
Lemma sources_nodup p : NoDup (pat_sources p).
Proof.
  unfold pat_sources. cbv zeta. destruct (pat_rank p <? pat_mid p);
  repeat match goal with |- context [if ?c then _ else _] => destruct c end;
  repeat constructor; cbn [In]; intuition lia.
Qed.
Lemma sources_len p : length (pat_sources p) <= 2.
Proof.
  unfold pat_sources. cbv zeta. destruct (pat_rank p <? pat_mid p);
  repeat match goal with |- context [if ?c then _ else _] => destruct c end; cbn; lia.
Qed.
(** sender and receiver are on different sides *)
Lemma sink_side l m r rank : l < m < r -> r - m = m - l \/ r - m = S (m - l) -> l <= rank < r ->
  l <= sink_of l m r rank < r /\ (rank < m <-> m <= sink_of l m r rank).
Proof.
  intros M H R. unfold sink_of. destruct (Nat.ltb_spec rank m); [lia|]. destruct (Nat.eqb_spec (rank - m) (m - l)); lia.
Qed.
Lemma messages_eq p : pat_messages p = if pat_rank p <? pat_mid p then (pat_mid p, pat_right p) else (pat_left p, pat_mid p).
Proof. reflexivity. Qed.

(** group sizes *)
Lemma pat_at_size size rank s p : rank < size -> pat_at rank size s = Some p -> (pat_right p - pat_left p) <= (size + 2 ^ s - 1) / 2 ^ s.
Proof.
  revert p. induction s as [|s IH]; intros p R H.
  - cbn [pat_at] in H. inversion H; subst p. cbn [pat_init pat_right pat_left Nat.pow]. rewrite Nat.div_1_r. lia.
  - cbn [pat_at] in H. destruct (pat_at rank size s) as [p0|] eqn:E; [|discriminate].
    specialize (IH p0 R eq_refl). destruct (pat_at_ok size rank s p0 R E) as [O _]. assert (HV := halves size p0 O).
    destruct O as [O1 O2 O3 O4]. unfold pat_advance in H. destruct (pat_done p0); [discriminate|].
    assert (P : 0 < 2 ^ s) by (apply Nat.neq_0_lt_0, Nat.pow_nonzero; lia).
    assert (G : pat_right p - pat_left p <= (pat_right p0 - pat_left p0 + 1) / 2).
    { apply Nat.div_le_lower_bound; [lia|]. destruct (pat_rank p0 <? pat_mid p0); inversion H; subst p; cbn [pat_right pat_left]; lia. }
    etransitivity; [exact G|]. replace (2 ^ S s) with (2 ^ s + 2 ^ s) by (cbn [Nat.pow]; lia). set (k := 2 ^ s) in *.
    transitivity (((size + k - 1) / k + 1) / 2); [apply Nat.div_le_mono; lia|].
    replace (k + k) with (k * 2) by lia. rewrite <- Nat.div_div by lia. apply Nat.div_le_mono; [lia|].
    replace (size + k * 2 - 1) with (size + k - 1 + 1 * k) by lia. rewrite Nat.div_add by lia. lia.
Qed.
Lemma pat_at_length size rank s p : rank < size -> pat_at rank size s = Some p -> s < size \/ (s = 0).
Proof.
  intros R H. assert (X : pat_right p - pat_left p + s <= size); [|destruct (pat_at_ok size rank s p R H) as [[O1 O2 O3 O4] _]; lia].
  revert p H. induction s as [|s IH]; intros p H; cbn [pat_at] in H.
  - inversion H; subst p. cbn. lia.
  - destruct (pat_at rank size s) as [p0|] eqn:E; [|discriminate]. specialize (IH p0 eq_refl).
    destruct (pat_at_ok size rank s p0 R E) as [O _]. unfold pat_advance in H. destruct (pat_done p0) eqn:D; [discriminate|].
    assert (M := mid_between size p0 O D). destruct (pat_rank p0 <? pat_mid p0); inversion H; subst p; cbn [pat_right pat_left]; lia.
Qed.
