(** Facts about Comm.v: slicing, the sums exchanged, and all executions. *)
From Coq Require Import List Arith ZArith Lia Bool Permutation Sorted.
From Verif Require Import Base ArrayFacts Tools ToolsFacts Monoid Comm.
Import ListNotations.

(** ** Slicing by level is the identity on sorted index lists *)
Section Slices.
Context {Mo : cmonoid}.
Variable nlevels : nat.
Variable ls : nat -> nat.
Variable n : nat.
Hypothesis LS0 : ls 0 = 0.
Hypothesis LSn : ls nlevels = n.
Hypothesis LSm : forall l, l < nlevels -> ls l <= ls (S l).
Variable idx : list nat.
Hypothesis SRT : StronglySorted lt idx.
Hypothesis LT : forall i, In i idx -> i < n.
Lemma searchsorted_mono a b : a <= b -> searchsorted idx a <= searchsorted idx b.
Proof. intros H. apply filter_length_le. intros x _ X. apply Nat.ltb_lt in X. apply Nat.ltb_lt. lia. Qed.
Lemma searchsorted_le a : searchsorted idx a <= length idx.
Proof. unfold searchsorted. generalize idx. clear. intros l. induction l as [|x l IH]; cbn [filter length]; auto. destruct (x <? a); cbn [length]; lia. Qed.
Lemma searchsorted_0 : searchsorted idx (ls 0) = 0.
Proof. rewrite LS0. unfold searchsorted. generalize idx. clear. intros l. induction l as [|x l IH]; cbn [filter length]; auto. Qed.
Lemma searchsorted_n : searchsorted idx (ls nlevels) = length idx.
Proof.
  rewrite LSn. unfold searchsorted. revert LT. generalize idx. clear. intros l. induction l as [|x l IH]; intros LT; cbn [filter length]; auto.
  assert (X := LT x (or_introl eq_refl)). apply Nat.ltb_lt in X. rewrite X. cbn [length]. rewrite IH; auto. intros i Hi. apply LT. right. auto.
Qed.
Lemma slices_upto {A} (l : list A) k : length l = length idx -> k <= nlevels ->
  concat (map (fun i => slice l (searchsorted idx (ls i)) (searchsorted idx (ls (S i)))) (seq 0 k)) = firstn (searchsorted idx (ls k)) l.
Proof.
  intros E. induction k as [|k IH]; intros K.
  - cbn [seq map concat]. rewrite searchsorted_0. auto.
  - rewrite seq_S, map_app, concat_app, IH by lia. cbn [map concat app]. rewrite app_nil_r. unfold slice.
    assert (M := searchsorted_mono _ _ (LSm k ltac:(lia))). assert (L := searchsorted_le (ls (S k))).
    set (a := searchsorted idx (ls k)) in *. set (b := searchsorted idx (ls (S k))) in *.
    rewrite <- (firstn_skipn a (firstn b l)) at 1. f_equal.
    + rewrite firstn_firstn. f_equal. lia.
    + rewrite skipn_firstn_comm. auto.
Qed.
Lemma slice_mpoles_eq (mp : nat -> Mo) : slice_mpoles nlevels ls mp idx = map mp idx.
Proof.
  unfold slice_mpoles. transitivity (map mp (concat (map (fun i => slice idx (searchsorted idx (ls i)) (searchsorted idx (ls (S i)))) (seq 0 nlevels)))).
  - rewrite concat_map, map_map. auto.
  - f_equal. rewrite slices_upto by auto. rewrite searchsorted_n. apply firstn_all.
Qed.
Lemma add_at_map (mp f : nat -> Mo) l b : add_at mp l (map f l) b = op (mp b) (if existsb (Nat.eqb b) l then f b else e0).
Proof.
  unfold add_at. induction l as [|x l IH]; cbn [map combine find existsb fst]; [rewrite op_0_r; auto|].
  rewrite (Nat.eqb_sym b x). destruct (Nat.eqb_spec x b); [subst; auto|]. cbn [orb]. auto.
Qed.
Lemma update_upto (mp f : nat -> Mo) k b : k <= nlevels ->
  let '(mp', pos) := fold_left (fun (acc : (nat -> Mo) * nat) l =>
         let '(mp, pos) := acc in
         let part := slice idx (searchsorted idx (ls l)) (searchsorted idx (ls (S l))) in
         (add_at mp part (slice (map f idx) pos (pos + length part)), pos + length part))
       (seq 0 k) (mp, 0) in
  pos = searchsorted idx (ls k) /\ mp' b = op (mp b) (if existsb (Nat.eqb b) (firstn (searchsorted idx (ls k)) idx) then f b else e0).
Proof.
  induction k as [|k IH]; intros K.
  - cbn [seq fold_left]. rewrite searchsorted_0. cbn. split; auto. rewrite op_0_r. auto.
  - rewrite seq_S, fold_left_app. destruct (fold_left _ _ _) as [mp1 pos]. destruct (IH ltac:(lia)) as [E1 E2]. cbn [fold_left plus].
    assert (M := searchsorted_mono _ _ (LSm k ltac:(lia))). assert (L := searchsorted_le (ls (S k))).
    set (a := searchsorted idx (ls k)) in *. set (c := searchsorted idx (ls (S k))) in *.
    assert (LP : length (slice idx a c) = c - a).
    { unfold slice. rewrite firstn_length, skipn_length. lia. }
    rewrite LP, E1. split; [lia|].
    replace (slice (map f idx) a (a + (c - a))) with (map f (slice idx a c)).
    2:{ unfold slice. rewrite skipn_map, firstn_map. f_equal. f_equal. lia. }
    rewrite add_at_map, E2.
    assert (SP : firstn c idx = firstn a idx ++ slice idx a c).
    { unfold slice. rewrite <- (firstn_skipn a (firstn c idx)) at 1. rewrite firstn_firstn, skipn_firstn_comm. f_equal. f_equal. lia. }
    rewrite SP, existsb_app.
    destruct (existsb (Nat.eqb b) (firstn a idx)) eqn:X1; destruct (existsb (Nat.eqb b) (slice idx a c)) eqn:X2; cbn [orb]; rewrite ?op_0_r; auto.
    exfalso. apply existsb_exists in X1, X2. destruct X1 as [x [I1 Q1]]. destruct X2 as [y [I2 Q2]]. apply Nat.eqb_eq in Q1, Q2. subst x y.
    assert (SF : StronglySorted lt (firstn c idx)).
    { rewrite <- (firstn_skipn c idx) in SRT. revert SRT. clear. induction (firstn c idx) as [|x l IH]; cbn [app]; intros H; constructor; inversion H; subst.
      - auto. - apply Forall_app in H3. tauto. }
    rewrite SP in SF. revert SF I1 I2. generalize (firstn a idx) (slice idx a c). clear. intros l l'. induction l as [|x l IH]; cbn [app In]; [tauto|].
    intros H [->|I1] I2; inversion H; subst; auto. rewrite Forall_forall in H3. specialize (H3 b ltac:(apply in_or_app; auto)). lia.
Qed.
Lemma update_mpoles_eq (mp f : nat -> Mo) b : update_mpoles nlevels ls mp (map f idx) idx b = op (mp b) (if existsb (Nat.eqb b) idx then f b else e0).
Proof.
  unfold update_mpoles. assert (HX := update_upto mp f nlevels b (le_n _)). destruct (fold_left _ _ _) as [mp' pos]. cbn [fst].
  destruct HX as [_ ->]. rewrite searchsorted_n, firstn_all. auto.
Qed.
End Slices.

Lemma filter_none {A} (p : A -> bool) l : (forall x, In x l -> p x = false) -> filter p l = [].
Proof. induction l as [|x l IH]; intros H; cbn; auto. rewrite (H x); cbn; auto. apply IH. intros y Hy. apply H. right. auto. Qed.
Lemma filter_seq_ssorted (p : nat -> bool) n : forall a, StronglySorted lt (filter p (seq a n)).
Proof.
  induction n as [|n IH]; intros a; cbn [seq filter]; [constructor|]. destruct (p a); auto. constructor; auto.
  apply Forall_forall. intros x Hx. apply filter_In in Hx. destruct Hx as [Hx _]. apply in_seq in Hx. lia.
Qed.
Lemma filter_ssorted (p : nat -> bool) l : StronglySorted lt l -> StronglySorted lt (filter p l).
Proof.
  induction 1; cbn [filter]; [constructor|]. destruct (p a); auto. constructor; auto. apply Forall_forall. intros x Hx.
  apply filter_In in Hx. rewrite Forall_forall in H0. apply H0. tauto.
Qed.

(** ** What each rank holds after each stage *)
Section Ideal.
Context {Mo : cmonoid}.
Variable size nboxes : nat.
Variable users : nat -> list nat.
Variable m0 : nat -> nat -> Mo.
Variable c0 : nat -> nat -> bool.
Definition sent_mask (C : nat -> nat -> bool) (s q b : nat) : bool :=
  match pat_at q size s with
  | Some p => C q b && used_by_subrange users (pat_messages p) b && (b <? nboxes)
  | None => false end.
Definition partners (r s : nat) : list nat :=
  match pat_at r size s with Some p => if pat_done p then [] else pat_sources p | None => [] end.
Fixpoint idealC (s : nat) : nat -> nat -> bool :=
  match s with
  | 0 => c0
  | S s => fun r b => idealC s r b || existsb (fun q => sent_mask (idealC s) s q b) (partners r s)
  end.
Fixpoint idealM (s : nat) : nat -> nat -> Mo :=
  match s with
  | 0 => m0
  | S s => fun r b => op (idealM s r b) (msum (map (fun q => if sent_mask (idealC s) s q b then idealM s q b else e0) (partners r s)))
  end.
(** ranks contribute nothing outside their mask *)
Hypothesis ZERO : forall r b, r < size -> b < nboxes -> c0 r b = false -> m0 r b = e0.
Lemma partners_lt r s q : r < size -> In q (partners r s) -> q < size.
Proof.
  unfold partners. intros R H. destruct (pat_at r size s) as [p|] eqn:E; [|destruct H]. destruct (pat_done p) eqn:D; [destruct H|].
  destruct (pat_at_ok size r s p R E) as [O _]. apply (sources_iff size p q O D) in H. destruct O. lia.
Qed.
Lemma ideal_zero s : forall r b, r < size -> b < nboxes -> idealC s r b = false -> idealM s r b = e0.
Proof.
  induction s as [|s IH]; intros r b R B H; cbn [idealC idealM] in *; auto.
  apply orb_false_iff in H. destruct H as [H1 H2]. rewrite IH by auto. rewrite msum_map_0, op_0; auto.
  intros q Hq. destruct (sent_mask (idealC s) s q b) eqn:E; auto. exfalso.
  assert (HX : existsb (fun q => sent_mask (idealC s) s q b) (partners r s) = true) by (apply existsb_exists; eauto). congruence.
Qed.
Lemma sum_sources p (f : nat -> Mo) : pat_ok size p -> pat_done p = false ->
  msum (map f (pat_sources p)) =
  msum (map (fun q => if sink_of (pat_left p) (pat_mid p) (pat_right p) q =? pat_rank p then f q else e0) (seq (pat_left p) (pat_right p - pat_left p))).
Proof.
  intros O D. rewrite <- msum_filter. apply msum_perm, Permutation_map, NoDup_Permutation.
  - apply sources_nodup.
  - apply NoDup_filter, seq_NoDup.
  - intros q. rewrite (sources_iff size p q O D), filter_In, in_seq, Nat.eqb_eq. destruct O. lia.
Qed.
Definition total (b : nat) : Mo := msum (map (fun r => m0 r b) (seq 0 size)).
Definition used_in (l r b : nat) : Prop := exists u, In u (users b) /\ l <= u < r.
Lemma used_in_spec l r b : used_by_subrange users (l, r) b = true <-> used_in l r b.
Proof.
  unfold used_by_subrange, used_in. rewrite existsb_exists. cbn [fst snd]. split; intros [u [H1 H2]]; exists u; split; auto.
  - apply andb_true_iff in H2. rewrite Nat.leb_le, Nat.ltb_lt in H2. auto.
  - apply andb_true_iff. rewrite Nat.leb_le, Nat.ltb_lt. auto.
Qed.
(** received by the ranks of one half: everything the other half holds *)
Lemma half_sum s p lo hi lo' hi' b : pat_at (pat_rank p) size s = Some p -> pat_rank p < size -> pat_done p = false -> b < nboxes ->
  (lo = pat_left p /\ hi = pat_mid p /\ lo' = pat_mid p /\ hi' = pat_right p) \/ (lo = pat_mid p /\ hi = pat_right p /\ lo' = pat_left p /\ hi' = pat_mid p) ->
  used_in lo hi b ->
  msum (map (fun x => msum (map (fun q => if sent_mask (idealC s) s q b then idealM s q b else e0) (partners x s))) (seq lo (hi - lo))) =
  msum (map (fun q => idealM s q b) (seq lo' (hi' - lo'))).
Proof.
  intros E R D Hb HV U. destruct (pat_at_ok size (pat_rank p) s p R E) as [O _]. assert (M := mid_between size p O D).
  assert (HH := halves size p O). set (l := pat_left p) in *. set (m := pat_mid p) in *. set (r := pat_right p) in *.
  assert (Lr : r <= size) by (apply (ok_size size p O)).
  transitivity (msum (map (fun x => msum (map (fun q => if sink_of l m r q =? x then idealM s q b else e0) (seq lo' (hi' - lo')))) (seq lo (hi - lo)))).
  - f_equal. apply map_ext_in. intros x Hx. apply in_seq in Hx.
    destruct (same_group size (pat_rank p) x s p R E ltac:(fold l r; lia)) as [px [E1 [E2 [E3 [E4 E5]]]]].
    assert (Dx : pat_done px = false) by (unfold pat_done in *; rewrite E3, E4; auto).
    unfold partners. rewrite E1, Dx.
    destruct (pat_at_ok size x s px ltac:(lia) E1) as [Ox _].
    rewrite (sum_sources px _ Ox Dx). rewrite E2, E3, E4, E5. fold l m r.
    rewrite <- (msum_filter (fun q => sink_of l m r q =? x) _ (seq l (r - l))), <- (msum_filter (fun q => sink_of l m r q =? x) _ (seq lo' (hi' - lo'))).
    replace (filter (fun q => sink_of l m r q =? x) (seq l (r - l))) with (filter (fun q => sink_of l m r q =? x) (seq lo' (hi' - lo'))).
    + f_equal. apply map_ext_in. intros q Hq. apply filter_In in Hq. destruct Hq as [Hq Sq]. apply in_seq in Hq. apply Nat.eqb_eq in Sq.
      destruct (same_group size (pat_rank p) q s p R E ltac:(fold l r; lia)) as [pq [F1 [F2 [F3 [F4 F5]]]]].
      unfold sent_mask. rewrite F1. rewrite messages_eq, F2, F3, F4, F5. fold l m r.
      assert (US : used_by_subrange users (if q <? m then (m, r) else (l, m)) b = true).
      { apply used_in_spec in U. destruct (Nat.ltb_spec q m); destruct HV as [[-> [-> [-> ->]]]|[-> [-> [-> ->]]]]; auto; lia. }
      rewrite US, andb_true_r. destruct (Nat.ltb_spec b nboxes); [|lia]. rewrite andb_true_r.
      destruct (idealC s q b) eqn:C; auto. symmetry. apply ideal_zero; auto. lia.
    + assert (SP : seq l (r - l) = seq l (m - l) ++ seq m (r - m)).
      { replace (r - l) with ((m - l) + (r - m)) by lia. rewrite seq_app. f_equal. f_equal. lia. }
      rewrite SP, filter_app.
      assert (NO : filter (fun q => sink_of l m r q =? x) (seq lo (hi - lo)) = []).
      { apply filter_none. intros q Hq. apply in_seq in Hq. apply Nat.eqb_neq. intros Q.
        destruct (sink_side l m r q M HH ltac:(lia)) as [_ SS]. rewrite Q in SS. lia. }
      destruct HV as [[-> [-> [-> ->]]]|[-> [-> [-> ->]]]]; rewrite NO; [auto|rewrite app_nil_r; auto].
  - rewrite msum_swap. f_equal. apply map_ext_in. intros q Hq. apply in_seq in Hq.
    rewrite (msum_map_single _ _ (sink_of l m r q)).
    + rewrite Nat.eqb_refl. auto.
    + apply seq_NoDup.
    + apply in_seq. destruct (sink_side l m r q M HH ltac:(lia)) as [S1 S2]. lia.
    + intros x _ HX. destruct (Nat.eqb_spec (sink_of l m r q) x); congruence.
Qed.
Lemma seq_join a b c : a <= b -> b <= c -> seq a (c - a) = seq a (b - a) ++ seq b (c - b).
Proof. intros. replace (c - a) with ((b - a) + (c - b)) by lia. rewrite seq_app. f_equal. f_equal. lia. Qed.
(** the ranks of a group hold, together, everything about the boxes they use *)
Lemma group_sum s : forall p r b, r < size -> pat_at r size s = Some p -> b < nboxes -> used_in (pat_left p) (pat_right p) b ->
  msum (map (fun x => idealM s x b) (seq (pat_left p) (pat_right p - pat_left p))) = total b.
Proof.
  induction s as [|s IH]; intros p r b R E Hb U; cbn [pat_at] in E.
  - inversion E; subst p. cbn [pat_init pat_left pat_right idealM]. rewrite Nat.sub_0_r. reflexivity.
  - destruct (pat_at r size s) as [p0|] eqn:E0; [|discriminate]. destruct (pat_at_ok size r s p0 R E0) as [O R0].
    unfold pat_advance in E. destruct (pat_done p0) eqn:D; [discriminate|]. assert (M := mid_between size p0 O D).
    assert (U0 : used_in (pat_left p0) (pat_right p0) b).
    { destruct U as [u [U1 U2]]. exists u. split; auto. destruct (pat_rank p0 <? pat_mid p0); inversion E; subst p; cbn in U2; lia. }
    specialize (IH p0 r b R E0 Hb U0). rewrite <- R0 in E0, R.
    cbn [idealM].
    rewrite (seq_join _ (pat_mid p0)) in IH by lia. rewrite map_app, msum_app in IH. rewrite <- IH.
    destruct (pat_rank p0 <? pat_mid p0); inversion E; subst p; cbn [pat_left pat_right] in *; rewrite msum_map_op.
    + rewrite (half_sum s p0 (pat_left p0) (pat_mid p0) (pat_mid p0) (pat_right p0) b); auto.
    + rewrite (half_sum s p0 (pat_mid p0) (pat_right p0) (pat_left p0) (pat_mid p0) b); auto; try lia. apply op_comm.
Qed.
(** a rank that is done holds everything about the boxes it uses *)
Lemma done_sum s p r b : r < size -> pat_at r size s = Some p -> pat_done p = true -> b < nboxes -> In r (users b) ->
  idealM s r b = total b.
Proof.
  intros R E D Hb U. destruct (pat_at_ok size r s p R E) as [[O1 O2 O3 O4] R0]. unfold pat_done in D. apply Nat.eqb_eq in D.
  rewrite <- (group_sum s p r b R E Hb); [|exists r; split; auto; lia].
  replace (pat_right p - pat_left p) with 1 by lia. cbn. replace (pat_left p) with r by lia. rewrite op_0_r. auto.
Qed.
End Ideal.
