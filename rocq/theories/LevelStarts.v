(** The level_start_* arrays delimit the box lists by level. *)
From Coq Require Import List Arith ZArith NArith Lia Bool Sorted.
From Verif Require Import Base Tree Spec TreeFacts Traversal TraversalLists Coverage.
Import ListNotations.

(** level_start_box_nrs as documented: boxes are numbered by level, level l starts at
    box number [starts l]. *)
Definition level_sorted (t : tree) (starts : nat -> nat) : Prop :=
  forall b l, b < nboxes t -> l < nlevels t -> (starts l <= b <-> l <= box_level t b).

Section LS.
Variable t : tree.
Hypothesis Hlev : forall b, b < nboxes t -> box_level t b < nlevels t.
Variable lsb : nat -> nat.
Hypothesis LSB : level_sorted t lsb.
Variable bl : list nat.                            (* an ascending box list *)
Hypothesis Hrange : forall x, In x bl -> x < nboxes t.
Hypothesis Hsorted : forall i j, i < j -> j < length bl -> nth i bl 0 < nth j bl 0.

Let len := length bl.
Let lev i := box_level t (nth i bl 0).

Lemma bl_range i : i < len -> nth i bl 0 < nboxes t.
Proof. intros H. apply Hrange, nth_In. auto. Qed.
Lemma lev_lt i : i < len -> lev i < nlevels t.
Proof. intros H. apply Hlev, bl_range. auto. Qed.

Lemma level_mono a b : a < nboxes t -> b < nboxes t -> a <= b -> box_level t a <= box_level t b.
Proof.
  intros Ha Hb H. apply (LSB b (box_level t a)); auto.
  assert (lsb (box_level t a) <= a) by (apply LSB; auto). lia.
Qed.
Lemma lev_mono i j : i <= j -> j < len -> lev i <= lev j.
Proof.
  intros H Hj. apply level_mono; try (apply bl_range; lia).
  destruct (Nat.eq_dec i j); [subst; auto|]. pose proof (Hsorted i j). unfold len in *. lia.
Qed.

(** number of entries on levels < l *)
Definition below (l : nat) : nat := length (filter (fun b => box_level t b <? l) bl).

Lemma below_split l : exists k, k <= len /\ (forall i, i < len -> (lev i < l <-> i < k)) /\ below l = k.
Proof.
  unfold below.
  assert (G : forall (l0 : list nat) , (forall i j, i <= j -> j < length l0 ->
      box_level t (nth i l0 0) <= box_level t (nth j l0 0)) ->
    exists k, k <= length l0 /\ (forall i, i < length l0 -> (box_level t (nth i l0 0) < l <-> i < k)) /\
      length (filter (fun b => box_level t b <? l) l0) = k).
  { induction l0 as [|x l0 IH]; intros HM.
    - exists 0. simpl. repeat split; auto; intros; lia.
    - destruct IH as [k [K1 [K2 K3]]].
      { intros i j H1 H2. apply (HM (S i) (S j)); simpl; lia. }
      simpl. destruct (Nat.ltb_spec (box_level t x) l) as [L|L].
      + exists (S k). simpl. split; [lia|]. split; [|lia]. intros [|i] Hi; [split; lia|].
        rewrite K2 by (simpl in Hi; lia). lia.
      + exists 0. split; [lia|]. split.
        * intros i Hi. pose proof (HM 0 i ltac:(lia) Hi) as HH. simpl in HH.
          split; [|lia]. intros HX. simpl in HX. lia.
        * rewrite K3. destruct k; auto. exfalso.
          assert (0 < length l0) by lia.
          pose proof (proj2 (K2 0 H) ltac:(lia)). pose proof (HM 0 1 ltac:(lia) ltac:(simpl; lia)).
          simpl in H1. lia. }
  apply G. intros i j H1 H2. apply lev_mono; auto.
Qed.

Lemma below_le l : below l <= len.
Proof. destruct (below_split l) as [k [H [_ ->]]]. auto. Qed.
Lemma below_lt l i : i < len -> (lev i < l <-> i < below l).
Proof. destruct (below_split l) as [k [_ [H ->]]]. apply H. Qed.
Lemma below_top : below (nlevels t) = len.
Proof.
  pose proof (below_le (nlevels t)). destruct (Nat.eq_dec (below (nlevels t)) len); auto.
  assert (L : below (nlevels t) < len) by lia.
  pose proof (proj1 (below_lt (nlevels t) (below (nlevels t)) L) (lev_lt _ L)). lia.
Qed.
Lemma below_mono l l' : l <= l' -> below l <= below l'.
Proof.
  intros H. destruct (Nat.le_gt_cases (below l) (below l')) as [|G]; auto. exfalso.
  pose proof (below_le l).
  assert (below l' < len) by lia.
  pose proof (proj2 (below_lt l (below l') H1) G).
  pose proof (proj1 (below_lt l' (below l') H1)). lia.
Qed.

Definition occurs (k l : nat) : bool := existsb (fun i => lev i =? l) (seq 0 k).

Lemma occurs_S k l : occurs (S k) l = occurs k l || (lev k =? l).
Proof. unfold occurs. rewrite seq_S, existsb_app. simpl. rewrite orb_false_r. auto. Qed.
Lemma occurs_true k l : occurs k l = true <-> exists i, i < k /\ lev i = l.
Proof.
  unfold occurs. rewrite existsb_exists. split.
  - intros [i [H1 H2]]. apply in_seq in H1. apply Nat.eqb_eq in H2. exists i. split; auto; lia.
  - intros [i [H1 H2]]. exists i. rewrite in_seq, Nat.eqb_eq. split; auto; lia.
Qed.

Lemma leading_spec i : i < len ->
  (if i =? 0 then true
   else (nth (i - 1) bl 0 <? lsb (lev i)) && (lsb (lev i) <=? nth i bl 0)) =
  ((i =? 0) || (lev (i - 1) <? lev i)).
Proof.
  intros Hi. destruct (Nat.eqb_spec i 0); simpl; auto.
  assert (E1 : lsb (lev i) <=? nth i bl 0 = true).
  { apply Nat.leb_le. apply LSB; auto using bl_range, lev_lt. }
  rewrite E1, andb_true_r.
  pose proof (LSB (nth (i - 1) bl 0) (lev i) (bl_range (i - 1) ltac:(lia)) (lev_lt i Hi)) as L.
  fold (lev (i - 1)) in L.
  destruct (Nat.ltb_spec (nth (i - 1) bl 0) (lsb (lev i))), (Nat.ltb_spec (lev (i - 1)) (lev i)); auto; lia.
Qed.

Lemma scan_inv k : k <= len ->
  let res := fold_left (level_start_item t lsb bl) (seq 0 k) (repeat len (nlevels t + 1)) in
  length res = nlevels t + 1 /\
  forall l, l <= nlevels t -> nth l res 0 = if occurs k l then below l else len.
Proof.
  induction k as [|k IH]; intros Hk; cbv zeta.
  - cbn [seq fold_left]. rewrite repeat_length. split; auto. intros l Hl. rewrite (nth_indep _ 0 len) by (rewrite repeat_length; lia). apply nth_repeat.
  - destruct IH as [L IH]; [lia|]. rewrite seq_S, fold_left_app. cbn [fold_left Nat.add]. cbv zeta in L, IH.
    set (res := fold_left _ (seq 0 k) _) in *.
    unfold level_start_item. fold (lev k). cbv zeta. rewrite leading_spec by lia.
    destruct ((k =? 0) || (lev (k - 1) <? lev k)) eqn:E.
    + rewrite update_length. split; auto. intros l Hl.
      rewrite update_nth by (pose proof (lev_lt k); lia). rewrite occurs_S.
      destruct (Nat.eqb_spec l (lev k)) as [->|NE].
      * rewrite Nat.eqb_refl, orb_true_r.
        destruct (below_split (lev k)) as [k' [K1 [K2 ->]]].
        assert (~ k < k') by (rewrite <- K2 by lia; lia).
        destruct (Nat.eq_dec k k'); auto. exfalso.
        assert (Hk' : k' <= k - 1 /\ k - 1 < k /\ k <> 0) by lia.
        assert (lev (k - 1) < lev k).
        { apply orb_true_iff in E. destruct E as [E|E]; [apply Nat.eqb_eq in E; lia|apply Nat.ltb_lt in E; auto]. }
        apply K2 in H0; lia.
      * rewrite IH by auto. destruct (Nat.eqb_spec (lev k) l); [congruence|]. rewrite orb_false_r. auto.
    + split; auto. intros l Hl. rewrite IH by auto. rewrite occurs_S.
      destruct (Nat.eqb_spec (lev k) l) as [<-|]; [|rewrite orb_false_r; auto].
      apply orb_false_iff in E. destruct E as [E1 E2]. apply Nat.eqb_neq in E1. apply Nat.ltb_ge in E2.
      assert (O : occurs k (lev k) = true).
      { apply occurs_true. exists (k - 1). split; [lia|].
        pose proof (lev_mono (k - 1) k). lia. }
      rewrite O. auto.
Qed.

Lemma backfill_length last l : length (backfill last l) = length l.
Proof. induction l; simpl; auto. Qed.

Lemma backfill_spec last (f : nat -> nat) : forall l s,
  (forall i, i < length l -> Nat.min (nth i l 0) (f (s + S i)) = f (s + i)) ->
  f (s + length l) = last ->
  forall i, i < length l -> nth i (backfill last l) 0 = f (s + i).
Proof.
  induction l as [|x l IH]; intros s H1 H2 i Hi; simpl in *; [lia|].
  assert (IH' : forall i, i < length l -> nth i (backfill last l) 0 = f (S s + i)).
  { apply IH.
    - intros j Hj. specialize (H1 (S j) ltac:(lia)). simpl in H1.
      replace (S s + S j) with (s + S (S j)) by lia. replace (S s + j) with (s + S j) by lia. auto.
    - replace (S s + length l) with (s + S (length l)) by lia. auto. }
  destruct i as [|i].
  - fold (backfill last l). specialize (H1 0 ltac:(lia)). rewrite <- H1. f_equal.
    destruct l as [|y l'].
    + simpl in *. symmetry. auto.
    + specialize (IH' 0 ltac:(simpl; lia)). replace (s + 1) with (S s + 0) by lia. rewrite <- IH'.
      reflexivity.
  - fold (backfill last l). rewrite IH' by lia. f_equal. lia.
Qed.

Theorem extract_level_starts_eq :
  extract_level_starts t lsb bl = map below (seq 0 (nlevels t + 1)).
Proof.
  unfold extract_level_starts. fold len. cbv zeta.
  destruct (scan_inv len (le_n _)) as [L H]. cbv zeta in L, H.
  set (res := fold_left _ _ _) in *.
  assert (OB : forall l, l <= nlevels t -> (if occurs len l then below l else len) =
     if occurs len l then below l else len) by auto.
  assert (NO : forall l, occurs len l = false -> below (S l) = below l).
  { intros l HO. pose proof (below_mono l (S l) ltac:(lia)).
    destruct (Nat.eq_dec (below (S l)) (below l)); auto. exfalso.
    pose proof (below_le (S l)).
    assert (B : below l < len) by lia.
    pose proof (below_lt (S l) (below l) B). pose proof (below_lt l (below l) B).
    assert (HO' : occurs len l = true).
    { apply occurs_true. exists (below l). split; auto. lia. }
    congruence. }
  apply (nth_ext _ _ 0 0).
  - rewrite app_length, backfill_length, firstn_length, skipn_length, map_length, seq_length. lia.
  - intros i Hi. rewrite app_length, backfill_length, firstn_length, skipn_length in Hi.
    rewrite nth_map_seq by lia.
    destruct (Nat.lt_ge_cases i (nlevels t)) as [Li|Li].
    + rewrite app_nth1 by (rewrite backfill_length, firstn_length; lia).
      rewrite (backfill_spec len below _ 0).
      * reflexivity.
      * intros j Hj. rewrite firstn_length in Hj. rewrite <- (firstn_skipn (nlevels t) res) in H.
        specialize (H j ltac:(lia)). rewrite app_nth1 in H by (rewrite firstn_length; lia). rewrite H.
        simpl. destruct (occurs len j) eqn:EO.
        -- pose proof (below_mono j (S j)). lia.
        -- rewrite NO by auto. pose proof (below_le j). lia.
      * rewrite firstn_length. replace (0 + Nat.min (nlevels t) (length res)) with (nlevels t) by lia.
        apply below_top.
      * rewrite firstn_length. lia.
    + assert (i = nlevels t) by lia. subst i.
      rewrite app_nth2 by (rewrite backfill_length, firstn_length; lia).
      rewrite backfill_length, firstn_length.
      replace (nlevels t - Nat.min (nlevels t) (length res)) with 0 by lia.
      rewrite <- (firstn_skipn (nlevels t) res) in H. specialize (H (nlevels t) (le_n _)).
      rewrite app_nth2 in H by (rewrite firstn_length; lia). rewrite firstn_length in H.
      replace (nlevels t - Nat.min (nlevels t) (length res)) with 0 in H by lia.
      rewrite H. rewrite below_top. destruct (occurs len (nlevels t)); auto.
Qed.

Lemma filter_slice (p : nat -> bool) (l0 : list nat) a b :
  a <= b -> b <= length l0 -> (forall i, i < length l0 -> (p (nth i l0 0) = true <-> a <= i < b)) ->
  firstn (b - a) (skipn a l0) = filter p l0.
Proof.
  revert a b. induction l0 as [|x l0 IH]; intros a b H1 H2 H; simpl in *.
  - replace (b - a) with 0 by lia. reflexivity.
  - pose proof (H 0 ltac:(lia)) as H0. simpl in H0.
    destruct a as [|a].
    + destruct b as [|b].
      * simpl. destruct (p x) eqn:E; [pose proof (proj1 H0 eq_refl); lia|].
        rewrite <- (IH 0 0); [reflexivity|lia|lia|]. intros i Hi. specialize (H (S i) ltac:(lia)). simpl in H. rewrite H. lia.
      * simpl. destruct (p x) eqn:E; [|exfalso; assert (false = true) by (apply H0; lia); discriminate].
        f_equal. rewrite <- (IH 0 b); auto; try lia.
        -- simpl. rewrite Nat.sub_0_r. auto.
        -- intros i Hi. specialize (H (S i) ltac:(lia)). simpl in H. rewrite H. lia.
    + destruct (p x) eqn:E; [pose proof (proj1 H0 eq_refl); lia|].
      destruct b as [|b]; [lia|]. simpl. apply IH; try lia.
      intros i Hi. specialize (H (S i) ltac:(lia)). simpl in H. rewrite H. lia.
Qed.

(** C10 *)
Theorem level_slice l : l < nlevels t ->
  let ls := extract_level_starts t lsb bl in
  firstn (nth (S l) ls 0 - nth l ls 0) (skipn (nth l ls 0) bl) =
  filter (fun b => box_level t b =? l) bl.
Proof.
  intros Hl. cbv zeta. rewrite extract_level_starts_eq. rewrite !nth_map_seq by lia.
  apply filter_slice.
  - apply below_mono; lia.
  - apply below_le.
  - intros i Hi. rewrite Nat.eqb_eq. pose proof (below_lt l i Hi). pose proof (below_lt (S l) i Hi).
    fold (lev i). lia.
Qed.
End LS.

Lemma filter_seq_sorted p n : forall i j, i < j -> j < length (filter p (seq 0 n)) ->
  nth i (filter p (seq 0 n)) 0 < nth j (filter p (seq 0 n)) 0.
Proof.
  assert (G : forall s n i j, i < j -> j < length (filter p (seq s n)) ->
    nth i (filter p (seq s n)) 0 < nth j (filter p (seq s n)) 0).
  { intros s m. revert s. induction m as [|m IH]; intros s i j H1 H2; simpl in *; [lia|].
    destruct (p s); [|apply IH; auto].
    destruct j as [|j]; [lia|]. simpl in H2. destruct i as [|i].
    - assert (In (nth j (filter p (seq (S s) m)) 0) (filter p (seq (S s) m))) by (apply nth_In; lia).
      apply filter_In in H. destruct H as [H _]. apply in_seq in H. simpl. lia.
    - simpl. apply IH; lia. }
  intros; apply G; auto.
Qed.
