(** The coverage theorem. *)
From Coq Require Import List Arith ZArith NArith Lia Bool Permutation.
From Verif Require Import Base Tree Spec TreeFacts Walk WalkFacts Traversal GeomFacts
  SpecTraversal TraversalLists Coverage.
Import ListNotations.

Section Cover.
Variable t : tree.
Hypothesis W : wf_tree t.
Hypothesis F : wf_flags t.
Variable P : trav_params.
Hypothesis WP : wf_params t P.
Let n := well_sep_is_n_away P.
Let Hn : 1 <= n := proj1 WP.
Let ex := extents P.
Hypothesis WE : targets_have_extent ex = true -> wf_extent ex.
Let tr := the_traversal t P.
Variables T S0 : nat.
Hypothesis HTb : In T (find_target_boxes t P).
Hypothesis HS : S0 < nboxes t.
Hypothesis HSs : is_source t S0 = true.
Let HT : T < nboxes t := tb_range t P Hn T HTb.
Let lT := box_level t T.
Let lS := box_level t S0.
Let a k := anc t k T.
Let b k := anc t k S0.
Let m := Nat.min lT lS.
Let NN k := adj_n t n (a k) (b k).

Lemma a_lt k : a k < nboxes t. Proof. apply anc_lt; auto. Qed.
Lemma b_lt k : b k < nboxes t. Proof. apply anc_lt; auto. Qed.
Lemma a_level k : k <= lT -> box_level t (a k) = k. Proof. apply anc_level; auto. Qed.
Lemma b_level k : k <= lS -> box_level t (b k) = k. Proof. apply anc_level; auto. Qed.

Lemma NN_pred k : Datatypes.S k <= m -> NN (Datatypes.S k) = true -> NN k = true.
Proof.
  intros Hk. unfold NN. rewrite !adj_n_near by auto using a_lt, b_lt.
  intros H.
  assert (PA : box_parent t (a (Datatypes.S k)) = a k) by (apply parent_anc; auto; unfold m, lT, lS in *; lia).
  assert (PB : box_parent t (b (Datatypes.S k)) = b k) by (apply parent_anc; auto; unfold m, lT, lS in *; lia).
  rewrite <- PA, <- PB. apply near_parents; auto using a_lt, b_lt.
Qed.
Lemma NN_0 : NN 0 = true.
Proof.
  unfold NN, a, b. rewrite !anc_0 by auto. apply adj_n_near; auto using (wf_nboxes t W).
  apply near_refl; auto using (wf_nboxes t W).
Qed.
Lemma NN_le j k : j <= k -> k <= m -> NN k = true -> NN j = true.
Proof.
  intros H. induction H; auto. intros H1 H2. apply IHle; [lia|]. apply NN_pred; auto.
Qed.

(** *** list 2 *)
Lemma list2_pair k j : k <= lT -> j <= lS ->
  count (b j) (list2_list t n (a k)) =
  if (k =? j) && (negb (NN k) && ((k =? 0) || negb (negb (NN (k - 1))))) then 1 else 0.
Proof.
  intros Hk Hj. rewrite list2_count by auto using a_lt, b_lt.
  destruct (Nat.eq_dec k 0) as [->|Hk0].
  { unfold a at 1. rewrite anc_0 by auto. simpl. rewrite NN_0. simpl. rewrite andb_false_r. auto. }
  destruct (Nat.eq_dec j 0) as [->|Hj0].
  { unfold b at 1. rewrite anc_0 by auto. rewrite andb_false_r. simpl.
    destruct (Nat.eqb_spec k 0); [lia|]. auto. }
  assert (A0 : 0 < a k) by (apply anc_pos; auto; lia).
  assert (B0 : 0 < b j) by (apply anc_pos; auto; lia).
  destruct (Nat.eqb_spec (a k) 0); [lia|]. destruct (Nat.eqb_spec (b j) 0); [lia|].
  assert (PA : box_parent t (a k) = a (k - 1)).
  { unfold a. replace k with (Datatypes.S (k - 1)) at 1 by lia. apply parent_anc; auto. unfold lT in *; lia. }
  assert (PB : box_parent t (b j) = b (j - 1)).
  { unfold b. replace j with (Datatypes.S (j - 1)) at 1 by lia. apply parent_anc; auto. unfold lS in *; lia. }
  rewrite PA, PB. rewrite slnws_count by auto using a_lt, b_lt.
  rewrite a_level, b_level by lia.
  destruct (Nat.eqb_spec k 0); [lia|].
  destruct (Nat.eqb_spec k j) as [<-|NE].
  2:{ destruct (Nat.eqb_spec (j - 1) (k - 1)); [lia|]. simpl. destruct (negb (adj_n _ _ _ _)); auto. }
  rewrite Nat.eqb_refl. fold (NN k). simpl. rewrite negb_involutive.
  fold (NN (k - 1)).
  destruct (NN k) eqn:E; simpl; auto.
  destruct (Nat.eqb_spec (b (k - 1)) (a (k - 1))) as [EQ|]; simpl; auto.
  exfalso. unfold NN in E. apply adj_n_not_near in E; auto using a_lt, b_lt.
  apply E. apply siblings_near; auto using a_lt, b_lt. congruence.
Qed.

Lemma list2_total :
  nsum (map (fun A => nsum (map (fun B => count B (list2_of tr A)) (ancestors_or_self t S0)))
              (ancestors_or_self t T)) = if NN m then 0 else 1.
Proof.
  rewrite chain_sum by auto.
  transitivity (nsum (map (fun k => if negb (NN k) && ((k =? 0) || negb (negb (NN (k - 1)))) then 1 else 0)
                      (seq 0 (Datatypes.S m)))).
  2:{ rewrite (edge_sum (fun k => negb (NN k)) 0 m).
      - simpl. destruct (NN m); auto.
      - intros k _ Hk H. destruct (NN (Datatypes.S k)) eqn:E; auto.
        apply NN_pred in E; [|lia]. rewrite E in H. discriminate. }
  assert (INNER : forall k, k <= lT ->
    nsum (map (fun B => count B (list2_of tr (anc t k T))) (ancestors_or_self t S0)) =
    if (k <=? lS) && (negb (NN k) && ((k =? 0) || negb (negb (NN (k - 1))))) then 1 else 0).
  { intros k Hk. rewrite chain_sum by auto.
    rewrite (map_ext_in _ (fun j => if (k =? j) && (negb (NN k) && ((k =? 0) || negb (negb (NN (k - 1))))) then 1 else 0)).
    2:{ intros j Hj. apply in_seq in Hj. unfold tr.
        rewrite list2_of_count by (eapply anc_ttpb; eauto; unfold lT in *; lia).
        apply list2_pair; unfold lS; lia. }
    destruct (Nat.leb_spec k lS); simpl andb at 1.
    - rewrite (nsum_map_single _ _ k).
      + rewrite Nat.eqb_refl. auto.
      + apply seq_NoDup.
      + apply in_seq. unfold lS in *. lia.
      + intros j _ Hne. destruct (Nat.eqb_spec k j); [congruence|auto].
    - apply nsum_map_0. intros j Hj. apply in_seq in Hj.
      destruct (Nat.eqb_spec k j); auto. unfold lS in *. lia. }
  rewrite (map_ext_in _ (fun k => if (k <=? lS) && (negb (NN k) && ((k =? 0) || negb (negb (NN (k - 1))))) then 1 else 0)).
  2:{ intros k Hk. apply in_seq in Hk. apply INNER. unfold lT. lia. }
  fold lT. replace (Datatypes.S lT) with (Datatypes.S m + (lT - m)) by (unfold m; lia).
  rewrite seq_app, map_app, nsum_app. rewrite <- (Nat.add_0_r (nsum (map (fun k : nat =>
     if negb (NN k) && ((k =? 0) || negb (negb (NN (k - 1)))) then 1 else 0) (seq 0 (Datatypes.S m))))).
  f_equal.
  - f_equal. apply map_ext_in. intros k Hk. apply in_seq in Hk.
    destruct (Nat.leb_spec k lS); auto. unfold m in *; lia.
  - apply nsum_map_0. intros k Hk. apply in_seq in Hk.
    destruct (Nat.leb_spec k lS); auto. unfold m in *. lia.
Qed.

(** *** list 1 *)
Lemma list1_total : count S0 (list1_of tr T) = if adj t T S0 then 1 else 0.
Proof.
  unfold tr. rewrite list1_of_count by auto. erewrite list1_count; eauto. rewrite HSs. auto.
Qed.

Lemma adj_NN : adj t T S0 = true -> NN m = true.
Proof.
  intros H. unfold NN. apply adj_n_near; auto using a_lt, b_lt.
  apply (near_mono t W 1 n); auto using a_lt. apply near_anc_l; auto. apply near_anc_r; auto.
  apply adj_near in H; auto.
Qed.

Lemma b_source k : k <= lS -> is_source t (b k) = true \/ has_source_child t (b k) = true.
Proof.
  intros Hk. destruct (Nat.eq_dec k lS) as [->|NE].
  - left. unfold b, lS. rewrite anc_self. auto.
  - right. eapply (hsc_anc t W n); eauto. unfold lS in *; lia.
Qed.
Lemma b_hsc k : k < lS -> has_source_child t (b k) = true.
Proof. intros Hk. eapply (hsc_anc t W n); eauto. Qed.

(** *** list 3 *)
Let st k := stop t ex T (b k).
Let nws3 := count (b lT) (slnws_list t n T).

Lemma list3_one l k : k <= lS ->
  count (b k) (pick true (list3_list t n ex (Some l) T)) =
  if (lT <? k) && (l =? k) && (forallb (fun j => negb (st j)) (seq (Datatypes.S lT) (k - Datatypes.S lT)) && st k)
  then nws3 else 0.
Proof.
  intros Hk. rewrite list3_count_raw by auto using b_lt. rewrite b_level by auto.
  fold lT. destruct (Nat.ltb_spec lT k) as [L|L]; simpl andb; auto.
  assert (E1 : anc t lT (b k) = b lT) by (unfold b; apply anc_anc; auto; unfold lS in *; lia).
  rewrite E1. fold nws3.
  rewrite list3_far_out by (apply b_source; auto). rewrite b_level by auto.
  destruct (Nat.eqb_spec l k) as [->|NE].
  2:{ rewrite andb_false_r. rewrite count_nil. destruct (forallb _ _); simpl; lia. }
  rewrite andb_true_r. fold (st k).
  assert (E2 : forallb (fun k0 => snd (list3_visit t ex T (Some k) (anc t k0 (b k)) 0))
                 (seq (Datatypes.S lT) (k - Datatypes.S lT)) =
               forallb (fun j => negb (st j)) (seq (Datatypes.S lT) (k - Datatypes.S lT))).
  { assert (G : forall l0, (forall j, In j l0 -> lT < j < k) ->
      forallb (fun k0 => snd (list3_visit t ex T (Some k) (anc t k0 (b k)) 0)) l0 =
      forallb (fun j => negb (st j)) l0).
    { induction l0 as [|j l0 IH]; intros Hl; simpl; auto. rewrite IH by (intros; apply Hl; right; auto).
      f_equal. specialize (Hl j (or_introl eq_refl)).
      assert (E3 : anc t j (b k) = b j) by (unfold b; apply anc_anc; auto; unfold lS in *; lia).
      rewrite E3. rewrite list3_desc; auto.
      - apply b_hsc; lia.
      - rewrite b_level; lia. }
    apply G. intros j Hj. apply in_seq in Hj. lia. }
  rewrite E2. clear E2. destruct (forallb _ _); simpl; auto.
  destruct (st k); [rewrite count_cons, Nat.eqb_refl, count_nil; lia|rewrite count_nil; lia].
Qed.

Lemma list3_total :
  nsum (map (fun B => count B (list3_of tr T)) (ancestors_or_self t S0)) =
  if lT <? lS then (if existsb st (seq (Datatypes.S lT) (lS - lT)) then nws3 else 0) else 0.
Proof.
  rewrite chain_sum by auto. fold lS.
  rewrite (map_ext_in _ (fun k => if (lT <? k) && (forallb (fun j => negb (st j)) (seq (Datatypes.S lT) (k - Datatypes.S lT)) && st k) then nws3 else 0)).
  2:{ intros k Hk. apply in_seq in Hk. unfold tr. rewrite list3_of_count by auto.
      fold n ex. fold (b k).
      rewrite (nsum_map_single _ _ k).
      - rewrite list3_one by lia. rewrite Nat.eqb_refl, andb_true_r. auto.
      - apply seq_NoDup.
      - apply in_seq. pose proof (wf_level_lt t W S0 HS). unfold lS in *; lia.
      - intros l _ Hne. rewrite list3_one by lia. destruct (Nat.eqb_spec l k); [congruence|].
        rewrite andb_false_r. auto. }
  destruct (Nat.ltb_spec lT lS) as [L|L].
  - replace (Datatypes.S lS) with (Datatypes.S lT + (lS - lT)) by lia.
    rewrite seq_app, map_app, nsum_app. simpl (0 + _).
    rewrite nsum_map_0.
    2:{ intros k Hk. apply in_seq in Hk. destruct (Nat.ltb_spec lT k); auto. lia. }
    rewrite Nat.add_0_l.
    rewrite (map_ext_in _ (fun k => (if forallb (fun j => negb (st j)) (seq (Datatypes.S lT) (k - Datatypes.S lT)) && st k then 1 else 0) * nws3)).
    2:{ intros k Hk. apply in_seq in Hk. destruct (Nat.ltb_spec lT k); [|lia]. simpl andb.
        destruct (forallb _ _ && _); lia. }
    assert (M : forall (f : nat -> nat) l, nsum (map (fun k => f k * nws3) l) = nsum (map f l) * nws3).
    { induction l as [|x l IH]; simpl; auto. unfold nsum in *; simpl. lia. }
    rewrite M, first_sum. destruct (existsb _ _); lia.
  - apply nsum_map_0. intros k Hk. apply in_seq in Hk. destruct (Nat.ltb_spec lT k); auto. lia.
Qed.

Lemma list3_close_total :
  count S0 (list3_close_of tr T) =
  if (lT <? lS) && forallb (fun j => negb (st j)) (seq (Datatypes.S lT) (lS - Datatypes.S lT)) &&
     (negb (adj t T S0) && negb (is_far t ex T S0))
  then nws3 else 0.
Proof.
  unfold tr. rewrite list3_close_of_count by auto. fold n ex.
  destruct (targets_have_extent ex) eqn:EX.
  2:{ unfold is_far. rewrite EX. simpl. rewrite !andb_false_r. auto. }
  rewrite list3_count_raw by auto. fold lT lS.
  destruct (Nat.ltb_spec lT lS) as [L|L]; simpl andb; auto.
  fold (b lT). fold nws3. rewrite list3_close_out by auto.
  assert (E2 : forallb (fun k0 => snd (list3_visit t ex T None (anc t k0 S0) 0))
                 (seq (Datatypes.S lT) (lS - Datatypes.S lT)) =
               forallb (fun j => negb (st j)) (seq (Datatypes.S lT) (lS - Datatypes.S lT))).
  { assert (G : forall l0, (forall j, In j l0 -> lT < j < lS) ->
      forallb (fun k0 => snd (list3_visit t ex T None (anc t k0 S0) 0)) l0 =
      forallb (fun j => negb (st j)) l0).
    { induction l0 as [|j l0 IH]; intros Hl; simpl; auto. rewrite IH by (intros; apply Hl; right; auto).
      f_equal. specialize (Hl j (or_introl eq_refl)).
      rewrite list3_desc; auto. apply b_hsc; lia. }
    apply G. intros j Hj. apply in_seq in Hj. lia. }
  rewrite E2. clear E2. destruct (forallb _ _); simpl; auto.
  destruct (_ && _); [rewrite count_cons, Nat.eqb_refl, count_nil; lia|rewrite count_nil; lia].
Qed.

(** *** list 4 *)
Let mb k := if targets_have_extent ex
            then meets_sep_bigger t ex (box_center t (a k)) k (box_center t S0) lS else true.
Let Q k := negb (adj t (a k) S0) && mb k.
Let nws4 := count S0 (slnws_list t n (a lS)).

Lemma mb_mono k : k < lT -> mb k = true -> mb (Datatypes.S k) = true.
Proof.
  intros Hk. unfold mb. destruct (targets_have_extent ex) eqn:EX; auto.
  destruct (WE eq_refl) as [E1 [E2 [E3 [E4 E5]]]].
  unfold meets_sep_bigger. rewrite !Z.leb_le.
  assert (Hl : lT < nlevels t) by (apply wf_level_lt; auto).
  rewrite (rad_double t W k) by lia.
  assert (R : (0 < level_to_rad t (Datatypes.S k))%Z) by (apply rad_pos; auto; lia).
  assert (RS : (0 < level_to_rad t lS)%Z).
  { apply rad_pos; auto. apply wf_level_lt; auto. }
  assert (D : (linf_dist (dim t) (box_center t (a k)) (box_center t S0) <=
               linf_dist (dim t) (box_center t (a (Datatypes.S k))) (box_center t S0)
               + level_to_rad t (Datatypes.S k))%Z).
  { apply linf_le. split. { pose proof (linf_nonneg (dim t) (box_center t (a (Datatypes.S k))) (box_center t S0)). lia. }
    intros i Hi.
    pose proof (linf_ge (dim t) (box_center t (a (Datatypes.S k))) (box_center t S0) i Hi) as G.
    assert (PC : box_parent t (a (Datatypes.S k)) = a k) by (apply parent_anc; auto).
    pose proof (parent_center t W (a (Datatypes.S k)) i (a_lt _) ltac:(apply anc_pos; auto; unfold lT in *; lia) Hi) as PP.
    rewrite PC in PP. unfold box_rad in PP. rewrite a_level in PP by lia. lia. }
  set (r := level_to_rad t (Datatypes.S k)) in *. set (rS := level_to_rad t lS) in *.
  set (d1 := linf_dist (dim t) (box_center t (a k)) (box_center t S0)) in *.
  set (d2 := linf_dist (dim t) (box_center t (a (Datatypes.S k))) (box_center t S0)) in *.
  set (sn := stick_out_num ex) in *. set (sd := stick_out_den ex) in *.
  set (en := eps_num ex) in *. set (ed := eps_den ex) in *.
  intros H.
  assert (X1 : (d1 * (sd * ed) <= (d2 + r) * (sd * ed))%Z) by (apply Z.mul_le_mono_nonneg_r; nia).
  assert (X2 : (sd * ed * r <= 3 * (sd + sn) * r * (ed - 8 * en))%Z).
  { assert (sd * ed <= 3 * (sd + sn) * (ed - 8 * en))%Z.
    { assert (Y : (ed <= 3 * (ed - 8 * en))%Z) by lia.
      apply Z.le_trans with (sd * (3 * (ed - 8 * en)))%Z; [apply Z.mul_le_mono_nonneg_l; lia|].
      assert (0 <= sn * (3 * (ed - 8 * en)))%Z by (apply Z.mul_nonneg_nonneg; lia). lia. }
    replace (3 * (sd + sn) * r * (ed - 8 * en))%Z with (3 * (sd + sn) * (ed - 8 * en) * r)%Z by ring.
    apply Z.mul_le_mono_nonneg_r; lia. }
  replace ((3 * (sd + sn) * (2 * r) + sd * rS) * (ed - 8 * en))%Z with
    ((3 * (sd + sn) * r + sd * rS) * (ed - 8 * en) + 3 * (sd + sn) * r * (ed - 8 * en))%Z in H by ring.
  replace ((d2 + r) * (sd * ed))%Z with (d2 * (sd * ed) + sd * ed * r)%Z in X1 by ring.
  lia.
Qed.

Lemma Q_mono k : k < lT -> Q k = true -> Q (Datatypes.S k) = true.
Proof.
  intros Hk. unfold Q. rewrite !andb_true_iff, !negb_true_iff. intros [H1 H2]. split; [|apply mb_mono; auto].
  destruct (adj t (a (Datatypes.S k)) S0) eqn:E; auto. exfalso.
  assert (X : adj t (anc t k (a (Datatypes.S k))) S0 = true).
  { apply adj_anc_l; auto using a_lt. }
  unfold a in X at 1. rewrite anc_anc in X by (auto; unfold lT in *; lia). fold (a k) in X. congruence.
Qed.

Lemma pick1 tag : count S0 (pick tag [(tag, S0)]) = 1.
Proof. unfold pick. simpl. rewrite eqb_reflx. simpl. rewrite count_cons, Nat.eqb_refl. auto. Qed.

Lemma entry4 j : 1 <= lS -> lS <= j -> j <= lT -> nws4 <> 0 ->
  count S0 (pick true (list4_entry t ex n (a j) lS S0)) =
  if Q j && ((j =? lS) || negb (Q (j - 1))) then 1 else 0.
Proof.
  intros H1 H2 H3 Hw. unfold list4_entry. rewrite HSs, !(a_level j) by auto.
  assert (PA : box_parent t (a j) = a (j - 1)).
  { unfold a. replace j with (Datatypes.S (j - 1)) at 1 by lia. apply parent_anc; auto. unfold lT in *; lia. }
  rewrite PA.
  replace (is_adj t (box_center t (a j)) j (box_center t S0) lS) with (adj t (a j) S0)
    by (unfold adj; rewrite a_level by auto; auto).
  replace (is_adj t (box_center t (a (j - 1))) (j - 1) (box_center t S0) lS)
    with (adj t (a (j - 1)) S0) by (unfold adj; rewrite a_level by lia; auto).
  unfold Q, mb.
  destruct (adj t (a j) S0) eqn:EA; simpl negb; [reflexivity|]. simpl andb at 3.
  destruct (targets_have_extent ex) eqn:EX; simpl andb.
  - destruct (meets_sep_bigger t ex (box_center t (a j)) j (box_center t S0) lS) eqn:EM; simpl.
    2:{ destruct (is_target t (a j)); reflexivity. }
    destruct (Nat.eqb_spec j lS) as [->|NE]; simpl.
    + destruct (Nat.ltb_spec 1 n) as [L|L].
      * rewrite Nat.ltb_irrefl, andb_false_r. simpl. apply pick1.
      * exfalso. assert (N1 : n = 1) by lia. apply Hw. unfold nws4. apply count_notIn.
        intros Hin. apply slnws_in in Hin; auto using a_lt.
        destruct Hin as [_ [_ [_ Hin]]]. rewrite N1 in Hin. apply adj_near in Hin; auto using a_lt. congruence.
    + assert (E : (if 1 <? n then lS <? j else true) = true).
      { destruct (1 <? n); auto. apply Nat.ltb_lt. lia. }
      rewrite E, andb_true_r.
      destruct (adj t (a (j - 1)) S0); simpl; [apply pick1|].
      destruct (meets_sep_bigger t ex (box_center t (a (j - 1))) (j - 1) (box_center t S0) lS); simpl;
      [reflexivity|]. apply pick1.
  - destruct (Nat.eqb_spec j lS) as [->|NE]; simpl.
    + destruct (Nat.ltb_spec 1 n) as [L|L].
      * rewrite Nat.ltb_irrefl, andb_false_r. simpl. apply pick1.
      * exfalso. assert (N1 : n = 1) by lia. apply Hw. unfold nws4. apply count_notIn.
        intros Hin. apply slnws_in in Hin; auto using a_lt.
        destruct Hin as [_ [_ [_ Hin]]]. rewrite N1 in Hin. apply adj_near in Hin; auto using a_lt. congruence.
    + assert (E : (if 1 <? n then lS <? j else true) = true).
      { destruct (1 <? n); auto. apply Nat.ltb_lt. lia. }
      rewrite E, andb_true_r.
      destruct (adj t (a (j - 1)) S0); simpl; [apply pick1|].
      reflexivity.
Qed.

Lemma list4_total :
  nsum (map (fun A => count S0 (list4_of tr A)) (ancestors_or_self t T)) =
  if (1 <=? lS) && (lS <=? lT) then (if Q lT then nws4 else 0) else 0.
Proof.
  rewrite chain_sum by auto. fold lT.
  rewrite (map_ext_in _ (fun j => if (1 <=? lS) && (lS <=? j)
     then nws4 * (if Q j && ((j =? lS) || negb (Q (j - 1))) then 1 else 0) else 0)).
  2:{ intros j Hj. apply in_seq in Hj. unfold tr. rewrite list4_of_count by (eapply anc_ttpb; eauto; unfold lT in *; lia).
      fold n ex. fold (a j). rewrite list4_count by auto using a_lt. fold lS.
      rewrite a_level by lia.
      destruct (Nat.leb_spec 1 lS); simpl; auto. destruct (Nat.leb_spec lS j); auto.
      assert (E1 : anc t lS (a j) = a lS) by (unfold a; apply anc_anc; auto; unfold lT in *; lia).
      rewrite E1. fold nws4. destruct (Nat.eq_dec nws4 0) as [->|NZ]; [auto|].
      rewrite entry4 by (auto; lia). auto. }
  destruct (Nat.leb_spec 1 lS) as [L1|L1]; simpl andb.
  2:{ apply nsum_map_0. auto. }
  destruct (Nat.leb_spec lS lT) as [L2|L2].
  - replace (Datatypes.S lT) with (lS + Datatypes.S (lT - lS)) by lia.
    rewrite seq_app, map_app, nsum_app. simpl (0 + lS).
    rewrite nsum_map_0.
    2:{ intros k Hk. apply in_seq in Hk. destruct (Nat.leb_spec lS k); auto. lia. }
    rewrite Nat.add_0_l.
    rewrite (map_ext_in _ (fun j => (if Q j && ((j =? lS) || negb (Q (j - 1))) then 1 else 0) * nws4)).
    2:{ intros k Hk. apply in_seq in Hk. destruct (Nat.leb_spec lS k); [|lia]. lia. }
    assert (M : forall (f : nat -> nat) l, nsum (map (fun k => f k * nws4) l) = nsum (map f l) * nws4).
    { induction l as [|x l IH]; simpl; auto. unfold nsum in *; simpl. lia. }
    rewrite M, (edge_sum Q).
    + replace (lS + (lT - lS)) with lT by lia. destruct (Q lT); lia.
    + intros k Hk1 Hk2 Hq. apply Q_mono; auto. lia.
  - apply nsum_map_0. intros k Hk. apply in_seq in Hk. destruct (Nat.leb_spec lS k); auto. lia.
Qed.

Lemma list4_close_total :
  count S0 (list4_close_of tr T) =
  if (1 <=? lS) && (lS <=? lT) && (negb (adj t T S0) && negb (mb lT)) then nws4 else 0.
Proof.
  unfold tr. rewrite list4_close_of_count by auto. fold n ex.
  unfold mb. destruct (targets_have_extent ex) eqn:EX.
  2:{ simpl. rewrite !andb_false_r. auto. }
  rewrite list4_count by auto. fold lS lT. fold (a lS). fold nws4.
  destruct ((1 <=? lS) && (lS <=? lT)) eqn:E; simpl; auto.
  apply andb_true_iff in E. destruct E as [E1 E2]. apply Nat.leb_le in E1, E2.
  assert (AT : a lT = T) by apply anc_self. rewrite AT.
  unfold list4_entry. rewrite HSs. fold lT.
  replace (is_adj t (box_center t T) lT (box_center t S0) lS) with (adj t T S0) by reflexivity.
  destruct (adj t T S0) eqn:EA; simpl; [unfold pick; simpl; rewrite count_nil; lia|]. rewrite EX. simpl.
  destruct (meets_sep_bigger t ex (box_center t T) lT (box_center t S0) lS); simpl.
  - destruct (_ && _); [destruct (negb _)|]; unfold pick; simpl; rewrite count_nil; lia.
  - destruct (tb_ttpb t P Hn T WP HTb) as [_ ->]. rewrite pick1. lia.
Qed.

(** *** the theorem *)
Lemma adj_self_anc k : k <= lS -> b k = T -> adj t T S0 = true.
Proof.
  intros Hk E. apply adj_near; auto. rewrite <- E. apply near_anc_self; auto.
Qed.

Lemma coverage_one : coverage t tr T S0 = 1.
Proof.
  unfold coverage. rewrite list1_total, list2_total, list3_total, list3_close_total, list4_total, list4_close_total.
  destruct (Nat.ltb_spec lT lS) as [L|L].
  - (* source box finer *)
    destruct (Nat.leb_spec lS lT); [lia|]. rewrite andb_false_r. simpl andb.
    assert (Em : m = lT) by (unfold m; lia).
    assert (Ea : a lT = T) by apply anc_self.
    assert (Enws : nws3 = if negb (b lT =? T) && NN m then 1 else 0).
    { unfold nws3. rewrite slnws_count by auto using b_lt. rewrite b_level by lia. fold lT.
      rewrite Nat.eqb_refl. unfold NN. rewrite Em, Ea. auto. }
    assert (Es : seq (Datatypes.S lT) (lS - lT) = seq (Datatypes.S lT) (lS - Datatypes.S lT) ++ [lS]).
    { replace (lS - lT) with (Datatypes.S (lS - Datatypes.S lT)) by lia. rewrite seq_S. f_equal. f_equal. lia. }
    rewrite Es, existsb_app. simpl (existsb st [lS]). rewrite orb_false_r.
    assert (EF : forallb (fun j => negb (st j)) (seq (Datatypes.S lT) (lS - Datatypes.S lT)) =
                 negb (existsb st (seq (Datatypes.S lT) (lS - Datatypes.S lT)))).
    { generalize (seq (Datatypes.S lT) (lS - Datatypes.S lT)). intros l. induction l; simpl; auto. rewrite IHl. destruct (st a0); auto. }
    rewrite EF.
    assert (ES : st lS = negb (adj t T S0) && is_far t ex T S0).
    { unfold st, stop, b. unfold lS. rewrite anc_self. auto. }
    rewrite ES.
    destruct (adj t T S0) eqn:EA; simpl negb; simpl andb.
    + rewrite (adj_NN EA) in *. rewrite orb_false_r, andb_false_r.
      assert (EX0 : existsb st (seq (Datatypes.S lT) (lS - Datatypes.S lT)) = false).
      { destruct (existsb _ _) eqn:E; auto. apply existsb_exists in E. destruct E as [k [Hk Hs]].
        apply in_seq in Hk. unfold st, stop in Hs. apply andb_true_iff in Hs. destruct Hs as [Hs _].
        unfold b in Hs. rewrite adj_anc_r in Hs by auto. discriminate. }
      rewrite EX0. simpl. auto.
    + assert (NEQ : b lT =? T = false).
      { destruct (Nat.eqb_spec (b lT) T) as [E|]; auto. apply adj_self_anc in E; [congruence|lia]. }
      rewrite NEQ in Enws. simpl in Enws.
      destruct (NN m) eqn:ENN; rewrite Enws.
      * destruct (existsb st _), (is_far t ex T S0); reflexivity.
      * destruct (existsb st _), (is_far t ex T S0); reflexivity.
  - (* source box not finer *)
    rewrite !andb_false_l. destruct (Nat.leb_spec lS lT); [|lia]. rewrite andb_true_r.
    destruct (1 <=? lS) eqn:E1lS.
    2:{ (* the source box is the root *)
      assert (Z0 : lS = 0) by (apply Nat.leb_gt in E1lS; lia).
      assert (R0 : S0 = 0) by (apply (level_0 t W); auto).
      assert (EA : adj t T S0 = true) by (rewrite R0; apply adj_root; auto).
      rewrite (adj_NN EA), EA. reflexivity. }
    apply Nat.leb_le in E1lS.
    assert (Em : m = lS) by (unfold m; lia).
    assert (Eb : b lS = S0) by apply anc_self.
    assert (Ea : a lT = T) by apply anc_self.
    assert (Enws : nws4 = if negb (S0 =? a lS) && NN m then 1 else 0).
    { unfold nws4. rewrite slnws_count by auto using a_lt. rewrite a_level by lia. fold lS.
      rewrite Nat.eqb_refl. unfold NN. rewrite Em, Eb. auto. }
    unfold Q. rewrite Ea.
    destruct (adj t T S0) eqn:EA; simpl negb; simpl andb.
    + rewrite (adj_NN EA). reflexivity.
    + assert (NEQ : S0 =? a lS = false).
      { destruct (Nat.eqb_spec S0 (a lS)) as [E|]; auto. exfalso.
        assert (X : adj t T S0 = true).
        { apply adj_near; auto. rewrite E. apply near_sym. apply near_anc_self; auto. }
        congruence. }
      rewrite NEQ in Enws. simpl in Enws.
      destruct (NN m) eqn:ENN; rewrite Enws; destruct (mb lT); reflexivity.
Qed.
End Cover.
