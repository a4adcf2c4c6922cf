(** Whole-operation theorems about trees of boxes. Nothing here models code. *)
From Coq Require Import List Arith ZArith NArith Lia Bool Permutation.
From Verif Require Import Base Tree Traversal Coverage TreeOfBoxes SpecTob TobFacts TobCoarsen.
Import ListNotations.

Definition sorted_levels (t : tob) : Prop := forall i j, i <= j -> j < tn t -> tlevel t i <= tlevel t j.

Section step.
Variables (s L : nat) (t t' : tob) (rf cf : nat -> bool) (err : bool) (order : list nat) (t2 : tob).
Hypothesis W : wl s L everything t.
Hypothesis LS : L < s.
Hypothesis HL : forall b, b < tn t -> rf b = true -> tlevel t b < L.
Hypothesis U : unsorted_result s rf cf err t = Ok t2.
Hypothesis A : argsort_ok (tn t2) (tlevel t2) order.
Hypothesis OK : refine_and_coarsen s order rf cf err t = Ok t'.

Lemma step_split : exists t1, apply_refine rf t = Ok t1 /\
  apply_coarsen s (resized (tn t) false cf) err t1 = Ok t2 /\
  t' = pruned s (sort_by_level order t2).
Proof.
  unfold refine_and_coarsen in OK. unfold unsorted_result in U. destruct (any _ _); [discriminate|].
  destruct (apply_refine rf t) as [t1| |]; simpl in *; try discriminate.
  exists t1. split; auto. rewrite U in OK. simpl in OK. inversion OK. split; auto.
Qed.

Lemma step_inv : wl s L everything t' /\ sorted_levels t'.
Proof.
  destruct step_split as [t1 [R [C E]]].
  pose proof (refine_wl s L t t1 rf W HL R) as W1.
  pose proof (coarsen_wl s L t1 t2 _ err W1 LS C) as W2.
  destruct (sort_renamed _ _ _ _ _ W2 LS A) as [old [new Rn]].
  pose proof (renamed_wl _ _ _ _ _ _ _ W2 Rn) as W3.
  assert (So : forall i j, i <= j -> j < tn (sort_by_level order t2) ->
     tlevel (sort_by_level order t2) i <= tlevel (sort_by_level order t2) j).
  { intros i j Hij Hj. apply (rn_sorted _ _ _ _ Rn); auto. rewrite <- (rn_n _ _ _ _ Rn). auto. }
  rewrite E. split.
  - eapply pruned_wl; eauto.
  - intros i j Hij Hj. simpl. apply So; auto. simpl in Hj. lia.
Qed.

Lemma step_dim : tdim t' = tdim t /\ textent t' = textent t /\ (forall a, tcenter t' 0 a = tcenter t 0 a).
Proof.
  destruct step_split as [t1 [R [C E]]].
  pose proof (refine_wl s L t t1 rf W HL R) as W1.
  pose proof (coarsen_wl s L t1 t2 _ err W1 LS C) as W2.
  destruct (sort_renamed _ _ _ _ _ W2 LS A) as [old [new Rn]].
  destruct (refine_dim s L t t1 rf W HL R) as [D1 [D2 _]].
  destruct (coarsen_fields _ _ _ _ _ _ W1 LS C) as [E1 [E2 [_ [E4 _]]]].
  rewrite E. cbn [pruned tdim textent tcenter]. rewrite (rn_dim _ _ _ _ Rn), (rn_ext _ _ _ _ Rn).
  repeat split; try congruence. intros a. rewrite (rn_center _ _ _ _ Rn) by apply (wl_n _ _ _ _ W2).
  rewrite (rn_0 _ _ _ _ Rn), E4. destruct (refine_old s L t t1 rf W HL R 0 (wl_n _ _ _ _ W)) as [_ [_ [K _]]]. auto.
Qed.

Lemma gone_removed t1 p b : apply_refine rf t = Ok t1 ->
  apply_coarsen s (resized (tn t) false cf) err t1 = Ok t2 ->
  follow t1 0 p = Some b -> (gone t1 (resized (tn t) false cf) b <-> removed t rf cf p).
Proof.
  intros R C Hp. pose proof (refine_wl s L t t1 rf W HL R) as W1.
  destruct (refine_dim s L t t1 rf W HL R) as [D1 [D2 D3]].
  split.
  - intros [q0 [m [Hq0 [Hm [E [[m' [Hm' [Hc' Hcf]]] Hall]]]]]].
    destruct (live_path _ _ _ _ W1 q0 Hq0 eq_refl) as [q Hq].
    assert (K : forall k, k < 2 ^ tdim t1 -> follow t1 0 (q ++ [k]) = Some (tchild t1 k q0)).
    { intros k Hk. apply follow_snoc_iff. exists q0. repeat split; auto. apply Hall; auto. }
    assert (p = q ++ [m]). { eapply (follow_inj _ _ _ _ W1); eauto. rewrite E. auto. }
    subst p. exists q, m. rewrite <- D1. split; auto. split; auto.
    assert (F : follow t 0 (q ++ [m']) = Some (tchild t1 m' q0) /\ tchild t1 m' q0 < tn t).
    { destruct (refine_follow_inv s L t t1 rf W HL R _ _ (K m' Hm')) as [[F1 F2]|[F1 _]]; auto.
      unfold resized in Hcf. destruct (Nat.ltb_spec (tchild t1 m' q0) (tn t)); [lia|discriminate]. }
    destruct F as [F1 F2].
    assert (Hq0t : follow t 0 q = Some q0 /\ rf q0 = false).
    { pose proof F1 as G. apply follow_snoc_iff in G. destruct G as [r [G1 [G2 [G3 G4]]]].
      assert (r = q0). { pose proof (refine_follow_old s L t t1 rf W HL R _ _ G1). congruence. }
      subst r. split; auto. destruct (rf q0) eqn:Erf; auto. exfalso. apply G3.
      apply (refine_leaf s L t t1 rf W R); auto. apply (follow_live _ _ _ _ W _ _ G1). }
    destruct Hq0t as [Hqt Hrf].
    split.
    + exists m', (tchild t1 m' q0). repeat split; auto.
      unfold resized in Hcf. destruct (Nat.ltb_spec (tchild t1 m' q0) (tn t)); [auto|lia].
    + intros k Hk. destruct (refine_follow_inv s L t t1 rf W HL R _ _ (K k Hk)) as [[G1 G2]|[G1 [q' [k' [r [G3 [_ [G5 G6]]]]]]]].
      * exists (tchild t1 k q0). split; auto. destruct (Hall k Hk) as [_ Hlf].
        assert (Hlt : tchild t1 k q0 < tn t1) by lia.
        apply (refine_leaf_iff s L t t1 rf W HL R _ Hlt) in Hlf. destruct Hlf as [[_ [? ?]]|?]; [auto|lia].
      * exfalso. apply app_inj_tail in G3. destruct G3 as [-> ->]. congruence.
  - intros [q [m [-> [Hm [[m' [b' [Hm' [Hb' Hcf]]]] Hall]]]]].
    apply follow_snoc_iff in Hp. destruct Hp as [r [Hr [_ [Hc E]]]].
    assert (Hqt : follow t 0 q = Some r).
    { unfold box_at in Hb'. pose proof Hb' as G. apply follow_snoc_iff in G. destruct G as [r' [G1 _]].
      pose proof (refine_follow_old s L t t1 rf W HL R _ _ G1). congruence. }
    assert (K : forall k, k < 2 ^ tdim t -> forall c, follow t 0 (q ++ [k]) = Some c -> tchild t1 k r = c /\ c <> 0 /\ c < tn t).
    { intros k Hk c Hkc. pose proof (refine_follow_old s L t t1 rf W HL R _ _ Hkc) as G.
      apply follow_snoc_iff in G. destruct G as [r' [G1 [G2 [G3 G4]]]].
      assert (r' = r) by congruence. subst r'. split; auto. split; [congruence|]. apply (follow_live _ _ _ _ W _ _ Hkc). }
    destruct (follow_live _ _ _ _ W1 _ _ Hr) as [Hrn _].
    exists r, m. rewrite D1. repeat split; auto.
    + destruct (K m' Hm' b' Hb') as [G1 [G2 G3]]. exists m'. rewrite G1. repeat split; auto.
      unfold resized. destruct (Nat.ltb_spec b' (tn t)); [auto|lia].
    + destruct (Hall m'0 H) as [c [G1 [G2 G3]]]. destruct (K _ H c G1) as [-> [G5 _]]. auto.
    + destruct (Hall m'0 H) as [c [G1 [G2 G3]]]. destruct (K _ H c G1) as [-> [G5 G6]].
      apply (refine_leaf_iff s L t t1 rf W HL R); [lia|]. left. auto.
Qed.

Theorem step_paths p : has_box t' p <-> (has_box t p \/ created t rf p) /\ ~ removed t rf cf p.
Proof.
  destruct step_split as [t1 [R [C E]]].
  pose proof (refine_wl s L t t1 rf W HL R) as W1.
  pose proof (coarsen_wl s L t1 t2 _ err W1 LS C) as W2.
  destruct (sort_renamed _ _ _ _ _ W2 LS A) as [old [new Rn]].
  assert (H1 : has_box t' p <-> exists b, follow t2 0 p = Some b).
  { unfold has_box, box_at. rewrite E. setoid_rewrite pruned_follow.
    rewrite (renamed_follow _ _ _ _ _ _ _ W2 Rn). destruct (follow t2 0 p) as [b|]; simpl.
    - split; intros _; eauto.
    - split; intros [? ?]; discriminate. }
  rewrite H1. setoid_rewrite (coarsen_follow _ _ _ _ _ _ W1 LS C).
  assert (H2 : (exists b, follow t1 0 p = Some b) <-> has_box t p \/ created t rf p).
  { split.
    - intros [b Hb]. destruct (refine_follow_inv s L t t1 rf W HL R _ _ Hb) as [[G1 G2]|[G1 [q [m [r [G3 [G4 [G5 G6]]]]]]]].
      + left. exists b. auto.
      + right. exists q, m, r. auto.
    - intros [[b Hb]|[q [m [r [-> [Hm [Hr Hrf]]]]]]].
      + exists b. apply (refine_follow_old s L t t1 rf W HL R); auto.
      + destruct (refine_follow_new s L t t1 rf W HL R q m r Hr Hrf Hm) as [b [Hb _]]. eauto. }
  rewrite <- H2. split.
  - intros [b [Hb NG]]. split; eauto. rewrite <- (gone_removed t1 p b R C Hb). auto.
  - intros [[b Hb] NR]. exists b. split; auto. rewrite (gone_removed t1 p b R C Hb). auto.
Qed.
End step.

(** ** Reachable trees *)
Lemma refine_and_coarsen_extent s order rf cf err t t' :
  refine_and_coarsen s order rf cf err t = Ok t' -> textent t' = textent t.
Proof.
  unfold refine_and_coarsen. destruct (any _ _); [discriminate|].
  destruct (apply_refine rf t) as [t1| |] eqn:R; simpl; try discriminate.
  destruct (apply_coarsen _ _ _ t1) as [t2| |] eqn:C; simpl; try discriminate.
  intros E. inversion E; subst. clear E.
  assert (E1 : textent t1 = textent t).
  { unfold apply_refine in R. destruct (any _ _); [discriminate|]. destruct (_ =? 0); inversion R; reflexivity. }
  assert (E2 : textent t2 = textent t1).
  { unfold apply_coarsen in C. destruct (any _ _); [discriminate|]. destruct (any _ _); [discriminate|].
    destruct (_ =? 0); [inversion C; auto|]. destruct (_ && err); inversion C; reflexivity. }
  rewrite <- E1, <- E2. unfold sort_and_prune, sort_by_level. destruct (negb _); reflexivity.
Qed.
Lemma reachable_inv s L t : L < s -> reachable s L t -> fine_unit L t ->
  wl s L everything t /\ sorted_levels t.
Proof.
  intros LS Re. induction Re as [d lo hi t Hd E|t t1 t' rf cf err order Re IH HL U A OK]; intros F.
  - split; [eapply make_root_wl; eauto|]. unfold make_root in E. destruct forallb; [|discriminate].
    inversion E; subst. intros i j _ _. simpl. lia.
  - assert (Ft : fine_unit L t).
    { apply refine_and_coarsen_extent in OK. destruct F as [F1 F2]. rewrite OK in F1, F2. split; auto. }
    destruct (IH Ft) as [W _]. eapply step_inv; eauto.
Qed.

Lemma inv_wf s L t : wl s L everything t -> sorted_levels t -> wf_tob t.
Proof.
  intros W S. constructor.
  - apply (wl_n _ _ _ _ W).
  - split; [apply (wl_level0 _ _ _ _ W)|apply (wl_parent0 _ _ _ _ W)].
  - intros m b Hb Hm Hc. destruct (wl_child _ _ _ _ W m b Hb eq_refl Hm Hc) as [H1 [_ [H3 [H4 H5]]]]. auto.
  - intros b Hb. apply (wl_full _ _ _ _ W); auto.
  - intros m m' b Hb. apply (wl_inj _ _ _ _ W); auto.
  - intros b Hb0 Hb. destruct (wl_parent _ _ _ _ W b Hb0 Hb eq_refl) as [p [m [Hp [_ [Hm E]]]]].
    exists p, m. repeat split; auto. rewrite <- E. apply (wl_child _ _ _ _ W); auto. lia.
  - auto.
  - intros b Hb. pose proof (is_leaf_spec _ _ _ _ b W Hb) as Lf. unfold is_leaf in Lf.
    pose proof (wl_flags _ _ _ _ W b Hb) as Fl. pose proof (all_zero_spec (tdim t) (tchild t) b) as AZ.
    fold (leaf t b) in AZ. rewrite Fl. unfold compute_flags in *.
    destruct (all_zero (tdim t) (tchild t) b).
    + assert (leaf t b) by tauto. repeat split; auto; try discriminate; try tauto.
    + assert (~ leaf t b) by (intros G; apply AZ in G; discriminate).
      repeat split; auto; try discriminate; try tauto.
Qed.

(** ** Geometry by path *)
Lemma path_center s L t t' : wl s L everything t -> wl s L everything t' ->
  tdim t = tdim t' -> textent t = textent t' -> (forall a, a < tdim t -> tcenter t 0 a = tcenter t' 0 a) ->
  forall p b b', box_at t p = Some b -> box_at t' p = Some b' ->
  forall a, a < tdim t -> tcenter t b a = tcenter t' b' a.
Proof.
  intros W W' Hd He Hc. induction p as [|m p IH] using rev_ind; intros b b' Hb Hb' a Ha.
  - inversion Hb; inversion Hb'; subst. auto.
  - unfold box_at in *. apply follow_snoc_iff in Hb. apply follow_snoc_iff in Hb'.
    destruct Hb as [r [Hr [Hm [Hcr E]]]]. destruct Hb' as [r' [Hr' [Hm' [Hcr' E']]]].
    destruct (follow_live _ _ _ _ W _ _ Hr) as [Hrn [_ Hrl]]. destruct (follow_live _ _ _ _ W' _ _ Hr') as [Hrn' [_ Hrl']].
    destruct (wl_child _ _ _ _ W m r Hrn eq_refl Hm Hcr) as [_ [_ [_ [L1 C1]]]].
    destruct (wl_child _ _ _ _ W' m r' Hrn' eq_refl Hm' Hcr') as [_ [_ [_ [L2 C2]]]].
    rewrite E in *. rewrite E' in *. rewrite C1 by auto. rewrite C2 by lia.
    rewrite L1, L2, Hrl, Hrl', Hd, He. rewrite (IH r r') by auto. reflexivity.
Qed.

Lemma paths_of_boxes s L t : wl s L everything t -> forall k, k <= tn t ->
  exists ps, length ps = k /\ forall b, b < k -> box_at t (nth b ps []) = Some b.
Proof.
  intros W. induction k as [|k IH]; intros Hk; [exists []; split; auto; lia|].
  destruct IH as [ps [Hl H]]; [lia|]. destruct (live_path _ _ _ _ W k) as [p Hp]; auto.
  exists (ps ++ [p]). split; [rewrite app_length; simpl; lia|].
  intros b Hb. destruct (Nat.eq_dec b k) as [->|].
  - rewrite app_nth2, Hl, Nat.sub_diag by lia. auto.
  - rewrite app_nth1 by lia. apply H. lia.
Qed.

Lemma same_count_le s L t t' : wl s L everything t -> wl s L everything t' ->
  (forall p, has_box t p -> has_box t' p) -> tn t <= tn t'.
Proof.
  intros W W' H. destruct (paths_of_boxes _ _ _ W (tn t) (le_n _)) as [ps [Hl Hp]].
  set (f := fun p => match box_at t' p with Some b => b | None => 0 end).
  assert (Hf : forall b, b < tn t -> box_at t' (nth b ps []) = Some (f (nth b ps []))).
  { intros b Hb. unfold f. destruct (H (nth b ps [])) as [c Hc]; [exists b; auto|]. rewrite Hc. auto. }
  rewrite <- (seq_length (tn t) 0). rewrite <- (map_length (fun b => f (nth b ps [])) (seq 0 (tn t))).
  apply NoDup_incl_length_seq.
  - apply NoDup_map_inj; [|apply seq_NoDup]. intros x y Hx Hy E. apply in_seq in Hx. apply in_seq in Hy.
    pose proof (Hf x ltac:(lia)) as Fx. pose proof (Hf y ltac:(lia)) as Fy. rewrite <- E in Fy.
    pose proof (follow_inj _ _ _ _ W' _ _ _ Fx Fy) as EE.
    pose proof (Hp x ltac:(lia)). pose proof (Hp y ltac:(lia)). rewrite EE in *. congruence.
  - intros x Hx. apply in_map_iff in Hx. destruct Hx as [b [<- Hb]]. apply in_seq in Hb.
    pose proof (Hf b ltac:(lia)) as F. apply (follow_live _ _ _ _ W') in F. tauto.
Qed.

Lemma same_boxes_intro s L t t' : wl s L everything t -> wl s L everything t' ->
  tdim t = tdim t' -> textent t = textent t' -> (forall a, a < tdim t -> tcenter t 0 a = tcenter t' 0 a) ->
  (forall p, has_box t p <-> has_box t' p) -> same_boxes t t'.
Proof.
  intros W W' Hd He Hc H. split; auto. split; auto. split.
  { apply Nat.le_antisymm; eapply same_count_le; eauto; intros p; apply H. }
  split; auto. intros p b b' Hb Hb'.
  destruct (follow_live _ _ _ _ W _ _ Hb) as [Hn [_ Hl]]. destruct (follow_live _ _ _ _ W' _ _ Hb') as [Hn' [_ Hl']].
  split; [lia|]. split; [eapply path_center; eauto|].
  rewrite (wl_flags _ _ _ _ W), (wl_flags _ _ _ _ W') by auto. rewrite <- Hd.
  apply compute_flags_ext. intros m Hm.
  assert (K : has_box t (p ++ [m]) <-> tchild t m b <> 0).
  { unfold has_box, box_at. setoid_rewrite follow_snoc_iff. split.
    - intros [c [r [Hr [_ [Hcr _]]]]]. unfold box_at in Hb. congruence.
    - intros Hcr. exists (tchild t m b), b. auto. }
  assert (K' : has_box t' (p ++ [m]) <-> tchild t' m b' <> 0).
  { unfold has_box, box_at. setoid_rewrite follow_snoc_iff. rewrite <- Hd. split.
    - intros [c [r [Hr [_ [Hcr _]]]]]. unfold box_at in Hb'. congruence.
    - intros Hcr. exists (tchild t' m b'), b'. auto. }
  specialize (H (p ++ [m])). destruct (Nat.eq_dec (tchild t m b) 0), (Nat.eq_dec (tchild t' m b') 0); tauto.
Qed.

(** ** Leaves tile the root box *)
Section tiling.
Variables (s L : nat) (t : tob).
Hypothesis W : wl s L everything t.

Definition hw (l : nat) : Z := (textent t / 2 ^ Z.of_nat (l + 1))%Z.

Lemma hw_exact l : l <= L -> (hw l * 2 ^ Z.of_nat (l + 1) = textent t)%Z.
Proof.
  intros Hl. destruct (wl_fine _ _ _ _ W) as [_ [k E]]. unfold hw. rewrite E.
  replace (Z.of_nat (L + 1)) with (Z.of_nat (L - l) + Z.of_nat (l + 1))%Z by lia.
  rewrite Z.pow_add_r, Z.mul_assoc by lia. rewrite Z.div_mul; auto.
  pose proof (Z.pow_pos_nonneg 2 (Z.of_nat (l + 1))). lia.
Qed.
Lemma hw_pos l : l <= L -> (0 < hw l)%Z.
Proof.
  intros Hl. pose proof (hw_exact l Hl). destruct (wl_fine _ _ _ _ W) as [Hp _].
  pose proof (Z.pow_pos_nonneg 2 (Z.of_nat (l + 1))). nia.
Qed.
Lemma hw_double l : S l <= L -> (hw l = 2 * hw (S l))%Z.
Proof.
  intros Hl. pose proof (hw_exact l ltac:(lia)) as H1. pose proof (hw_exact (S l) ltac:(lia)) as H2.
  replace (Z.of_nat (S l + 1)) with (1 + Z.of_nat (l + 1))%Z in H2 by lia.
  rewrite Z.pow_add_r in H2 by lia. change (2 ^ 1)%Z with 2%Z in H2.
  pose proof (Z.pow_pos_nonneg 2 (Z.of_nat (l + 1))) as P.
  assert (hw l * 2 ^ Z.of_nat (l + 1) = (2 * hw (S l)) * 2 ^ Z.of_nat (l + 1))%Z by lia.
  eapply Z.mul_reg_r; [|eauto]. lia.
Qed.

Lemma in_child m b x : b < tn t -> m < 2 ^ tdim t -> tchild t m b <> 0 ->
  (in_box t (tchild t m b) x <-> in_box t b x /\ forall a, a < tdim t ->
      (Nat.testbit m (tdim t - 1 - a) = true <-> (tcenter t b a <= x a)%Z)).
Proof.
  intros Hb Hm Hc. destruct (wl_child _ _ _ _ W m b Hb eq_refl Hm Hc) as [H1 [_ [_ [H4 H5]]]].
  assert (Lc : S (tlevel t b) <= L) by (rewrite <- H4; apply (wl_level _ _ _ _ W); auto).
  pose proof (hw_double _ Lc) as D. pose proof (hw_pos _ Lc) as P.
  unfold in_box. rewrite H4. fold (hw (S (tlevel t b))). fold (hw (tlevel t b)).
  assert (C : forall a, a < tdim t -> tcenter t (tchild t m b) a =
     (tcenter t b a + morton_sign (tdim t) m a * hw (S (tlevel t b)))%Z).
  { intros a Ha. rewrite H5 by auto. rewrite H4. reflexivity. }
  assert (One : forall a, a < tdim t ->
    (tcenter t (tchild t m b) a - hw (S (tlevel t b)) <= x a < tcenter t (tchild t m b) a + hw (S (tlevel t b)) <->
     (tcenter t b a - hw (tlevel t b) <= x a < tcenter t b a + hw (tlevel t b)) /\
     (Nat.testbit m (tdim t - 1 - a) = true <-> tcenter t b a <= x a))%Z).
  { intros a Ha. rewrite C by auto. unfold morton_sign. destruct (Nat.testbit m (tdim t - 1 - a)).
    - split; [intros G; split; [lia|]; split; auto; lia|]. intros [G1 [G2 _]]. specialize (G2 eq_refl). lia.
    - split; [intros G; split; [lia|]; split; [discriminate|lia]|].
      intros [G1 [_ G2]]. destruct (Z_le_dec (tcenter t b a) (x a)) as [G|G]; [specialize (G2 G); discriminate|lia]. }
  split.
  - intros H. split; intros a Ha; apply One; auto.
  - intros [G1 G2] a Ha. apply One; auto.
Qed.

Lemma in_descendant p b c x : b < tn t -> follow t b p = Some c -> in_box t c x -> in_box t b x.
Proof.
  revert b; induction p as [|m p IH]; intros b Hb; simpl.
  - intros E; inversion E; auto.
  - destruct (Nat.ltb_spec m (2 ^ tdim t)); simpl; [|discriminate].
    destruct (Nat.eqb_spec (tchild t m b) 0); simpl; [discriminate|]. intros E Hx.
    apply (in_child m b x); auto. apply (IH (tchild t m b)); auto. apply (live_child _ _ _ _ W); auto.
Qed.

(** a number below 2^d with prescribed bits *)
Lemma bits_number d (f : nat -> bool) : exists m, m < 2 ^ d /\ forall i, i < d -> Nat.testbit m i = f i.
Proof.
  induction d as [|d [m [Hm H]]]; [exists 0; split; simpl; auto; lia|].
  exists (m + if f d then 2 ^ d else 0).
  assert (Hp : 2 ^ S d = 2 ^ d + 2 ^ d) by (simpl; lia).
  split; [destruct (f d); lia|].
  assert (Hbit : forall i, d <= i -> Nat.testbit m i = false).
  { intros i Hi. destruct (Nat.eq_dec m 0) as [->|]; [apply Nat.bits_0|].
    apply Nat.bits_above_log2. apply Nat.log2_lt_pow2; [lia|].
    eapply Nat.lt_le_trans; eauto. apply Nat.pow_le_mono_r; lia. }
  destruct (f d) eqn:Fd.
  - intros i Hi.
    assert (NC : Nat.land m (2 ^ d) = 0).
    { apply Nat.bits_inj. intros k. rewrite Nat.land_spec, Nat.bits_0.
      destruct (Nat.eq_dec k d) as [->|]; [rewrite Hbit; auto|]. rewrite Nat.pow2_bits_false by lia. apply andb_false_r. }
    rewrite Nat.add_nocarry_lxor by auto. rewrite Nat.lxor_spec.
    destruct (Nat.eq_dec i d) as [->|].
    + rewrite Hbit, Nat.pow2_bits_true by lia. auto.
    + rewrite Nat.pow2_bits_false by lia. rewrite H by lia. apply xorb_false_r.
  - intros i Hi. rewrite Nat.add_0_r. destruct (Nat.eq_dec i d) as [->|]; [rewrite Hbit; auto|]. apply H. lia.
Qed.
Lemma bits_eq d m m' : m < 2 ^ d -> m' < 2 ^ d -> (forall i, i < d -> Nat.testbit m i = Nat.testbit m' i) -> m = m'.
Proof.
  intros Hm Hm' H. apply Nat.bits_inj. intros i. destruct (lt_dec i d) as [|Hi]; auto.
  assert (Hbit : forall k, k < 2 ^ d -> Nat.testbit k i = false).
  { intros k Hk. destruct (Nat.eq_dec k 0) as [->|]; [apply Nat.bits_0|].
    apply Nat.bits_above_log2. apply Nat.log2_lt_pow2; [lia|].
    eapply Nat.lt_le_trans; eauto. apply Nat.pow_le_mono_r; lia. }
  rewrite !Hbit; auto.
Qed.

Lemma leaf_exists x : forall k b, b < tn t -> L - tlevel t b <= k -> in_box t b x ->
  exists l, l < tn t /\ leaf t l /\ in_box t l x.
Proof.
  induction k as [|k IH]; intros b Hb Hk Hx;
  (destruct (wl_full _ _ _ _ W b Hb eq_refl) as [F|F]; [exists b; auto|]).
  - assert (0 < 2 ^ tdim t) by (pose proof (pow2_nz (tdim t)); lia).
    destruct (wl_child _ _ _ _ W 0 b Hb eq_refl H (F 0 H)) as [H1 [_ [_ [H4 _]]]].
    pose proof (wl_level _ _ _ _ W _ H1 eq_refl). lia.
  - destruct (bits_number (tdim t) (fun i => (tcenter t b (tdim t - 1 - i)%nat <=? x (tdim t - 1 - i)%nat)%Z)) as [m [Hm H]].
    destruct (wl_child _ _ _ _ W m b Hb eq_refl Hm (F m Hm)) as [H1 [_ [_ [H4 _]]]].
    apply (IH (tchild t m b)); auto; [lia|]. apply in_child; auto. split; auto.
    intros a Ha. rewrite H by lia. replace (tdim t - 1 - (tdim t - 1 - a)) with a by lia. apply Z.leb_le.
Qed.

Lemma leaf_unique x p : forall b q l l', b < tn t -> follow t b p = Some l -> follow t b q = Some l' ->
  leaf t l -> leaf t l' -> in_box t l x -> in_box t l' x -> l = l'.
Proof.
  induction p as [|m p IH]; intros b q l l' Hb Hl Hl' Lf Lf' Hx Hx'.
  - simpl in Hl. inversion Hl; subst l. destruct q as [|m q]; simpl in Hl'; [congruence|].
    destruct (Nat.ltb_spec m (2 ^ tdim t)); simpl in Hl'; [|discriminate].
    rewrite (Lf m H) in Hl'. discriminate.
  - destruct q as [|m' q].
    + simpl in Hl'. inversion Hl'; subst l'. simpl in Hl.
      destruct (Nat.ltb_spec m (2 ^ tdim t)); simpl in Hl; [|discriminate].
      rewrite (Lf' m H) in Hl. discriminate.
    + simpl in Hl, Hl'. destruct (Nat.ltb_spec m (2 ^ tdim t)) as [Hm|]; simpl in Hl; [|discriminate].
      destruct (Nat.ltb_spec m' (2 ^ tdim t)) as [Hm'|]; simpl in Hl'; [|discriminate].
      destruct (Nat.eqb_spec (tchild t m b) 0) as [|Hc]; simpl in Hl; [discriminate|].
      destruct (Nat.eqb_spec (tchild t m' b) 0) as [|Hc']; simpl in Hl'; [discriminate|].
      destruct (live_child _ _ _ _ W m b Hb eq_refl Hm Hc) as [Hcn _].
      destruct (live_child _ _ _ _ W m' b Hb eq_refl Hm' Hc') as [Hcn' _].
      pose proof (in_descendant _ _ _ x Hcn Hl Hx) as G. pose proof (in_descendant _ _ _ x Hcn' Hl' Hx') as G'.
      apply in_child in G; auto. apply in_child in G'; auto. destruct G as [_ G]. destruct G' as [_ G'].
      assert (m = m').
      { apply (bits_eq (tdim t)); auto. intros i Hi. apply eq_true_iff_eq.
        specialize (G (tdim t - 1 - i) ltac:(lia)). specialize (G' (tdim t - 1 - i) ltac:(lia)).
        replace (tdim t - 1 - (tdim t - 1 - i)) with i in G, G' by lia. tauto. }
      subst m'. eapply IH; eauto.
Qed.

Lemma tiles x : in_box t 0 x -> exists l, (l < tn t /\ leaf t l /\ in_box t l x) /\
  forall l', l' < tn t /\ leaf t l' /\ in_box t l' x -> l' = l.
Proof.
  intros Hx. destruct (leaf_exists x L 0 (wl_n _ _ _ _ W) ltac:(lia) Hx) as [l [H1 [H2 H3]]].
  exists l. split; auto. intros l' [G1 [G2 G3]].
  destruct (live_path _ _ _ _ W l H1 eq_refl) as [p Hp]. destruct (live_path _ _ _ _ W l' G1 eq_refl) as [p' Hp'].
  symmetry. apply (leaf_unique x p 0 p' l l'); auto. apply (wl_n _ _ _ _ W).
Qed.

Lemma in_root_of b x : b < tn t -> in_box t b x -> in_box t 0 x.
Proof.
  intros Hb Hx. destruct (live_path _ _ _ _ W b Hb eq_refl) as [p Hp].
  apply (in_descendant p 0 b); auto. apply (wl_n _ _ _ _ W).
Qed.
End tiling.

Lemma wl_mono s L L' t : wl s L everything t -> L <= L' -> fine_unit L' t -> wl s L' everything t.
Proof.
  intros W H F. constructor; try apply W; auto. intros b Hb Hl. pose proof (wl_level _ _ _ _ W b Hb Hl). lia.
Qed.
Lemma fine_mono L L' t : L <= L' -> fine_unit L' t -> fine_unit L t.
Proof.
  intros H [F1 F2]. split; auto. eapply Z.divide_trans; [|eauto].
  exists (2 ^ Z.of_nat (L' - L))%Z. rewrite <- Z.pow_add_r by lia. f_equal. lia.
Qed.

(** ** Rejected requests *)
Lemma leaf_dec s L t b : wl s L everything t -> b < tn t -> leaf t b \/ ~ leaf t b.
Proof.
  intros W Hb. pose proof (is_leaf_spec _ _ _ _ b W Hb) as H. destruct (is_leaf t b); [left; tauto|].
  right. intros G. apply H in G. discriminate.
Qed.

Lemma outcome s L t rf cf err order : wl s L everything t ->
  (forall b, b < tn t -> rf b = true -> tlevel t b < L) ->
  let r := refine_and_coarsen s order rf cf err t in
  (bad_request t rf cf -> r = ValueError) /\
  (~ bad_request t rf cf -> (err = true -> coarsening_ignored t rf cf -> r = RuntimeError) /\
     (~ (err = true /\ coarsening_ignored t rf cf) -> exists t', r = Ok t')).
Proof.
  intros W HL r.
  unfold r, refine_and_coarsen. clear r.
  destruct (any (tn t) (fun b => rf b && cf b)) eqn:E0.
  { apply any_true in E0. destruct E0 as [b [Hb E0]]. apply andb_true_iff in E0.
    split; auto. intros H. exfalso. apply H. exists b. auto. }
  rewrite any_false in E0.
  destruct (apply_refine rf t) as [t1| |] eqn:R.
  2:{ simpl. split; auto. intros H. exfalso. apply H. unfold apply_refine in R.
      destruct (any _ _) eqn:E; [|destruct (_ =? 0); discriminate].
      apply any_true in E. destruct E as [b [Hb E]]. apply andb_true_iff in E. destruct E as [E1 E2].
      exists b. split; auto. right; left. split; auto. rewrite <- (is_leaf_spec _ _ _ _ b W Hb).
      destruct (is_leaf t b); [discriminate|congruence]. }
  2:{ unfold apply_refine in R. destruct (any _ _); [discriminate|]. destruct (_ =? 0); discriminate. }
  simpl. pose proof (refine_wl s L t t1 rf W HL R) as W1.
  destruct (refine_dim s L t t1 rf W HL R) as [D1 [D2 D3]].
  assert (Rl : forall b, b < tn t -> rf b = true -> leaf t b) by (intros; eapply refine_leaf; eauto).
  assert (Lf1 : forall b, b < tn t -> (leaf t1 b <-> leaf t b /\ rf b = false)).
  { intros b Hb. rewrite (refine_leaf_iff s L t t1 rf W HL R) by lia. split; [intros [?|?]; [tauto|lia]|]. intros; left; tauto. }
  assert (Il1 : forall b, b < tn t -> (is_leaf t1 b = true <-> leaf t b /\ rf b = false)).
  { intros b Hb. rewrite (is_leaf_spec _ _ _ _ b W1) by lia. auto. }
  unfold apply_coarsen. set (cf' := resized (tn t) false cf).
  assert (Hcf : forall b, cf' b = true <-> b < tn t /\ cf b = true).
  { intros b. unfold cf', resized. destruct (Nat.ltb_spec b (tn t)); intuition; try lia; discriminate. }
  destruct (any (tn t1) (fun b => cf' b && negb (is_leaf t1 b))) eqn:E1.
  { simpl. split; auto. intros H. exfalso. apply H. apply any_true in E1. destruct E1 as [b [_ E1]].
    apply andb_true_iff in E1. destruct E1 as [E1 E2]. apply Hcf in E1. destruct E1 as [Hb E1].
    exists b. split; auto. right; right; left. split; auto. intros G.
    assert (is_leaf t1 b = true).
    { apply Il1; auto. split; auto. specialize (E0 b Hb). rewrite E1 in E0. destruct (rf b); auto. }
    rewrite H0 in E2. discriminate. }
  destruct (any (tn t1) (fun b => cf' b && (tparent t1 b <? 0)%Z)) eqn:E2.
  { simpl. split; auto. intros H. exfalso. apply H. apply any_true in E2. destruct E2 as [b [_ E2]].
    apply andb_true_iff in E2. destruct E2 as [E2 E3]. apply Hcf in E2. destruct E2 as [Hb E2].
    exists b. split; auto. right; right; right. split; auto.
    destruct (Nat.eq_dec b 0) as [|Hne]; auto. exfalso.
    destruct (wl_parent _ _ _ _ W1 b) as [p [m [Hp [_ [Hm E]]]]]; auto; try lia.
    destruct (wl_child _ _ _ _ W1 m p Hp eq_refl Hm) as [_ [_ [P _]]]; [lia|]. rewrite E in P. rewrite P in E3.
    apply Z.ltb_lt in E3. lia. }
  rewrite any_false in E1, E2.
  assert (NB : ~ bad_request t rf cf).
  { intros [b [Hb [[H1 H2]|[[H1 H2]|[[H1 H2]|[H1 H2]]]]]].
    - specialize (E0 b Hb). rewrite H1, H2 in E0. discriminate.
    - auto.
    - specialize (E1 b ltac:(lia)). rewrite (proj2 (Hcf b)) in E1 by auto. simpl in E1.
      destruct (is_leaf t1 b) eqn:E; [|discriminate]. apply Il1 in E; tauto.
    - specialize (E2 b ltac:(lia)). rewrite (proj2 (Hcf b)) in E2 by auto. subst b.
      rewrite (wl_parent0 _ _ _ _ W1) in E2. discriminate. }
  split; [tauto|]. intros _.
  set (exec := fun b => forallb (fun m => is_leaf t1 (tchild t1 m (Z.to_nat (tparent t1 b)))) (seq 0 (tnch t1))).
  assert (Ign : existsb (fun b => negb (exec b)) (flagged (tn t1) cf') = true <-> coarsening_ignored t rf cf).
  { rewrite existsb_exists. split.
    - intros [b [Hb E]]. apply in_flagged in Hb. destruct Hb as [Hb1 Hb2].
      assert (0 < b). { specialize (E2 b Hb1). rewrite Hb2 in E2. simpl in E2. destruct b; [|lia].
                        rewrite (wl_parent0 _ _ _ _ W1) in E2. discriminate. }
      apply Hcf in Hb2. destruct Hb2 as [Hb Hc].
      destruct (wl_parent _ _ _ _ W b H Hb eq_refl) as [p [m [Hp [_ [Hm Ep]]]]].
      destruct (refine_old s L t t1 rf W HL R p Hp) as [_ [_ [_ Ko]]].
      assert (Hrp : rf p = false). { destruct (rf p) eqn:Erf; auto. pose proof (Rl p Hp Erf m Hm). lia. }
      specialize (Ko Hrp).
      destruct (refine_old s L t t1 rf W HL R b Hb) as [_ [Pb _]].
      destruct (wl_child _ _ _ _ W m p Hp eq_refl Hm) as [_ [_ [Pp _]]]; [lia|]. rewrite Ep in Pp.
      apply negb_true_iff in E. unfold exec in E. apply forallb_false_exists in E.
      destruct E as [m' [Hm' E]]. apply in_seq in Hm'. rewrite Pb, Pp, Nat2Z.id, Ko in E.
      unfold tnch in Hm'. rewrite D1 in Hm'.
      exists p, m, m'. rewrite Ep. repeat split; auto; try lia.
      assert (Hn : tchild t m' p < tn t).
      { apply (live_child _ _ _ _ W); auto; try lia. destruct (wl_full _ _ _ _ W p Hp eq_refl) as [G|G]; [|apply G; lia].
        rewrite (G m Hm) in Ep. lia. }
      destruct (leaf_dec _ _ _ _ W Hn) as [G|G]; auto. right.
      destruct (rf (tchild t m' p)) eqn:Erf; auto. assert (is_leaf t1 (tchild t m' p) = true) by (apply Il1; auto). congruence.
    - intros [p [m [m' [Hp [Hm [Hm' [Hc [Hcf' Hor]]]]]]]].
      destruct (wl_child _ _ _ _ W m p Hp eq_refl Hm Hc) as [Hcn [_ [Pp _]]].
      destruct (refine_old s L t t1 rf W HL R p Hp) as [_ [_ [_ Ko]]].
      assert (Hrp : rf p = false). { destruct (rf p) eqn:Erf; auto. pose proof (Rl p Hp Erf m Hm). lia. }
      specialize (Ko Hrp). destruct (refine_old s L t t1 rf W HL R _ Hcn) as [_ [Pb _]].
      exists (tchild t m p). split; [apply in_flagged; split; [lia|apply Hcf; auto]|].
      unfold exec. apply negb_true_iff. apply not_true_is_false. rewrite forallb_forall. intros G.
      specialize (G m'). rewrite Pb, Pp, Nat2Z.id, Ko in G.
      assert (Hn : tchild t m' p < tn t).
      { apply (live_child _ _ _ _ W); auto; try lia. destruct (wl_full _ _ _ _ W p Hp eq_refl) as [F|F]; [|apply F; lia].
        exfalso. apply Hc. apply F. auto. }
      rewrite (Il1 _ Hn) in G. destruct G as [G1 G2]; [apply in_seq; unfold tnch; rewrite D1; lia|].
      destruct Hor as [Hor|Hor]; [tauto|congruence]. }
  destruct (Nat.eqb_spec (length (flagged (tn t1) cf')) 0) as [e|e].
  { simpl. split; [|eauto]. intros _ H. exfalso. apply Ign in H. destruct (flagged (tn t1) cf'); [discriminate|].
    simpl in e. lia. }
  subst exec. cbv beta in Ign |- *.
  match type of Ign with ?x = true <-> _ => destruct x eqn:Eig end; simpl.
  - assert (coarsening_ignored t rf cf) by (apply Ign; auto).
    destruct err; simpl; split; eauto; try discriminate. intros G; exfalso; apply G; auto.
  - split; [|eauto]. intros _ H. apply Ign in H. discriminate.
Qed.

(** ** Trees of boxes as input of the traversal *)
Lemma in_list_max l x : In x l -> x <= list_max l.
Proof. intros H. pose proof (proj1 (list_max_le l (list_max l)) (le_n _)) as F. rewrite Forall_forall in F. auto. Qed.

Lemma tree_of_tob_ok s L t : wl s L everything t -> wf_tree (tree_of_tob t 0) /\ wf_flags (tree_of_tob t 0).
Proof.
  intros W. pose proof (wl_n _ _ _ _ W) as N0.
  assert (NL : tob_nlevels t <= L + 1).
  { unfold tob_nlevels. assert (list_max (map (tlevel t) (seq 0 (tn t))) <= L); [|lia].
    apply list_max_le. apply Forall_forall. intros x Hx. apply in_map_iff in Hx.
    destruct Hx as [b [<- Hb]]. apply in_seq in Hb. apply (wl_level _ _ _ _ W); auto; lia. }
  assert (Ch : forall m b, b < tn t -> m < 2 ^ tdim t -> tchild t m b <> 0 -> leaf t b -> False).
  { intros m b Hb Hm Hc Hl. apply Hc, Hl; auto. }
  split.
  - constructor; cbn [tree_of_tob dim nlevels nboxes root_extent box_center box_level box_parent box_child box_flags];
      unfold nchildren; cbn [tree_of_tob dim]; auto.
    + apply (wl_fine _ _ _ _ W).
    + destruct (wl_fine _ _ _ _ W) as [_ F]. eapply Z.divide_trans; [|eauto].
      exists (2 ^ Z.of_nat (L + 1 - tob_nlevels t))%Z. rewrite <- Z.pow_add_r by lia. f_equal. lia.
    + apply (wl_level0 _ _ _ _ W).
    + intros b Hb. apply Nat.lt_succ_r. apply in_list_max. apply in_map. apply in_seq; lia.
    + intros m b Hb Hm. destruct (Nat.eq_dec (tchild t m b) 0) as [E|E]; [lia|]. apply (live_child _ _ _ _ W); auto.
    + intros m b Hb Hm Hc. destruct (wl_child _ _ _ _ W m b Hb eq_refl Hm Hc) as [H1 [_ [H3 [H4 H5]]]].
      destruct (Nat.eqb_spec (tchild t m b) 0); [tauto|]. rewrite H3, Nat2Z.id. repeat split; auto.
    + intros m m' b Hb. apply (wl_inj _ _ _ _ W); auto.
    + intros b Hb0 Hb. destruct (wl_parent _ _ _ _ W b Hb0 Hb eq_refl) as [p [m [Hp [_ [Hm E]]]]].
      destruct (wl_child _ _ _ _ W m p Hp eq_refl Hm) as [_ [_ [P _]]]; [lia|]. rewrite E in P.
      destruct (Nat.eqb_spec b 0); [lia|]. rewrite P, Nat2Z.id. split; auto. eauto.
  - assert (Src : forall b, b < tn t -> flag (tflags t b) IS_SOURCE_BOX = true /\ flag (tflags t b) IS_TARGET_BOX = true /\
       (flag (tflags t b) HAS_SOURCE_CHILD_BOXES = true <-> ~ leaf t b) /\ (flag (tflags t b) HAS_TARGET_CHILD_BOXES = true <-> ~ leaf t b)).
    { intros b Hb. rewrite (wl_flags _ _ _ _ W) by auto. pose proof (all_zero_spec (tdim t) (tchild t) b) as AZ.
      fold (leaf t b) in AZ. unfold compute_flags. destruct (all_zero (tdim t) (tchild t) b).
      - repeat split; auto; try discriminate; tauto.
      - assert (~ leaf t b) by (intros G; apply AZ in G; discriminate). repeat split; auto. }
    assert (NLf : forall b, b < tn t -> ~ leaf t b -> forall m, m < 2 ^ tdim t -> tchild t m b <> 0).
    { intros b Hb H. destruct (wl_full _ _ _ _ W b Hb eq_refl); tauto. }
    pose proof (pow2_nz (tdim t)) as PZ.
    constructor; unfold has_source_child, has_target_child, is_source, is_target, nchildren;
      cbn [tree_of_tob nboxes dim box_flags box_child]; intros m b Hb Hm Hc _; destruct (Src b Hb) as [_ [_ [S1 S2]]];
      [apply S1|apply S2]; eauto.
Qed.

(** ** Coarsening the boxes created by a refinement *)
Definition nothing : nat -> bool := fun _ => false.

Lemma has_box_prefix t p q : has_box t (p ++ q) -> has_box t p.
Proof.
  unfold has_box, box_at. induction q as [|m q IH] using rev_ind; [rewrite app_nil_r; auto|].
  rewrite app_assoc. setoid_rewrite follow_snoc_iff. intros [b [r [Hr _]]]. apply IH. eauto.
Qed.
Lemma leaf_paths t p b : box_at t p = Some b ->
  (leaf t b <-> forall m, m < 2 ^ tdim t -> ~ has_box t (p ++ [m])).
Proof.
  intros Hb. unfold leaf, has_box, box_at in *. setoid_rewrite follow_snoc_iff. split.
  - intros H m Hm [c [r [Hr [_ [Hc _]]]]]. rewrite Hb in Hr. inversion Hr; subst. apply Hc; auto.
  - intros H m Hm. destruct (Nat.eq_dec (tchild t m b) 0) as [|Hc]; auto. exfalso.
    apply (H m Hm). exists (tchild t m b), b. auto.
Qed.

Section undo.
Variables (s L : nat) (t t1 u1 : tob) (rf cf : nat -> bool) (err : bool) (o1 : list nat).
Hypothesis W : wl s L everything t.
Hypothesis LS : L < s.
Hypothesis HL : forall b, b < tn t -> rf b = true -> tlevel t b < L.
Hypothesis U1 : unsorted_result s rf nothing err t = Ok u1.
Hypothesis A1 : argsort_ok (tn u1) (tlevel u1) o1.
Hypothesis OK1 : refine_and_coarsen s o1 rf nothing err t = Ok t1.
Hypothesis CF : forall p b, box_at t1 p = Some b -> (cf b = true <-> ~ has_box t p).

Let W1 : wl s L everything t1 := proj1 (step_inv _ _ _ _ _ _ _ _ _ W LS HL U1 A1 OK1).
Let D1 : tdim t1 = tdim t := proj1 (step_dim _ _ _ _ _ _ _ _ _ W LS HL U1 A1 OK1).

Lemma refined_paths p : has_box t1 p <-> has_box t p \/ created t rf p.
Proof.
  rewrite (step_paths _ _ _ _ _ _ _ _ _ W LS HL U1 A1 OK1). split; [tauto|].
  intros H. split; auto. intros [q [m [_ [_ [[m' [b [_ [_ F]]]] _]]]]]. discriminate.
Qed.
Lemma refined_leaf b p : box_at t p = Some b -> rf b = true -> leaf t b.
Proof.
  intros Hb Hrf. destruct (step_split _ _ _ _ _ _ _ _ U1 OK1) as [x [R _]].
  eapply refine_leaf; eauto. apply (follow_live _ _ _ _ W _ _ Hb).
Qed.
(** siblings of a new box are new, and new boxes are leaves *)
Lemma new_sibling q m k : ~ has_box t (q ++ [m]) -> has_box t1 (q ++ [m]) -> k < 2 ^ tdim t ->
  ~ has_box t (q ++ [k]) /\ has_box t1 (q ++ [k]).
Proof.
  intros N H Hk. apply refined_paths in H. destruct H as [H|H]; [tauto|].
  destruct H as [q' [m' [b [E [Hm [Hb Hrf]]]]]]. apply app_inj_tail in E. destruct E as [-> ->].
  split.
  - apply (leaf_paths t q' b); auto. eapply refined_leaf; eauto.
  - apply refined_paths. right. exists q', k, b. auto.
Qed.
Lemma new_leaf p b : ~ has_box t p -> box_at t1 p = Some b -> leaf t1 b.
Proof.
  intros N Hb. apply (leaf_paths t1 p b); auto. intros m Hm G. apply refined_paths in G.
  destruct G as [G|[q [k [c [E [Hk [Hc Hrf]]]]]]].
  - apply has_box_prefix in G. tauto.
  - apply app_inj_tail in E. destruct E as [-> ->]. apply N. exists c. auto.
Qed.

Lemma removed_new p : has_box t1 p -> (removed t1 nothing cf p <-> ~ has_box t p).
Proof.
  intros Hp. split.
  - intros [q [m [-> [Hm [[m' [b [Hm' [Hb Hcf]]]] _]]]]].
    rewrite (CF _ _ Hb) in Hcf. rewrite D1 in Hm. eapply (new_sibling q m' m); eauto. exists b; auto.
  - intros N. assert (Hp' := Hp). apply refined_paths in Hp'. destruct Hp' as [?|[q [m [b [-> [Hm [Hb Hrf]]]]]]]; [tauto|].
    exists q, m. rewrite D1. split; auto. split; auto. split.
    + destruct Hp as [c Hc]. exists m, c. repeat split; auto. apply (CF _ _ Hc). auto.
    + intros k Hk. destruct (new_sibling q m k N Hp Hk) as [N' [c Hc]]. exists c.
      split; auto. split; auto. eapply new_leaf; eauto.
Qed.

Lemma box_path b : b < tn t1 -> exists p, box_at t1 p = Some b.
Proof. intros Hb. apply (live_path _ _ _ _ W1); auto. Qed.

Lemma undo_not_bad : ~ bad_request t1 nothing cf.
Proof.
  intros [b [Hb H]]. destruct (box_path b Hb) as [p Hp].
  destruct H as [[H _]|[[H _]|[[H1 H2]|[H1 H2]]]]; try discriminate.
  - apply H2. apply (CF _ _ Hp) in H1. eapply new_leaf; eauto.
  - apply (CF _ _ Hp) in H1. subst b. assert (box_at t1 [] = Some 0) by reflexivity.
    assert (p = []) by (eapply (follow_inj _ _ _ _ W1); eauto). subst p. apply H1. exists 0. reflexivity.
Qed.
Lemma undo_not_ignored : ~ coarsening_ignored t1 nothing cf.
Proof.
  intros [q0 [m [m' [Hq0 [Hm [Hm' [Hc [Hcf [Hor|Hor]]]]]]]]]; [|discriminate].
  destruct (box_path q0 Hq0) as [q Hq].
  assert (Hb : box_at t1 (q ++ [m]) = Some (tchild t1 m q0)) by (apply follow_snoc_iff; eauto).
  apply (CF _ _ Hb) in Hcf. rewrite D1 in Hm'.
  destruct (new_sibling q m m' Hcf ltac:(eexists; eauto) Hm') as [N' [c Hc']].
  assert (Hb' : box_at t1 (q ++ [m']) = Some (tchild t1 m' q0)).
  { rewrite Hc'. unfold box_at in Hc', Hq. apply follow_snoc_iff in Hc'. destruct Hc' as [r [Hr [_ [_ E]]]]. congruence. }
  apply Hor. eapply new_leaf; eauto.
Qed.

Theorem undo_ok err2 : exists u2, unsorted_result s nothing cf err2 t1 = Ok u2 /\
  forall o2, argsort_ok (tn u2) (tlevel u2) o2 ->
  exists t2, refine_and_coarsen s o2 nothing cf err2 t1 = Ok t2 /\ same_boxes t t2.
Proof.
  pose proof removed_new as RN. pose proof refined_leaf as RL. pose proof refined_paths as RP.
  assert (HL1 : forall b, b < tn t1 -> nothing b = true -> tlevel t1 b < L) by discriminate.
  assert (Ex : forall o2, exists t2, refine_and_coarsen s o2 nothing cf err2 t1 = Ok t2).
  { intros o2. destruct (outcome s L t1 nothing cf err2 o2 W1 HL1) as [_ H].
    destruct (H undo_not_bad) as [_ H']. apply H'. intros [_ G]. apply undo_not_ignored; auto. }
  assert (U2 : exists u2, unsorted_result s nothing cf err2 t1 = Ok u2).
  { destruct (Ex []) as [t2 E]. unfold refine_and_coarsen in E. unfold unsorted_result.
    destruct (any _ _); [discriminate|]. destruct (apply_refine nothing t1) as [x| |]; simpl in *; try discriminate.
    destruct (apply_coarsen _ _ _ x) as [y| |]; simpl in *; try discriminate. eauto. }
  destruct U2 as [u2 U2]. exists u2. split; auto. intros o2 A2. destruct (Ex o2) as [t2 OK2].
  exists t2. split; auto.
  destruct (step_inv _ _ _ _ _ _ _ _ _ W1 LS HL1 U2 A2 OK2) as [W2 _].
  destruct (step_dim _ _ _ _ _ _ _ _ _ W LS HL U1 A1 OK1) as [E1 [E2 E3]].
  destruct (step_dim _ _ _ _ _ _ _ _ _ W1 LS HL1 U2 A2 OK2) as [F1 [F2 F3]].
  apply (same_boxes_intro s L t t2 W W2).
  - congruence.
  - congruence.
  - intros a Ha. rewrite F3, E3. auto.
  - intros p. rewrite (step_paths _ _ _ _ _ _ _ _ _ W1 LS HL1 U2 A2 OK2). split.
    + intros H. assert (has_box t1 p) by (apply RP; auto). split; auto.
      rewrite RN; auto.
    + intros [[H|[q [m [b [_ [_ [_ F]]]]]]] N]; [|discriminate].
      rewrite RN in N by auto. apply RP in H. destruct H as [H|H]; auto.
      exfalso. apply N. destruct H as [q [m [b [-> [Hm [Hb Hrf]]]]]].
      apply (leaf_paths t q b); auto. eapply RL; eauto.
Qed.
End undo.

(** ** Decidability *)
Lemma ex_dec (n : nat) (P : nat -> Prop) : (forall b, b < n -> P b \/ ~ P b) ->
  (exists b, b < n /\ P b) \/ ~ (exists b, b < n /\ P b).
Proof.
  induction n as [|n IH]; intros H.
  - right. intros [b [Hb _]]. lia.
  - destruct IH as [[b [Hb Pb]]|N]; [intros; apply H; lia|left; exists b; split; auto; lia|].
    destruct (H n (le_n _)) as [Pn|Nn]; [left; exists n; split; auto|].
    right. intros [b [Hb Pb]]. destruct (Nat.eq_dec b n) as [->|]; [tauto|]. apply N. exists b. split; auto. lia.
Qed.

Lemma outcome_dec s L t rf cf : wl s L everything t -> (forall b, b < tn t -> rf b = true -> tlevel t b < L) ->
  bad_request t rf cf \/ ~ bad_request t rf cf.
Proof.
  intros W _. apply ex_dec. intros b Hb. destruct (leaf_dec _ _ _ _ W Hb); destruct (rf b); destruct (cf b);
  destruct (Nat.eq_dec b 0); intuition discriminate.
Qed.
Lemma ignored_dec s L t rf cf : wl s L everything t ->
  coarsening_ignored t rf cf \/ ~ coarsening_ignored t rf cf.
Proof.
  intros W. destruct (ex_dec (tn t) (fun p => exists m, m < 2 ^ tdim t /\ exists m', m' < 2 ^ tdim t /\
    tchild t m p <> 0 /\ cf (tchild t m p) = true /\
    (~ leaf t (tchild t m' p) \/ rf (tchild t m' p) = true))) as [H|H].
  - intros p Hp. apply ex_dec. intros m Hm. apply ex_dec. intros m' Hm'.
    destruct (Nat.eq_dec (tchild t m p) 0) as [|Hc]; [tauto|].
    assert (Hn : tchild t m' p < tn t).
    { apply (live_child _ _ _ _ W); auto. destruct (wl_full _ _ _ _ W p Hp eq_refl) as [F|F]; [|apply F; auto].
      exfalso. apply Hc, F; auto. }
    destruct (leaf_dec _ _ _ _ W Hn); destruct (cf (tchild t m p)); destruct (rf (tchild t m' p)); intuition discriminate.
  - left. destruct H as [p [Hp [m [Hm [m' [Hm' H]]]]]]. exists p, m, m'. tauto.
  - right. intros [p [m [m' H1]]]. apply H. exists p. split; [tauto|]. exists m. split; [tauto|]. exists m'. tauto.
Qed.
