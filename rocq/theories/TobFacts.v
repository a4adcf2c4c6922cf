(** Proofs about refining and coarsening. Nothing here models code. *)
From Coq Require Import List Arith ZArith NArith Lia Bool Permutation.
From Verif Require Import Base Tree Traversal Coverage TreeOfBoxes SpecTob.
Import ListNotations.

(** ** Flags *)
Lemma all_zero_spec d child b : all_zero d child b = true <-> forall m, m < 2 ^ d -> child m b = 0.
Proof.
  unfold all_zero. rewrite forallb_forall. split; intros H m Hm.
  - apply Nat.eqb_eq. apply H. apply in_seq. lia.
  - apply in_seq in Hm. apply Nat.eqb_eq. apply H. lia.
Qed.

Lemma leaf_flag d child b : flag (compute_flags d child b) IS_LEAF_BOX = all_zero d child b.
Proof. unfold compute_flags. destruct (all_zero d child b); reflexivity. Qed.

Lemma compute_flags_ext d child child' b b' :
  (forall m, m < 2 ^ d -> child m b = 0 <-> child' m b' = 0) ->
  compute_flags d child b = compute_flags d child' b'.
Proof.
  intros H. unfold compute_flags.
  replace (all_zero d child b) with (all_zero d child' b'); auto.
  apply eq_true_iff_eq. rewrite !all_zero_spec.
  split; intros G m Hm; apply H; auto.
Qed.

Lemma any_false n p : any n p = false <-> forall b, b < n -> p b = false.
Proof.
  unfold any. split.
  - intros H b Hb. destruct (p b) eqn:E; auto.
    assert (existsb p (seq 0 n) = true) by (apply existsb_exists; exists b; split; auto; apply in_seq; lia).
    congruence.
  - intros H. destruct (existsb p (seq 0 n)) eqn:E; auto.
    apply existsb_exists in E. destruct E as [b [Hb E]]. apply in_seq in Hb. rewrite H in E by lia. discriminate.
Qed.
Lemma any_true n p : any n p = true <-> exists b, b < n /\ p b = true.
Proof.
  unfold any. rewrite existsb_exists. split; intros [b [H1 H2]]; exists b; split; auto.
  - apply in_seq in H1; lia.
  - apply in_seq; lia.
Qed.

Lemma in_flagged n f b : In b (flagged n f) <-> b < n /\ f b = true.
Proof. unfold flagged. rewrite filter_In, in_seq. split; intros [? ?]; split; auto; lia. Qed.
Lemma flagged_NoDup n f : NoDup (flagged n f).
Proof. apply NoDup_filter, seq_NoDup. Qed.

Lemma index_of_Some b l j : index_of b l = Some j -> j < length l /\ nth j l 0 = b.
Proof.
  revert j; induction l as [|x l IH]; simpl; intros j H; [discriminate|].
  destruct (Nat.eqb_spec x b).
  - inversion H; subst. split; auto; lia.
  - destruct (index_of b l); simpl in H; [|discriminate]. inversion H; subst.
    destruct (IH n0 eq_refl). split; auto; lia.
Qed.
Lemma index_of_None b l : index_of b l = None <-> ~ In b l.
Proof.
  induction l as [|x l IH]; simpl; [tauto|].
  destruct (Nat.eqb_spec x b).
  - split; [discriminate|]. intros H; exfalso; auto.
  - destruct (index_of b l); simpl.
    + split; [discriminate|]. intros H. exfalso. assert (~ In b l) by tauto. apply IH in H0. discriminate.
    + split; auto. intros _ [?|?]; [congruence|]. apply IH in H; auto.
Qed.
Lemma index_of_nth l j : NoDup l -> j < length l -> index_of (nth j l 0) l = Some j.
Proof.
  intros ND Hj. destruct (index_of (nth j l 0) l) as [k|] eqn:E.
  - apply index_of_Some in E. destruct E as [Hk E]. f_equal.
    eapply (proj1 (NoDup_nth l 0)); eauto.
  - apply index_of_None in E. exfalso. apply E, nth_In; auto.
Qed.

(** ** Invariant of a possibly unsorted tree with deleted boxes *)
Record wl (s L : nat) (live : nat -> bool) (t : tob) : Prop := {
  wl_fine : fine_unit L t;
  wl_n : 0 < tn t;
  wl_live0 : live 0 = true;
  wl_level0 : tlevel t 0 = 0;
  wl_parent0 : tparent t 0 = (-1)%Z;
  wl_child : forall m b, b < tn t -> live b = true -> m < 2 ^ tdim t -> tchild t m b <> 0 ->
     tchild t m b < tn t /\ live (tchild t m b) = true /\
     tparent t (tchild t m b) = Z.of_nat b /\
     tlevel t (tchild t m b) = S (tlevel t b) /\
     forall a, a < tdim t -> tcenter t (tchild t m b) a =
        (tcenter t b a + morton_sign (tdim t) m a * (textent t / 2 ^ Z.of_nat (tlevel t (tchild t m b) + 1)))%Z;
  wl_full : forall b, b < tn t -> live b = true -> leaf t b \/ (forall m, m < 2 ^ tdim t -> tchild t m b <> 0);
  wl_inj : forall m m' b, b < tn t -> live b = true -> m < 2 ^ tdim t -> m' < 2 ^ tdim t ->
     tchild t m b <> 0 -> tchild t m b = tchild t m' b -> m = m';
  wl_parent : forall b, 0 < b -> b < tn t -> live b = true ->
     exists p m, p < tn t /\ live p = true /\ m < 2 ^ tdim t /\ tchild t m p = b;
  wl_level : forall b, b < tn t -> live b = true -> tlevel t b <= L;
  wl_stale : forall b, b < tn t -> live b = false -> tlevel t b = s;
  wl_flags : forall b, b < tn t -> tflags t b = compute_flags (tdim t) (tchild t) b
}.

Definition everything : nat -> bool := fun _ => true.

Lemma is_leaf_spec s L live t b : wl s L live t -> b < tn t -> (is_leaf t b = true <-> leaf t b).
Proof. intros W Hb. unfold is_leaf. rewrite (wl_flags _ _ _ _ W) by auto. rewrite leaf_flag. apply all_zero_spec. Qed.
Lemma is_leaf_false s L live t b : wl s L live t -> b < tn t -> live b = true ->
  is_leaf t b = false -> forall m, m < 2 ^ tdim t -> tchild t m b <> 0.
Proof.
  intros W Hb Hl H. destruct (wl_full _ _ _ _ W b Hb Hl) as [G|G]; auto.
  apply (is_leaf_spec _ _ _ _ _ W Hb) in G. congruence.
Qed.

Lemma pow2_nz d : 2 ^ d <> 0.
Proof. apply Nat.pow_nonzero; lia. Qed.

(** ** Paths *)
Lemma follow_snoc t b q m :
  follow t b (q ++ [m]) =
  match follow t b q with
  | Some c => if (m <? 2 ^ tdim t) && negb (tchild t m c =? 0) then Some (tchild t m c) else None
  | None => None
  end.
Proof.
  revert b; induction q as [|k q IH]; intros b; simpl; [reflexivity|].
  destruct ((k <? 2 ^ tdim t) && negb (tchild t k b =? 0)); auto.
Qed.
Lemma step_iff t m c b : (if (m <? 2 ^ tdim t) && negb (tchild t m c =? 0) then Some (tchild t m c) else None) = Some b
  <-> m < 2 ^ tdim t /\ tchild t m c <> 0 /\ tchild t m c = b.
Proof.
  destruct (Nat.ltb_spec m (2 ^ tdim t)); simpl.
  - destruct (Nat.eqb_spec (tchild t m c) 0); simpl.
    + split; [discriminate|]. intuition.
    + split; [intros E; inversion E; auto|]. intros [_ [_ ->]]; auto.
  - split; [discriminate|]. intuition lia.
Qed.
Lemma follow_snoc_iff t b q m c :
  follow t b (q ++ [m]) = Some c <->
  exists r, follow t b q = Some r /\ m < 2 ^ tdim t /\ tchild t m r <> 0 /\ tchild t m r = c.
Proof.
  rewrite follow_snoc. destruct (follow t b q) as [r|].
  - rewrite step_iff. split.
    + intros H. exists r. auto.
    + intros [r' [E H]]. inversion E; subst; auto.
  - split; [discriminate|]. intros [r [E _]]; discriminate.
Qed.

Section live_paths.
Variables (s L : nat) (live : nat -> bool) (t : tob).
Hypothesis W : wl s L live t.

Lemma follow_live p b : follow t 0 p = Some b -> b < tn t /\ live b = true /\ tlevel t b = length p.
Proof.
  revert b; induction p as [|m q IH] using rev_ind; intros b.
  - simpl. intros E; inversion E; subst. split; [apply (wl_n _ _ _ _ W)|].
    split; [apply (wl_live0 _ _ _ _ W)|apply (wl_level0 _ _ _ _ W)].
  - rewrite follow_snoc_iff. intros [r [E [Hm [Hc <-]]]].
    destruct (IH r E) as [Hr [Hlr Hlen]].
    destruct (wl_child _ _ _ _ W m r) as [H1 [H2 [H3 [H4 _]]]]; auto.
    repeat split; auto. rewrite app_length. simpl. lia.
Qed.

Lemma live_child m b : b < tn t -> live b = true -> m < 2 ^ tdim t -> tchild t m b <> 0 ->
  tchild t m b < tn t /\ live (tchild t m b) = true.
Proof. intros. destruct (wl_child _ _ _ _ W m b); intuition. Qed.

Lemma live_path b : b < tn t -> live b = true -> exists p, follow t 0 p = Some b.
Proof.
  remember (tlevel t b) as l. revert b Heql.
  induction l as [l IH] using lt_wf_ind. intros b -> Hb Hl.
  destruct (Nat.eq_dec b 0) as [->|Hne]; [exists []; reflexivity|].
  destruct (wl_parent _ _ _ _ W b) as [p [m [Hp [Hlp [Hm E]]]]]; auto; try lia.
  destruct (wl_child _ _ _ _ W m p) as [_ [_ [_ [Hlev _]]]]; auto; try lia. 
  rewrite E in Hlev.
  destruct (IH (tlevel t p) ltac:(lia) p eq_refl Hp Hlp) as [q Hq].
  exists (q ++ [m]). apply follow_snoc_iff. exists p. repeat split; auto; lia.
Qed.

Lemma live_level0 b : b < tn t -> live b = true -> tlevel t b = 0 -> b = 0.
Proof.
  intros Hb Hl E. destruct (live_path b Hb Hl) as [p Hp].
  destruct (follow_live _ _ Hp) as [_ [_ H]]. destruct p; simpl in *; [congruence|lia].
Qed.

Lemma follow_inj p q b : follow t 0 p = Some b -> follow t 0 q = Some b -> p = q.
Proof.
  revert q b; induction p as [|m p IH] using rev_ind; intros q b Hp Hq;
  pose proof (follow_live _ _ Hp) as [_ [_ Lp]]; pose proof (follow_live _ _ Hq) as [_ [_ Lq]];
  destruct q as [|k q _] using rev_ind; rewrite ?app_length in *; simpl in *; auto; try lia.
  apply follow_snoc_iff in Hp. apply follow_snoc_iff in Hq.
  destruct Hp as [r [Hr [Hm [Hc E]]]]. destruct Hq as [r' [Hr' [Hm' [Hc' E']]]].
  destruct (follow_live _ _ Hr) as [Hrn [Hrl _]]. destruct (follow_live _ _ Hr') as [Hrn' [Hrl' _]].
  destruct (wl_child _ _ _ _ W m r) as [_ [_ [P1 _]]]; auto.
  destruct (wl_child _ _ _ _ W k r') as [_ [_ [P2 _]]]; auto.
  rewrite E in P1. rewrite E' in P2. assert (r = r') by lia. subst r'.
  assert (m = k) by (eapply (wl_inj _ _ _ _ W); eauto; congruence). subst.
  f_equal. eapply IH; eauto.
Qed.
End live_paths.

(** ** The root *)
Lemma make_root_wl s L d lo hi t : make_root d lo hi = Some t -> fine_unit L t ->
  wl s L everything t.
Proof.
  unfold make_root. destruct forallb; [|discriminate]. intros E F. inversion E; subst. clear E.
  constructor; cbn [tdim tn textent tcenter tparent tchild tlevel tflags]; auto; try (intros; lia).
  - intros; left; intros m Hm; reflexivity.
  - intros; discriminate.
Qed.

Lemma div_pow_mul E sgn l L : (2 ^ Z.of_nat (L + 1) | E)%Z -> l <= L ->
  (E * sgn / 2 ^ Z.of_nat (1 + l) = sgn * (E / 2 ^ Z.of_nat (l + 1)))%Z.
Proof.
  intros [k ->] Hl. replace (Z.of_nat (L + 1)) with (Z.of_nat (L - l) + Z.of_nat (l + 1))%Z by lia.
  rewrite Z.pow_add_r by lia. replace (Z.of_nat (1 + l)) with (Z.of_nat (l + 1)) by lia.
  set (p := (2 ^ Z.of_nat (l + 1))%Z). assert (0 < p)%Z by (apply Z.pow_pos_nonneg; lia).
  set (q := (2 ^ Z.of_nat (L - l))%Z).
  replace (k * (q * p) * sgn)%Z with ((k * q * sgn) * p)%Z by ring.
  replace (k * (q * p))%Z with ((k * q) * p)%Z by ring.
  rewrite !Z.div_mul by lia. ring.
Qed.

(** ** Refinement *)
Section refine.
Variables (s L : nat) (t t1 : tob) (rf : nat -> bool).
Hypothesis W : wl s L everything t.
Hypothesis HL : forall b, b < tn t -> rf b = true -> tlevel t b < L.
Hypothesis OK : apply_refine rf t = Ok t1.

Let R := flagged (tn t) rf.
Let nch := 2 ^ tdim t.

Lemma refine_leaf b : b < tn t -> rf b = true -> leaf t b.
Proof.
  unfold apply_refine in OK. destruct (any _ _) eqn:E; [discriminate|].
  intros Hb Hrf. rewrite any_false in E. specialize (E b Hb). rewrite Hrf in E. simpl in E.
  apply (is_leaf_spec _ _ _ _ _ W Hb). destruct (is_leaf t b); auto.
Qed.

Lemma refine_dim : tdim t1 = tdim t /\ textent t1 = textent t /\ tn t1 = tn t + length R * nch.
Proof.
  unfold apply_refine in OK. destruct (any _ _) eqn:E; [discriminate|].
  destruct (Nat.eqb_spec (length (flagged (tn t) rf)) 0).
  - inversion OK; subst. unfold R. rewrite e. auto.
  - inversion OK; subst. auto.
Qed.

Lemma R_empty : length R = 0 -> forall b, b < tn t -> rf b = false.
Proof.
  intros H b Hb. destruct (rf b) eqn:E; auto.
  assert (In b R) by (apply in_flagged; auto). destruct R; [destruct H0|discriminate].
Qed.

Lemma refine_old b : b < tn t -> tlevel t1 b = tlevel t b /\ tparent t1 b = tparent t b /\
  (forall a, tcenter t1 b a = tcenter t b a) /\
  (rf b = false -> forall m, tchild t1 m b = tchild t m b).
Proof.
  intros Hb. unfold apply_refine in OK. destruct (any _ _) eqn:E; [discriminate|].
  destruct (Nat.eqb_spec (length (flagged (tn t) rf)) 0) as [e|e].
  - inversion OK; subst. auto.
  - inversion OK; subst; cbn [tlevel tparent tcenter tchild]. assert (B : (b <? tn t) = true) by (apply Nat.ltb_lt; auto).
    rewrite B. repeat split; auto. intros Hrf m.
    replace (index_of b (flagged (tn t) rf)) with (@None nat).
    + unfold resized. rewrite B. auto.
    + symmetry. apply index_of_None. rewrite in_flagged. intros [_ ?]; congruence.
Qed.

Lemma refine_new j m : j < length R -> m < nch ->
  let p := nth j R 0 in let c := tn t + nch * j + m in
  p < tn t /\ rf p = true /\ tchild t1 m p = c /\ c < tn t1 /\ tparent t1 c = Z.of_nat p /\
  tlevel t1 c = S (tlevel t p) /\ (forall m', tchild t1 m' c = 0) /\
  (forall a, a < tdim t -> tcenter t1 c a = (tcenter t p a + morton_sign (tdim t) m a * (textent t / 2 ^ Z.of_nat (tlevel t1 c + 1)))%Z).
Proof.
  intros Hj Hm p c.
  assert (Hp : In p R) by (apply nth_In; auto). apply in_flagged in Hp. destruct Hp as [Hp Hrf].
  pose proof refine_dim as [D1 [D2 D3]].
  assert (Cn : c < tn t1).
  { rewrite D3. unfold c. assert (nch * j + m < length R * nch) by nia. lia. }
  assert (Nz : nch <> 0) by apply pow2_nz.
  assert (Q : (c - tn t) / nch = j).
  { unfold c. replace (tn t + nch * j + m - tn t) with (j * nch + m) by lia. rewrite Nat.div_add_l by auto.
    rewrite Nat.div_small by auto. lia. }
  assert (M : (c - tn t) mod nch = m).
  { unfold c. replace (tn t + nch * j + m - tn t) with (m + j * nch) by lia. rewrite Nat.mod_add by auto.
    apply Nat.mod_small; auto. }
  assert (B : (c <? tn t) = false) by (apply Nat.ltb_ge; unfold c; lia).
  unfold apply_refine in OK. destruct (any _ _) eqn:E; [discriminate|].
  fold R in OK. destruct (Nat.eqb_spec (length R) 0) as [e|e]; [lia|].
  inversion OK; subst t1; cbn [tlevel tparent tcenter tchild tn] in *. clear OK.
  unfold tnch in *. fold nch in Cn |- *. rewrite B, Q, M. fold p.
  repeat split; auto.
  - unfold p. rewrite index_of_nth; auto. apply flagged_NoDup.
  - lia.
  - intros m'. replace (index_of c R) with (@None nat).
    + unfold resized. rewrite B. reflexivity.
    + symmetry. apply index_of_None. unfold R. rewrite in_flagged. intros [? _]. unfold c in H; lia.
  - intros a Ha. f_equal. apply (div_pow_mul _ _ _ L).
    + apply (wl_fine _ _ _ _ W).
    + specialize (HL p Hp Hrf). lia.
Qed.

Lemma R_index b : b < tn t -> rf b = true -> exists j, j < length R /\ nth j R 0 = b.
Proof. intros Hb Hrf. apply In_nth. apply in_flagged; auto. Qed.

Lemma new_box b : tn t <= b < tn t1 -> exists j m, j < length R /\ m < nch /\ b = tn t + nch * j + m.
Proof.
  intros [H1 H2]. pose proof refine_dim as [D1 [D2 D3]]. assert (Nz : nch <> 0) by apply pow2_nz.
  exists ((b - tn t) / nch), ((b - tn t) mod nch).
  pose proof (Nat.div_mod (b - tn t) nch Nz). pose proof (Nat.mod_upper_bound (b - tn t) nch Nz).
  repeat split; auto; try lia. apply Nat.div_lt_upper_bound; auto. lia.
Qed.

Lemma refine_flags b : b < tn t1 -> tflags t1 b = compute_flags (tdim t1) (tchild t1) b.
Proof.
  intros Hb. unfold apply_refine in OK. destruct (any _ _) eqn:E; [discriminate|].
  destruct (Nat.eqb_spec (length (flagged (tn t) rf)) 0) as [e|e].
  - inversion OK; subst. apply (wl_flags _ _ _ _ W). auto.
  - inversion OK; subst; reflexivity.
Qed.

Lemma refine_wl : wl s L everything t1.
Proof.
  pose proof refine_dim as [D1 [D2 D3]].
  assert (N0 : 0 < tn t) by apply (wl_n _ _ _ _ W).
  assert (Hch : forall m b, b < tn t1 -> m < nch -> tchild t1 m b <> 0 ->
     (b < tn t /\ rf b = false /\ tchild t1 m b = tchild t m b) \/
     (exists j, j < length R /\ b = nth j R 0 /\ b < tn t /\ rf b = true /\ tchild t1 m b = tn t + nch * j + m)).
  { intros m b Hb Hm Hc. destruct (lt_dec b (tn t)) as [Hbt|Hbt].
    - destruct (rf b) eqn:Erf.
      + right. destruct (R_index b Hbt Erf) as [j [Hj E]]. exists j.
        destruct (refine_new j m Hj Hm) as [_ [_ [E2 _]]]. rewrite E in E2. auto.
      + left. repeat split; auto. apply refine_old; auto.
    - exfalso. destruct (new_box b) as [j [m' [Hj [Hm' ->]]]]; [lia|].
      destruct (refine_new j m' Hj Hm') as [_ [_ [_ [_ [_ [_ [E _]]]]]]]. apply Hc, E. }
  constructor; unfold leaf; rewrite ?D1, ?D2.
  - destruct (wl_fine _ _ _ _ W). split; rewrite ?D2; auto.
  - lia.
  - reflexivity.
  - rewrite (proj1 (refine_old 0 N0)). apply (wl_level0 _ _ _ _ W).
  - rewrite (proj1 (proj2 (refine_old 0 N0))). apply (wl_parent0 _ _ _ _ W).
  - intros m b Hb _ Hm Hc. fold nch in Hm.
    destruct (Hch m b Hb Hm Hc) as [[Hbt [Hrf E]]|[j [Hj [Hbj [Hbt [Hrf E]]]]]]; rewrite E.
    + rewrite E in Hc. destruct (wl_child _ _ _ _ W m b Hbt eq_refl Hm Hc) as [H1 [_ [H3 [H4 H5]]]].
      destruct (refine_old _ H1) as [G1 [G2 [G3 _]]]. destruct (refine_old _ Hbt) as [K1 [K2 [K3 _]]].
      rewrite G1, G2, K1. repeat split; auto; [lia|]. intros a Ha. rewrite G3, K3. auto.
    + destruct (refine_new j m Hj Hm) as [_ [_ [_ [H4 [H5 [H6 [_ H8]]]]]]].
      rewrite <- Hbj in *. destruct (refine_old _ Hbt) as [K1 [K2 [K3 _]]].
      rewrite K1. repeat split; auto. intros a Ha. rewrite K3. auto.
  - intros b Hb _. fold nch. destruct (lt_dec b (tn t)) as [Hbt|Hbt].
    + destruct (rf b) eqn:Erf.
      * right. intros m Hm. destruct (R_index b Hbt Erf) as [j [Hj E]].
        destruct (refine_new j m Hj Hm) as [_ [_ [E2 _]]]. rewrite E in E2. rewrite E2. lia.
      * destruct (wl_full _ _ _ _ W b Hbt eq_refl) as [G|G]; [left|right]; intros m Hm;
        rewrite (proj2 (proj2 (proj2 (refine_old _ Hbt))) Erf); auto.
    + left. intros m Hm. destruct (new_box b) as [j [m' [Hj [Hm' ->]]]]; [lia|].
      destruct (refine_new j m' Hj Hm') as [_ [_ [_ [_ [_ [_ [E _]]]]]]]. apply E.
  - intros m m' b Hb _ Hm Hm' Hc E. fold nch in Hm, Hm'.
    destruct (Hch m b Hb Hm Hc) as [[Hbt [Hrf E1]]|[j [Hj [Hbj [Hbt [Hrf E1]]]]]];
    destruct (Hch m' b Hb Hm' ltac:(congruence)) as [[Hbt' [Hrf' E1']]|[j' [Hj' [Hbj' [Hbt' [Hrf' E1']]]]]]; try congruence.
    + eapply (wl_inj _ _ _ _ W); eauto; congruence.
    + assert (j = j'). { eapply (proj1 (NoDup_nth R 0)); eauto; try apply flagged_NoDup. congruence. }
      subst j'. lia.
  - intros b Hb0 Hb _. fold nch. destruct (lt_dec b (tn t)) as [Hbt|Hbt].
    + destruct (wl_parent _ _ _ _ W b Hb0 Hbt eq_refl) as [p [m [Hp [_ [Hm E]]]]].
      exists p, m. repeat split; auto; [lia|].
      destruct (rf p) eqn:Erf.
      * pose proof (refine_leaf p Hp Erf m Hm). lia.
      * rewrite (proj2 (proj2 (proj2 (refine_old _ Hp))) Erf). auto.
    + destruct (new_box b) as [j [m [Hj [Hm ->]]]]; [lia|].
      destruct (refine_new j m Hj Hm) as [H1 [_ [H3 _]]].
      exists (nth j R 0), m. repeat split; auto. lia.
  - intros b Hb _. destruct (lt_dec b (tn t)) as [Hbt|Hbt].
    + rewrite (proj1 (refine_old _ Hbt)). apply (wl_level _ _ _ _ W); auto.
    + destruct (new_box b) as [j [m [Hj [Hm ->]]]]; [lia|].
      destruct (refine_new j m Hj Hm) as [H1 [H2 [_ [_ [_ [H6 _]]]]]]. rewrite H6. apply HL; auto.
  - intros; discriminate.
  - intros b Hb. rewrite refine_flags by auto. rewrite D1. reflexivity.
Qed.

Lemma refine_follow_old p b : follow t 0 p = Some b -> follow t1 0 p = Some b.
Proof.
  pose proof refine_dim as [D1 [D2 D3]].
  revert b; induction p as [|m p IH] using rev_ind; intros b; [auto|].
  rewrite !follow_snoc_iff. intros [r [Hr [Hm [Hc E]]]]. exists r. rewrite D1.
  destruct (follow_live _ _ _ _ W _ _ Hr) as [Hrn _].
  destruct (rf r) eqn:Erf.
  - exfalso. apply Hc. apply refine_leaf; auto.
  - rewrite (proj2 (proj2 (proj2 (refine_old _ Hrn))) Erf). auto.
Qed.
Lemma refine_follow_new q m r : follow t 0 q = Some r -> rf r = true -> m < nch ->
  exists b, follow t1 0 (q ++ [m]) = Some b /\ tn t <= b < tn t1.
Proof.
  pose proof refine_dim as [D1 [D2 D3]].
  intros Hq Hrf Hm. destruct (follow_live _ _ _ _ W _ _ Hq) as [Hrn _].
  destruct (R_index r Hrn Hrf) as [j [Hj E]].
  destruct (refine_new j m Hj Hm) as [_ [_ [H3 [H4 _]]]]. rewrite E in H3.
  exists (tchild t1 m r). rewrite follow_snoc_iff, H3. split; [|lia].
  exists r. rewrite D1, H3. repeat split; auto; try lia.
  apply refine_follow_old; auto.
Qed.
Lemma refine_follow_inv p b : follow t1 0 p = Some b ->
  follow t 0 p = Some b /\ b < tn t \/
  tn t <= b /\ exists q m r, p = q ++ [m] /\ m < nch /\ follow t 0 q = Some r /\ rf r = true.
Proof.
  pose proof refine_dim as [D1 [D2 D3]].
  revert b; induction p as [|m p IH] using rev_ind; intros b.
  - intros E. left. split; auto. simpl in E. inversion E; subst. apply (wl_n _ _ _ _ W).
  - rewrite follow_snoc_iff. intros [r [Hr [Hm [Hc E]]]]. rewrite D1 in Hm.
    destruct (IH r Hr) as [[Hq Hrn]|[Hge _]].
    + destruct (rf r) eqn:Erf.
      * right. destruct (R_index r Hrn Erf) as [j [Hj Ej]].
        destruct (refine_new j m Hj Hm) as [_ [_ [H3 [H4 _]]]]. rewrite Ej in H3.
        split; [lia|]. exists p, m, r. auto.
      * left. rewrite (proj2 (proj2 (proj2 (refine_old _ Hrn))) Erf) in Hc, E.
        split.
        -- apply follow_snoc_iff. eauto.
        -- subst b. apply (live_child _ _ _ _ W); auto.
    + exfalso. destruct (follow_live _ _ _ _ refine_wl _ _ Hr) as [Hrn _].
      destruct (new_box r) as [j [m' [Hj [Hm' ->]]]]; [lia|].
      destruct (refine_new j m' Hj Hm') as [_ [_ [_ [_ [_ [_ [E0 _]]]]]]]. apply Hc, E0.
Qed.
Lemma refine_leaf_iff b : b < tn t1 -> (leaf t1 b <-> (b < tn t /\ leaf t b /\ rf b = false) \/ tn t <= b).
Proof.
  pose proof refine_dim as [D1 [D2 D3]]. intros Hb. unfold leaf. rewrite D1.
  destruct (lt_dec b (tn t)) as [Hbt|Hbt].
  - destruct (rf b) eqn:Erf.
    + split.
      * intros H. exfalso. destruct (R_index b Hbt Erf) as [j [Hj Ej]].
        assert (H0 : 0 < nch) by (pose proof (pow2_nz (tdim t)); unfold nch; lia).
        destruct (refine_new j 0 Hj H0) as [_ [_ [H3 _]]]. rewrite Ej in H3.
        rewrite (H 0 H0) in H3. pose proof (wl_n _ _ _ _ W). lia.
      * intros [[_ [_ ?]]|?]; [discriminate|lia].
    + destruct (refine_old _ Hbt) as [_ [_ [_ K]]]. specialize (K Erf).
      split; [intros H; left; repeat split; auto; intros m Hm; rewrite <- K; auto|].
      intros [[_ [H _]]|?]; [|lia]. intros m Hm. rewrite K; auto.
  - split; [right; lia|]. intros _ m Hm.
    destruct (new_box b) as [j [m' [Hj [Hm' ->]]]]; [lia|].
    destruct (refine_new j m' Hj Hm') as [_ [_ [_ [_ [_ [_ [E0 _]]]]]]]. apply E0.
Qed.
End refine.
