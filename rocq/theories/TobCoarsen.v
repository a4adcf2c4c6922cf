(** Proofs about coarsening, sorting by level and pruning. Nothing here models code. *)
From Coq Require Import List Arith ZArith NArith Lia Bool Permutation.
From Verif Require Import Base Tree Traversal Coverage TreeOfBoxes SpecTob TobFacts.
Import ListNotations.

Lemma existsb_eqb b l : existsb (Nat.eqb b) l = true <-> In b l.
Proof.
  rewrite existsb_exists. split.
  - intros [x [H E]]. apply Nat.eqb_eq in E. subst; auto.
  - intros H. exists b. split; auto. apply Nat.eqb_refl.
Qed.

Section coarsen.
Variables (s L : nat) (t t2 : tob) (cf : nat -> bool) (err : bool).
Hypothesis W : wl s L everything t.
Hypothesis LS : L < s.
Hypothesis OK : apply_coarsen s cf err t = Ok t2.

Let nch := 2 ^ tdim t.

(** boxes to be deleted *)
Definition gone (b : nat) : Prop :=
  exists q m, q < tn t /\ m < nch /\ b = tchild t m q /\
    (exists m', m' < nch /\ tchild t m' q <> 0 /\ cf (tchild t m' q) = true) /\
    (forall m', m' < nch -> tchild t m' q <> 0 /\ leaf t (tchild t m' q)).
(** boxes whose children are deleted *)
Definition trimmed (q : nat) : Prop :=
  q < tn t /\
    (exists m', m' < nch /\ tchild t m' q <> 0 /\ cf (tchild t m' q) = true) /\
    (forall m', m' < nch -> tchild t m' q <> 0 /\ leaf t (tchild t m' q)).

Lemma gone_trimmed b : gone b <-> exists q m, trimmed q /\ m < nch /\ b = tchild t m q.
Proof.
  split.
  - intros [q [m [H1 [H2 [H3 [H4 H5]]]]]]. exists q, m. repeat split; auto; apply H5; auto.
  - intros [q [m [[H1 [H2 H3]] [H4 H5]]]]. exists q, m. auto.
Qed.

Let parent b := Z.to_nat (tparent t b).
Let exec b := forallb (fun m => is_leaf t (tchild t m (parent b))) (seq 0 (tnch t)).
Let parents := map parent (filter exec (flagged (tn t) cf)).
Let peers := concat (map (fun m => map (tchild t m) parents) (seq 0 (tnch t))).

Lemma coarsen_sources b : b < tn t -> cf b = true -> leaf t b /\ 0 < b.
Proof.
  unfold apply_coarsen in OK. destruct (any _ _) eqn:E1; [discriminate|].
  destruct (any (tn t) (fun b => cf b && (tparent t b <? 0)%Z)) eqn:E2; [discriminate|].
  intros Hb Hc. rewrite any_false in E1, E2. specialize (E1 b Hb). specialize (E2 b Hb).
  rewrite Hc in E1, E2. simpl in E1, E2. split.
  - apply (is_leaf_spec _ _ _ _ _ W Hb). destruct (is_leaf t b); auto.
  - destruct (Nat.eq_dec b 0) as [->|]; [|lia]. rewrite (wl_parent0 _ _ _ _ W) in E2. discriminate.
Qed.

Lemma parents_iff q : In q parents <-> trimmed q.
Proof.
  unfold parents. rewrite in_map_iff. split.
  - intros [b [<- H]]. apply filter_In in H. destruct H as [H Hex]. apply in_flagged in H. destruct H as [Hb Hc].
    destruct (coarsen_sources b Hb Hc) as [Hlf H0].
    destruct (wl_parent _ _ _ _ W b H0 Hb eq_refl) as [p [m [Hp [_ [Hm E]]]]].
    destruct (wl_child _ _ _ _ W m p Hp eq_refl Hm) as [_ [_ [Hpar _]]]; [lia|].
    rewrite E in Hpar. assert (Epar : parent b = p) by (unfold parent; rewrite Hpar; lia). rewrite Epar.
    split; [auto|]. split; [exists m; rewrite E; repeat split; auto; lia|].
    intros m' Hm'. assert (NZ : tchild t m' p <> 0).
    { destruct (wl_full _ _ _ _ W p Hp eq_refl) as [G|G]; [|apply G; auto].
      rewrite (G m Hm) in E. lia. }
    split; auto.
    unfold exec in Hex. rewrite forallb_forall in Hex. specialize (Hex m').
    rewrite Epar in Hex. apply (is_leaf_spec _ _ _ _ _ W).
    + apply (live_child _ _ _ _ W); auto.
    + apply Hex. apply in_seq. unfold tnch. unfold nch in Hm'. lia.
  - intros [Hq [[m [Hm [Hc Hcf]]] Hall]].
    destruct (wl_child _ _ _ _ W m q Hq eq_refl Hm Hc) as [H1 [_ [H3 _]]].
    assert (Epar : parent (tchild t m q) = q) by (unfold parent; rewrite H3; lia).
    exists (tchild t m q). split; auto. apply filter_In. split; [apply in_flagged; auto|].
    unfold exec. rewrite Epar. apply forallb_forall. intros m' Hm'. apply in_seq in Hm'.
    destruct (Hall m') as [K1 K2]; [unfold nch; unfold tnch in Hm'; lia|].
    apply (is_leaf_spec _ _ _ _ _ W); auto. apply (live_child _ _ _ _ W); auto. unfold tnch in Hm'. lia.
Qed.
Lemma peers_iff b : In b peers <-> gone b.
Proof.
  unfold peers. rewrite in_concat_map, gone_trimmed. split.
  - intros [m [Hm H]]. apply in_map_iff in H. destruct H as [q [E H]]. apply parents_iff in H.
    apply in_seq in Hm. exists q, m. split; auto. split; auto. unfold nch; unfold tnch in Hm; lia.
  - intros [q [m [H [Hm E]]]]. exists m. split; [apply in_seq; unfold tnch, nch in *; lia|].
    apply in_map_iff. exists q. split; auto. apply parents_iff; auto.
Qed.

Lemma not_gone_root : ~ gone 0.
Proof. intros [q [m [_ [Hm [E [_ H]]]]]]. destruct (H m Hm). auto. Qed.

(** the tree after coarsening, as executed also when there is nothing to do *)
Lemma coarsen_fields : tdim t2 = tdim t /\ textent t2 = textent t /\ tn t2 = tn t /\
  (forall b a, tcenter t2 b a = tcenter t b a) /\
  (forall b, b < tn t -> gone b -> tlevel t2 b = s) /\
  (forall b, b < tn t -> ~ gone b -> tlevel t2 b = tlevel t b /\ tparent t2 b = tparent t b) /\
  (forall m b, trimmed b -> tchild t2 m b = 0) /\
  (forall m b, ~ trimmed b -> tchild t2 m b = tchild t m b) /\
  (forall b, b < tn t -> tflags t2 b = compute_flags (tdim t) (tchild t2) b).
Proof.
  pose proof peers_iff as peers_iff. pose proof parents_iff as parents_iff.
  unfold apply_coarsen in OK. destruct (any _ _) eqn:E1; [discriminate|].
  destruct (any (tn t) (fun b => cf b && (tparent t b <? 0)%Z)) eqn:E2; [discriminate|].
  destruct (Nat.eqb_spec (length (flagged (tn t) cf)) 0) as [e|e].
  - inversion OK; subst t2. clear OK.
    assert (N : forall q, ~ trimmed q).
    { intros q [Hq [[m [Hm [Hc Hcf]]] _]]. assert (In (tchild t m q) (flagged (tn t) cf)).
      { apply in_flagged. split; auto. apply (live_child _ _ _ _ W); auto. }
      destruct (flagged (tn t) cf); [auto|discriminate]. }
    assert (N' : forall b, ~ gone b).
    { intros b H. apply gone_trimmed in H. destruct H as [q [m [H _]]]. eapply N; eauto. }
    repeat split; auto.
    + intros b _ H; exfalso; eapply N'; eauto.
    + intros m b H; exfalso; eapply N; eauto.
    + intros b Hb. apply (wl_flags _ _ _ _ W). auto.
  - destruct (_ && err); [discriminate|]. inversion OK; subst t2; clear OK.
    cbn [tdim textent tn tcenter tlevel tparent tchild tflags].
    unfold peers, parents, exec, parent in peers_iff, parents_iff.
    repeat split; auto.
    + intros b _ H. apply peers_iff, existsb_eqb in H. rewrite H. auto.
    + destruct (existsb (Nat.eqb b) _) eqn:E; auto. apply existsb_eqb, peers_iff in E. tauto.
    + destruct (existsb (Nat.eqb b) _) eqn:E; auto. apply existsb_eqb, peers_iff in E. tauto.
    + intros m b H. apply parents_iff, existsb_eqb in H. rewrite H. auto.
    + intros m b H. destruct (existsb (Nat.eqb b) _) eqn:E; auto. apply existsb_eqb, parents_iff in E. tauto.
Qed.

(** which boxes survive, computably: those not marked with the sentinel level *)
Definition kept (b : nat) : bool := negb (tlevel t2 b =? s).
Lemma kept_iff b : b < tn t -> (kept b = true <-> ~ gone b).
Proof.
  intros Hb. destruct coarsen_fields as [D1 [D2 [D3 [D4 [D5 [D6 _]]]]]].
  unfold kept. destruct (Nat.eqb_spec (tlevel t2 b) s); simpl.
  - split; [discriminate|]. intros G. destruct (D6 b Hb G) as [E _].
    pose proof (wl_level _ _ _ _ W b Hb eq_refl). lia.
  - split; [intros _ G; apply n; auto|auto].
Qed.

Lemma trimmed_dec q : q < tn t -> trimmed q \/ ~ trimmed q.
Proof. intros. destruct (in_dec Nat.eq_dec q parents) as [i|i]; rewrite parents_iff in i; auto. Qed.

Lemma gone_leaf b : b < tn t -> gone b -> leaf t b.
Proof. intros Hb [q [m [_ [Hm [-> [_ H]]]]]]. apply H; auto. Qed.

(** child of a trimmed box is gone; other children survive *)
Lemma child_gone m q : q < tn t -> m < nch -> tchild t m q <> 0 -> (gone (tchild t m q) <-> trimmed q).
Proof.
  intros Hq Hm Hc. rewrite gone_trimmed. split.
  - intros [q' [m' [Ht [Hm' E]]]].
    destruct (wl_child _ _ _ _ W m q Hq eq_refl Hm Hc) as [_ [_ [P1 _]]].
    destruct Ht as [Hq' [Hex Hall]]. pose proof Hall as Hall'. destruct (Hall m' Hm') as [Hc' _].
    destruct (wl_child _ _ _ _ W m' q' Hq' eq_refl Hm' Hc') as [_ [_ [P2 _]]].
    rewrite <- E in P2. assert (q' = q) by lia. subst q'. split; auto.
  - intros H. exists q, m. auto.
Qed.

Lemma coarsen_wl : wl s L kept t2.
Proof.
  pose proof coarsen_fields as [D1 [D2 [D3 [D4 [D5 [D6 [D7 [D8 D9]]]]]]]].
  assert (N0 : 0 < tn t) by apply (wl_n _ _ _ _ W).
  assert (Hch : forall m b, b < tn t -> m < nch -> tchild t2 m b <> 0 -> ~ trimmed b /\ tchild t2 m b = tchild t m b).
  { intros m b Hb Hm Hc. destruct (trimmed_dec b Hb) as [G|G]; [rewrite D7 in Hc by auto; lia|]. auto. }
  constructor; unfold leaf; rewrite ?D1, ?D2, ?D3.
  - destruct (wl_fine _ _ _ _ W). split; rewrite ?D2; auto.
  - auto.
  - apply kept_iff; auto. apply not_gone_root.
  - rewrite (proj1 (D6 0 N0 not_gone_root)). apply (wl_level0 _ _ _ _ W).
  - rewrite (proj2 (D6 0 N0 not_gone_root)). apply (wl_parent0 _ _ _ _ W).
  - intros m b Hb Hk Hm Hc. apply kept_iff in Hk; auto. destruct (Hch m b Hb Hm Hc) as [G E]. rewrite E in *.
    destruct (wl_child _ _ _ _ W m b Hb eq_refl Hm Hc) as [H1 [_ [H3 [H4 H5]]]].
    assert (NG : ~ gone (tchild t m b)) by (rewrite child_gone; auto).
    destruct (D6 _ H1 NG) as [K1 K2]. destruct (D6 _ Hb Hk) as [K3 K4].
    rewrite K1, K2, K3. repeat split; auto.
    + apply kept_iff; auto.
    + intros a Ha. rewrite !D4. auto.
  - intros b Hb Hk. destruct (trimmed_dec b Hb) as [G|G].
    + left. intros m Hm. apply D7; auto.
    + destruct (wl_full _ _ _ _ W b Hb eq_refl) as [F|F]; [left|right]; intros m Hm; rewrite D8; auto.
  - intros m m' b Hb Hk Hm Hm' Hc E. destruct (Hch m b Hb Hm Hc) as [G E1].
    destruct (Hch m' b Hb Hm' ltac:(congruence)) as [G' E1'].
    eapply (wl_inj _ _ _ _ W); eauto; congruence.
  - intros b Hb0 Hb Hk. apply kept_iff in Hk; auto.
    destruct (wl_parent _ _ _ _ W b Hb0 Hb eq_refl) as [p [m [Hp [_ [Hm E]]]]].
    assert (NT : ~ trimmed p). { intros T. apply Hk. apply gone_trimmed. exists p, m. auto. }
    exists p, m. repeat split; auto.
    + apply kept_iff; auto. intros G. apply gone_leaf in G; auto. rewrite (G m Hm) in E. lia.
    + rewrite D8; auto.
  - intros b Hb Hk. apply kept_iff in Hk; auto. rewrite (proj1 (D6 b Hb Hk)). apply (wl_level _ _ _ _ W); auto.
  - intros b Hb Hk. unfold kept in Hk. destruct (Nat.eqb_spec (tlevel t2 b) s); auto. discriminate.
  - intros b Hb. apply D9. auto.
Qed.

Lemma coarsen_follow p b : follow t2 0 p = Some b <-> follow t 0 p = Some b /\ ~ gone b.
Proof.
  pose proof coarsen_fields as [D1 [D2 [D3 [D4 [D5 [D6 [D7 [D8 D9]]]]]]]].
  revert b; induction p as [|m p IH] using rev_ind; intros b.
  - simpl. split; [|tauto]. intros E; split; auto. inversion E; subst. apply not_gone_root.
  - rewrite !follow_snoc_iff. split.
    + intros [r [Hr [Hm [Hc E]]]]. rewrite D1 in Hm. apply IH in Hr. destruct Hr as [Hr NG].
      destruct (follow_live _ _ _ _ W _ _ Hr) as [Hrn _].
      destruct (trimmed_dec r Hrn) as [G|G]; [rewrite D7 in Hc by auto; lia|]. rewrite D8 in Hc, E by auto.
      split; [exists r; auto|]. subst b. rewrite child_gone; auto.
    + intros [[r [Hr [Hm [Hc E]]]] NG]. destruct (follow_live _ _ _ _ W _ _ Hr) as [Hrn _].
      subst b. rewrite child_gone in NG by auto.
      exists r. rewrite D1, D8 by auto. repeat split; auto.
      apply IH. split; auto. intros G. apply gone_leaf in G; auto.
Qed.
End coarsen.

(** ** Sorting by level *)
Lemma sorted_steps (f : nat -> nat) n :
  (forall i, S i < n -> f i <= f (S i)) -> forall i j, i <= j -> j < n -> f i <= f j.
Proof.
  intros H i j Hij Hj. induction j; [replace i with 0 by lia; auto|].
  destruct (Nat.eq_dec i (S j)) as [->|]; auto. etransitivity; [apply IHj; lia|]. apply H; lia.
Qed.

Lemma has_descent_false n f : has_descent n f = false -> forall i j, i <= j -> j < n -> f i <= f j.
Proof.
  intros H. apply sorted_steps. intros i Hi. destruct (le_lt_dec (f i) (f (S i))) as [|G]; auto. exfalso.
  assert (has_descent n f = true).
  { apply existsb_exists. exists i. split; [apply in_seq; lia|]. apply Nat.ltb_lt; auto. }
  congruence.
Qed.

Lemma order_facts n order : Permutation order (seq 0 n) ->
  NoDup order /\ length order = n /\ (forall x, In x order <-> x < n).
Proof.
  intros P. split; [eapply Permutation_NoDup; [apply Permutation_sym; eauto|apply seq_NoDup]|].
  split; [rewrite (Permutation_length P), seq_length; auto|].
  intros x. split; intros H.
  - eapply Permutation_in in H; eauto. apply in_seq in H; lia.
  - eapply Permutation_in; [apply Permutation_sym; eauto|]. apply in_seq; lia.
Qed.

Definition renaming (n : nat) (old new : nat -> nat) : Prop :=
  (forall i, i < n -> old i < n /\ new (old i) = i) /\ (forall b, b < n -> new b < n /\ old (new b) = b).

Lemma order_renaming n order : Permutation order (seq 0 n) ->
  renaming n (fun i => nth i order 0) (fun b => nth b (reverse_index order n) 0).
Proof.
  intros P. destruct (order_facts _ _ P) as [ND [Len In_]].
  assert (K : forall i, i < n -> nth (nth i order 0) (reverse_index order n) 0 = i).
  { intros i Hi. apply reverse_index_nth; auto; [intros; apply In_; auto|lia]. }
  split.
  - intros i Hi. split; auto. apply In_, nth_In; lia.
  - intros b Hb. apply In_ in Hb. destruct (In_nth _ _ 0 Hb) as [i [Hi E]].
    rewrite <- E, K by lia. split; auto; lia.
Qed.

Record renamed (t t' : tob) (old new : nat -> nat) : Prop := {
  rn_dim : tdim t' = tdim t; rn_ext : textent t' = textent t; rn_n : tn t' = tn t;
  rn_ren : renaming (tn t) old new;
  rn_0 : old 0 = 0;
  rn_center : forall b a, b < tn t -> tcenter t' b a = tcenter t (old b) a;
  rn_parent : forall b, b < tn t -> tparent t' b =
     (if 0 <=? tparent t (old b) then Z.of_nat (new (Z.to_nat (tparent t (old b)))) else tparent t (old b))%Z;
  rn_child : forall m b, b < tn t -> tchild t' m b = if tchild t m (old b) =? 0 then 0 else new (tchild t m (old b));
  rn_level : forall b, b < tn t -> tlevel t' b = tlevel t (old b);
  rn_flags : forall b, b < tn t -> tflags t' b = compute_flags (tdim t) (tchild t') b;
  rn_sorted : forall i j, i <= j -> j < tn t -> tlevel t' i <= tlevel t' j
}.

Lemma first_is_root s L live t b : wl s L live t -> L < s -> b < tn t ->
  tlevel t b <= tlevel t 0 -> b = 0.
Proof.
  intros W LS Hb H. rewrite (wl_level0 _ _ _ _ W) in H. destruct (live b) eqn:E.
  - eapply live_level0; eauto. lia.
  - pose proof (wl_stale _ _ _ _ W b Hb E). lia.
Qed.

Lemma sort_renamed s L live t order : wl s L live t -> L < s -> argsort_ok (tn t) (tlevel t) order ->
  exists old new, renamed t (sort_by_level order t) old new.
Proof.
  intros W LS [P S]. unfold sort_by_level. destruct (has_descent _ _) eqn:HD; simpl.
  - exists (fun i => nth i order 0), (fun b => nth b (reverse_index order (tn t)) 0).
    pose proof (order_renaming _ _ P) as Rn.
    constructor; cbn [tdim textent tn tcenter tparent tchild tlevel tflags]; auto.
    apply (first_is_root s L live t); auto.
    + apply Rn. apply (wl_n _ _ _ _ W).
    + destruct (proj2 Rn 0 (wl_n _ _ _ _ W)) as [H1 H2]. pose proof (S 0 _ (Nat.le_0_l _) H1) as G. rewrite H2 in G. auto.
  - exists (fun i => i), (fun i => i). constructor; auto.
    + split; auto.
    + intros. destruct (Z.leb_spec 0 (tparent t b)); auto. lia.
    + intros. destruct (Nat.eqb_spec (tchild t m b) 0); auto.
    + intros. apply (wl_flags _ _ _ _ W); auto.
    + apply has_descent_false; auto.
Qed.

Section renamed.
Variables (s L : nat) (live : nat -> bool) (t t' : tob) (old new : nat -> nat).
Hypothesis W : wl s L live t.
Hypothesis R : renamed t t' old new.

Let old_lt i : i < tn t -> old i < tn t. Proof. intros. apply (rn_ren _ _ _ _ R); auto. Qed.
Let new_old i : i < tn t -> new (old i) = i. Proof. intros. apply (rn_ren _ _ _ _ R); auto. Qed.
Let new_lt i : i < tn t -> new i < tn t. Proof. intros. apply (rn_ren _ _ _ _ R); auto. Qed.
Let old_new i : i < tn t -> old (new i) = i. Proof. intros. apply (rn_ren _ _ _ _ R); auto. Qed.
Let new_0 : new 0 = 0.
Proof. pose proof (new_old 0 (wl_n _ _ _ _ W)) as H. rewrite (rn_0 _ _ _ _ R) in H. auto. Qed.

Lemma new_nz c : c < tn t -> c <> 0 -> new c <> 0.
Proof. intros Hc H E. apply H. rewrite <- (old_new c Hc), E. apply (rn_0 _ _ _ _ R). Qed.

Lemma rn_child_zero m b : b < tn t -> live (old b) = true -> m < 2 ^ tdim t ->
  (tchild t' m b = 0 <-> tchild t m (old b) = 0).
Proof.
  intros Hb Hl Hm. rewrite (rn_child _ _ _ _ R) by auto.
  destruct (Nat.eqb_spec (tchild t m (old b)) 0); [tauto|].
  split; intros E; [|tauto]. exfalso. revert E. apply new_nz; auto.
  apply (live_child _ _ _ _ W); auto.
Qed.
Lemma rn_child_nz m b : b < tn t -> live (old b) = true -> m < 2 ^ tdim t -> tchild t' m b <> 0 ->
  tchild t m (old b) <> 0 /\ tchild t m (old b) < tn t /\ tchild t' m b = new (tchild t m (old b)).
Proof.
  intros Hb Hl Hm Hc. rewrite rn_child_zero in Hc by auto. split; auto. split; [apply (live_child _ _ _ _ W); auto|].
  rewrite (rn_child _ _ _ _ R) by auto. destruct (Nat.eqb_spec (tchild t m (old b)) 0); tauto.
Qed.

Lemma renamed_wl : wl s L (fun b => live (old b)) t'.
Proof.
  constructor; unfold leaf; rewrite ?(rn_dim _ _ _ _ R), ?(rn_ext _ _ _ _ R), ?(rn_n _ _ _ _ R).
  - destruct (wl_fine _ _ _ _ W). split; rewrite ?(rn_ext _ _ _ _ R); auto.
  - apply (wl_n _ _ _ _ W).
  - rewrite (rn_0 _ _ _ _ R). apply (wl_live0 _ _ _ _ W).
  - rewrite (rn_level _ _ _ _ R) by apply (wl_n _ _ _ _ W). rewrite (rn_0 _ _ _ _ R). apply (wl_level0 _ _ _ _ W).
  - rewrite (rn_parent _ _ _ _ R) by apply (wl_n _ _ _ _ W). rewrite (rn_0 _ _ _ _ R), (wl_parent0 _ _ _ _ W). reflexivity.
  - intros m b Hb Hl Hm Hc. destruct (rn_child_nz m b Hb Hl Hm Hc) as [Hc' [Hn E]]. rewrite E.
    destruct (wl_child _ _ _ _ W m (old b)) as [H1 [H2 [H3 [H4 H5]]]]; auto.
    rewrite (rn_level _ _ _ _ R), (rn_level _ _ _ _ R), (rn_parent _ _ _ _ R) by auto.
    rewrite old_new by auto. rewrite H3.
    replace (0 <=? Z.of_nat (old b))%Z with true by (symmetry; apply Z.leb_le; lia).
    rewrite Nat2Z.id, new_old by auto. repeat split; auto.
    intros a Ha. rewrite !(rn_center _ _ _ _ R) by auto. rewrite old_new by auto. auto.
  - intros b Hb Hl. destruct (wl_full _ _ _ _ W (old b)) as [F|F]; auto; [left|right]; intros m Hm.
    + apply rn_child_zero; auto.
    + rewrite rn_child_zero; auto.
  - intros m m' b Hb Hl Hm Hm' Hc E. destruct (rn_child_nz m b Hb Hl Hm Hc) as [H1 [H2 H3]].
    destruct (rn_child_nz m' b Hb Hl Hm' ltac:(congruence)) as [K1 [K2 K3]].
    assert (tchild t m (old b) = tchild t m' (old b)).
    { rewrite <- (old_new _ H2), <- (old_new _ K2). congruence. }
    apply (wl_inj _ _ _ _ W m m' (old b)); auto.
  - intros b Hb0 Hb Hl. assert (old b <> 0). { intros E. rewrite <- (new_old b Hb), E in Hb0. lia. }
    destruct (wl_parent _ _ _ _ W (old b)) as [p [m [Hp [Hlp [Hm E]]]]]; auto; try lia.
    exists (new p), m. rewrite old_new by auto. repeat split; auto.
    rewrite (rn_child _ _ _ _ R) by auto. rewrite old_new, E by auto.
    destruct (Nat.eqb_spec (old b) 0); [lia|]. apply new_old; auto.
  - intros b Hb Hl. rewrite (rn_level _ _ _ _ R) by auto. apply (wl_level _ _ _ _ W); auto.
  - intros b Hb Hl. rewrite (rn_level _ _ _ _ R) by auto. apply (wl_stale _ _ _ _ W); auto.
  - intros b Hb. apply (rn_flags _ _ _ _ R); auto.
Qed.

Lemma renamed_follow p : follow t' 0 p = option_map new (follow t 0 p).
Proof.
  induction p as [|m p IH] using rev_ind; [simpl; rewrite new_0; auto|].
  rewrite !follow_snoc, IH. destruct (follow t 0 p) as [r|] eqn:E; simpl; auto.
  destruct (follow_live _ _ _ _ W _ _ E) as [Hr [Hl _]].
  rewrite (rn_dim _ _ _ _ R). destruct (Nat.ltb_spec m (2 ^ tdim t)); simpl; auto.
  rewrite (rn_child _ _ _ _ R) by auto. rewrite old_new by auto.
  destruct (Nat.eqb_spec (tchild t m r) 0); simpl; auto.
  destruct (Nat.eqb_spec (new (tchild t m r)) 0) as [e|]; simpl; auto.
  exfalso. revert e. apply new_nz; auto. apply (live_child _ _ _ _ W); auto.
Qed.
End renamed.

(** ** Pruning *)
Lemma stale_suffix (f : nat -> nat) s n :
  (forall i j, i <= j -> j < n -> f i <= f j) -> (forall i, i < n -> f i <= s) ->
  forall b, b < n -> (b < n - length (filter (fun b => f b =? s) (seq 0 n)) <-> f b < s).
Proof.
  induction n as [|n IH]; intros S B b Hb; [lia|].
  rewrite seq_S, filter_app, app_length. cbn [plus filter].
  assert (S' : forall i j, i <= j -> j < n -> f i <= f j) by (intros; apply S; lia).
  assert (B' : forall i, i < n -> f i <= s) by (intros; apply B; lia).
  specialize (IH S' B').
  assert (Hf : length (filter (fun b => f b =? s) (seq 0 n)) <= n).
  { clear. induction n; [simpl; lia|]. rewrite seq_S, filter_app, app_length. simpl. destruct (f n =? s); simpl; lia. }
  destruct (Nat.eqb_spec (f n) s) as [e|e]; cbn [length].
  - destruct (Nat.eq_dec b n) as [->|]; [lia|]. rewrite <- IH by lia. lia.
  - assert (Z : length (filter (fun b => f b =? s) (seq 0 n)) = 0).
    { destruct (filter (fun b => f b =? s) (seq 0 n)) as [|x l] eqn:E; auto.
      assert (In x (filter (fun b => f b =? s) (seq 0 n))) by (rewrite E; left; auto).
      apply filter_In in H. destruct H as [H1 H2]. apply in_seq in H1. apply Nat.eqb_eq in H2.
      pose proof (S x n ltac:(lia) ltac:(lia)). pose proof (B n ltac:(lia)). lia. }
    rewrite Z. pose proof (S b n ltac:(lia) ltac:(lia)). pose proof (B n ltac:(lia)). lia.
Qed.

Section prune.
Variables (s L : nat) (live : nat -> bool) (t : tob).
Hypothesis W : wl s L live t.
Hypothesis LS : L < s.
Hypothesis Sorted : forall i j, i <= j -> j < tn t -> tlevel t i <= tlevel t j.

Definition pruned : tob :=
  {| tdim := tdim t; tn := tn t - length (filter (fun b => tlevel t b =? s) (seq 0 (tn t)));
     textent := textent t; tcenter := tcenter t; tparent := tparent t; tchild := tchild t; tlevel := tlevel t;
     tflags := compute_flags (tdim t) (tchild t); tlevel_starts := None |}.

Lemma pruned_lt b : b < tn pruned <-> b < tn t /\ live b = true.
Proof.
  assert (B : forall i, i < tn t -> tlevel t i <= s).
  { intros i Hi. destruct (live i) eqn:E.
    - pose proof (wl_level _ _ _ _ W i Hi E). lia.
    - rewrite (wl_stale _ _ _ _ W i Hi E). lia. }
  assert (Hlt : b < tn pruned -> b < tn t) by (simpl; lia).
  split.
  - intros H. split; auto. pose proof (proj1 (stale_suffix _ _ _ Sorted B b (Hlt H)) H) as G.
    destruct (live b) eqn:E; auto. rewrite (wl_stale _ _ _ _ W b (Hlt H) E) in G. lia.
  - intros [H1 H2]. apply (stale_suffix _ _ _ Sorted B b H1).
    pose proof (wl_level _ _ _ _ W b H1 H2). lia.
Qed.

Lemma pruned_wl : wl s L everything pruned.
Proof.
  constructor; unfold leaf.
  - destruct (wl_fine _ _ _ _ W). split; auto.
  - apply pruned_lt. split; [apply (wl_n _ _ _ _ W)|apply (wl_live0 _ _ _ _ W)].
  - reflexivity.
  - apply (wl_level0 _ _ _ _ W).
  - apply (wl_parent0 _ _ _ _ W).
  - intros m b Hb _ Hm Hc. apply pruned_lt in Hb. destruct Hb as [Hb Hl].
    destruct (wl_child _ _ _ _ W m b Hb Hl Hm Hc) as [H1 [H2 [H3 [H4 H5]]]].
    repeat split; auto. apply pruned_lt. auto.
  - intros b Hb _. apply pruned_lt in Hb. apply (wl_full _ _ _ _ W); tauto.
  - intros m m' b Hb _. apply pruned_lt in Hb. apply (wl_inj _ _ _ _ W); tauto.
  - intros b Hb0 Hb _. apply pruned_lt in Hb. destruct Hb as [Hb Hl].
    destruct (wl_parent _ _ _ _ W b Hb0 Hb Hl) as [p [m [Hp [Hlp [Hm E]]]]].
    exists p, m. repeat split; auto. apply pruned_lt; auto.
  - intros b Hb _. apply pruned_lt in Hb. apply (wl_level _ _ _ _ W); tauto.
  - intros; discriminate.
  - intros b Hb. reflexivity.
Qed.
Lemma pruned_follow b p : follow pruned b p = follow t b p.
Proof. revert b; induction p as [|m p IH]; intros b; simpl; auto. rewrite IH. reflexivity. Qed.
End prune.
