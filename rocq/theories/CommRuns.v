(** All executions of the exchange of Comm.v: invariant, progress, bound, final states. *)
From Coq Require Import List Arith ZArith Lia Bool Permutation Sorted.
From Verif Require Import Base ArrayFacts Tools ToolsFacts Monoid Comm CommFacts.
Import ListNotations.

Lemma filter_filter {A} (p q : A -> bool) l : filter p (filter q l) = filter (fun x => q x && p x) l.
Proof. induction l as [|x l IH]; cbn [filter]; auto. destruct (q x); cbn [filter andb]; rewrite IH; auto. Qed.

Lemma msum_cons {X : cmonoid} (x : X) l : msum (x :: l) = op x (msum l).
Proof. reflexivity. Qed.
Lemma nsum_cons x l : nsum (x :: l) = x + nsum l.
Proof. reflexivity. Qed.

(** ** Which ranks talk to each other at which stage *)
Section Links.
Variable size : nat.
Definition link (s a b : nat) : Prop :=
  exists p, pat_at a size s = Some p /\ pat_done p = false /\ In b (pat_sinks p).
Lemma link_spec s a b : a < size -> link s a b ->
  exists p, pat_at a size s = Some p /\ pat_done p = false /\ pat_ok size p /\ pat_rank p = a /\
  b = sink_of (pat_left p) (pat_mid p) (pat_right p) a /\ pat_left p <= b < pat_right p /\ (a < pat_mid p <-> pat_mid p <= b) /\
  pat_left p < pat_mid p < pat_right p.
Proof.
  intros A [p [E [D I]]]. destruct (pat_at_ok size a s p A E) as [O R]. assert (M := mid_between size p O D). assert (H := halves size p O).
  rewrite (sinks_eq size p O D), R in I. destruct I as [I|[]].
  assert (S := sink_side _ _ _ a M H ltac:(destruct O; lia)). rewrite I in S. exists p. rewrite I. tauto.
Qed.
Lemma link_lt s a b : a < size -> link s a b -> b < size.
Proof. intros A L. destruct (link_spec s a b A L) as [p [E [D [O [R [B [H _]]]]]]]. destruct O. lia. Qed.
(** the receiver of a link lists the sender as a source, at the same stage *)
Lemma link_source s a b p : b < size -> pat_at b size s = Some p -> pat_done p = false -> In a (pat_sources p) ->
  a < size /\ link s a b.
Proof.
  intros B E D I. destruct (pat_at_ok size b s p B E) as [O R]. apply (sources_iff size p a O D) in I. destruct I as [I1 I2].
  destruct (same_group size b a s p B E I1) as [p' [E' [R' [L' [H' M']]]]].
  assert (A : a < size) by (destruct O; lia). split; auto. exists p'.
  assert (D' : pat_done p' = false) by (unfold pat_done in *; rewrite L', H'; auto).
  destruct (pat_at_ok size a s p' A E') as [O' _].
  split; auto. split; auto. rewrite (sinks_eq size p' O' D'), R', L', H', M', I2. left. auto.
Qed.
Lemma source_link s a b : a < size -> link s a b -> exists p, pat_at b size s = Some p /\ pat_done p = false /\ In a (pat_sources p).
Proof.
  intros A L. destruct (link_spec s a b A L) as [p [E [D [O [R [B [H [_ M]]]]]]]].
  destruct (same_group size a b s p A E H) as [p' [E' [R' [L' [H' M']]]]]. exists p'.
  assert (D' : pat_done p' = false) by (unfold pat_done in *; rewrite L', H'; auto).
  destruct (pat_at_ok size b s p' ltac:(destruct O; lia) E') as [O' _].
  split; auto. split; auto. apply (sources_iff size p' a O' D'). rewrite L', H', M', R'. split; auto. destruct O. lia.
Qed.
Lemma pat_at_mono r s s' p : s <= s' -> pat_at r size s' = Some p -> exists q, pat_at r size s = Some q /\ (s < s' -> pat_done q = false).
Proof.
  intros H. revert p. induction H as [|s' H IH]; intros p E.
  - exists p. split; auto. lia.
  - cbn [pat_at] in E. destruct (pat_at r size s') as [p1|] eqn:E1; [|discriminate]. destruct (IH p1 eq_refl) as [q [Q1 Q2]].
    exists q. split; auto. intros _. destruct (Nat.eq_dec s s') as [->|N]; [|apply Q2; lia].
    assert (p1 = q) by congruence. subst. unfold pat_advance in E. destruct (pat_done q); congruence.
Qed.
(** the group at a later stage lies within the group at an earlier stage *)
Lemma group_nested r s p s' p' : r < size -> pat_at r size s = Some p -> pat_at r size s' = Some p' -> s <= s' ->
  pat_left p <= pat_left p' /\ pat_right p' <= pat_right p.
Proof.
  intros R E E' H. revert p' E'. induction H as [|s' H IH]; intros p' E'.
  - assert (p' = p) by congruence. subst. auto.
  - cbn [pat_at] in E'. destruct (pat_at r size s') as [p1|] eqn:E1; [|discriminate]. destruct (IH p1 eq_refl) as [Q1 Q2].
    destruct (pat_at_ok size r s' p1 R E1) as [O _]. unfold pat_advance in E'. destruct (pat_done p1) eqn:D; [discriminate|].
    assert (M := mid_between size p1 O D). destruct (pat_rank p1 <? pat_mid p1); inversion E'; subst p'; cbn; lia.
Qed.
(** two ranks are linked at one stage only *)
Lemma link_once_lt s s' a b : a < size -> s < s' -> link s a b -> link s' a b -> False.
Proof.
  intros A H L L'. destruct (link_spec s a b A L) as [p [E [D [O [R [_ [B [M M2]]]]]]]].
  destruct (link_spec s' a b A L') as [p' [E' [D' [O' [R' [_ [B' [M' M2']]]]]]]].
  destruct (pat_at_mono a (S s) s' p' H E') as [q [Q _]]. destruct (group_nested a (S s) q s' p' A Q E' H) as [N1 N2].
  cbn [pat_at] in Q. rewrite E in Q. unfold pat_advance in Q. rewrite D in Q.
  destruct (Nat.ltb_spec (pat_rank p) (pat_mid p)); inversion Q; subst q; cbn in N1, N2; lia.
Qed.
Lemma link_once s s' a b : a < size -> link s a b -> link s' a b -> s = s'.
Proof.
  intros A L L'. destruct (lt_eq_lt_dec s s') as [[H|H]|H]; auto; exfalso; eauto using link_once_lt.
Qed.
Lemma link_sink r s p : r < size -> pat_at r size s = Some p -> pat_done p = false -> exists b, pat_sinks p = [b] /\ link s r b.
Proof.
  intros R E D. destruct (pat_at_ok size r s p R E) as [O _]. eexists. split; [apply (sinks_eq size p O D)|].
  exists p. split; auto. split; auto. rewrite (sinks_eq size p O D). left. auto.
Qed.
Lemma done_late r s p : r < size -> pat_at r size s = Some p -> size <= 2 ^ s -> pat_done p = true.
Proof.
  intros R E H. assert (X := pat_at_size size r s p R E). destruct (pat_at_ok size r s p R E) as [[O1 O2 O3 O4] _].
  assert (P : 0 < 2 ^ s) by (apply Nat.neq_0_lt_0, Nat.pow_nonzero; lia).
  assert ((size + 2 ^ s - 1) / 2 ^ s < 2) by (apply Nat.div_lt_upper_bound; lia).
  unfold pat_done. apply Nat.eqb_eq. lia.
Qed.
Lemma stage_bound r s p : r < size -> pat_at r size s = Some p -> s <= Nat.log2_up size /\ (s = Nat.log2_up size -> pat_done p = true).
Proof.
  intros R E.
  assert (H : size <= 2 ^ Nat.log2_up size).
  { destruct (Nat.eq_dec size 1) as [->|N]; [cbn; lia|]. apply Nat.log2_up_spec. lia. }
  destruct (le_lt_dec s (Nat.log2_up size)) as [L|L].
  - split; auto. intros ->. eapply done_late; eauto.
  - exfalso. destruct (pat_at_mono r _ _ p (Nat.lt_le_incl _ _ L) E) as [q [Q1 Q2]]. rewrite (done_late r _ q R Q1 H) in Q2. specialize (Q2 L). discriminate.
Qed.
End Links.

Section Runs.
Variable size nboxes nlevels : nat.
Variable ls : nat -> nat.
Variable users : nat -> list nat.
Variable rendezvous : bool.
Context {Mo : cmonoid}.
Variable m0 : nat -> nat -> Mo.
Variable c0 : nat -> nat -> bool.
Hypothesis LS0 : ls 0 = 0.
Hypothesis LSn : ls nlevels = nboxes.
Hypothesis LSm : forall l, l < nlevels -> ls l <= ls (S l).
Notation C := (idealC size nboxes users c0).
Notation M := (idealM size nboxes users m0 c0).
Notation lnk := (link size).
Notation mask := (sent_mask size nboxes users).
Definition msg_idx (s a : nat) : list nat := filter (mask (C s) s a) (seq 0 nboxes).
Definition msg (s a : nat) : message Mo := (msg_idx s a, map (M s a) (msg_idx s a)).
Lemma msg_idx_in s a b : existsb (Nat.eqb b) (msg_idx s a) = mask (C s) s a b.
Proof.
  unfold msg_idx. destruct (mask (C s) s a b) eqn:E.
  - apply existsb_exists. exists b. rewrite Nat.eqb_refl. split; auto. apply filter_In. split; auto. apply in_seq.
    unfold sent_mask in E. destruct (pat_at a size s); [|discriminate]. apply andb_true_iff in E. destruct E as [_ E]. apply Nat.ltb_lt in E. lia.
  - destruct (existsb _ _) eqn:X; auto. apply existsb_exists in X. destruct X as [x [X1 X2]]. apply Nat.eqb_eq in X2. subst x.
    apply filter_In in X1. destruct X1. congruence.
Qed.
Lemma msg_idx_sorted s a : StronglySorted lt (msg_idx s a).
Proof. apply filter_seq_ssorted. Qed.
Lemma msg_idx_lt s a i : In i (msg_idx s a) -> i < nboxes.
Proof. unfold msg_idx. intros H. apply filter_In in H. destruct H as [H _]. apply in_seq in H. lia. Qed.
Lemma outgoing_msg p s a : a < size -> pat_at a size s = Some (pr_pat p) -> (forall b, pr_mpoles p b = M s a b) -> (forall b, pr_contrib p b = C s a b) ->
  outgoing nboxes nlevels ls users p = msg s a.
Proof.
  intros A E HM HC.
  assert (I : filter (used_by_subrange users (pat_messages (pr_pat p))) (filter (pr_contrib p) (seq 0 nboxes)) = msg_idx s a).
  { unfold msg_idx. rewrite filter_filter. apply filter_ext_in. intros b Hb. apply in_seq in Hb. unfold sent_mask. rewrite E, HC.
    destruct (Nat.ltb_spec b nboxes); [|lia]. rewrite andb_true_r. auto. }
  unfold outgoing, msg. rewrite I. f_equal.
  rewrite (slice_mpoles_eq nlevels ls nboxes LS0 LSn LSm); [|apply msg_idx_lt].
  apply map_ext. auto.
Qed.
Lemma incorporate_msg p s q : let p' := incorporate nlevels ls p (msg s q) in
  pr_pat p' = pr_pat p /\ pr_pending p' = pr_pending p /\
  (forall b, pr_mpoles p' b = op (pr_mpoles p b) (if mask (C s) s q b then M s q b else e0)) /\
  (forall b, pr_contrib p' b = pr_contrib p b || mask (C s) s q b).
Proof.
  cbv zeta. unfold incorporate, msg. cbn [pr_pat pr_pending pr_mpoles pr_contrib fst snd]. split; auto. split; auto. split; intros b.
  - rewrite (update_mpoles_eq nlevels ls nboxes LS0 LSn LSm); [|apply msg_idx_sorted|apply msg_idx_lt]. rewrite msg_idx_in. auto.
  - rewrite msg_idx_in. auto.
Qed.

Definition sent (st : net Mo) (stg : nat -> nat) (a s : nat) : Prop := s < stg a \/ (s = stg a /\ pr_pending (procs st a) <> None).
Definition recvd (st : net Mo) (stg : nat -> nat) (a b s : nat) : Prop :=
  s < stg b \/ (s = stg b /\ exists l, pr_pending (procs st b) = Some l /\ ~ In a l).
Record inv (st : net Mo) (stg : nat -> nat) : Prop := {
  inv_pat : forall r, r < size -> pat_at r size (stg r) = Some (pr_pat (procs st r));
  inv_none : forall r, r < size -> pr_pending (procs st r) = None ->
    (forall b, pr_mpoles (procs st r) b = M (stg r) r b) /\ (forall b, pr_contrib (procs st r) b = C (stg r) r b);
  inv_some : forall r l, r < size -> pr_pending (procs st r) = Some l ->
    pat_done (pr_pat (procs st r)) = false /\ exists got, Permutation (got ++ l) (pat_sources (pr_pat (procs st r))) /\
    (forall b, pr_mpoles (procs st r) b = op (M (stg r) r b) (msum (map (fun q => if mask (C (stg r)) (stg r) q b then M (stg r) q b else e0) got))) /\
    (forall b, pr_contrib (procs st r) b = C (stg r) r b || existsb (fun q => mask (C (stg r)) (stg r) q b) got);
  inv_chan : forall a b, a < size -> b < size -> chan st a b = [] \/
    exists s, chan st a b = [msg s a] /\ lnk s a b /\ sent st stg a s /\ ~ recvd st stg a b s;
  inv_open : forall a b s, a < size -> b < size -> lnk s a b -> sent st stg a s -> ~ recvd st stg a b s -> chan st a b = [msg s a];
  inv_recv : forall a b s, a < size -> b < size -> lnk s a b -> recvd st stg a b s -> sent st stg a s
}.

Lemma upd_same {A} (f : nat -> A) i v : upd f i v i = v.
Proof. unfold upd. rewrite Nat.eqb_refl. auto. Qed.
Lemma upd_other {A} (f : nat -> A) i v j : j <> i -> upd f i v j = f j.
Proof. unfold upd. intros H. apply Nat.eqb_neq in H. rewrite H. auto. Qed.
Lemma upd2_same {A} (f : nat -> nat -> A) i j v : upd2 f i j v i j = v.
Proof. unfold upd2. rewrite !Nat.eqb_refl. auto. Qed.
Lemma upd2_other {A} (f : nat -> nat -> A) i j v a b : a <> i \/ b <> j -> upd2 f i j v a b = f a b.
Proof. unfold upd2. intros H. destruct (Nat.eqb_spec a i), (Nat.eqb_spec b j); cbn; auto; lia. Qed.

Lemma inv_start : inv (start size m0 c0) (fun _ => 0).
Proof.
  constructor; cbn [start procs chan pr_pat pr_mpoles pr_contrib pr_pending pat_at]; auto; try discriminate.
  - intros a b s _ _ _ [H|[_ H]]; [lia|]. cbn in H. congruence.
  - intros a b s _ _ _ [H|[_ [l [H _]]]]; [lia|]. cbn in H. discriminate.
Qed.
(** a rank that still has to receive or to be received from is at most at the stage of its partner *)
Lemma inv_send st stg r : inv st stg -> r < size -> pr_pending (procs st r) = None -> pat_done (pr_pat (procs st r)) = false ->
  inv {| procs := upd (procs st) r (set_pending (procs st r) (Some (pat_sources (pr_pat (procs st r)))));
         chan := fold_left (fun c q => upd2 c r q (c r q ++ [outgoing nboxes nlevels ls users (procs st r)])) (pat_sinks (pr_pat (procs st r))) (chan st) |} stg.
Proof.
  intros I R P D. destruct I as [I1 I2 I3 I4 I5 I6]. assert (E := I1 r R). destruct (I2 r R P) as [HM HC].
  destruct (link_sink size r (stg r) _ R E D) as [b0 [SK L0]]. rewrite SK. cbn [fold_left].
  rewrite (outgoing_msg _ (stg r) r R E HM HC).
  assert (B0 := link_lt size _ _ _ R L0).
  assert (NS : ~ sent st stg r (stg r)) by (intros [X|[_ X]]; [lia|congruence]).
  assert (CH : chan st r b0 = []).
  { destruct (I4 r b0 R B0) as [X|[s [X1 [X2 [X3 X4]]]]]; auto. exfalso. rewrite (link_once size _ _ _ _ R X2 L0) in X3. auto. }
  rewrite CH. cbn [app].
  set (st' := {| procs := _; chan := _ |}).
  assert (SE : forall a s, sent st' stg a s <-> sent st stg a s \/ (a = r /\ s = stg r)).
  { intros a s. unfold sent, st'. cbn [procs]. destruct (Nat.eq_dec a r) as [->|N]; [rewrite upd_same|rewrite upd_other by auto].
    - cbn [set_pending pr_pending]. split; [intros [X|[X _]]; auto|]. intros [[X|[X _]]|[_ X]]; auto; right; split; auto; discriminate.
    - tauto. }
  assert (RE : forall a b s, a < size -> b < size -> lnk s a b -> (recvd st' stg a b s <-> recvd st stg a b s)).
  { intros a b s A B L. unfold recvd, st'. cbn [procs]. destruct (Nat.eq_dec b r) as [->|N]; [rewrite upd_same|rewrite upd_other by auto; tauto].
    cbn [set_pending pr_pending]. rewrite P. split; (intros [X|[X [l [Y1 Y2]]]]; [auto|]); [|discriminate].
    exfalso. inversion Y1; subst l. destruct (source_link size s a r A L) as [p [Q1 [Q2 Q3]]]. subst s. rewrite E in Q1. inversion Q1; subst p. auto. }
  constructor.
  - intros q Q. unfold st'. cbn [procs]. destruct (Nat.eq_dec q r) as [->|N]; [rewrite upd_same|rewrite upd_other by auto]; cbn [set_pending pr_pat]; auto.
  - intros q Q. unfold st'. cbn [procs]. destruct (Nat.eq_dec q r) as [->|N]; [rewrite upd_same|rewrite upd_other by auto]; cbn [set_pending pr_pending]; [discriminate|auto].
  - intros q l Q. unfold st'. cbn [procs]. destruct (Nat.eq_dec q r) as [->|N]; [rewrite upd_same|rewrite upd_other by auto; auto].
    cbn [set_pending pr_pending pr_pat pr_mpoles pr_contrib]. intros X. inversion X; subst l. split; auto. exists []. cbn [app map existsb].
    split; auto. split; intros b; [rewrite HM; cbn; rewrite op_0_r; auto|rewrite HC, orb_false_r; auto].
  - intros a b A B. destruct (Nat.eq_dec a r) as [->|Na]; [destruct (Nat.eq_dec b b0) as [->|Nb]|].
    + right. exists (stg r). unfold st' at 1. cbn [chan]. rewrite upd2_same. split; auto. split; auto. rewrite SE, RE by auto. split; auto. intros X. apply NS. eauto.
    + unfold st' at 1 2. cbn [chan]. rewrite upd2_other by auto. destruct (I4 r b A B) as [X|[s [X1 [X2 [X3 X4]]]]]; auto.
      right. exists s. rewrite SE, RE by auto. auto.
    + unfold st' at 1 2. cbn [chan]. rewrite upd2_other by auto. destruct (I4 a b A B) as [X|[s [X1 [X2 [X3 X4]]]]]; auto.
      right. exists s. rewrite SE, RE by auto. auto.
  - intros a b s A B L. rewrite SE, RE by auto. intros S1 S2. unfold st'. cbn [chan].
    destruct S1 as [S1|[-> ->]].
    + rewrite upd2_other; auto. destruct (Nat.eq_dec a r) as [->|]; auto. right. intros ->. rewrite (link_once size _ _ _ _ A L L0) in S1. auto.
    + assert (b = b0) as ->; [|rewrite upd2_same; auto].
      destruct L as [p [Q1 [Q2 Q3]]]. rewrite E in Q1. inversion Q1; subst p. rewrite SK in Q3. destruct Q3 as [|[]]; auto.
  - intros a b s A B L. rewrite SE, RE by auto. intros H. left. eauto.
Qed.
Lemma inv_receive st stg r l1 q l2 m rest : inv st stg -> r < size -> pr_pending (procs st r) = Some (l1 ++ q :: l2) -> chan st q r = m :: rest ->
  inv {| procs := upd (procs st) r (set_pending (incorporate nlevels ls (procs st r) m) (Some (l1 ++ l2)));
         chan := upd2 (chan st) q r rest |} stg.
Proof.
  intros I R P CH. destruct I as [I1 I2 I3 I4 I5 I6]. assert (E := I1 r R). destruct (I3 r _ R P) as [D [got [G1 [G2 G3]]]].
  assert (IQ : In q (pat_sources (pr_pat (procs st r)))).
  { apply (Permutation_in _ G1). apply in_or_app. right. apply in_or_app. right. left. auto. }
  destruct (link_source size _ _ _ _ R E D IQ) as [Q L].
  destruct (I4 q r Q R) as [X|[s [X1 [X2 [X3 X4]]]]]; [congruence|].
  assert (s = stg r) by (eapply link_once; eauto). subst s. rewrite CH in X1. inversion X1; subst m rest. clear X1.
  destruct (incorporate_msg (procs st r) (stg r) q) as [U1 [U2 [U3 U4]]].
  set (p' := incorporate nlevels ls (procs st r) (msg (stg r) q)) in *.
  assert (ND : NoDup (got ++ l1 ++ q :: l2)).
  { eapply Permutation_NoDup; [apply Permutation_sym, G1|apply sources_nodup]. }
  assert (NQ : ~ In q (l1 ++ l2)).
  { rewrite app_assoc in ND. apply NoDup_remove_2 in ND. rewrite <- app_assoc in ND. intros X. apply ND. apply in_or_app. auto. }
  set (st' := {| procs := _; chan := _ |}).
  assert (SE : forall a s, sent st' stg a s <-> sent st stg a s).
  { intros a s. unfold sent, st'. cbn [procs]. destruct (Nat.eq_dec a r) as [->|N]; [rewrite upd_same|rewrite upd_other by auto; tauto].
    cbn [set_pending pr_pending]. rewrite P. split; (intros [X|[X _]]; [auto|right; split; auto; discriminate]). }
  assert (RE : forall a b s, recvd st' stg a b s <-> recvd st stg a b s \/ (a = q /\ b = r /\ s = stg r)).
  { intros a b s. unfold recvd, st'. cbn [procs]. destruct (Nat.eq_dec b r) as [->|N]; [rewrite upd_same|rewrite upd_other by auto; tauto].
    cbn [set_pending pr_pending]. rewrite P. split.
    - intros [X|[X [l [Y1 Y2]]]]; [auto|]. inversion Y1; subst l. destruct (Nat.eq_dec a q) as [->|N]; [auto|].
      left. right. split; auto. eexists. split; [reflexivity|]. rewrite in_app_iff in Y2 |- *. cbn [In]. intuition.
    - intros [[X|[X [l [Y1 Y2]]]]|[-> [_ ->]]]; [auto| |].
      + right. split; auto. eexists. split; [reflexivity|]. inversion Y1; subst l. rewrite in_app_iff in Y2 |- *. cbn [In] in Y2. intuition.
      + right. split; auto. eexists. split; [reflexivity|]. auto. }
  constructor.
  - intros a A. unfold st'. cbn [procs]. destruct (Nat.eq_dec a r) as [->|N]; [rewrite upd_same|rewrite upd_other by auto; auto].
    cbn [set_pending pr_pat]. rewrite U1. auto.
  - intros a A. unfold st'. cbn [procs]. destruct (Nat.eq_dec a r) as [->|N]; [rewrite upd_same|rewrite upd_other by auto; auto]. cbn [set_pending pr_pending]. discriminate.
  - intros a l A. unfold st'. cbn [procs]. destruct (Nat.eq_dec a r) as [->|N]; [rewrite upd_same|rewrite upd_other by auto; auto].
    cbn [set_pending pr_pending pr_pat pr_mpoles pr_contrib]. rewrite U1. intros X. inversion X; subst l. split; auto. exists (q :: got). split; [|split].
    + rewrite <- G1. cbn [app]. rewrite !app_assoc. apply Permutation_middle.
    + intros b. rewrite U3, G2. cbn [map]. rewrite msum_cons, <- op_assoc. f_equal. apply op_comm.
    + intros b. rewrite U4, G3. cbn [existsb]. rewrite <- !orb_assoc. f_equal. apply orb_comm.
  - intros a b A B. destruct (Nat.eq_dec a q) as [->|Na]; [destruct (Nat.eq_dec b r) as [->|Nb]|].
    + left. unfold st'. cbn [chan]. apply upd2_same.
    + unfold st' at 1 2. cbn [chan]. rewrite upd2_other by auto. destruct (I4 q b A B) as [X|[s [Y1 [Y2 [Y3 Y4]]]]]; auto.
      right. exists s. rewrite SE, RE. repeat split; auto. intros [Z|[_ [Z _]]]; auto.
    + unfold st' at 1 2. cbn [chan]. rewrite upd2_other by auto. destruct (I4 a b A B) as [X|[s [Y1 [Y2 [Y3 Y4]]]]]; auto.
      right. exists s. rewrite SE, RE. repeat split; auto. intros [Z|[Z _]]; auto.
  - intros a b s A B L'. rewrite SE, RE. intros S1 S2. unfold st'. cbn [chan]. rewrite upd2_other; [auto|].
    destruct (Nat.eq_dec a q) as [->|]; auto. right. intros ->. assert (X := link_once size _ _ _ _ A L' L). tauto.
  - intros a b s A B L'. rewrite SE, RE. intros [H|[-> [-> ->]]]; eauto.
Qed.
Lemma inv_advance st stg r p' : inv st stg -> r < size -> pr_pending (procs st r) = Some [] -> pat_advance (pr_pat (procs st r)) = Some p' ->
  inv {| procs := upd (procs st) r (set_pattern (procs st r) p'); chan := chan st |} (upd stg r (S (stg r))).
Proof.
  intros I R P AD. destruct I as [I1 I2 I3 I4 I5 I6]. assert (E := I1 r R). destruct (I3 r _ R P) as [D [got [G1 [G2 G3]]]].
  rewrite app_nil_r in G1.
  set (st' := {| procs := _; chan := _ |}).
  assert (SE : forall a s, sent st' (upd stg r (S (stg r))) a s <-> sent st stg a s).
  { intros a s. unfold sent, st'. cbn [procs]. destruct (Nat.eq_dec a r) as [->|N]; [rewrite !upd_same|rewrite !upd_other by auto; tauto].
    cbn [set_pattern pr_pending]. rewrite P. split.
    - intros [X|[_ X]]; [|congruence]. destruct (Nat.eq_dec s (stg r)); [right; split; auto; discriminate|left; lia].
    - intros [X|[X _]]; left; lia. }
  assert (RE : forall a b s, recvd st' (upd stg r (S (stg r))) a b s <-> recvd st stg a b s).
  { intros a b s. unfold recvd, st'. cbn [procs]. destruct (Nat.eq_dec b r) as [->|N]; [rewrite !upd_same|rewrite !upd_other by auto; tauto].
    cbn [set_pattern pr_pending]. rewrite P. split.
    - intros [X|[_ [l [X _]]]]; [|discriminate]. destruct (Nat.eq_dec s (stg r)); [right; split; auto; exists []; auto|left; lia].
    - intros [X|[X _]]; left; lia. }
  constructor.
  - intros a A. unfold st'. cbn [procs]. destruct (Nat.eq_dec a r) as [->|N]; [rewrite !upd_same|rewrite !upd_other by auto; auto].
    cbn [set_pattern pr_pat pat_at]. rewrite E. auto.
  - intros a A. unfold st'. cbn [procs]. destruct (Nat.eq_dec a r) as [->|N]; [rewrite !upd_same|rewrite !upd_other by auto; auto].
    cbn [set_pattern pr_pending pr_mpoles pr_contrib idealM idealC]. intros _.
    assert (PT : partners size r (stg r) = pat_sources (pr_pat (procs st r))) by (unfold partners; rewrite E, D; auto).
    rewrite PT. split; intros b.
    + rewrite G2. f_equal. apply msum_perm, Permutation_map. auto.
    + rewrite G3. f_equal. destruct (existsb _ got) eqn:X; symmetry.
      * apply existsb_exists in X. destruct X as [x [X1 X2]]. apply existsb_exists. exists x. split; auto. apply (Permutation_in _ G1). auto.
      * destruct (existsb _ (pat_sources _)) eqn:Y; auto. apply existsb_exists in Y. destruct Y as [x [X1 X2]].
        rewrite <- X. symmetry. apply existsb_exists. exists x. split; auto. apply (Permutation_in _ (Permutation_sym G1)). auto.
  - intros a l A. unfold st'. cbn [procs]. destruct (Nat.eq_dec a r) as [->|N]; [rewrite !upd_same|rewrite !upd_other by auto; auto].
    cbn [set_pattern pr_pending]. discriminate.
  - intros a b A B. unfold st' at 1 2. cbn [chan]. destruct (I4 a b A B) as [X|[s [Y1 [Y2 [Y3 Y4]]]]]; auto.
    right. exists s. rewrite SE, RE. auto.
  - intros a b s A B L. rewrite SE, RE. unfold st'. cbn [chan]. auto.
  - intros a b s A B L. rewrite SE, RE. eauto.
Qed.

(** how far a rank has come *)
Definition position (st : net Mo) (stg : nat -> nat) (r : nat) : nat :=
  4 * stg r + match pr_pending (procs st r) with None => 0 | Some l => 3 - length l end.
Definition progress (st : net Mo) (stg : nat -> nat) : nat := nsum (map (position st stg) (seq 0 size)).
Lemma nsum_grow (f g : nat -> nat) n r : r < n -> (forall q, q < n -> f q <= g q) -> f r < g r -> nsum (map f (seq 0 n)) < nsum (map g (seq 0 n)).
Proof.
  revert r. induction n as [|n IH]; intros r R H L; [lia|]. rewrite seq_S, !map_app, !nsum_app. cbn [map]. rewrite !nsum_cons. cbn [plus].
  assert (W : nsum (map f (seq 0 n)) <= nsum (map g (seq 0 n))).
  { clear - H. induction n as [|n IH]; auto. rewrite seq_S, !map_app, !nsum_app. cbn [map]. rewrite !nsum_cons. cbn [plus].
    assert (X := H n ltac:(lia)). specialize (IH ltac:(intros; apply H; lia)). lia. }
  assert (X := H n ltac:(lia)). destruct (Nat.eq_dec r n) as [->|N]; [lia|].
  specialize (IH r ltac:(lia) ltac:(intros; apply H; lia) L). lia.
Qed.
Notation stp := (step size nboxes nlevels ls users rendezvous).
Lemma inv_step st stg st' : inv st stg -> stp st st' -> exists stg', inv st' stg' /\ progress st stg < progress st' stg'.
Proof.
  intros I H. destruct H as [st r R P D|st r l1 q l2 m rest R P CH|st r p' R P _ AD].
  - exists stg. split; [apply inv_send; auto|]. apply (nsum_grow _ _ _ r R).
    + intros q Q. unfold position. cbn [procs]. destruct (Nat.eq_dec q r) as [->|N]; [rewrite upd_same, P; lia|rewrite upd_other by auto; lia].
    + unfold position. cbn [procs]. rewrite upd_same, P. cbn [set_pending pr_pending]. assert (X := sources_len (pr_pat (procs st r))). lia.
  - exists stg. split; [eapply inv_receive; eauto|].
    assert (X : length (l1 ++ q :: l2) <= 2).
    { destruct (inv_some st stg I r _ R P) as [_ [got [G _]]]. apply Permutation_length in G. rewrite app_length in G.
      assert (X := sources_len (pr_pat (procs st r))). lia. }
    assert (X2 : length (l1 ++ q :: l2) = S (length (l1 ++ l2))) by (rewrite !app_length; cbn [length]; lia).
    apply (nsum_grow _ _ _ r R).
    + intros a A. unfold position. cbn [procs]. destruct (Nat.eq_dec a r) as [->|N]; [rewrite upd_same, P; cbn [set_pending pr_pending]; lia|rewrite upd_other by auto; lia].
    + unfold position. cbn [procs]. rewrite upd_same, P. cbn [set_pending pr_pending]. lia.
  - exists (upd stg r (S (stg r))). split; [eapply inv_advance; eauto|]. apply (nsum_grow _ _ _ r R).
    + intros a A. unfold position. cbn [procs]. destruct (Nat.eq_dec a r) as [->|N]; [rewrite !upd_same, P; cbn [set_pattern pr_pending length]; lia|rewrite !upd_other by auto; lia].
    + unfold position. cbn [procs]. rewrite !upd_same, P. cbn [set_pattern pr_pending length]. lia.
Qed.
Notation reach := (reachable size nboxes nlevels ls users rendezvous (start size m0 c0)).
Lemma inv_reach st n : reach st n -> exists stg, inv st stg /\ n <= progress st stg.
Proof.
  induction 1 as [|st st' n H [stg [IH1 IH2]] ST].
  - exists (fun _ => 0). split; [apply inv_start|lia].
  - destruct (inv_step _ _ _ IH1 ST) as [stg' [J1 J2]]. exists stg'. split; auto. lia.
Qed.
Lemma position_bound st stg r : inv st stg -> r < size -> position st stg r <= 4 * Nat.log2_up size.
Proof.
  intros I R. destruct (stage_bound size r _ _ R (inv_pat _ _ I r R)) as [B1 B2]. unfold position.
  destruct (pr_pending (procs st r)) as [l|] eqn:P; [|lia].
  destruct (inv_some _ _ I r l R P) as [D _]. assert (stg r <> Nat.log2_up size) by (intros X; rewrite (B2 X) in D; discriminate). lia.
Qed.
Lemma run_length st n : reach st n -> n <= 4 * size * Nat.log2_up size.
Proof.
  intros H. destruct (inv_reach st n H) as [stg [I L]]. etransitivity; [exact L|]. unfold progress.
  replace (4 * size * Nat.log2_up size) with (size * (4 * Nat.log2_up size)) by lia. clear L.
  assert (X : forall k, k <= size -> nsum (map (position st stg) (seq 0 k)) <= k * (4 * Nat.log2_up size)); [|apply X; auto].
  induction k as [|k IH]; intros K; [cbn; lia|]. rewrite seq_S, map_app, nsum_app. cbn [map plus]. rewrite nsum_cons. change (nsum []) with 0.
  assert (Y := position_bound st stg k I ltac:(lia)). specialize (IH ltac:(lia)). lia.
Qed.

Lemma min_stage (stg : nat -> nat) (P : nat -> Prop) (dec : forall r, {P r} + {~ P r}) n :
  (exists r, r < n /\ P r) -> exists r, r < n /\ P r /\ forall q, q < n -> P q -> stg r <= stg q.
Proof.
  induction n as [|n IH]; intros [r [R H]]; [lia|].
  destruct (dec n) as [Y|Y].
  - destruct (le_lt_dec n 0) as [Z|Z]; [exists n; split; [lia|]; split; auto; intros q Q _; assert (q = n) by lia; subst; auto|].
    assert (W : (exists r, r < n /\ P r) \/ ~ (exists r, r < n /\ P r)).
    { clear - dec. induction n as [|n [[r [X1 X2]]|X]]; [right; intros [r [X _]]; lia|left; exists r; split; auto; lia|].
      destruct (dec n); [left; exists n; auto|right]. intros [r [X1 X2]]. destruct (Nat.eq_dec r n) as [->|]; auto. apply X. exists r. split; auto. lia. }
    destruct W as [W|W].
    + destruct (IH W) as [r0 [R1 [R2 R3]]]. destruct (le_lt_dec (stg r0) (stg n)) as [L|L].
      * exists r0. split; [lia|]. split; auto. intros q Q Hq. destruct (Nat.eq_dec q n) as [->|]; auto. apply R3; auto. lia.
      * exists n. split; [lia|]. split; auto. intros q Q Hq. destruct (Nat.eq_dec q n) as [->|]; auto. specialize (R3 q ltac:(lia) Hq). lia.
    + exists n. split; [lia|]. split; auto. intros q Q Hq. destruct (Nat.eq_dec q n) as [->|]; auto. exfalso. apply W. exists q. split; auto. lia.
  - destruct IH as [r0 [R1 [R2 R3]]].
    { exists r. split; auto. destruct (Nat.eq_dec r n) as [->|]; [tauto|lia]. }
    exists r0. split; [lia|]. split; auto. intros q Q Hq. destruct (Nat.eq_dec q n) as [->|]; [tauto|]. apply R3; auto. lia.
Qed.
Definition unfinished (st : net Mo) (r : nat) : Prop := ~ (pat_done (pr_pat (procs st r)) = true /\ pr_pending (procs st r) = None).
(** a rank with a link at stage [s] has not finished before stage [s] *)
Lemma busy st stg r s p : inv st stg -> r < size -> pat_at r size s = Some p -> pat_done p = false -> stg r <= s -> unfinished st r.
Proof.
  intros I R E D L [X _]. destruct (pat_at_mono size r (stg r) s p L E) as [q [Q1 Q2]]. rewrite (inv_pat _ _ I r R) in Q1. inversion Q1; subst q.
  destruct (Nat.eq_dec (stg r) s) as [Y|Y]; [rewrite <- Y, (inv_pat _ _ I r R) in E; congruence|]. rewrite Q2 in X by lia. discriminate.
Qed.
Lemma no_deadlock st stg : inv st stg -> ~ all_done size st -> exists st', stp st st'.
Proof.
  intros I ND.
  assert (DEC : forall r, {unfinished st r} + {~ unfinished st r}).
  { intros r. unfold unfinished. destruct (pat_done (pr_pat (procs st r))); destruct (pr_pending (procs st r)); [left|right|left|left]; try (intros [? ?]; congruence). tauto. }
  assert (EX : exists r, r < size /\ unfinished st r).
  { assert (W : (exists r, r < size /\ unfinished st r) \/ forall r, r < size -> ~ unfinished st r).
    { clear - DEC. induction size as [|n [[r [X1 X2]]|X]]; [right; intros; lia|left; exists r; split; auto; lia|].
      destruct (DEC n); [left; exists n; auto|right]. intros r H. destruct (Nat.eq_dec r n) as [->|]; auto. apply X. lia. }
    destruct W as [W|W]; auto. exfalso. apply ND. intros r R. specialize (W r R). unfold unfinished in W.
    destruct (pat_done (pr_pat (procs st r))); destruct (pr_pending (procs st r)); auto; exfalso; apply W; intros [? ?]; congruence. }
  destruct (min_stage stg _ DEC size EX) as [r [R [U MIN]]].
  assert (E := inv_pat _ _ I r R).
  assert (SND : forall q, q < size -> pr_pending (procs st q) = None -> unfinished st q -> exists st', stp st st').
  { intros q Q P X. eexists. apply (step_send _ _ _ _ _ _ st q Q P). unfold unfinished in X. destruct (pat_done _); auto. exfalso. apply X. auto. }
  destruct (pr_pending (procs st r)) as [[|q l]|] eqn:P; [| |eauto].
  - destruct (inv_some _ _ I r _ R P) as [D _]. destruct (link_sink size r (stg r) _ R E D) as [b [SK L]].
    assert (B := link_lt size _ _ _ R L). destruct (source_link size _ _ _ R L) as [pb [EB [DB IB]]].
    destruct (chan st r b) as [|m rest] eqn:CH.
    + destruct (pat_advance (pr_pat (procs st r))) as [p'|] eqn:AD; [|unfold pat_advance in AD; rewrite D in AD; discriminate].
      eexists. eapply (step_advance _ _ _ _ _ _ st r p' R P); eauto. intros _ q Q. rewrite SK in Q. destruct Q as [<-|[]]. auto.
    + destruct (inv_chan _ _ I r b R B) as [X|[s [Y1 [Y2 [Y3 Y4]]]]]; [congruence|].
      assert (s = stg r) by (apply (link_once size _ _ _ _ R Y2 L)). subst s.
      assert (LE : stg b <= stg r) by (destruct (le_lt_dec (stg b) (stg r)); auto; exfalso; apply Y4; left; auto).
      assert (UB : unfinished st b) by (eapply (busy st stg b (stg r)); eauto).
      assert (EQ : stg b = stg r) by (assert (Z := MIN b B UB); lia).
      destruct (pr_pending (procs st b)) as [lb|] eqn:PB; [|eauto].
      assert (IN : In r lb). { destruct (in_dec Nat.eq_dec r lb); auto. exfalso. apply Y4. right. split; eauto. }
      apply in_split in IN. destruct IN as [l1 [l2 ->]]. eexists. eapply (step_receive _ _ _ _ _ _ st b l1 r l2); eauto.
  - destruct (inv_some _ _ I r _ R P) as [D [got [G _]]].
    assert (IQ : In q (pat_sources (pr_pat (procs st r)))).
    { apply (Permutation_in _ G). apply in_or_app. right. left. auto. }
    destruct (link_source size _ _ _ _ R E D IQ) as [Q L].
    destruct (chan st q r) as [|m rest] eqn:CH.
    + assert (NS : ~ sent st stg q (stg r)).
      { intros X. rewrite (inv_open _ _ I q r (stg r) Q R L X) in CH; [discriminate|].
        intros [Y|[_ [l' [Y1 Y2]]]]; [lia|]. rewrite P in Y1. inversion Y1; subst l'. apply Y2. left. auto. }
      destruct L as [pq [EQ [DQ IN]]].
      assert (LE : stg q <= stg r). { destruct (le_lt_dec (stg q) (stg r)); auto. exfalso. apply NS. left. auto. }
      assert (UQ : unfinished st q) by (eapply (busy st stg q (stg r)); eauto).
      assert (EE : stg q = stg r) by (assert (Z := MIN q Q UQ); lia).
      apply (SND q Q); auto. destruct (pr_pending (procs st q)) eqn:PQ; auto. exfalso. apply NS. right. split; auto. congruence.
    + eexists. eapply (step_receive _ _ _ _ _ _ st r [] q l); eauto.
Qed.
Lemma final_chan st stg a b : inv st stg -> all_done size st -> a < size -> b < size -> chan st a b = [].
Proof.
  intros I AD A B. destruct (inv_chan _ _ I a b A B) as [X|[s [Y1 [Y2 [Y3 Y4]]]]]; auto. exfalso.
  destruct (source_link size _ _ _ A Y2) as [pb [EB [DB IB]]].
  assert (LE : stg b <= s). { destruct (le_lt_dec (stg b) s); auto. exfalso. apply Y4. left. auto. }
  apply (busy st stg b s pb I B EB DB LE). apply AD. auto.
Qed.
Hypothesis ZERO : forall r b, r < size -> b < nboxes -> c0 r b = false -> m0 r b = e0.
Lemma final_sum st stg r b : inv st stg -> all_done size st -> r < size -> b < nboxes -> In r (users b) ->
  pr_mpoles (procs st r) b = msum (map (fun q => m0 q b) (seq 0 size)).
Proof.
  intros I AD R B U. destruct (AD r R) as [D P]. rewrite (proj1 (inv_none _ _ I r R P) b).
  apply (done_sum size nboxes users m0 c0 ZERO _ _ _ _ R (inv_pat _ _ I r R) D B U).
Qed.
End Runs.
