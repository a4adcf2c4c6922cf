(** All executions of DistRun.v: the exchange of every evaluation is an execution of Comm.v. *)
From Coq Require Import List Arith ZArith Lia Bool Permutation.
From Verif Require Import Base ArrayFacts Tools ToolsFacts Monoid Comm CommFacts CommRuns PropsComm DistRun.
Import ListNotations.

(** ** Steps by rank *)
Section Rank.
Context {X : cmonoid}.
Variable size nboxes nlevels : nat.
Variable ls : nat -> nat.
Variable users : nat -> list nat.
Variable rendezvous : bool.
Notation rstep := (rank_step nboxes nlevels ls users rendezvous).
Notation cstep := (step (X := X) size nboxes nlevels ls users rendezvous).
Lemma rank_step_step N r p' c' : r < size -> rstep r (procs N r) (chan N) p' c' ->
  cstep N {| procs := upd (procs N) r p'; chan := c' |}.
Proof.
  intros R H. remember (procs N r) as p eqn:EP. remember (chan N) as c eqn:EC. destruct H; subst.
  - apply step_send; auto.
  - eapply step_receive; eauto.
  - apply step_advance; auto.
Qed.
Lemma step_rank_step N N' : cstep N N' ->
  exists r p' c', r < size /\ rstep r (procs N r) (chan N) p' c' /\ N' = {| procs := upd (procs N) r p'; chan := c' |}.
Proof.
  intros H. destruct H.
  - exists r. do 2 eexists. split; auto. split; [|reflexivity]. apply rs_send; auto.
  - exists r. do 2 eexists. split; auto. split; [|reflexivity]. eapply rs_receive; eauto.
  - exists r. do 2 eexists. split; auto. split; [|reflexivity]. eapply rs_advance; eauto.
Qed.
Lemma fold_upd2_ext {A} (l : list nat) r (m : A) : forall c d : nat -> nat -> list A, (forall a b, c a b = d a b) ->
  forall a b, fold_left (fun c q => upd2 c r q (c r q ++ [m])) l c a b = fold_left (fun c q => upd2 c r q (c r q ++ [m])) l d a b.
Proof.
  induction l as [|q l IH]; intros c d H a b; cbn [fold_left]; auto. apply IH. intros x y. unfold upd2. rewrite !H. destruct (_ && _); auto.
Qed.
Lemma rank_step_ext r (p : proc X) c p' c' d : rstep r p c p' c' -> (forall a b, c a b = d a b) ->
  exists d', rstep r p d p' d' /\ forall a b, c' a b = d' a b.
Proof.
  intros H E. destruct H as [p c P D|p c l1 q l2 m rest P C|p c p' P C A].
  - eexists. split; [apply rs_send; auto|]. apply fold_upd2_ext; auto.
  - exists (upd2 d q r rest). split; [eapply rs_receive; eauto; rewrite <- E; auto|]. intros a b. unfold upd2. rewrite E. auto.
  - exists d. split; [apply rs_advance; auto|auto]. intros RV x I. rewrite <- E. auto.
Qed.
Lemma over_no_step r (p : proc X) c p' c' : exchange_over p -> rstep r p c p' c' -> False.
Proof. intros [D P] H. destruct H; congruence. Qed.
Variables (m0 : nat -> nat -> X) (c0 : nat -> nat -> bool).
Hypothesis LV : levels_cover nboxes nlevels ls.
Lemma outside_empty N n : reachable size nboxes nlevels ls users rendezvous (start size m0 c0) N n ->
  forall a b, size <= a \/ size <= b -> chan N a b = [].
Proof.
  destruct LV as [L0 [Ln Lm]]. induction 1 as [|N N' n H IH ST]; intros a b AB; auto.
  destruct (inv_reach size nboxes nlevels ls users rendezvous m0 c0 L0 Ln Lm N n H) as [stg [I _]].
  destruct ST as [N r R P D|N r l1 q l2 m rest R P CH|N r p' R P _ AD]; cbn [chan]; auto.
  - destruct (link_sink size r (stg r) _ R (inv_pat _ _ _ _ _ _ _ I r R) D) as [b0 [SK L]]. rewrite SK. cbn [fold_left].
    assert (B := link_lt size _ _ _ R L). rewrite (upd2_other nboxes nlevels ls) by (auto; lia). auto.
  - destruct (le_lt_dec size q).
    + rewrite (IH q r) in CH by auto. discriminate.
    + rewrite (upd2_other nboxes nlevels ls) by (auto; lia). auto.
Qed.
End Rank.

Section Program.
Context {X : cmonoid}.
Context {W V : Type}.
Variable size : nat.
Variable nboxes nlevels : nat.
Variable ls : nat -> nat.
Variable users : nat -> list nat.
Variable rendezvous : bool.
Variable contributing : nat -> nat -> bool.
Variable nevals : nat.
Variable weights_for : nat -> nat -> W.
Variable upward : nat -> W -> nat -> X.
Variable evaluate : nat -> W -> (nat -> X) -> V.
Hypothesis S0 : 0 < size.
Hypothesis LV : levels_cover nboxes nlevels ls.
Notation state := (@state X W V).
Notation rstep := (rank_step nboxes nlevels ls users rendezvous).
Notation cstart e := (start size (fun r => upward r (weights_for e r)) contributing).
Notation creach e := (reachable size nboxes nlevels ls users rendezvous (cstart e)).
Notation stp := (run_step size nboxes nlevels ls users rendezvous contributing nevals weights_for upward evaluate).
Notation enter := (enter_exchange size contributing upward).

Inductive stat := Before | During | After.
Definition epoch (st : state) : nat := length (results st).
Definition status (st : state) (r : nat) : stat :=
  match phases st r with
  | Exchanging _ => During | Gathering _ _ => After | Sending_weights _ => Before
  | _ => if count st r =? epoch st then Before else After
  end.
Definition root_sent (st : state) : bool := match phases st 0 with Idle => false | _ => true end.
Definition received (st : state) (r : nat) : bool :=
  match phases st 0 with Gathering pend _ => negb (existsb (Nat.eqb r) pend) | _ => false end.
Definition is_before (s : stat) : bool := match s with Before => true | _ => false end.
Definition is_after (s : stat) : bool := match s with After => true | _ => false end.
Definition answer (e : nat) (N : net X) (r : nat) : V := evaluate r (weights_for e r) (pr_mpoles (procs N r)).

Record Inv (st : state) (N : net X) (nx : nat) : Prop := {
  i_reach : creach (epoch st) N nx;
  i_count0 : count st 0 = epoch st;
  i_phase0 : phases st 0 <> Sending_potentials;
  i_count : forall r, 1 <= r < size -> match phases st r with
    | Idle | Sending_potentials => count st r = epoch st \/ count st r = S (epoch st)
    | Exchanging _ => count st r = epoch st
    | _ => False end;
  i_sendpot : forall r, r < size -> phases st r = Sending_potentials -> 1 <= count st r;
  i_max : epoch st <= nevals /\ forall r, r < size -> count st r <= nevals;
  i_busy : epoch st = nevals -> forall r, r < size -> phases st r = Idle \/ phases st r = Sending_potentials;
  i_before : forall r, r < size -> status st r = Before -> procs N r = enter r (weights_for (epoch st) r);
  i_during : forall r w, r < size -> phases st r = Exchanging w -> w = weights_for (epoch st) r /\ procs N r = xprocs st r;
  i_after : forall r, r < size -> status st r = After -> exchange_over (procs N r);
  i_idle : phases st 0 = Idle -> forall r, r < size -> status st r = Before;
  i_fresh : phases st 0 = Idle -> nx = 0;
  i_chan : forall a b, xchan st a b = chan N a b;
  i_w0 : forall w, phases st 0 = Sending_weights w -> w = weights_for (epoch st) 0;
  i_w : forall r, 1 <= r < size -> wchan st r = if root_sent st && is_before (status st r) then [weights_for (epoch st) r] else [];
  i_p : forall r, 1 <= r < size -> pchan st r = if is_after (status st r) && negb (received st r) then [answer (epoch st) N r] else [];
  i_pend : forall pend got, phases st 0 = Gathering pend got -> NoDup pend /\ (forall r, In r pend -> 1 <= r < size);
  i_got : forall pend got, phases st 0 = Gathering pend got -> forall r, r < size -> ~ In r pend ->
    status st r = After /\ got r = Some (answer (epoch st) N r)
}.
Definition results_ok (st : state) : Prop := forall e, e < epoch st ->
  exists N n, creach e N n /\ all_done size N /\ forall r, r < size -> nth e (results st) (fun _ => None) r = Some (answer e N r).

Definition rank_pot (st : state) (r : nat) : nat :=
  if r =? 0 then count st 0 * (size + 3) + match phases st 0 with
    | Idle => 0 | Sending_weights _ => 1 | Exchanging _ => 2 | Gathering pend _ => size + 2 - length pend | _ => 0 end
  else 3 * count st r + match phases st r with Exchanging _ => 1 | _ => 0 end - match phases st r with Sending_potentials => 1 | _ => 0 end.
Definition pot (st : state) : nat := nsum (map (rank_pot st) (seq 0 size)).
Definition exchange_bound : nat := 4 * size * Nat.log2_up size.
Lemma pot_one st st' r : r < size -> (forall q, q < size -> q <> r -> rank_pot st' q = rank_pot st q) -> rank_pot st' r = S (rank_pot st r) -> pot st' = S (pot st).
Proof.
  intros R H1 H2. unfold pot. revert R H1. generalize size as n. induction n as [|n IH]; intros R H1; [lia|].
  rewrite seq_S, !map_app, !nsum_app. cbn [map Nat.add]. change (nsum [?x]) with (x + 0).
  destruct (Nat.eq_dec r n) as [->|N].
  - rewrite H2. assert (E : map (rank_pot st') (seq 0 n) = map (rank_pot st) (seq 0 n)).
    { apply map_ext_in. intros q Q. apply in_seq in Q. apply H1; lia. }
    rewrite E. lia.
  - rewrite (H1 n) by lia. rewrite IH; [lia|lia|]. intros q Q Q2. apply H1; lia.
Qed.

Lemma inv_start junk : Inv (run_start junk) (cstart 0) 0 /\ results_ok (run_start junk).
Proof.
  split; [|intros e He; cbn in He; lia].
  constructor; cbn; auto; try discriminate; try lia.
  - apply reach_start.
  - split; intros; lia.
Qed.

Lemma status_same (st st' : state) r : phases st' r = phases st r -> count st' r = count st r -> epoch st' = epoch st -> status st' r = status st r.
Proof. intros A B C. unfold status. rewrite A, B, C. auto. Qed.
Lemma pot_same st st' : (forall q, q < size -> rank_pot st' q = rank_pot st q) -> pot st' = pot st.
Proof. intros H. unfold pot. f_equal. apply map_ext_in. intros q Q. apply in_seq in Q. apply H. lia. Qed.

(** what one step does to the invariant and to the measures *)
Definition moved (st st' : state) (N : net X) (nx : nat) : Prop :=
  exists N' nx', Inv st' N' nx' /\
  ((epoch st' = epoch st /\ results st' = results st /\ nx' + pot st' = S (nx + pot st)) \/
   (epoch st' = S (epoch st) /\ nx' = 0 /\ pot st' = S (pot st) /\ all_done size N /\
    exists got, results st' = results st ++ [got] /\ forall r, r < size -> got r = Some (answer (epoch st) N r))).

Ltac fields := cbn [phases count xprocs xchan wchan pchan results] in *.
Lemma m_root_sends st N nx : Inv st N nx -> phases st 0 = Idle -> count st 0 < nevals ->
  moved st {| phases := upd (phases st) 0 (Sending_weights (weights_for (count st 0) 0)); count := count st;
      xprocs := xprocs st; xchan := xchan st;
      wchan := fun r => if (1 <=? r) && (r <? size) then wchan st r ++ [weights_for (count st 0) r] else wchan st r;
      pchan := pchan st; results := results st |} N nx.
Proof.
  intros I P C. set (st' := {| phases := _ |}).
  assert (C0 := i_count0 _ _ _ I).
  assert (ST : forall r, r < size -> status st' r = status st r).
  { intros r R. destruct (Nat.eq_dec r 0) as [->|NZ].
    - rewrite (i_idle _ _ _ I P 0 R). reflexivity.
    - apply status_same; auto. cbn. rewrite upd_other; auto. }
  exists N, nx. split.
  - constructor; auto; try exact (i_reach _ _ _ I); try exact (i_count0 _ _ _ I); try exact (i_max _ _ _ I); try exact (i_chan _ _ _ I).
    + subst st'; fields. rewrite upd_same. discriminate.
    + intros r R. subst st'; fields. rewrite upd_other by lia. exact (i_count _ _ _ I r R).
    + intros r R. subst st'; fields. destruct (Nat.eq_dec r 0) as [->|NZ]; [rewrite upd_same; discriminate|]. rewrite upd_other by lia. exact (i_sendpot _ _ _ I r R).
    + intros E. exfalso. change (epoch st = nevals) in E. lia.
    + intros r R. rewrite ST by auto. exact (i_before _ _ _ I r R).
    + intros r w R. subst st'; fields. destruct (Nat.eq_dec r 0) as [->|NZ]; [rewrite upd_same; discriminate|]. rewrite upd_other by lia. exact (i_during _ _ _ I r w R).
    + intros r R. rewrite ST by auto. exact (i_after _ _ _ I r R).
    + subst st'; fields. rewrite upd_same. discriminate.
    + subst st'; fields. rewrite upd_same. discriminate.
    + intros w. subst st'; fields. rewrite upd_same. intros E. injection E as <-. rewrite C0. reflexivity.
    + intros r R. rewrite ST by lia. rewrite (i_idle _ _ _ I P r) by lia. change (root_sent st') with true. cbn [andb is_before].
      subst st'; fields. rewrite (i_w _ _ _ I r R). unfold root_sent. rewrite P. cbn [andb].
      replace (1 <=? r) with true by (symmetry; apply Nat.leb_le; lia). replace (r <? size) with true by (symmetry; apply Nat.ltb_lt; lia).
      cbn [andb app]. rewrite C0. reflexivity.
    + intros r R. rewrite ST by lia. rewrite (i_idle _ _ _ I P r) by lia. cbn [is_after andb]. subst st'; fields. rewrite (i_p _ _ _ I r R), (i_idle _ _ _ I P r) by lia. reflexivity.
    + intros pend got. subst st'; fields. rewrite upd_same. discriminate.
    + intros pend got. subst st'; fields. rewrite upd_same. discriminate.
  - left. split; auto. split; auto. rewrite (pot_one st st' 0); auto; try lia.
    + intros q Q Q0. unfold rank_pot. replace (q =? 0) with false by (symmetry; apply Nat.eqb_neq; auto). subst st'; fields. rewrite upd_other by lia. auto.
    + unfold rank_pot. cbn [Nat.eqb]. subst st'; fields. rewrite upd_same, P. lia.
Qed.

Ltac at0 r := destruct (Nat.eq_dec r 0) as [->|]; [rewrite ?upd_same in *|rewrite ?upd_other in * by lia].
Ltac atr q r := destruct (Nat.eq_dec q r) as [->|]; [rewrite ?upd_same in *|rewrite ?upd_other in * by lia].
Lemma m_root_starts st N nx w : Inv st N nx -> phases st 0 = Sending_weights w ->
  moved st {| phases := upd (phases st) 0 (Exchanging w); count := count st;
      xprocs := upd (xprocs st) 0 (enter 0 w); xchan := xchan st; wchan := wchan st; pchan := pchan st; results := results st |} N nx.
Proof.
  intros I P. set (st' := {| phases := _ |}).
  assert (W0 := i_w0 _ _ _ I w P).
  assert (ST : forall r, r < size -> r <> 0 -> status st' r = status st r).
  { intros r R NZ. apply status_same; auto. cbn. rewrite upd_other; auto. }
  assert (B0 : status st 0 = Before) by (unfold status; rewrite P; auto).
  exists N, nx. split.
  - constructor; auto; try exact (i_reach _ _ _ I); try exact (i_count0 _ _ _ I); try exact (i_max _ _ _ I); try exact (i_chan _ _ _ I).
    + subst st'; fields. rewrite upd_same. discriminate.
    + intros r R. subst st'; fields. rewrite upd_other by lia. exact (i_count _ _ _ I r R).
    + intros r R. subst st'; fields. at0 r; [discriminate|]. exact (i_sendpot _ _ _ I r R).
    + intros E. exfalso. destruct (i_busy _ _ _ I E 0 S0); congruence.
    + intros r R H. destruct (Nat.eq_dec r 0) as [->|]; [subst st'; unfold status in H; fields; rewrite upd_same in H; discriminate|].
      rewrite ST in H by auto. exact (i_before _ _ _ I r R H).
    + intros r w1 R. subst st'; fields. at0 r; [|exact (i_during _ _ _ I r w1 R)].
      intros E. injection E as <-. split; auto. rewrite (i_before _ _ _ I 0 R B0). f_equal. auto.
    + intros r R H. destruct (Nat.eq_dec r 0) as [->|]; [subst st'; unfold status in H; fields; rewrite upd_same in H; discriminate|].
      rewrite ST in H by auto. exact (i_after _ _ _ I r R H).
    + subst st'; fields. rewrite upd_same. discriminate.
    + subst st'; fields. rewrite upd_same. discriminate.
    + intros w1. subst st'; fields. rewrite upd_same. discriminate.
    + intros r R. rewrite ST by lia. subst st'; fields. rewrite (i_w _ _ _ I r R). unfold root_sent. fields. rewrite upd_same, P. reflexivity.
    + intros r R. rewrite ST by lia. subst st'; fields. rewrite (i_p _ _ _ I r R). unfold received. fields. rewrite upd_same, P. reflexivity.
    + intros pend got. subst st'; fields. rewrite upd_same. discriminate.
    + intros pend got. subst st'; fields. rewrite upd_same. discriminate.
  - left. split; auto. split; auto. rewrite (pot_one st st' 0); auto; try lia.
    + intros q Q Q0. unfold rank_pot. replace (q =? 0) with false by (symmetry; apply Nat.eqb_neq; auto). subst st'; fields. rewrite upd_other by lia. auto.
    + unfold rank_pot. cbn [Nat.eqb]. subst st'; fields. rewrite upd_same, P. lia.
Qed.
Lemma m_worker_starts st N nx r w rest : Inv st N nx -> 1 <= r < size -> phases st r = Idle -> wchan st r = w :: rest ->
  moved st {| phases := upd (phases st) r (Exchanging w); count := count st;
      xprocs := upd (xprocs st) r (enter r w); xchan := xchan st;
      wchan := upd (wchan st) r rest; pchan := pchan st; results := results st |} N nx.
Proof.
  intros I R P WC. set (st' := {| phases := _ |}).
  assert (WC2 := WC). rewrite (i_w _ _ _ I r R) in WC2.
  destruct (root_sent st) eqn:RS; [|discriminate]. destruct (status st r) eqn:SR; try discriminate. cbn [andb is_before] in WC2. injection WC2 as <- <-.
  assert (NI : phases st 0 <> Idle) by (intros E; unfold root_sent in RS; rewrite E in RS; discriminate).
  assert (CE : count st r = epoch st).
  { unfold status in SR. rewrite P in SR. destruct (Nat.eqb_spec (count st r) (epoch st)); auto. discriminate. }
  assert (ST : forall q, q < size -> q <> r -> status st' q = status st q).
  { intros q Q NZ. apply status_same; auto. cbn. rewrite upd_other; auto. }
  assert (SR' : status st' r = During) by (unfold status; subst st'; fields; rewrite upd_same; auto).
  assert (P0 : phases st' 0 = phases st 0) by (subst st'; fields; rewrite upd_other by lia; auto).
  exists N, nx. split.
  - constructor; auto; try exact (i_reach _ _ _ I); try exact (i_count0 _ _ _ I); try exact (i_max _ _ _ I); try exact (i_chan _ _ _ I); rewrite ?P0; auto.
    + exact (i_phase0 _ _ _ I).
    + intros q Q. subst st'; fields. atr q r; auto. exact (i_count _ _ _ I q Q).
    + intros q Q. subst st'; fields. atr q r; [discriminate|]. exact (i_sendpot _ _ _ I q Q).
    + intros E. exfalso. destruct (i_busy _ _ _ I E 0 S0) as [E0|E0]; [auto|]. apply (i_phase0 _ _ _ I E0).
    + intros q Q H. destruct (Nat.eq_dec q r) as [->|]; [congruence|].
      rewrite ST in H by auto. exact (i_before _ _ _ I q Q H).
    + intros q w1 Q. subst st'; fields. atr q r; [|exact (i_during _ _ _ I q w1 Q)].
      intros E. injection E as <-. split; auto. rewrite (i_before _ _ _ I r Q SR). reflexivity.
    + intros q Q H. destruct (Nat.eq_dec q r) as [->|]; [congruence|].
      rewrite ST in H by auto. exact (i_after _ _ _ I q Q H).
    + intros E. contradiction.
    + intros E. contradiction.
    + exact (i_w0 _ _ _ I).
    + intros q Q. unfold root_sent. rewrite P0. fold (root_sent st). destruct (Nat.eq_dec q r) as [->|NE].
      * rewrite SR'. cbn [is_before]. rewrite andb_false_r. subst st'; fields. apply upd_same.
      * rewrite ST by lia. subst st'; fields. rewrite upd_other by auto. exact (i_w _ _ _ I q Q).
    + intros q Q. unfold received. rewrite P0. fold (received st q). destruct (Nat.eq_dec q r) as [->|NE].
      * rewrite SR'. subst st'; fields. rewrite (i_p _ _ _ I r Q), SR. reflexivity.
      * rewrite ST by lia. exact (i_p _ _ _ I q Q).
    + exact (i_pend _ _ _ I).
    + intros pend got G q Q NIn. destruct (i_got _ _ _ I pend got G q Q NIn) as [A B]. destruct (Nat.eq_dec q r) as [->|NE]; [congruence|]. rewrite ST by auto. auto.
  - left. split; auto. split; auto. rewrite (pot_one st st' r); auto; try lia.
    + intros q Q Q0. unfold rank_pot. subst st'; fields. rewrite !(upd_other _ r _ q) by auto. destruct (q =? 0) eqn:E0; auto. rewrite upd_other by lia. auto.
    + unfold rank_pot. replace (r =? 0) with false by (symmetry; apply Nat.eqb_neq; lia). subst st'; fields. rewrite upd_same, P. lia.
Qed.
Lemma m_exchange st N nx r w p' c' : Inv st N nx -> r < size -> phases st r = Exchanging w -> rstep r (xprocs st r) (xchan st) p' c' ->
  moved st {| phases := phases st; count := count st; xprocs := upd (xprocs st) r p'; xchan := c';
      wchan := wchan st; pchan := pchan st; results := results st |} N nx.
Proof.
  intros I R P RS. set (st' := {| phases := _ |}).
  destruct (i_during _ _ _ I r w R P) as [WE XP].
  destruct (rank_step_ext _ _ _ _ _ _ _ _ _ _ (chan N) RS (i_chan _ _ _ I)) as [d' [RS' CE]].
  assert (ST : forall q, status st' q = status st q) by (intros q; apply status_same; auto).
  assert (DU : status st r = During) by (unfold status; rewrite P; auto).
  exists {| procs := upd (procs N) r p'; chan := d' |}, (S nx). split.
  - constructor; auto; try exact (i_count0 _ _ _ I); try exact (i_max _ _ _ I); try exact (i_phase0 _ _ _ I); try exact (i_count _ _ _ I);
      try exact (i_sendpot _ _ _ I); try exact (i_busy _ _ _ I); try exact (i_w0 _ _ _ I); try exact (i_pend _ _ _ I); cbn [procs chan].
    + eapply reach_step; [exact (i_reach _ _ _ I)|]. apply (rank_step_step _ _ _ _ _ _ N r p' d' R). rewrite XP. exact RS'.
    + intros q Q. rewrite ST. intros H. rewrite upd_other by congruence. exact (i_before _ _ _ I q Q H).
    + intros q w1 Q H. subst st'; fields. atr q r.
      * rewrite P in H. injection H as <-. split; [exact WE|reflexivity].
      * exact (i_during _ _ _ I q w1 Q H).
    + intros q Q. rewrite ST. intros H. rewrite upd_other by congruence. exact (i_after _ _ _ I q Q H).
    + intros E q Q. rewrite ST. exact (i_idle _ _ _ I E q Q).
    + intros E. assert (X1 := i_idle _ _ _ I E r R). congruence.
    + intros q Q. rewrite ST. exact (i_w _ _ _ I q Q).
    + intros q Q. rewrite ST. change (received st' q) with (received st q). change (pchan st' q) with (pchan st q). rewrite (i_p _ _ _ I q Q).
      destruct (status st q) eqn:SQ; auto. cbn [is_after andb]. unfold answer. cbn [procs]. rewrite upd_other by congruence. reflexivity.
    + intros pend got G q Q NIn. destruct (i_got _ _ _ I pend got G q Q NIn) as [A B]. rewrite ST. split; auto. rewrite B. unfold answer. cbn [procs]. rewrite upd_other by congruence. reflexivity.
  - left. split; [reflexivity|]. split; [reflexivity|]. rewrite (pot_same st st'); [lia|]. intros q Q. reflexivity.
Qed.
Lemma m_root_evaluates st N nx w : Inv st N nx -> phases st 0 = Exchanging w -> exchange_over (xprocs st 0) ->
  moved st {| phases := upd (phases st) 0
        (Gathering (seq 1 (size - 1)) (upd (fun _ => None) 0 (Some (evaluate 0 w (pr_mpoles (xprocs st 0))))));
      count := count st; xprocs := xprocs st; xchan := xchan st; wchan := wchan st; pchan := pchan st; results := results st |} N nx.
Proof.
  intros I P XO. set (st' := {| phases := _ |}).
  destruct (i_during _ _ _ I 0 w S0 P) as [WE XP].
  assert (ST : forall r, r < size -> r <> 0 -> status st' r = status st r).
  { intros r R NZ. apply status_same; auto. cbn. rewrite upd_other; auto. }
  assert (S0' : status st' 0 = After) by reflexivity.
  exists N, nx. split.
  - constructor; auto; try exact (i_reach _ _ _ I); try exact (i_count0 _ _ _ I); try exact (i_max _ _ _ I); try exact (i_chan _ _ _ I).
    + subst st'; fields. rewrite upd_same. discriminate.
    + intros r R. subst st'; fields. rewrite upd_other by lia. exact (i_count _ _ _ I r R).
    + intros r R. subst st'; fields. at0 r; [discriminate|]. exact (i_sendpot _ _ _ I r R).
    + intros E. exfalso. destruct (i_busy _ _ _ I E 0 S0); congruence.
    + intros r R H. destruct (Nat.eq_dec r 0) as [->|]; [congruence|].
      rewrite ST in H by auto. exact (i_before _ _ _ I r R H).
    + intros r w1 R. subst st'; fields. at0 r; [discriminate|]. exact (i_during _ _ _ I r w1 R).
    + intros r R H. destruct (Nat.eq_dec r 0) as [->|]; [rewrite XP; auto|].
      rewrite ST in H by auto. exact (i_after _ _ _ I r R H).
    + subst st'; fields. rewrite upd_same. discriminate.
    + subst st'; fields. rewrite upd_same. discriminate.
    + intros w1. subst st'; fields. rewrite upd_same. discriminate.
    + intros r R. rewrite ST by lia. subst st'; fields. rewrite (i_w _ _ _ I r R). unfold root_sent. fields. rewrite upd_same, P. reflexivity.
    + intros r R. rewrite ST by lia. subst st'; fields. rewrite (i_p _ _ _ I r R). unfold received. fields. rewrite upd_same, P.
      replace (existsb (Nat.eqb r) (seq 1 (size - 1))) with true; auto. symmetry. apply existsb_exists. exists r. split; [apply in_seq; lia|apply Nat.eqb_refl].
    + intros pend got. subst st'; fields. rewrite upd_same. intros E. injection E as <- <-. split; [apply seq_NoDup|]. intros r H. apply in_seq in H. lia.
    + intros pend got E r R NIn. subst st'; fields. rewrite upd_same in E. injection E as <- <-.
      destruct (Nat.eq_dec r 0) as [->|]; [|exfalso; apply NIn, in_seq; lia]. split; auto. rewrite upd_same. unfold answer. rewrite XP, WE. reflexivity.
  - left. split; auto. split; auto. rewrite (pot_one st st' 0); auto; try lia.
    + intros q Q Q0. unfold rank_pot. replace (q =? 0) with false by (symmetry; apply Nat.eqb_neq; auto). subst st'; fields. rewrite upd_other by lia. auto.
    + unfold rank_pot. cbn [Nat.eqb]. subst st'; fields. rewrite upd_same, P, seq_length. lia.
Qed.
Lemma m_worker_evaluates st N nx r w : Inv st N nx -> 1 <= r < size -> phases st r = Exchanging w -> exchange_over (xprocs st r) ->
  moved st {| phases := upd (phases st) r Sending_potentials; count := upd (count st) r (S (count st r));
      xprocs := xprocs st; xchan := xchan st; wchan := wchan st;
      pchan := upd (pchan st) r (pchan st r ++ [evaluate r w (pr_mpoles (xprocs st r))]); results := results st |} N nx.
Proof.
  intros I R P XO. set (st' := {| phases := _ |}).
  destruct (i_during _ _ _ I r w (proj2 R) P) as [WE XP].
  assert (CE := i_count _ _ _ I r R). rewrite P in CE.
  assert (LT : epoch st < nevals).
  { destruct (i_max _ _ _ I) as [M _]. destruct (Nat.eq_dec (epoch st) nevals) as [E|]; [|lia]. destruct (i_busy _ _ _ I E r (proj2 R)); congruence. }
  assert (SR : status st r = During) by (unfold status; rewrite P; auto).
  assert (ST : forall q, q < size -> q <> r -> status st' q = status st q).
  { intros q Q NZ. apply status_same; auto; cbn; rewrite upd_other; auto. }
  assert (SR' : status st' r = After).
  { unfold status; subst st'; fields; rewrite !upd_same. change (epoch _) with (epoch st). destruct (Nat.eqb_spec (S (count st r)) (epoch st)); [lia|auto]. }
  assert (P0 : phases st' 0 = phases st 0) by (subst st'; fields; rewrite upd_other by lia; auto).
  assert (RC : received st r = false).
  { unfold received. destruct (phases st 0) eqn:E0; auto. destruct (existsb (Nat.eqb r) pending) eqn:EX; auto.
    exfalso. destruct (i_got _ _ _ I _ _ E0 r (proj2 R)) as [A _]; [|congruence].
    intros IN. assert (X1 : existsb (Nat.eqb r) pending = true) by (apply existsb_exists; exists r; split; auto; apply Nat.eqb_refl). congruence. }
  exists N, nx. split.
  - constructor; auto; try exact (i_reach _ _ _ I); try exact (i_chan _ _ _ I); rewrite ?P0; auto.
    + subst st'; fields. rewrite upd_other by lia. exact (i_count0 _ _ _ I).
    + exact (i_phase0 _ _ _ I).
    + intros q Q. subst st'; fields. atr q r; [right; rewrite CE; reflexivity|]. exact (i_count _ _ _ I q Q).
    + intros q Q. subst st'; fields. atr q r; [lia|]. exact (i_sendpot _ _ _ I q Q).
    + destruct (i_max _ _ _ I) as [M1 M2]. split; auto. intros q Q. subst st'; fields. atr q r; [lia|auto].
    + intros E. change (epoch st = nevals) in E. lia.
    + intros q Q H. destruct (Nat.eq_dec q r) as [->|]; [congruence|].
      rewrite ST in H by auto. exact (i_before _ _ _ I q Q H).
    + intros q w1 Q. subst st'; fields. atr q r; [discriminate|exact (i_during _ _ _ I q w1 Q)].
    + intros q Q H. destruct (Nat.eq_dec q r) as [->|]; [rewrite XP; auto|].
      rewrite ST in H by auto. exact (i_after _ _ _ I q Q H).
    + intros E. exfalso. assert (X1 := i_idle _ _ _ I E r (proj2 R)). congruence.
    + exact (i_fresh _ _ _ I).
    + exact (i_w0 _ _ _ I).
    + intros q Q. unfold root_sent. rewrite P0. fold (root_sent st). destruct (Nat.eq_dec q r) as [->|NE].
      * rewrite SR'. subst st'; fields. rewrite (i_w _ _ _ I r Q), SR. reflexivity.
      * rewrite ST by lia. exact (i_w _ _ _ I q Q).
    + intros q Q. unfold received. rewrite P0. fold (received st q). destruct (Nat.eq_dec q r) as [->|NE].
      * rewrite SR', RC. cbn [is_after negb andb]. subst st'; fields. rewrite upd_same, (i_p _ _ _ I r Q), SR. cbn [is_after andb app]. unfold answer. rewrite XP, WE. reflexivity.
      * rewrite ST by lia. subst st'; fields. rewrite upd_other by auto. exact (i_p _ _ _ I q Q).
    + exact (i_pend _ _ _ I).
    + intros pend got G q Q NIn. destruct (i_got _ _ _ I pend got G q Q NIn) as [A B]. destruct (Nat.eq_dec q r) as [->|NE]; [congruence|]. rewrite ST by auto. auto.
  - left. split; auto. split; auto. rewrite (pot_one st st' r); auto; try lia.
    + intros q Q Q0. unfold rank_pot. subst st'; fields. rewrite !(upd_other _ r _ q) by auto. destruct (q =? 0) eqn:E0; auto. rewrite !upd_other by lia. auto.
    + unfold rank_pot. replace (r =? 0) with false by (symmetry; apply Nat.eqb_neq; lia). subst st'; fields. rewrite !upd_same, P. lia.
Qed.
Lemma m_worker_ends st N nx r : Inv st N nx -> 1 <= r < size -> phases st r = Sending_potentials ->
  moved st {| phases := upd (phases st) r Idle; count := count st;
      xprocs := xprocs st; xchan := xchan st; wchan := wchan st; pchan := pchan st; results := results st |} N nx.
Proof.
  intros I R P. set (st' := {| phases := _ |}).
  assert (ST : forall q, status st' q = status st q).
  { intros q. destruct (Nat.eq_dec q r) as [->|]; [|apply status_same; auto; cbn; rewrite upd_other; auto].
    unfold status. subst st'; fields. rewrite upd_same, P. reflexivity. }
  assert (P0 : phases st' 0 = phases st 0) by (subst st'; fields; rewrite upd_other by lia; auto).
  exists N, nx. split.
  - constructor; auto; try exact (i_reach _ _ _ I); try exact (i_count0 _ _ _ I); try exact (i_max _ _ _ I); try exact (i_chan _ _ _ I); rewrite ?P0; auto.
    + exact (i_phase0 _ _ _ I).
    + intros q Q. assert (CQ := i_count _ _ _ I q Q). subst st'; fields. atr q r; auto. rewrite P in CQ. exact CQ.
    + intros q Q. subst st'; fields. atr q r; [discriminate|]. exact (i_sendpot _ _ _ I q Q).
    + intros E q Q. subst st'; fields. atr q r; auto. exact (i_busy _ _ _ I E q Q).
    + intros q Q. rewrite ST. exact (i_before _ _ _ I q Q).
    + intros q w1 Q. subst st'; fields. atr q r; [discriminate|exact (i_during _ _ _ I q w1 Q)].
    + intros q Q. rewrite ST. exact (i_after _ _ _ I q Q).
    + intros E q Q. rewrite ST. exact (i_idle _ _ _ I E q Q).
    + exact (i_fresh _ _ _ I).
    + exact (i_w0 _ _ _ I).
    + intros q Q. unfold root_sent. rewrite P0, ST. exact (i_w _ _ _ I q Q).
    + intros q Q. unfold received. rewrite P0, ST. exact (i_p _ _ _ I q Q).
    + exact (i_pend _ _ _ I).
    + intros pend got G q Q. rewrite ST. exact (i_got _ _ _ I pend got G q Q).
  - left. split; auto. split; auto. assert (C1 := i_sendpot _ _ _ I r (proj2 R) P). rewrite (pot_one st st' r); auto; try lia.
    + intros q Q Q0. unfold rank_pot. subst st'; fields. rewrite !(upd_other _ r _ q) by auto. destruct (q =? 0) eqn:E0; auto. rewrite upd_other by lia. auto.
    + unfold rank_pot. replace (r =? 0) with false by (symmetry; apply Nat.eqb_neq; lia). subst st'; fields. rewrite upd_same, P. lia.
Qed.
Lemma not_existsb r l : existsb (Nat.eqb r) l = false <-> ~ In r l.
Proof.
  split.
  - intros H IN. assert (E : existsb (Nat.eqb r) l = true) by (apply existsb_exists; exists r; split; auto; apply Nat.eqb_refl). congruence.
  - intros H. destruct (existsb (Nat.eqb r) l) eqn:E; auto. apply existsb_exists in E. destruct E as [x [IN E]]. apply Nat.eqb_eq in E. subst. contradiction.
Qed.
Lemma m_root_receives st N nx l1 r l2 got v rest : Inv st N nx -> phases st 0 = Gathering (l1 ++ r :: l2) got -> pchan st r = v :: rest ->
  moved st {| phases := upd (phases st) 0 (Gathering (l1 ++ l2) (upd got r (Some v))); count := count st;
      xprocs := xprocs st; xchan := xchan st; wchan := wchan st; pchan := upd (pchan st) r rest; results := results st |} N nx.
Proof.
  intros I P PC. set (st' := {| phases := _ |}).
  destruct (i_pend _ _ _ I _ _ P) as [ND RG].
  assert (R : 1 <= r < size) by (apply RG, in_elt).
  assert (NR : ~ In r (l1 ++ l2)) by (apply NoDup_remove_2; auto).
  rewrite (i_p _ _ _ I r R) in PC. destruct (status st r) eqn:SR; try discriminate. destruct (received st r); try discriminate. cbn [is_after negb andb] in PC. injection PC as <- <-.
  assert (ST : forall q, status st' q = status st q).
  { intros q. destruct (Nat.eq_dec q 0) as [->|]; [|apply status_same; auto; cbn; rewrite upd_other; auto].
    unfold status. subst st'; fields. rewrite upd_same, P. reflexivity. }
  assert (LEN : length (l1 ++ r :: l2) <= size - 1).
  { rewrite <- (seq_length (size - 1) 1). apply NoDup_incl_length; auto. intros q H. apply in_seq. apply RG in H. lia. }
  exists N, nx. split.
  - constructor; auto; try exact (i_reach _ _ _ I); try exact (i_count0 _ _ _ I); try exact (i_max _ _ _ I); try exact (i_chan _ _ _ I).
    + subst st'; fields. rewrite upd_same. discriminate.
    + intros q Q. subst st'; fields. rewrite upd_other by lia. exact (i_count _ _ _ I q Q).
    + intros q Q. subst st'; fields. at0 q; [discriminate|]. exact (i_sendpot _ _ _ I q Q).
    + intros E. exfalso. destruct (i_busy _ _ _ I E 0 S0); congruence.
    + intros q Q. rewrite ST. exact (i_before _ _ _ I q Q).
    + intros q w1 Q. subst st'; fields. at0 q; [discriminate|]. exact (i_during _ _ _ I q w1 Q).
    + intros q Q. rewrite ST. exact (i_after _ _ _ I q Q).
    + subst st'; fields. rewrite upd_same. discriminate.
    + subst st'; fields. rewrite upd_same. discriminate.
    + intros w1. subst st'; fields. rewrite upd_same. discriminate.
    + intros q Q. rewrite ST. subst st'; fields. rewrite (i_w _ _ _ I q Q). unfold root_sent. fields. rewrite upd_same, P. reflexivity.
    + intros q Q. rewrite ST. subst st'; fields. unfold received at 1. fields. rewrite upd_same. destruct (Nat.eq_dec q r) as [->|NE].
      * rewrite upd_same, SR. replace (existsb (Nat.eqb r) (l1 ++ l2)) with false; auto. symmetry. apply not_existsb; auto.
      * rewrite upd_other by auto. rewrite (i_p _ _ _ I q Q). unfold received. rewrite P.
        replace (existsb (Nat.eqb q) (l1 ++ r :: l2)) with (existsb (Nat.eqb q) (l1 ++ l2)); auto.
        rewrite !existsb_app. cbn [existsb]. replace (q =? r) with false by (symmetry; apply Nat.eqb_neq; auto). reflexivity.
    + intros pend g. subst st'; fields. rewrite upd_same. intros E. injection E as <- <-. split; [apply (NoDup_remove_1 _ _ _ ND)|].
      intros q H. apply RG. apply in_app_iff in H. apply in_app_iff. cbn. tauto.
    + intros pend g E q Q NIn. rewrite ST. subst st'; fields. rewrite upd_same in E. injection E as <- <-. atr q r; auto.
      apply (i_got _ _ _ I _ _ P q Q). intros H. apply NIn. apply in_app_iff in H. apply in_app_iff. cbn in H. destruct H as [H|[H|H]]; auto; congruence.
  - left. split; auto. split; auto. rewrite (pot_one st st' 0); auto; try lia.
    + intros q Q Q0. unfold rank_pot. replace (q =? 0) with false by (symmetry; apply Nat.eqb_neq; auto). subst st'; fields. rewrite upd_other by lia. auto.
    + unfold rank_pot. cbn [Nat.eqb]. subst st'; fields. rewrite upd_same, P. rewrite !app_length in *. cbn [length] in *. lia.
Qed.
Lemma m_root_ends st N nx got : Inv st N nx -> phases st 0 = Gathering [] got ->
  moved st {| phases := upd (phases st) 0 Idle; count := upd (count st) 0 (S (count st 0));
      xprocs := xprocs st; xchan := xchan st; wchan := wchan st; pchan := pchan st; results := results st ++ [got] |} N nx.
Proof.
  intros I P. set (st' := {| phases := _ |}).
  assert (AF : forall r, r < size -> status st r = After /\ got r = Some (answer (epoch st) N r)).
  { intros r R. apply (i_got _ _ _ I _ _ P r R). auto. }
  assert (E' : epoch st' = S (epoch st)) by (unfold epoch; subst st'; fields; rewrite app_length; cbn; lia).
  assert (LT : epoch st < nevals).
  { destruct (i_max _ _ _ I) as [M _]. destruct (Nat.eq_dec (epoch st) nevals) as [E|]; [|lia]. destruct (i_busy _ _ _ I E 0 S0); congruence. }
  assert (C0 := i_count0 _ _ _ I).
  assert (AD : all_done size N) by (intros r R; apply (i_after _ _ _ I r R), AF, R).
  assert (WK : forall r, 1 <= r < size -> (phases st r = Idle \/ phases st r = Sending_potentials) /\ count st r = S (epoch st)).
  { intros r R. assert (CR := i_count _ _ _ I r R). destruct (AF r (proj2 R)) as [SR _]. unfold status in SR.
    destruct (phases st r); try contradiction; try discriminate; destruct (Nat.eqb_spec (count st r) (epoch st)); try discriminate; split; auto; lia. }
  assert (ST : forall r, r < size -> status st' r = Before).
  { intros r R. unfold status. rewrite E'. subst st'; fields. at0 r.
    - rewrite C0, Nat.eqb_refl. reflexivity.
    - destruct (WK r) as [[E|E] CR]; [lia| |]; rewrite E, CR, Nat.eqb_refl; reflexivity. }
  exists (cstart (epoch st')), 0. split.
  - constructor; auto.
    + apply reach_start.
    + rewrite E'. subst st'; fields. rewrite upd_same. lia.
    + subst st'; fields. rewrite upd_same. discriminate.
    + intros r R. rewrite E'. subst st'; fields. rewrite !upd_other by lia. destruct (WK r R) as [[E|E] CR]; rewrite E, CR; auto.
    + intros r R. subst st'; fields. at0 r; [discriminate|]. exact (i_sendpot _ _ _ I r R).
    + rewrite E'. split; [lia|]. intros r R. subst st'; fields. at0 r; [lia|]. apply (i_max _ _ _ I); auto.
    + intros _ r R. subst st'; fields. at0 r; auto. apply WK. lia.
    + intros r w R H. exfalso. subst st'; fields. at0 r; [discriminate|]. destruct (WK r) as [[E|E] CR]; [lia| |]; congruence.
    + intros r R H. rewrite ST in H by auto. discriminate.
    + intros a b. subst st'; fields. rewrite (i_chan _ _ _ I). cbn [chan start].
      destruct (le_lt_dec size a) as [A|A]; [eapply outside_empty; eauto using i_reach|].
      destruct (le_lt_dec size b) as [B|B]; [eapply outside_empty; eauto using i_reach|].
      destruct LV as [L0 [Ln Lm]]. destruct (inv_reach _ _ _ _ _ _ _ _ L0 Ln Lm N nx (i_reach _ _ _ I)) as [stg [J _]].
      eapply final_chan; eauto.
    + intros w H. exfalso. subst st'; fields. rewrite upd_same in H. discriminate.
    + intros r R. change (root_sent st') with false. subst st'; fields. rewrite (i_w _ _ _ I r R). destruct (AF r (proj2 R)) as [-> _]. rewrite andb_false_r. reflexivity.
    + intros r R. rewrite ST by lia. subst st'; fields. rewrite (i_p _ _ _ I r R). destruct (AF r (proj2 R)) as [-> _]. unfold received. rewrite P. reflexivity.
    + intros pend g H. exfalso. subst st'; fields. rewrite upd_same in H. discriminate.
    + intros pend g H. exfalso. subst st'; fields. rewrite upd_same in H. discriminate.
  - right. split; auto. split; auto. split; [|split; auto; exists got; split; auto; intros r R; apply AF; auto].
    rewrite (pot_one st st' 0); auto; try lia.
    + intros q Q Q0. unfold rank_pot. replace (q =? 0) with false by (symmetry; apply Nat.eqb_neq; auto). subst st'; fields. rewrite !upd_other by lia. auto.
    + unfold rank_pot. cbn [Nat.eqb]. subst st'; fields. rewrite !upd_same, P. cbn [length]. lia.
Qed.
Lemma step_moved st st' N nx : Inv st N nx -> stp st st' -> moved st st' N nx.
Proof.
  intros I H. destruct H.
  - apply m_root_sends; auto.
  - apply m_root_starts; auto.
  - eapply m_worker_starts; eauto.
  - eapply m_exchange; eauto.
  - eapply m_root_evaluates; eauto.
  - eapply m_worker_evaluates; eauto.
  - eapply m_worker_ends; eauto.
  - eapply m_root_receives; eauto.
  - eapply m_root_ends; eauto.
Qed.

Notation rreach junk := (run_reachable size nboxes nlevels ls users rendezvous contributing nevals weights_for upward evaluate (run_start junk)).
Lemma exchange_bounded e N n : creach e N n -> n <= exchange_bound.
Proof. intros H. eapply C35_bounded_executions; eauto. Qed.
Lemma run_inv junk st n : rreach junk st n ->
  exists N nx, Inv st N nx /\ results_ok st /\ n <= epoch st * exchange_bound + nx + pot st.
Proof.
  induction 1 as [|st st' n H [N [nx [I [RO B]]]] STP].
  - destruct (inv_start junk) as [I RO]. exists (cstart 0), 0. split; auto. split; auto. lia.
  - destruct (step_moved _ _ _ _ I STP) as [N' [nx' [I' [[E [RS P]]|[E [-> [P [AD [got [RS G]]]]]]]]]].
    + exists N', nx'. split; auto. split; [|rewrite E; lia]. intros e He. rewrite E in He. rewrite RS. apply RO; auto.
    + exists N', 0. split; auto. assert (XB := exchange_bounded _ _ _ (i_reach _ _ _ I)). split; [|rewrite E, P, Nat.mul_succ_l; lia].
      intros e He. rewrite RS. destruct (Nat.eq_dec e (epoch st)) as [->|NE].
      * exists N, nx. split; [exact (i_reach _ _ _ I)|]. split; auto. intros r R. unfold epoch at 1. rewrite nth_middle. apply G; auto.
      * destruct (RO e) as [Ne [ne [A [C D]]]]; [lia|]. exists Ne, ne. split; auto. split; auto. intros r R. rewrite app_nth1 by (change (length (results st)) with (epoch st); lia). auto.
Qed.
Lemma pot_bound st N nx : Inv st N nx -> pot st <= nevals * (4 * size).
Proof.
  intros I. assert (C0 := i_count0 _ _ _ I). destruct (i_max _ _ _ I) as [M1 M2].
  assert (R0 : rank_pot st 0 <= nevals * (size + 3)).
  { unfold rank_pot. cbn [Nat.eqb]. rewrite C0. destruct (Nat.eq_dec (epoch st) nevals) as [E|NE].
    - destruct (i_busy _ _ _ I E 0 S0) as [-> | ->]; rewrite E; lia.
    - assert (L : S (epoch st) * (size + 3) <= nevals * (size + 3)) by (apply Nat.mul_le_mono_r; lia). rewrite Nat.mul_succ_l in L.
      destruct (phases st 0); lia. }
  assert (RW : forall r, 1 <= r < size -> rank_pot st r <= 3 * nevals).
  { intros r R. unfold rank_pot. replace (r =? 0) with false by (symmetry; apply Nat.eqb_neq; lia).
    assert (L := M2 r (proj2 R)). assert (CR := i_count _ _ _ I r R). destruct (phases st r) eqn:P; try lia.
    destruct (Nat.eq_dec (epoch st) nevals) as [E|NE]; [|lia]. destruct (i_busy _ _ _ I E r (proj2 R)); congruence. }
  assert (SZ : seq 0 size = 0 :: seq 1 (size - 1)) by (destruct size; [lia|]; cbn [seq]; f_equal; f_equal; lia).
  unfold pot. rewrite SZ. cbn [map]. change (nsum (?x :: ?y)) with (x + nsum y).
  assert (SW : nsum (map (rank_pot st) (seq 1 (size - 1))) <= (size - 1) * (3 * nevals)).
  { assert (G : forall l, (forall r, In r l -> 1 <= r < size) -> nsum (map (rank_pot st) l) <= length l * (3 * nevals)).
    { induction l as [|a l IH]; intros H; [cbn; lia|]. cbn [map length]. change (nsum (?x :: ?y)) with (x + nsum y).
      assert (A := RW a (H a (or_introl eq_refl))). assert (B := IH (fun r Hr => H r (or_intror Hr))). rewrite Nat.mul_succ_l. lia. }
    assert (G1 := G (seq 1 (size - 1))). rewrite seq_length in G1. apply G1. intros r H. apply in_seq in H. lia. }
  nia.
Qed.
Lemma run_bounded junk st n : rreach junk st n -> n <= nevals * (exchange_bound + 4 * size).
Proof.
  intros H. destruct (run_inv _ _ _ H) as [N [nx [I [_ B]]]]. assert (PB := pot_bound _ _ _ I). destruct (i_max _ _ _ I) as [M1 _].
  assert (XB := exchange_bounded _ _ _ (i_reach _ _ _ I)).
  destruct (Nat.eq_dec (epoch st) nevals) as [E|NE].
  - assert (Z : nx = 0). { apply (i_fresh _ _ _ I). destruct (i_busy _ _ _ I E 0 S0) as [A|A]; auto. destruct (i_phase0 _ _ _ I A). }
    rewrite E in B. lia.
  - assert (L : S (epoch st) * exchange_bound <= nevals * exchange_bound) by (apply Nat.mul_le_mono_r; lia). rewrite Nat.mul_succ_l in L. lia.
Qed.
Lemma search (P : nat -> Prop) (D : forall r, {P r} + {~ P r}) a b : (exists r, a <= r < b /\ P r) \/ (forall r, a <= r < b -> ~ P r).
Proof.
  induction b as [|b [[r [R H]]|IH]].
  - right. lia.
  - left. exists r. split; auto. lia.
  - destruct (D b) as [Y|NO].
    + destruct (le_lt_dec a b); [left; exists b; split; auto; lia|right; lia].
    + right. intros r R. destruct (Nat.eq_dec r b) as [->|]; auto. apply IH. lia.
Qed.
Lemma stat_dec (x y : stat) : {x = y} + {x <> y}.
Proof. decide equality. Qed.
Lemma done_dec (N : net X) : all_done size N \/ ~ all_done size N.
Proof.
  destruct (search (fun r => ~ exchange_over (procs N r)) ltac:(intros r; unfold exchange_over; destruct (pat_done (pr_pat (procs N r))); destruct (pr_pending (procs N r)); (right; intros H; apply H; split; congruence) || (left; intros [A B]; congruence)) 0 size) as [[r [R H]]|H].
  - right. intros AD. apply H, AD. lia.
  - left. intros r R. specialize (H r ltac:(lia)). unfold exchange_over in H. destruct (pat_done (pr_pat (procs N r))), (pr_pending (procs N r)); auto; destruct H; intros [A B]; congruence.
Qed.
Lemma before_moves st N nx r : Inv st N nx -> 1 <= r < size -> root_sent st = true -> status st r = Before -> exists st', stp st st'.
Proof.
  intros I R RS SR. assert (CR := i_count _ _ _ I r R). assert (WR := i_w _ _ _ I r R). rewrite RS, SR in WR. cbn [andb is_before] in WR.
  assert (PR := i_p _ _ _ I r R). rewrite SR in PR. cbn [is_after andb] in PR.
  destruct (i_max _ _ _ I) as [M1 M2].
  assert (NI : phases st 0 <> Idle) by (intros E; unfold root_sent in RS; rewrite E in RS; discriminate).
  destruct (phases st r) eqn:P; try contradiction.
  - assert (LT : epoch st <> nevals). { intros E. destruct (i_busy _ _ _ I E 0 S0) as [A|A]; auto. destruct (i_phase0 _ _ _ I A). }
    eexists. eapply worker_starts; eauto. unfold status in SR. rewrite P in SR. destruct (Nat.eqb_spec (count st r) (epoch st)); [lia|discriminate].
  - unfold status in SR. rewrite P in SR. discriminate.
  - eexists. eapply worker_ends; eauto.
Qed.
Lemma run_progress st N nx : Inv st N nx -> ~ run_over size nevals st -> exists st', stp st st'.
Proof.
  intros I NO. destruct (i_max _ _ _ I) as [M1 M2]. assert (C0 := i_count0 _ _ _ I).
  destruct (root_sent st) eqn:RS.
  2:{ assert (P : phases st 0 = Idle) by (unfold root_sent in RS; destruct (phases st 0); auto; discriminate).
      destruct (Nat.eq_dec (epoch st) nevals) as [E|NE]; [|eexists; apply root_sends_weights; [auto|lia]].
      destruct (search (fun r => phases st r = Sending_potentials) ltac:(intros r; cbv beta; destruct (phases st r); (left; reflexivity) || (right; discriminate)) 1 size) as [[r [R H]]|H].
      - eexists. eapply worker_ends; eauto. intros _. rewrite (i_p _ _ _ I r R), (i_idle _ _ _ I P r) by lia. reflexivity.
      - destruct NO. intros r R. assert (SB := i_idle _ _ _ I P r R). destruct (Nat.eq_dec r 0) as [->|]; [split; congruence|].
        destruct (i_busy _ _ _ I E r R) as [A|A]; [|destruct (H r ltac:(lia) A)]. split; auto.
        unfold status in SB. rewrite A in SB. destruct (Nat.eqb_spec (count st r) (epoch st)); [congruence|discriminate]. }
  destruct (search (fun r => status st r = Before) (fun r => stat_dec _ _) 1 size) as [[r [R H]]|NB]; [eapply before_moves; eauto|].
  assert (WE : forall r, 1 <= r < size -> wchan st r = []).
  { intros r R. rewrite (i_w _ _ _ I r R). specialize (NB r R). destruct (status st r); [contradiction| |]; rewrite andb_false_r; auto. }
  destruct (phases st 0) eqn:P; try (unfold root_sent in RS; rewrite P in RS; discriminate).
  - eexists. eapply root_starts; eauto.
  - destruct (done_dec N) as [AD|ND].
    + destruct (i_during _ _ _ I 0 _ S0 P) as [_ XP]. eexists. eapply root_evaluates; eauto. rewrite <- XP. apply AD; auto.
    + destruct (C35_no_deadlock _ _ _ _ _ _ _ _ _ _ _ LV (i_reach _ _ _ I) ND) as [N' SN].
      destruct (step_rank_step _ _ _ _ _ _ _ _ SN) as [r [p' [c' [R [RST _]]]]].
      assert (XN : forall a b, chan N a b = xchan st a b) by (intros; symmetry; apply (i_chan _ _ _ I)).
      destruct (rank_step_ext _ _ _ _ _ _ _ _ _ _ (xchan st) RST XN) as [d' [RST' _]].
      assert (DU : exists w1, phases st r = Exchanging w1).
      { destruct (status st r) eqn:SR.
        - exfalso. destruct (Nat.eq_dec r 0) as [->|]; [unfold status in SR; rewrite P in SR; discriminate|]. apply (NB r); auto. lia.
        - unfold status in SR. destruct (phases st r) eqn:PR; try discriminate; eauto; destruct (_ =? _); discriminate.
        - exfalso. eapply over_no_step; [|exact RST]. apply (i_after _ _ _ I r R SR). }
      destruct DU as [w1 PR]. destruct (i_during _ _ _ I r w1 R PR) as [_ XP]. rewrite XP in RST'. eexists. eapply exchange_step; eauto.
  - destruct (search (fun r => status st r = During) (fun r => stat_dec _ _) 1 size) as [[r [R SR]]|NDu].
    + assert (PR : exists w1, phases st r = Exchanging w1).
      { unfold status in SR. destruct (phases st r) eqn:PR; try discriminate; eauto; destruct (_ =? _); discriminate. }
      destruct PR as [w1 PR]. destruct (i_during _ _ _ I r w1 (proj2 R) PR) as [_ XP]. destruct (done_dec N) as [AD|ND].
      * eexists. eapply worker_evaluates; eauto. rewrite <- XP. apply AD. lia.
      * destruct (C35_no_deadlock _ _ _ _ _ _ _ _ _ _ _ LV (i_reach _ _ _ I) ND) as [N' SN].
        destruct (step_rank_step _ _ _ _ _ _ _ _ SN) as [q [p' [c' [Q [RST _]]]]].
        assert (XN : forall a b, chan N a b = xchan st a b) by (intros; symmetry; apply (i_chan _ _ _ I)).
        destruct (rank_step_ext _ _ _ _ _ _ _ _ _ _ (xchan st) RST XN) as [d' [RST' _]].
        assert (DU : exists w2, phases st q = Exchanging w2).
        { destruct (status st q) eqn:SQ.
          - exfalso. destruct (Nat.eq_dec q 0) as [->|]; [unfold status in SQ; rewrite P in SQ; discriminate|]. apply (NB q); auto. lia.
          - unfold status in SQ. destruct (phases st q) eqn:PQ; try discriminate; eauto; destruct (_ =? _); discriminate.
          - exfalso. eapply over_no_step; [|exact RST]. apply (i_after _ _ _ I q Q SQ). }
        destruct DU as [w2 PQ]. destruct (i_during _ _ _ I q w2 Q PQ) as [_ XQ]. rewrite XQ in RST'. eexists. eapply exchange_step; eauto.
    + destruct pending as [|r l].
      * eexists. eapply root_ends; eauto.
      * destruct (i_pend _ _ _ I _ _ P) as [ND RG]. assert (R : 1 <= r < size) by (apply RG; left; auto).
        assert (PR := i_p _ _ _ I r R). unfold received in PR. rewrite P in PR. cbn [existsb] in PR. rewrite Nat.eqb_refl in PR.
        specialize (NB r R). specialize (NDu r R). destruct (status st r); try contradiction. cbn in PR.
        eexists. eapply (root_receives _ _ _ _ _ _ _ _ _ _ _ st [] r l); eauto.
  - destruct (i_phase0 _ _ _ I P).
Qed.
Lemma over_dec (st : state) : run_over size nevals st \/ ~ run_over size nevals st.
Proof.
  destruct (search (fun r => ~ (phases st r = Idle /\ count st r = nevals)) ltac:(intros r; cbv beta; destruct (Nat.eq_dec (count st r) nevals); destruct (phases st r); (right; intros H; apply H; split; congruence) || (left; intros [A B]; congruence)) 0 size) as [[r [R H]]|H].
  - right. intros RO. apply H, RO. lia.
  - left. intros r R. specialize (H r ltac:(lia)). destruct (Nat.eq_dec (count st r) nevals) as [E|E]; destruct (phases st r); auto; destruct H; intros [A B]; congruence.
Qed.
Lemma run_completes junk st n : rreach junk st n -> exists st' n', n <= n' /\ rreach junk st' n' /\ run_over size nevals st'.
Proof.
  remember (nevals * (exchange_bound + 4 * size) - n) as k eqn:K. revert st n K. induction k as [k IH] using lt_wf_ind. intros st n K H.
  destruct (over_dec st) as [O|NO]; [exists st, n; auto|].
  destruct (run_inv _ _ _ H) as [N [nx [I _]]]. destruct (run_progress _ _ _ I NO) as [st' STP].
  assert (H' := run_reach_step _ _ _ _ _ _ _ _ _ _ _ _ _ _ _ H STP). assert (B := run_bounded _ _ _ H').
  destruct (IH (nevals * (exchange_bound + 4 * size) - S n) ltac:(lia) st' (S n) eq_refl H') as [st2 [n2 [L [R2 O2]]]].
  exists st2, n2. split; [lia|auto].
Qed.
Lemma run_final junk st n : rreach junk st n -> run_over size nevals st ->
  epoch st = nevals /\ results_ok st /\ (forall a b, xchan st a b = []) /\ (forall r, 1 <= r < size -> wchan st r = [] /\ pchan st r = []).
Proof.
  intros H O. destruct (run_inv _ _ _ H) as [N [nx [I [RO _]]]]. destruct (O 0 S0) as [P C].
  split; [rewrite <- (i_count0 _ _ _ I); auto|]. split; auto. split.
  - intros a b. rewrite (i_chan _ _ _ I). assert (RE := i_reach _ _ _ I). rewrite (i_fresh _ _ _ I P) in RE. inversion RE. reflexivity.
  - intros r R. rewrite (i_w _ _ _ I r R), (i_p _ _ _ I r R), (i_idle _ _ _ I P r) by lia. unfold root_sent. rewrite P. auto.
Qed.
End Program.
