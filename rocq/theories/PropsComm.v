(** Property C35: the exchange of multipole expansions between ranks. *)
From Coq Require Import List Arith ZArith Lia Bool Permutation.
From Verif Require Import Base Tools ToolsFacts Monoid Comm CommFacts CommRuns.
Import ListNotations.

(** level_start_box_nrs: the boxes of level [l] are numbered from [level_starts l], in order *)
Definition levels_cover (nboxes nlevels : nat) (level_starts : nat -> nat) : Prop :=
  level_starts 0 = 0 /\ level_starts nlevels = nboxes /\ forall l, l < nlevels -> level_starts l <= level_starts (S l).
(** a rank has computed nothing about boxes outside its mask *)
Definition nothing_outside {X : cmonoid} (size nboxes : nat) (mpoles : nat -> nat -> X) (mask : nat -> nat -> bool) : Prop :=
  forall r b, r < size -> b < nboxes -> mask r b = false -> mpoles r b = e0.

(** ** C35: in every execution - any interleaving of the ranks, any order of receiving, sends that
    complete immediately or only when received - once all ranks are done, each rank holds for
    every box it uses the sum over all ranks of what they computed, and no message is left over. *)
Theorem C35_complete_multipoles : forall size nboxes nlevels level_starts users rendezvous (X : cmonoid) (mpoles : nat -> nat -> X) mask st n,
  levels_cover nboxes nlevels level_starts -> nothing_outside size nboxes mpoles mask ->
  reachable size nboxes nlevels level_starts users rendezvous (start size mpoles mask) st n -> all_done size st ->
  (forall r b, r < size -> b < nboxes -> In r (users b) -> pr_mpoles (procs st r) b = msum (map (fun q => mpoles q b) (seq 0 size))) /\
  (forall a b, a < size -> b < size -> chan st a b = []).
Proof.
  intros size nboxes nlevels ls users rdv X mp mask st n [L0 [Ln Lm]] Z H AD.
  destruct (inv_reach size nboxes nlevels ls users rdv mp mask L0 Ln Lm st n H) as [stg [I _]]. split.
  - intros r b R B U. eapply final_sum; eauto.
  - intros a b A B. eapply final_chan; eauto.
Qed.
(** The exchange does not deadlock: unless all ranks are done, some rank can take a step. *)
Theorem C35_no_deadlock : forall size nboxes nlevels level_starts users rendezvous (X : cmonoid) (mpoles : nat -> nat -> X) mask st n,
  levels_cover nboxes nlevels level_starts ->
  reachable size nboxes nlevels level_starts users rendezvous (start size mpoles mask) st n -> ~ all_done size st ->
  exists st', step size nboxes nlevels level_starts users rendezvous st st'.
Proof.
  intros size nboxes nlevels ls users rdv X mp mask st n [L0 [Ln Lm]] H ND.
  destruct (inv_reach size nboxes nlevels ls users rdv mp mask L0 Ln Lm st n H) as [stg [I _]]. eapply no_deadlock; eauto.
Qed.
(** Every execution is finite: at most 4 * size * ceil(log2 size) steps. *)
Theorem C35_bounded_executions : forall size nboxes nlevels level_starts users rendezvous (X : cmonoid) (mpoles : nat -> nat -> X) mask st n,
  levels_cover nboxes nlevels level_starts ->
  reachable size nboxes nlevels level_starts users rendezvous (start size mpoles mask) st n -> n <= 4 * size * Nat.log2_up size.
Proof. intros size nboxes nlevels ls users rdv X mp mask st n [L0 [Ln Lm]] H. eapply run_length; eauto. Qed.
(** So every execution can be completed, and (C35_complete_multipoles) with the same result. *)
Theorem C35_executions_complete : forall size nboxes nlevels level_starts users rendezvous (X : cmonoid) (mpoles : nat -> nat -> X) mask st n,
  levels_cover nboxes nlevels level_starts ->
  reachable size nboxes nlevels level_starts users rendezvous (start size mpoles mask) st n ->
  exists st' n', n <= n' /\ reachable size nboxes nlevels level_starts users rendezvous (start size mpoles mask) st' n' /\ all_done size st'.
Proof.
  intros size nboxes nlevels ls users rdv Mo mp mask st n LV. remember (4 * size * Nat.log2_up size - n) as k eqn:K. revert st n K.
  induction k as [k IH] using lt_wf_ind. intros st n K H.
  assert (DEC : all_done size st \/ ~ all_done size st).
  { clear. unfold all_done. induction size as [|m [IH|IH]].
    - left. intros; lia.
    - destruct (pat_done (pr_pat (procs st m))) eqn:D; destruct (pr_pending (procs st m)) eqn:P;
      try (right; intros X; specialize (X m ltac:(lia)); destruct X; congruence).
      left. intros r R. destruct (Nat.eq_dec r m) as [->|]; auto. apply IH. lia.
    - right. intros X. apply IH. intros r R. apply X. lia. }
  destruct DEC as [AD|ND]; [exists st, n; auto|].
  destruct (C35_no_deadlock _ _ _ _ _ _ _ _ _ _ _ LV H ND) as [st' S'].
  assert (H' := reach_step _ _ _ _ _ _ _ _ _ _ H S'). assert (B := C35_bounded_executions _ _ _ _ _ _ _ _ _ _ _ LV H').
  destruct (IH (4 * size * Nat.log2_up size - S n) ltac:(lia) st' (S n) eq_refl H') as [st2 [n2 [X1 [X2 X3]]]]. exists st2, n2. split; [lia|auto].
Qed.

(** Three ranks and three boxes on two levels: rank 0 and rank 2 both contribute to box 0, which
    rank 0 and rank 1 use; box 1 is used by nobody, box 2 by all ranks. *)
Definition comm_level_starts (l : nat) : nat := nth l [0; 1; 3] 0.
Definition comm_users (b : nat) : list nat := nth b [[0; 1]; []; [0; 1; 2]] [].
Definition comm_mpoles (r b : nat) : Z := nth b (nth r [[5; 2; 0]; [0; 0; 7]; [11; 0; 13]]%Z []) 0%Z.
Definition comm_mask (r b : nat) : bool := negb (comm_mpoles r b =? 0)%Z.
Example C35_meets :
  levels_cover 3 2 comm_level_starts /\ nothing_outside 3 3 comm_mpoles comm_mask /\
  forall rendezvous, exists st n, reachable 3 3 2 comm_level_starts comm_users rendezvous (start 3 comm_mpoles comm_mask) st n /\ all_done 3 st /\
  pr_mpoles (procs st 0) 0 = 16%Z /\ pr_mpoles (procs st 1) 0 = 16%Z /\
  pr_mpoles (procs st 0) 2 = 20%Z /\ pr_mpoles (procs st 1) 2 = 20%Z /\ pr_mpoles (procs st 2) 2 = 20%Z.
Proof.
  assert (L : levels_cover 3 2 comm_level_starts).
  { split; [reflexivity|]. split; [reflexivity|]. intros l H. do 2 (destruct l as [|l]; [cbn; lia|]). lia. }
  assert (Z : nothing_outside 3 3 comm_mpoles comm_mask).
  { intros r b _ _ H. unfold comm_mask in H. destruct (Z.eqb_spec (comm_mpoles r b) 0); auto. discriminate. }
  split; auto. split; auto. intros rdv.
  destruct (C35_executions_complete 3 3 2 comm_level_starts comm_users rdv Zm comm_mpoles comm_mask _ 0 L (reach_start _ _ _ _ _ _ _)) as [st [n [_ [R D]]]].
  exists st, n. split; auto. split; auto.
  destruct (C35_complete_multipoles _ _ _ _ _ _ _ _ _ _ _ L Z R D) as [E _].
  rewrite !E by (cbn; auto; lia). repeat split; reflexivity.
Qed.

Print Assumptions C35_complete_multipoles.
Print Assumptions C35_no_deadlock.
Print Assumptions C35_bounded_executions.
Print Assumptions C35_executions_complete.
