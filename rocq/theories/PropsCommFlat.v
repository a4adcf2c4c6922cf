(** Property C80: the exchange of multipole expansions on flat coefficient arrays. *)
From Coq Require Import List Arith ZArith Lia Bool Permutation.
From Verif Require Import Base Tools ToolsFacts Monoid Comm CommFacts CommRuns PropsComm Layout SpecLayout LayoutFacts CommFlat CommFlatFacts CommFlatSim.
Import ListNotations.

(** arrays and receive buffers as made by multipole_expansion_zeros and np.empty *)
Definition right_sizes {C : cmonoid} (size nlevels : nat) (level_starts sizes : nat -> nat) (arrays : nat -> list C) : Prop :=
  forall r, r < size -> length (arrays r) = length (expansion_zeros nlevels level_starts sizes (@e0 C)).
(** a rank has no coefficients for boxes outside its mask *)
Definition zero_outside {C : cmonoid} (size nlevels : nat) (level_starts sizes : nat -> nat) (arrays : nat -> list C) (mask : nat -> nat -> bool) : Prop :=
  forall r l b c i, r < size -> l < nlevels -> on_level level_starts l b -> mask r b = false -> c < sizes l ->
  coefficient_index nlevels level_starts sizes l b c = Some i -> nth i (arrays r) e0 = e0.

Section Glue.
Context {C : cmonoid}.
Variables (size nboxes nlevels : nat) (ls sizes : nat -> nat).
Hypothesis LC : levels_cover nboxes nlevels ls.
Variables arrays buffers : nat -> list C.
Hypothesis SA : right_sizes size nlevels ls sizes arrays.
Hypothesis SB : right_sizes size nlevels ls sizes buffers.
Lemma zeros_length : length (expansion_zeros nlevels ls sizes (@e0 C)) = total nlevels ls sizes.
Proof. unfold expansion_zeros. rewrite repeat_length, els_last. reflexivity. Qed.
Lemma sizes_total : forall r, r < size -> length (arrays r) = total nlevels ls sizes /\ length (buffers r) = total nlevels ls sizes.
Proof. intros r Hr. rewrite <- zeros_length. auto. Qed.
Lemma index_coef (a : list C) l b c i : length a = total nlevels ls sizes -> l < nlevels -> on_level ls l b -> c < sizes l ->
  coefficient_index nlevels ls sizes l b c = Some i -> nth i a e0 = coef nlevels ls sizes a c b /\ b < nboxes.
Proof.
  destruct LC as [L0 [Ln Lm]]. intros LA Hl O Hc E. rewrite index_eq in E by auto. injection E as <-.
  assert (ON : on nlevels ls l b) by (unfold on_level in O; rewrite Nat.add_1_r in O; split; auto).
  assert (EL := lvl_eq nboxes nlevels ls L0 Ln Lm l b ON). assert (Hb := on_lt nboxes nlevels ls L0 Ln Lm l b ON). split; auto.
  rewrite (coef_nth nboxes nlevels ls sizes L0 Ln) by (auto; unfold bsize; rewrite EL; auto). unfold pos, bsize. rewrite EL. auto.
Qed.
End Glue.

(** ** C80: in every execution, once all ranks are done, each coefficient of each box a rank uses is
    the sum over all ranks of what they had there, the arrays keep their size, and no message is
    left over.  The buffers may contain anything. *)
Theorem C80_complete_coefficients : forall (C : cmonoid) size nboxes nlevels level_starts sizes users rendezvous
    (arrays buffers : nat -> list C) mask st n,
  levels_cover nboxes nlevels level_starts ->
  right_sizes size nlevels level_starts sizes arrays -> right_sizes size nlevels level_starts sizes buffers ->
  zero_outside size nlevels level_starts sizes arrays mask ->
  freachable nboxes nlevels level_starts sizes size users rendezvous (fstart size arrays buffers mask) st n -> fall_done size st ->
  (forall r l b c i, r < size -> l < nlevels -> on_level level_starts l b -> In r (users b) -> c < sizes l ->
     coefficient_index nlevels level_starts sizes l b c = Some i ->
     nth i (fp_array (fprocs st r)) e0 = msum (map (fun q => nth i (arrays q) e0) (seq 0 size))) /\
  right_sizes size nlevels level_starts sizes (fun r => fp_array (fprocs st r)) /\
  (forall a b, a < size -> b < size -> potentials st a b = [] /\ indices st a b = []).
Proof.
  intros C size nboxes nlevels ls sizes users rdv arrays buffers mask st n LC SA SB Z H AD.
  assert (LEN := sizes_total size nlevels ls sizes arrays buffers SA SB).
  assert (LC' := LC). destruct LC as [L0 [Ln Lm]].
  assert (NO : forall c, nothing_outside size nboxes (fun r b => coef nlevels ls sizes (arrays r) c b) mask).
  { intros c r b Hr Hb M. destruct (lvl_on nboxes nlevels ls L0 Ln b Hb) as [Hl ON].
    destruct (lt_dec c (sizes (lvl nlevels ls b))) as [Hc|Hc].
    - assert (OL : on_level ls (lvl nlevels ls b) b) by (unfold on_level; rewrite Nat.add_1_r; auto).
      destruct (coefficient_index nlevels ls sizes (lvl nlevels ls b) b c) as [i|] eqn:E; [|rewrite index_eq in E by auto; discriminate].
      destruct (index_coef nboxes nlevels ls sizes LC' (arrays r) _ b c i (proj1 (LEN r Hr)) Hl OL Hc E) as [<- _]. eapply Z; eauto.
    - unfold coef. apply nth_overflow. rewrite (row_length nboxes nlevels ls sizes L0 Ln) by (auto; apply LEN; auto). unfold bsize. lia. }
  destruct (sim_reach size nboxes nlevels ls sizes users rdv L0 Ln Lm 0 arrays buffers mask st n LEN H) as [s0 [k0 [R0 [REL0 _]]]].
  assert (AD0 := proj1 (sim_done _ _ _ _ _ _ _ _ REL0) AD).
  assert (SZ : right_sizes size nlevels ls sizes (fun r => fp_array (fprocs st r))).
  { intros r Hr. rewrite zeros_length. apply (proj1 REL0 r Hr). }
  split; [|split; auto].
  - intros r l b c i Hr Hl O U Hc E.
    destruct (sim_reach size nboxes nlevels ls sizes users rdv L0 Ln Lm c arrays buffers mask st n LEN H) as [s [k [R [REL _]]]].
    assert (AD' := proj1 (sim_done _ _ _ _ _ _ _ _ REL) AD).
    destruct (C35_complete_multipoles _ _ _ _ _ _ _ _ _ _ _ LC' (NO c) R AD') as [X _].
    assert (LA : length (fp_array (fprocs st r)) = total nlevels ls sizes) by (apply (proj1 REL r Hr)).
    destruct (index_coef nboxes nlevels ls sizes LC' _ l b c i LA Hl O Hc E) as [-> Hb].
    rewrite <- (pl_mpoles _ _ _ _ _ _ _ (proj1 REL r Hr)) by auto. rewrite X by auto. f_equal. apply map_ext_in. intros q Hq. apply in_seq in Hq.
    symmetry. apply (index_coef nboxes nlevels ls sizes LC' (arrays q) l b c i); auto. apply LEN. lia.
  - intros a b Ha Hb. destruct (C35_complete_multipoles _ _ _ _ _ _ _ _ _ _ _ LC' (NO 0) R0 AD0) as [_ X].
    destruct (proj2 REL0 a b) as [ms [H1 H2]]. rewrite X in H2 by auto.
    assert (HN := half_none _ _ _ _ _ _ _ (proj1 REL0 b Hb) (or_introl (proj2 (AD b Hb)))). unfold held in H1. rewrite HN in H1. subst ms.
    destruct (potentials st a b), (indices st a b); auto; destruct H2.
Qed.
(** No deadlock and no exception: unless all ranks are done, some rank can take a step. *)
Theorem C80_no_deadlock_or_exception : forall (C : cmonoid) size nboxes nlevels level_starts sizes users rendezvous
    (arrays buffers : nat -> list C) mask st n,
  levels_cover nboxes nlevels level_starts ->
  right_sizes size nlevels level_starts sizes arrays -> right_sizes size nlevels level_starts sizes buffers ->
  freachable nboxes nlevels level_starts sizes size users rendezvous (fstart size arrays buffers mask) st n -> ~ fall_done size st ->
  exists st', fstep nboxes nlevels level_starts sizes size users rendezvous st st'.
Proof.
  intros C size nboxes nlevels ls sizes users rdv arrays buffers mask st n LC SA SB H ND.
  assert (LEN := sizes_total size nlevels ls sizes arrays buffers SA SB). assert (LC' := LC). destruct LC as [L0 [Ln Lm]].
  destruct (sim_reach size nboxes nlevels ls sizes users rdv L0 Ln Lm 0 arrays buffers mask st n LEN H) as [s [k [R [REL _]]]].
  assert (ND' : ~ all_done size s) by (intros X; apply ND; eapply sim_done; eauto).
  destruct (C35_no_deadlock _ _ _ _ _ _ _ _ _ _ _ LC' R ND') as [s' S]. eapply sim_progress; eauto.
Qed.
(** No rank ever raises an exception: about to send, it can slice its array; a message that has
    arrived fits into the buffer, and the box numbers that arrive after it can be applied. *)
Theorem C80_no_exception : forall (C : cmonoid) size nboxes nlevels level_starts sizes users rendezvous
    (arrays buffers : nat -> list C) mask st n r,
  levels_cover nboxes nlevels level_starts ->
  right_sizes size nlevels level_starts sizes arrays -> right_sizes size nlevels level_starts sizes buffers ->
  freachable nboxes nlevels level_starts sizes size users rendezvous (fstart size arrays buffers mask) st n -> r < size ->
  foutgoing nboxes nlevels level_starts sizes users (fprocs st r) <> None /\
  (forall q m rest, potentials st q r = m :: rest -> receive_into (fp_buffer (fprocs st r)) m <> None) /\
  (forall q idx rest, fp_half (fprocs st r) = Some q -> indices st q r = idx :: rest ->
     length idx <= nboxes /\ flat_update nlevels level_starts sizes (fp_array (fprocs st r)) (fp_buffer (fprocs st r)) idx <> None).
Proof.
  intros C size nboxes nlevels ls sizes users rdv arrays buffers mask st n r LC SA SB H Hr.
  assert (LEN := sizes_total size nlevels ls sizes arrays buffers SA SB). assert (LC' := LC). destruct LC as [L0 [Ln Lm]].
  destruct (sim_reach size nboxes nlevels ls sizes users rdv L0 Ln Lm 0 arrays buffers mask st n LEN H) as [s [k [R [[HP HC] _]]]].
  assert (Q := HP r Hr). split; [|split].
  - destruct (list_eq_dec Nat.eq_dec (pat_sinks (fp_pat (fprocs st r))) []) as [E|E].
    + unfold foutgoing. rewrite E. discriminate.
    + destruct (outgoing_rel nboxes nlevels ls sizes users L0 Ln Lm _ _ _ Q E) as [idx [m [X _]]]. rewrite X. discriminate.
  - intros q m rest E. destruct (HC q r) as [ms [H1 H2]]. rewrite E in H1.
    assert (I : In m ms).
    { unfold held in H1. destruct (fp_half (fprocs st r)) as [q'|]; [destruct (q' =? q)|]; [destruct H1 as [? [? [_ ->]]]| |]; subst; [right| |]; left; auto. }
    assert (F : exists idx cm, msg_rel nboxes nlevels ls sizes 0 idx m cm).
    { clear -H2 I. revert I H2. generalize (indices st q r) (chan s q r). induction ms as [|x ms IH]; intros li lc I H2; [destruct I|].
      destruct li, lc; try (destruct H2; fail). destruct H2 as [M H2]. destruct I as [->|I]; eauto. }
    destruct F as [idx [cm M]]. assert (LM := msg_fits nboxes nlevels ls sizes L0 Ln Lm _ _ _ _ M). unfold receive_into. rewrite (pl_buffer _ _ _ _ _ _ _ Q).
    apply Nat.leb_le in LM. rewrite LM. discriminate.
  - intros q idx rest HN EI. destruct (pl_half _ _ _ _ _ _ _ Q q HN) as [k1 [k2 PN]].
    destruct (HC q r) as [ms [H1 H2]]. unfold held in H1. rewrite HN, Nat.eqb_refl in H1. destruct H1 as [m' [junk [EB ->]]].
    rewrite EI in H2. destruct (chan s q r) as [|cm crest] eqn:EC; [destruct H2|]. destruct H2 as [M _].
    split; [apply (good_length nboxes nlevels ls); auto; apply M|].
    destruct (incorporate_rel nboxes nlevels ls sizes L0 Ln Lm _ _ _ _ _ _ _ _ _ _ Q HN PN M EB) as [a [EU _]]. rewrite EU. discriminate.
Qed.
Theorem C80_bounded_executions : forall (C : cmonoid) size nboxes nlevels level_starts sizes users rendezvous
    (arrays buffers : nat -> list C) mask st n,
  levels_cover nboxes nlevels level_starts ->
  right_sizes size nlevels level_starts sizes arrays -> right_sizes size nlevels level_starts sizes buffers ->
  freachable nboxes nlevels level_starts sizes size users rendezvous (fstart size arrays buffers mask) st n ->
  n <= 8 * size * Nat.log2_up size + size.
Proof.
  intros C size nboxes nlevels ls sizes users rdv arrays buffers mask st n LC SA SB H.
  assert (LEN := sizes_total size nlevels ls sizes arrays buffers SA SB). assert (LC' := LC). destruct LC as [L0 [Ln Lm]].
  destruct (sim_reach size nboxes nlevels ls sizes users rdv L0 Ln Lm 0 arrays buffers mask st n LEN H) as [s [k [R [_ B]]]].
  assert (X := C35_bounded_executions _ _ _ _ _ _ _ _ _ _ _ LC' R). assert (Y : halves size st <= size) by (eapply halves_le; eauto). lia.
Qed.
Theorem C80_executions_complete : forall (C : cmonoid) size nboxes nlevels level_starts sizes users rendezvous
    (arrays buffers : nat -> list C) mask st n,
  levels_cover nboxes nlevels level_starts ->
  right_sizes size nlevels level_starts sizes arrays -> right_sizes size nlevels level_starts sizes buffers ->
  freachable nboxes nlevels level_starts sizes size users rendezvous (fstart size arrays buffers mask) st n ->
  exists st' n', n <= n' /\ freachable nboxes nlevels level_starts sizes size users rendezvous (fstart size arrays buffers mask) st' n' /\
    fall_done size st'.
Proof.
  intros C size nboxes nlevels ls sizes users rdv arrays buffers mask st n LV SA SB.
  remember (8 * size * Nat.log2_up size + size - n) as k eqn:K. revert st n K.
  induction k as [k IH] using lt_wf_ind. intros st n K H.
  assert (DEC : fall_done size st \/ ~ fall_done size st).
  { clear. unfold fall_done. induction size as [|m [IH|IH]].
    - left. intros; lia.
    - destruct (pat_done (fp_pat (fprocs st m))) eqn:D; destruct (fp_pending (fprocs st m)) eqn:P;
      try (right; intros X; specialize (X m ltac:(lia)); destruct X; congruence).
      left. intros r R. destruct (Nat.eq_dec r m) as [->|]; auto. apply IH. lia.
    - right. intros X. apply IH. intros r R. apply X. lia. }
  destruct DEC as [AD|ND]; [exists st, n; auto|].
  destruct (C80_no_deadlock_or_exception _ _ _ _ _ _ _ _ _ _ _ _ _ LV SA SB H ND) as [st' S'].
  assert (H' := freach_step _ _ _ _ _ _ _ _ _ _ _ H S'). assert (B := C80_bounded_executions _ _ _ _ _ _ _ _ _ _ _ _ _ LV SA SB H').
  destruct (IH (8 * size * Nat.log2_up size + size - S n) ltac:(lia) st' (S n) eq_refl H') as [st2 [n2 [X1 [X2 X3]]]]. exists st2, n2. split; [lia|auto].
Qed.

(** Three ranks and three boxes as in [C35_meets]; one coefficient on the first level, two on the
    second; the receive buffers contain other numbers. *)
Definition flat_sizes (l : nat) : nat := nth l [1; 2] 0.
Definition flat_arrays (r : nat) : list Z := nth r [[5; 2; 4; 0; 0]; [0; 0; 0; 7; 1]; [11; 0; 0; 13; 3]]%Z [].
Definition flat_buffers (r : nat) : list Z := [91; 92; 93; 94; 95]%Z.
Example C80_meets :
  levels_cover 3 2 comm_level_starts /\
  right_sizes (C := Zm) 3 2 comm_level_starts flat_sizes flat_arrays /\ right_sizes (C := Zm) 3 2 comm_level_starts flat_sizes flat_buffers /\
  zero_outside (C := Zm) 3 2 comm_level_starts flat_sizes flat_arrays comm_mask /\
  forall rendezvous, exists st n,
    freachable (C := Zm) 3 2 comm_level_starts flat_sizes 3 comm_users rendezvous (fstart 3 flat_arrays flat_buffers comm_mask) st n /\ fall_done 3 st /\
    nth 0 (fp_array (fprocs st 1)) e0 = 16%Z /\ nth 3 (fp_array (fprocs st 2)) e0 = 20%Z /\ nth 4 (fp_array (fprocs st 0)) e0 = 4%Z.
Proof.
  assert (L : levels_cover 3 2 comm_level_starts) by apply C35_meets.
  assert (SA : right_sizes (C := Zm) 3 2 comm_level_starts flat_sizes flat_arrays).
  { intros r Hr. do 3 (destruct r as [|r]; [reflexivity|]). lia. }
  assert (SB : right_sizes (C := Zm) 3 2 comm_level_starts flat_sizes flat_buffers) by (intros r Hr; reflexivity).
  assert (Z : zero_outside (C := Zm) 3 2 comm_level_starts flat_sizes flat_arrays comm_mask).
  { intros r l b c i Hr Hl [O1 O2] M Hc E. rewrite index_eq in E by auto. injection E as <-.
    destruct l as [|[|l]]; [| |lia]; cbn in O1, O2, Hc.
    - assert (b = 0) by lia. assert (c = 0) by lia. subst.
      do 3 (destruct r as [|r]; [cbn in M |- *; try discriminate; reflexivity|]). lia.
    - assert (B : b = 1 \/ b = 2) by lia. assert (D : c = 0 \/ c = 1) by lia.
      destruct B; destruct D; subst; do 3 (destruct r as [|r]; [cbn in M |- *; try discriminate; reflexivity|]); lia. }
  split; auto. split; auto. split; auto. split; auto. intros rdv.
  destruct (C80_executions_complete Zm 3 3 2 comm_level_starts flat_sizes comm_users rdv flat_arrays flat_buffers comm_mask _ 0 L SA SB (freach_start _ _ _ _ _ _ _ _))
    as [st [n [_ [R D]]]].
  exists st, n. split; auto. split; auto.
  destruct (C80_complete_coefficients _ _ _ _ _ _ _ _ _ _ _ _ _ L SA SB Z R D) as [X _].
  rewrite (X 1 0 0 0 0), (X 2 1 2 0 3), (X 0 1 2 1 4); try reflexivity; unfold on_level; cbn; auto; try lia.
Qed.

Print Assumptions C80_complete_coefficients.
Print Assumptions C80_no_deadlock_or_exception.
Print Assumptions C80_no_exception.
Print Assumptions C80_bounded_executions.
Print Assumptions C80_executions_complete.
