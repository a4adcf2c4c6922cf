(** CommFlat.v refines Comm.v: for every coefficient, an execution on flat arrays projects to an
    execution with one value per box, and the flat exchange can go on whenever the other can. *)
From Coq Require Import List Arith ZArith Lia Bool Permutation Sorted.
From Verif Require Import Base ArrayFacts Tools ToolsFacts Monoid Comm CommFacts CommRuns Layout SpecLayout LayoutFacts CommFlat CommFlatFacts.
Import ListNotations.

Lemma nsum_update (f g : nat -> nat) n r : r < n -> (forall q, q < n -> q <> r -> g q = f q) ->
  nsum (map g (seq 0 n)) + f r = nsum (map f (seq 0 n)) + g r.
Proof.
  intros H E. assert (X : forall k, k <= n -> nsum (map g (seq 0 k)) + (if r <? k then f r else 0) = nsum (map f (seq 0 k)) + (if r <? k then g r else 0)).
  { induction k as [|k IH]; intros K; [reflexivity|]. specialize (IH ltac:(lia)). rewrite seq_S, !map_app, !nsum_app. cbn [map plus].
    change (nsum [g k]) with (g k + 0). change (nsum [f k]) with (f k + 0).
    destruct (Nat.ltb_spec r k); destruct (Nat.ltb_spec r (S k)); try lia.
    - rewrite (E k) by lia. lia.
    - assert (r = k) by lia. subst. lia.
    - rewrite (E k) by lia. lia. }
  specialize (X n (le_n _)). destruct (Nat.ltb_spec r n); lia.
Qed.
Lemma fupd_same {A} (f : nat -> A) i v : upd f i v i = v.
Proof. unfold upd. rewrite Nat.eqb_refl. auto. Qed.
Lemma fupd_other {A} (f : nat -> A) i v j : j <> i -> upd f i v j = f j.
Proof. intros H. unfold upd. destruct (Nat.eqb_spec j i); tauto. Qed.
Lemma fupd2_same {A} (f : nat -> nat -> A) i j v : upd2 f i j v i j = v.
Proof. unfold upd2. rewrite !Nat.eqb_refl. auto. Qed.
Lemma fupd2_other {A} (f : nat -> nat -> A) i j v a b : a <> i \/ b <> j -> upd2 f i j v a b = f a b.
Proof. intros H. unfold upd2. destruct (Nat.eqb_spec a i); destruct (Nat.eqb_spec b j); cbn [andb]; tauto. Qed.
(** three queues of the same length, related element by element *)
Fixpoint queues {A B D} (R : A -> B -> D -> Prop) (l1 : list A) (l2 : list B) (l3 : list D) : Prop :=
  match l1, l2, l3 with
  | [], [], [] => True
  | x :: l1', y :: l2', z :: l3' => R x y z /\ queues R l1' l2' l3'
  | _, _, _ => False
  end.
Lemma queues_app {A B D} (R : A -> B -> D -> Prop) l1 l2 l3 x y z : queues R l1 l2 l3 -> R x y z -> queues R (l1 ++ [x]) (l2 ++ [y]) (l3 ++ [z]).
Proof. revert l2 l3. induction l1 as [|a l1 IH]; intros [|b l2] [|d l3] Q H; cbn in *; try tauto. destruct Q. split; auto. Qed.

Section Sim.
Context {C : cmonoid}.
Variables (size nboxes nlevels : nat) (ls sizes : nat -> nat) (users : nat -> list nat) (rdv : bool).
Hypothesis LS0 : ls 0 = 0.
Hypothesis LSn : ls nlevels = nboxes.
Hypothesis LSm : forall l, l < nlevels -> ls l <= ls (S l).
Variable c : nat.
Notation total := (total nlevels ls sizes).
Notation row := (row nlevels ls sizes).
Notation coef := (coef nlevels ls sizes).
Notation fstep := (fstep nboxes nlevels ls sizes size users rdv).
Notation step := (step size nboxes nlevels ls users rdv).

Definition good (idx : list nat) : Prop := StronglySorted lt idx /\ forall i, In i idx -> i < nboxes.
Lemma good_length idx : good idx -> length idx <= nboxes.
Proof.
  intros [S L]. rewrite <- (seq_length nboxes 0). apply NoDup_incl_length; [apply idx_nodup; auto|].
  intros i Hi. apply in_seq. specialize (L i Hi). lia.
Qed.
Definition msg_rel (idx : list nat) (m : list C) (cm : message C) : Prop :=
  good idx /\ exists a, length a = total /\ m = concat (map (row a) idx) /\ cm = (idx, map (coef a c) idx).
Lemma msg_fits idx m cm : msg_rel idx m cm -> length m <= total.
Proof.
  intros [[S L] [a [LA [-> _]]]]. rewrite (payload_length nboxes nlevels ls sizes LS0 LSn); auto.
  apply (payload_fits nboxes nlevels ls sizes LS0 LSn LSm); auto.
Qed.

Record prel (p : fproc C) (q : proc C) : Prop := {
  pl_pat : pr_pat q = fp_pat p;
  pl_pending : pr_pending q = fp_pending p;
  pl_array : length (fp_array p) = total;
  pl_buffer : length (fp_buffer p) = total;
  pl_contrib : forall b, b < nboxes -> pr_contrib q b = fp_contrib p b;
  pl_mpoles : forall b, b < nboxes -> pr_mpoles q b = coef (fp_array p) c b;
  pl_half : forall s, fp_half p = Some s -> exists l1 l2, fp_pending p = Some (l1 ++ s :: l2)
}.
(** the messages on their way from s, including the one of which half is received *)
Definition held (p : fproc C) (s : nat) (ms0 ms : list (list C)) : Prop :=
  match fp_half p with
  | Some s' => if s' =? s then exists m junk, fp_buffer p = m ++ junk /\ ms = m :: ms0 else ms = ms0
  | None => ms = ms0
  end.
Definition crel (ps : nat -> fproc C) (P : nat -> nat -> list (list C)) (I : nat -> nat -> list (list nat)) (Ch : nat -> nat -> list (message C)) : Prop :=
  forall s r, exists ms, held (ps r) s (P s r) ms /\ queues msg_rel (I s r) ms (Ch s r).
Definition rel (f : fnet C) (s : net C) : Prop :=
  (forall r, r < size -> prel (fprocs f r) (procs s r)) /\ crel (fprocs f) (potentials f) (indices f) (chan s).
Definition halves (f : fnet C) : nat := nsum (map (fun r => match fp_half (fprocs f r) with Some _ => 1 | None => 0 end) (seq 0 size)).
Lemma halves_le f : halves f <= size.
Proof.
  unfold halves. assert (G : forall n a, nsum (map (fun r => match fp_half (fprocs f r) with Some _ => 1 | None => 0 end) (seq a n)) <= n); [|apply G].
  induction n as [|n IH]; intros a; cbn [seq map]; [cbn; lia|]. rewrite nsum_cons.
  specialize (IH (S a)). destruct (fp_half (fprocs f a)); lia.
Qed.
Lemma halves_upd f f' r : r < size -> (forall q, q <> r -> fprocs f' q = fprocs f q) ->
  halves f' + match fp_half (fprocs f r) with Some _ => 1 | None => 0 end = halves f + match fp_half (fprocs f' r) with Some _ => 1 | None => 0 end.
Proof. intros H E. unfold halves. apply nsum_update with (f := fun r => match fp_half (fprocs f r) with Some _ => 1 | None => 0 end); auto. intros q _ N. rewrite E; auto. Qed.

Lemma half_none p q : prel p q -> fp_pending p = None \/ fp_pending p = Some [] -> fp_half p = None.
Proof. intros H E. destruct (fp_half p) as [s|] eqn:X; auto. destruct (pl_half _ _ H s X) as [l1 [l2 Y]]. destruct E as [E|E]; rewrite E in Y; [discriminate|]. destruct l1; discriminate. Qed.

Lemma outgoing_rel p q : prel p q -> pat_sinks (fp_pat p) <> [] ->
  exists idx m, foutgoing nboxes nlevels ls sizes users p = Some (idx, m) /\ msg_rel idx m (outgoing nboxes nlevels ls users q).
Proof.
  intros H NE. destruct H. unfold foutgoing, outgoing. rewrite pl_pat0.
  set (rel1 := filter _ (filter (fp_contrib p) _)).
  assert (E : filter (used_by_subrange users (pat_messages (fp_pat p))) (filter (pr_contrib q) (seq 0 nboxes)) = rel1).
  { unfold rel1. f_equal. apply filter_ext_in. intros b Hb. apply in_seq in Hb. apply pl_contrib0. lia. }
  rewrite E.
  assert (G : good rel1).
  { split; [apply filter_ssorted, filter_seq_ssorted|]. intros i Hi. unfold rel1 in Hi. rewrite !filter_In, in_seq in Hi. lia. }
  destruct G as [G1 G2]. rewrite match_ne by auto. rewrite (flat_slice_eq nboxes nlevels ls sizes LS0 LSn LSm); auto.
  eexists _, _. split; [reflexivity|]. split; [split; auto|]. exists (fp_array p). split; auto. split; auto. f_equal.
  rewrite (slice_mpoles_eq nlevels ls nboxes LS0 LSn LSm); auto. apply map_ext_in. intros b Hb. apply pl_mpoles0; auto.
Qed.
Lemma post_rel ps r sinks idx m cm : msg_rel idx m cm -> forall P I Ch, crel ps P I Ch ->
  crel ps (post P r sinks m) (post I r sinks idx) (post Ch r sinks cm).
Proof.
  intros M. unfold post. induction sinks as [|k sinks IH]; intros P I Ch H; cbn [fold_left]; auto. apply IH.
  intros s r'. destruct (H s r') as [ms [H1 H2]].
  destruct (Nat.eq_dec s r) as [->|N1]; [|exists ms; rewrite !fupd2_other by auto; auto].
  destruct (Nat.eq_dec r' k) as [->|N2]; [|exists ms; rewrite !fupd2_other by auto; auto].
  rewrite !fupd2_same. exists (ms ++ [m]). split; [|apply queues_app; auto]. revert H1. unfold held. destruct (fp_half (ps k)) as [s'|].
  - destruct (s' =? r); [|congruence]. intros [m0 [junk [E ->]]]. exists m0, junk. auto.
  - congruence.
Qed.
Lemma post_rel' ps r sinks idx m cm P I Ch : (sinks <> [] -> msg_rel idx m cm) -> crel ps P I Ch ->
  crel ps (post P r sinks m) (post I r sinks idx) (post Ch r sinks cm).
Proof. intros M H. destruct sinks as [|k sinks]; [exact H|]. apply post_rel; auto. apply M. discriminate. Qed.
Lemma crel_ext ps ps' P I Ch : (forall r, fp_half (ps' r) = fp_half (ps r) /\ fp_buffer (ps' r) = fp_buffer (ps r)) -> crel ps P I Ch -> crel ps' P I Ch.
Proof. intros E H s r. destruct (H s r) as [ms [H1 H2]]. exists ms. split; auto. unfold held in *. destruct (E r) as [-> ->]. auto. Qed.

(** the state after receiving the box numbers *)
Lemma incorporate_rel p q s l1 l2 idx m cm junk : prel p q -> fp_half p = Some s -> fp_pending p = Some (l1 ++ s :: l2) ->
  msg_rel idx m cm -> fp_buffer p = m ++ junk ->
  exists a, flat_update nlevels ls sizes (fp_array p) (fp_buffer p) idx = Some a /\
    forall l, prel {| fp_pat := fp_pat p; fp_array := a; fp_buffer := fp_buffer p;
       fp_contrib := fun b => fp_contrib p b || existsb (Nat.eqb b) idx; fp_pending := Some l; fp_half := None |}
      (set_pending (incorporate nlevels ls q cm) (Some l)).
Proof.
  intros H HF HP [[G1 G2] [a' [LA' [-> ->]]]] EB. destruct H. rewrite EB.
  destruct (flat_update_eq nboxes nlevels ls sizes LS0 LSn LSm idx G1 G2 (fp_array p) a' junk pl_array0 LA') as [a2 [E [L2 R]]].
  exists a2. split; auto. intros l. split; cbn [set_pending incorporate pr_pat pr_pending pr_contrib pr_mpoles fp_pat fp_pending fp_array fp_buffer fp_contrib fp_half fst snd]; auto; try congruence.
  - intros b Hb. rewrite pl_contrib0; auto.
  - intros b Hb. rewrite (update_mpoles_eq nlevels ls nboxes LS0 LSn LSm idx G1 G2). rewrite pl_mpoles0 by auto.
    unfold coef. rewrite R by auto. destruct (existsb (Nat.eqb b) idx); [|apply op_0_r].
    rewrite nth_vadd; auto. rewrite !(row_length nboxes nlevels ls sizes LS0 LSn); auto.
Qed.

Lemma sim_step f f' s : rel f s -> fstep f f' ->
  (exists s', step s s' /\ rel f' s' /\ halves f <= S (halves f')) \/ (rel f' s /\ halves f' = S (halves f)).
Proof.
  intros [HP HC] H. destruct H as [f r idx m Hr PN PD OUT p|f r l1 q l2 m rest buffer Hr PN HN PQ RB p|f r l1 q l2 idx rest a Hr PN HN IQ LE FU p|f r pat Hr PN RV AD p].
  - (* send *)
    left. assert (Q := HP r Hr). assert (HN := half_none _ _ Q (or_introl PN)).
    assert (S := step_send size nboxes nlevels ls users rdv s r Hr ltac:(rewrite (pl_pending _ _ Q); auto) ltac:(rewrite (pl_pat _ _ Q); auto)).
    eexists. split; [exact S|]. rewrite (pl_pat _ _ Q).
    match goal with |- rel ?f' _ /\ _ => assert (HV := halves_upd f f' r Hr (fun q N => fupd_other _ _ _ _ N)) end.
    cbn [fprocs] in HV. rewrite fupd_same, HN in HV. cbn [fp_half] in HV. split; [|lia]. split; cbn [fprocs procs potentials indices chan].
    + intros r' Hr'. destruct (Nat.eq_dec r' r) as [->|N]; [|rewrite !fupd_other by auto; auto]. rewrite !fupd_same. destruct Q.
      split; cbn [set_pending pr_pat pr_pending pr_contrib pr_mpoles fp_pat fp_pending fp_array fp_buffer fp_contrib fp_half]; auto. discriminate.
    + apply crel_ext with (ps := fprocs f).
      { intros r'. destruct (Nat.eq_dec r' r) as [->|N]; [|rewrite !fupd_other by auto; auto]. rewrite fupd_same. cbn [fp_half fp_buffer]. auto. }
      apply (post_rel' (fprocs f) r (pat_sinks (fp_pat p)) idx m (outgoing nboxes nlevels ls users (procs s r))); auto.
      intros NE. destruct (outgoing_rel _ _ Q NE) as [idx' [m' [E M]]]. rewrite OUT in E. injection E as <- <-. auto.
  - (* coefficients *)
    right. assert (Q := HP r Hr).
    match goal with |- rel ?f' _ /\ _ => assert (HV := halves_upd f f' r Hr (fun q N => fupd_other _ _ _ _ N)) end.
    cbn [fprocs] in HV. rewrite fupd_same, HN in HV. cbn [fp_half] in HV. split; [|lia].
    unfold receive_into in RB. destruct (Nat.leb_spec (length m) (length (fp_buffer (fprocs f r)))) as [LE|]; [|discriminate]. injection RB as <-.
    split; cbn [fprocs procs potentials indices chan].
    + intros r' Hr'. destruct (Nat.eq_dec r' r) as [->|N]; [|rewrite !fupd_other by auto; auto]. rewrite !fupd_same. destruct Q.
      split; cbn [fp_pat fp_pending fp_array fp_buffer fp_contrib fp_half]; auto.
      * rewrite app_length, skipn_length. lia.
      * intros s' E. injection E as <-. eauto.
    + intros s' r'. destruct (HC s' r') as [ms [H1 H2]].
      destruct (Nat.eq_dec r' r) as [->|N]; [|exists ms; rewrite fupd_other, fupd2_other by auto; auto].
      unfold held in *. rewrite HN in H1. subst ms. rewrite fupd_same. cbn [fp_half fp_buffer].
      destruct (Nat.eqb_spec q s') as [<-|NE].
      * rewrite fupd2_same. exists (potentials f q r). split; auto. exists m, (skipn (length m) (fp_buffer p)). auto.
      * rewrite fupd2_other by auto. eauto.
  - (* box numbers *)
    left. assert (Q := HP r Hr). destruct (HC q r) as [ms [H1 H2]]. unfold held in H1. rewrite HN, Nat.eqb_refl in H1.
    destruct H1 as [m [junk [EB ->]]]. rewrite IQ in H2. destruct (chan s q r) as [|cm crest] eqn:EC; [destruct H2|]. destruct H2 as [M H2].
    assert (S := step_receive size nboxes nlevels ls users rdv s r l1 q l2 cm crest Hr ltac:(rewrite (pl_pending _ _ Q); auto) EC).
    destruct (incorporate_rel _ _ _ _ _ _ _ _ _ Q HN PN M EB) as [a' [EU PR]]. rewrite FU in EU. injection EU as <-.
    eexists. split; [exact S|].
    match goal with |- rel ?f' _ /\ _ => assert (HV := halves_upd f f' r Hr (fun q N => fupd_other _ _ _ _ N)) end.
    cbn [fprocs] in HV. rewrite fupd_same, HN in HV. cbn [fp_half] in HV. split; [|lia]. split; cbn [fprocs procs potentials indices chan].
    + intros r' Hr'. destruct (Nat.eq_dec r' r) as [->|N]; [|rewrite !fupd_other by auto; auto]. rewrite !fupd_same. apply PR.
    + intros s' r'. destruct (Nat.eq_dec r' r) as [->|N].
      * rewrite fupd_same. unfold held. cbn [fp_half]. exists (potentials f s' r). split; auto.
        destruct (Nat.eq_dec s' q) as [->|NQ]; [rewrite !fupd2_same; auto|]. rewrite !fupd2_other by auto.
        destruct (HC s' r) as [ms [H3 H4]]. unfold held in H3. rewrite HN in H3. destruct (Nat.eqb_spec q s'); [congruence|]. subst ms. auto.
      * rewrite fupd_other, !fupd2_other by auto. apply HC.
  - (* advance *)
    left. assert (Q := HP r Hr). assert (HN := half_none _ _ Q (or_intror PN)).
    assert (S := step_advance size nboxes nlevels ls users rdv s r pat Hr ltac:(rewrite (pl_pending _ _ Q); auto)).
    rewrite (pl_pat _ _ Q) in S.
    assert (RV' : rdv = true -> forall q, In q (pat_sinks (fp_pat (fprocs f r))) -> chan s r q = []).
    { intros R q Hq. destruct (RV R q Hq) as [_ E]. destruct (HC r q) as [ms [_ H2]]. rewrite E in H2. destruct ms, (chan s r q); auto; destruct H2. }
    eexists. split; [exact (S RV' AD)|].
    match goal with |- rel ?f' _ /\ _ => assert (HV := halves_upd f f' r Hr (fun q N => fupd_other _ _ _ _ N)) end.
    cbn [fprocs] in HV. rewrite fupd_same, HN in HV. cbn [fp_half] in HV. split; [|lia]. split; cbn [fprocs procs potentials indices chan].
    + intros r' Hr'. destruct (Nat.eq_dec r' r) as [->|N]; [|rewrite !fupd_other by auto; auto]. rewrite !fupd_same. destruct Q.
      split; cbn [set_pattern pr_pat pr_pending pr_contrib pr_mpoles fp_pat fp_pending fp_array fp_buffer fp_contrib fp_half]; auto. discriminate.
    + apply crel_ext with (ps := fprocs f); auto.
      intros r'. destruct (Nat.eq_dec r' r) as [->|N]; [|rewrite !fupd_other by auto; auto]. rewrite fupd_same. cbn [fp_half fp_buffer]. auto.
Qed.

Lemma sim_start arrays buffers mask : (forall r, r < size -> length (arrays r) = total /\ length (buffers r) = total) ->
  rel (fstart size arrays buffers mask) (start size (fun r b => coef (arrays r) c b) mask).
Proof.
  intros L. split; cbn [fstart start fprocs procs].
  - intros r Hr. destruct (L r Hr). split; cbn [pr_pat pr_pending pr_contrib pr_mpoles fp_pat fp_pending fp_array fp_buffer fp_contrib fp_half]; auto. discriminate.
  - intros s r. exists []. split; cbn; auto.
Qed.
Lemma sim_reach arrays buffers mask f n : (forall r, r < size -> length (arrays r) = total /\ length (buffers r) = total) ->
  freachable nboxes nlevels ls sizes size users rdv (fstart size arrays buffers mask) f n ->
  exists s k, reachable size nboxes nlevels ls users rdv (start size (fun r b => coef (arrays r) c b) mask) s k /\ rel f s /\ n <= 2 * k + halves f.
Proof.
  intros L H. induction H as [|f f' n H IH ST].
  - eexists _, 0. split; [apply reach_start|]. split; [apply sim_start; auto|]. lia.
  - destruct IH as [s [k [R [HR B]]]]. destruct (sim_step _ _ _ HR ST) as [[s' [S' [HR' HV]]]|[HR' HV]].
    + exists s', (S k). split; [econstructor; eauto|]. split; auto. lia.
    + exists s, k. split; auto. split; auto. lia.
Qed.

(** progress carries over *)
Lemma sim_progress f s s' : rel f s -> step s s' -> exists f', fstep f f'.
Proof.
  intros [HP HC] H. destruct H as [s r Hr PN PD|s r l1 q l2 m rest Hr PN CQ|s r p' Hr PN RV AD].
  - assert (Q := HP r Hr). rewrite (pl_pending _ _ Q) in PN. rewrite (pl_pat _ _ Q) in PD.
    assert (X : exists idx m, foutgoing nboxes nlevels ls sizes users (fprocs f r) = Some (idx, m)).
    { destruct (list_eq_dec Nat.eq_dec (pat_sinks (fp_pat (fprocs f r))) []) as [E|E].
      - unfold foutgoing. rewrite E. eauto.
      - destruct (outgoing_rel _ _ Q E) as [idx [m [X _]]]. eauto. }
    destruct X as [idx [m X]]. eexists. eapply fstep_send; eauto.
  - assert (Q := HP r Hr). rewrite (pl_pending _ _ Q) in PN. destruct (fp_half (fprocs f r)) as [q'|] eqn:HN.
    + destruct (pl_half _ _ Q q' HN) as [k1 [k2 PN']].
      destruct (HC q' r) as [ms [H1 H2]]. unfold held in H1. rewrite HN, Nat.eqb_refl in H1. destruct H1 as [m' [junk [EB ->]]].
      destruct (indices f q' r) as [|idx irest] eqn:EI; [destruct H2|]. destruct (chan s q' r) as [|cm crest] eqn:EC; [destruct H2|]. destruct H2 as [M _].
      destruct (incorporate_rel _ _ _ _ _ _ _ _ _ Q HN PN' M EB) as [a [EU _]].
      eexists. eapply fstep_indices; eauto. apply good_length. apply M.
    + destruct (HC q r) as [ms [H1 H2]]. unfold held in H1. rewrite HN in H1. subst ms. rewrite CQ in H2.
      destruct (potentials f q r) as [|pm prest] eqn:EP; destruct (indices f q r) as [|idx irest] eqn:EI; try (destruct H2; fail).
      cbn [queues] in H2. destruct H2 as [M _].
      eexists. eapply fstep_potentials; eauto. unfold receive_into.
      assert (LM := msg_fits _ _ _ M). rewrite (pl_buffer _ _ Q). apply Nat.leb_le in LM. rewrite LM. reflexivity.
  - assert (Q := HP r Hr). rewrite (pl_pending _ _ Q) in PN. rewrite (pl_pat _ _ Q) in RV, AD.
    eexists. eapply fstep_advance; eauto. intros R q Hq. specialize (RV R q Hq).
    destruct (HC r q) as [ms [H1 H2]]. rewrite RV in H2. destruct (indices f r q) as [|? ?]; [|destruct ms; destruct H2].
    destruct ms; [|destruct H2]. unfold held in H1. destruct (fp_half (fprocs f q)) as [s'|]; auto. destruct (s' =? r); auto. destruct H1 as [? [? [_ X]]]. discriminate.
Qed.
Lemma sim_done f s : rel f s -> fall_done size f <-> all_done size s.
Proof.
  intros [HP _]. unfold fall_done, all_done. split; intros H r Hr; specialize (H r Hr); destruct (HP r Hr); rewrite pl_pat0, pl_pending0 in *; auto.
Qed.
End Sim.
