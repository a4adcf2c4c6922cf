(** Running a host program with the work items of every launch one after the other: one of
    the executions of Device.v. *)
From Coq Require Import List Arith ZArith Lia Bool.
From Verif Require Import Base Kernel Device.
Import ListNotations.

Section Seq.
Variable arr : Type.
Variable arr_eq : forall a b : arr, {a = b} + {a <> b}.
Notation device := (device arr).
Notation memory := (memory arr).

Definition inside (sz : arr -> Z) (a : arr) (k : Z) : bool := ((0 <=? k) && (k <? sz a))%Z.
(** [None]: an access outside of an array *)
Fixpoint seq_item (sz : arr -> Z) (p : item arr) (m : memory) : option memory :=
  match p with
  | Finish => Some m
  | Load a k next => if inside sz a k then seq_item sz (next (m a k)) m else None
  | Store a k v next => if inside sz a k then seq_item sz next (store arr arr_eq m a k v) else None
  end.
Fixpoint seq_items (sz : arr -> Z) (code : nat -> item arr) (l : list nat) (m : memory) : option memory :=
  match l with
  | [] => Some m
  | i :: l' => match seq_item sz (code i) m with Some m' => seq_items sz code l' m' | None => None end
  end.
Fixpoint seq_run {R} (h : host arr R) (d : device) : option (R * device) :=
  match h with
  | Ret r => Some (r, d)
  | Launch n code next => match seq_items (size d) code (seq 0 n) (cells d) with
                          | Some m => seq_run next (mkDevice m (size d))
                          | None => None
                          end
  | Alloc a n next => seq_run next (alloc arr arr_eq d a n)
  | Move a b next => seq_run next (move arr arr_eq d a b)
  | Assign a k vals next => seq_run next (assign arr arr_eq d a k vals)
  | Scan s next => seq_run next (run_scan arr arr_eq d s)
  | Peek a k next => if inside (size d) a k then seq_run (next (cells d a k)) d else None
  end.

Lemma inside_iff sz a k : inside sz a k = true <-> (0 <= k < sz a)%Z.
Proof. unfold inside. rewrite andb_true_iff, Z.leb_le, Z.ltb_lt. reflexivity. Qed.
Lemma exec_trans n s1 c1 s2 c2 s3 : execution arr_eq n s1 c1 s2 -> execution arr_eq n s2 c2 s3 -> execution arr_eq n s1 (c1 + c2) s3.
Proof.
  intros A B. induction B as [s|s s' s'' k B IH C]; [rewrite Nat.add_0_r; auto|]. rewrite Nat.add_succ_r.
  apply exec_step with (s' := s'); auto.
Qed.
Lemma exec_one n s s' : access arr_eq n s s' -> execution arr_eq n s 1 s'.
Proof. intros A. eapply exec_step; [apply exec_refl|exact A]. Qed.
(** one work item on its own *)
Lemma seq_item_exec n sz i : i < n -> forall p its m, its i = p ->
  (forall m', seq_item sz p m = Some m' ->
     exists c its', execution arr_eq n (mkLaunch its m) c (mkLaunch its' m') /\ its' i = Finish /\ forall j, j <> i -> its' j = its j) /\
  (seq_item sz p m = None ->
     exists c s a k, execution arr_eq n (mkLaunch its m) c s /\ next_cell (items s i) = Some (a, k) /\ ~ (0 <= k < sz a)%Z).
Proof.
  intros Hi. induction p as [|a k next IH|a k v next IH]; intros its m E; cbn [seq_item].
  - split; [|discriminate]. intros m' [= <-]. exists 0, its. split; [apply exec_refl|auto].
  - destruct (inside sz a k) eqn:IN.
    + assert (A := load arr arr_eq n its m i a k next Hi E).
      assert (SI : set_item arr its i (next (m a k)) i = next (m a k)) by (unfold set_item; rewrite Nat.eqb_refl; auto).
      destruct (IH (m a k) (set_item arr its i (next (m a k))) m SI) as [I1 I2]. split.
      * intros m' S. destruct (I1 m' S) as [c [its' [X [F O]]]]. exists (1 + c), its'.
        split; [eapply exec_trans; [apply exec_one; exact A|exact X]|]. split; auto.
        intros j N. rewrite (O j N). unfold set_item. destruct (Nat.eqb_spec j i); [contradiction|auto].
      * intros S. destruct (I2 S) as [c [s [a' [k' [X Y]]]]]. exists (1 + c), s, a', k'.
        split; [eapply exec_trans; [apply exec_one; exact A|exact X]|exact Y].
    + split; [discriminate|]. intros _. exists 0, (mkLaunch its m), a, k. split; [apply exec_refl|]. cbn [items]. rewrite E.
      split; [reflexivity|]. intros B. apply inside_iff in B. congruence.
  - destruct (inside sz a k) eqn:IN.
    + assert (A := write arr arr_eq n its m i a k v next Hi E).
      assert (SI : set_item arr its i next i = next) by (unfold set_item; rewrite Nat.eqb_refl; auto).
      destruct (IH (set_item arr its i next) (store arr arr_eq m a k v) SI) as [I1 I2]. split.
      * intros m' S. destruct (I1 m' S) as [c [its' [X [F O]]]]. exists (1 + c), its'.
        split; [eapply exec_trans; [apply exec_one; exact A|exact X]|]. split; auto.
        intros j N. rewrite (O j N). unfold set_item. destruct (Nat.eqb_spec j i); [contradiction|auto].
      * intros S. destruct (I2 S) as [c [s [a' [k' [X Y]]]]]. exists (1 + c), s, a', k'.
        split; [eapply exec_trans; [apply exec_one; exact A|exact X]|exact Y].
    + split; [discriminate|]. intros _. exists 0, (mkLaunch its m), a, k. split; [apply exec_refl|]. cbn [items]. rewrite E.
      split; [reflexivity|]. intros B. apply inside_iff in B. congruence.
Qed.
Lemma seq_items_exec n sz code : forall l its m, NoDup l -> (forall i, In i l -> i < n /\ its i = code i) ->
  (forall m', seq_items sz code l m = Some m' ->
     exists c its', execution arr_eq n (mkLaunch its m) c (mkLaunch its' m') /\ (forall i, In i l -> its' i = Finish) /\ forall j, ~ In j l -> its' j = its j) /\
  (seq_items sz code l m = None ->
     exists c s i a k, execution arr_eq n (mkLaunch its m) c s /\ i < n /\ next_cell (items s i) = Some (a, k) /\ ~ (0 <= k < sz a)%Z).
Proof.
  induction l as [|i l IH]; intros its m ND H; cbn [seq_items].
  - split; [|discriminate]. intros m' [= <-]. exists 0, its. split; [apply exec_refl|]. split; [intros i []|auto].
  - apply NoDup_cons_iff in ND. destruct ND as [N1 N2]. destruct (H i (or_introl eq_refl)) as [Hi E].
    destruct (seq_item_exec n sz i Hi (code i) its m E) as [S1 S2]. destruct (seq_item sz (code i) m) as [m1|] eqn:SI.
    + destruct (S1 m1 eq_refl) as [c [its1 [X [F O]]]].
      destruct (IH its1 m1 N2) as [I1 I2].
      { intros j J. destruct (H j (or_intror J)) as [Hj Ej]. split; auto. rewrite O; auto. intros ->. contradiction. }
      split.
      * intros m' S. destruct (I1 m' S) as [c' [its' [X' [F' O']]]]. exists (c + c'), its'. split; [eapply exec_trans; eauto|]. split.
        -- intros j [<-|J]; auto. rewrite O'; auto.
        -- intros j J. rewrite O' by (intros C; apply J; right; auto). apply O. intros ->. apply J. left; auto.
      * intros S. destruct (I2 S) as [c' [s [i' [a [k [X' Y]]]]]]. exists (c + c'), s, i', a, k. split; [eapply exec_trans; eauto|exact Y].
    + split; [discriminate|]. intros _. destruct (S2 eq_refl) as [c [s [a [k [X Y]]]]]. exists c, s, i, a, k. auto.
Qed.
Lemma seq_launch_exec n sz code m :
  (forall m', seq_items sz code (seq 0 n) m = Some m' -> exists c s, execution arr_eq n (mkLaunch code m) c s /\ ended n s /\ mem s = m') /\
  (seq_items sz code (seq 0 n) m = None ->
     exists c s i a k, execution arr_eq n (mkLaunch code m) c s /\ i < n /\ next_cell (items s i) = Some (a, k) /\ ~ (0 <= k < sz a)%Z).
Proof.
  destruct (seq_items_exec n sz code (seq 0 n) code m (seq_NoDup _ _)) as [A B].
  { intros i I. apply in_seq in I. split; [lia|auto]. }
  split; auto. intros m' S. destruct (A m' S) as [c [its' [X [F _]]]]. exists c, (mkLaunch its' m'). split; auto. split; auto.
  intros i Hi. apply F. apply in_seq. lia.
Qed.

Theorem seq_completes {R} (h : host arr R) : forall d r d', seq_run h d = Some (r, d') -> completes arr arr_eq h d r d'.
Proof.
  induction h as [r0|n code next IH|a n next IH|a b next IH|a k vals next IH|s next IH|a k next IH]; intros d r d'; cbn [seq_run].
  - intros [= <- <-]. constructor.
  - destruct (seq_items (size d) code (seq 0 n) (cells d)) as [m|] eqn:E; [|discriminate]. intros S.
    destruct (proj1 (seq_launch_exec n (size d) code (cells d)) m E) as [c [s [X [F M]]]].
    apply done_launch with (steps := c) (s := s); auto. rewrite M. auto.
  - intros S. constructor. auto.
  - intros S. constructor. auto.
  - intros S. constructor. auto.
  - intros S. constructor. auto.
  - destruct (inside (size d) a k); [|discriminate]. intros S. constructor. auto.
Qed.
Theorem seq_none_unsafe {R} (h : host arr R) : forall d, seq_run h d = None -> ~ safe arr arr_eq h d.
Proof.
  induction h as [r0|n code next IH|a n next IH|a b next IH|a k vals next IH|s next IH|a k next IH]; intros d; cbn [seq_run].
  - discriminate.
  - destruct (seq_launch_exec n (size d) code (cells d)) as [S1 S2].
    destruct (seq_items (size d) code (seq 0 n) (cells d)) as [m|] eqn:E; intros N S; inversion S as [|n0 code0 next0 d0 A B C| | | | |]; subst.
    + destruct (S1 m eq_refl) as [c [s [X [F M]]]]. apply (IH _ N). rewrite <- M. eapply C; eauto.
    + destruct (S2 eq_refl) as [c [s [i [a [k [X [Hi [Y Z]]]]]]]]. apply Z. eapply A; eauto.
  - intros N S. inversion S; subst. apply (IH _ N). auto.
  - intros N S. inversion S; subst. apply (IH _ N). auto.
  - intros N S. inversion S; subst. apply (IH _ N). auto.
  - intros N S. inversion S; subst. apply (IH _ N). auto.
  - destruct (inside (size d) a k) eqn:E; intros N S; inversion S as [| | | | | |a0 k0 next0 d0 B S']; subst.
    + apply (IH _ _ N). auto.
    + apply inside_iff in B. congruence.
Qed.
End Seq.
