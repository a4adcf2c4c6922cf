(** Device kernels executed by many work items.

    A pyopencl ElementwiseKernel (and each pass of a GenericScanKernel) runs one work item
    per index of its range.  Nothing is promised about the order in which the work items
    run: their loads and stores interleave arbitrarily.  A work item is modelled by the
    sequence of its accesses to global memory, where the value of a load may influence
    everything that follows (private variables and control flow are the closures of the
    model).  Global memory is a collection of named arrays of integers; an index is an
    integer and may be negative or too large, nothing is clipped. *)
From Coq Require Import List Arith ZArith Lia Bool.
Import ListNotations.

Section Kernel.
Variable arr : Type.

Definition memory := arr -> Z -> Z.

Inductive item :=
| Finish
| Load (a : arr) (k : Z) (next : Z -> item)
| Store (a : arr) (k v : Z) (next : item).

(** loop over a fixed list of values (the loops unrolled by the Mako templates) *)
Fixpoint for_each {X} (l : list X) (body : X -> item -> item) (after : item) : item :=
  match l with
  | [] => after
  | x :: l' => body x (for_each l' body after)
  end.
(** read a fixed list of cells *)
Fixpoint load_all (l : list (arr * Z)) (next : list Z -> item) : item :=
  match l with
  | [] => next []
  | (a, k) :: l' => Load a k (fun v => load_all l' (fun vs => next (v :: vs)))
  end.

Variable arr_eq : forall a b : arr, {a = b} + {a <> b}.

Definition store (m : memory) (a : arr) (k v : Z) : memory :=
  fun a' k' => if arr_eq a' a then if (k' =? k)%Z then v else m a' k' else m a' k'.

(** A launch over the range [0, n): the programs of the work items and the memory *)
Record launch := mkLaunch { items : nat -> item; mem : memory }.
Definition set_item (its : nat -> item) (i : nat) (p : item) : nat -> item :=
  fun j => if j =? i then p else its j.

(** one access of one work item; work items run in any order *)
Inductive access (n : nat) : launch -> launch -> Prop :=
| load its m i a k next : i < n -> its i = Load a k next ->
    access n (mkLaunch its m) (mkLaunch (set_item its i (next (m a k))) m)
| write its m i a k v next : i < n -> its i = Store a k v next ->
    access n (mkLaunch its m) (mkLaunch (set_item its i next) (store m a k v)).
Inductive execution (n : nat) : launch -> nat -> launch -> Prop :=
| exec_refl s : execution n s 0 s
| exec_step s s' s'' k : execution n s k s' -> access n s' s'' -> execution n s (S k) s''.

(** the access a work item is about to make *)
Definition next_cell (p : item) : option (arr * Z) :=
  match p with Finish => None | Load a k _ => Some (a, k) | Store a k _ _ => Some (a, k) end.
(** the launch has ended *)
Definition ended (n : nat) (s : launch) : Prop := forall i, i < n -> items s i = Finish.

(** ** Cells touched by a work item that finds the memory as it was at the launch *)
Inductive event := Ld (a : arr) (k : Z) | St (a : arr) (k v : Z).
Fixpoint trace (p : item) (m : memory) : list event :=
  match p with
  | Finish => []
  | Load a k next => Ld a k :: trace (next (m a k)) m
  | Store a k v next => St a k v :: trace next m
  end.
Definition cell (e : event) : arr * Z := match e with Ld a k => (a, k) | St a k _ => (a, k) end.

(** No work item loads a cell that another work item stores to, or that it has stored to
    itself before, and work items storing to the same cell store the same value. *)
Record independent (n : nat) (its : nat -> item) (m : memory) : Prop := {
  ind_load : forall i j a k v, i < n -> j < n -> i <> j ->
    In (St a k v) (trace (its i) m) -> ~ In (Ld a k) (trace (its j) m);
  ind_own : forall i x y a k v, i < n -> trace (its i) m = x ++ Ld a k :: y -> ~ In (St a k v) x;
  ind_store : forall i j a k v v', i < n -> j < n ->
    In (St a k v) (trace (its i) m) -> In (St a k v') (trace (its j) m) -> v = v'
}.

Definition work (its : nat -> item) (m : memory) (n : nat) : nat :=
  fold_right (fun i s => length (trace (its i) m) + s) 0 (seq 0 n).

Lemma work_bound (its its' : nat -> item) m l : (forall i, In i l -> length (trace (its' i) m) <= length (trace (its i) m)) ->
  fold_right (fun i s => length (trace (its' i) m) + s) 0 l <= fold_right (fun i s => length (trace (its i) m) + s) 0 l.
Proof.
  induction l as [|x l IH]; intros H; cbn [fold_right]; [lia|].
  assert (A := H x (or_introl eq_refl)). assert (B := IH (fun i Hi => H i (or_intror Hi))). lia.
Qed.
Lemma work_set (its : nat -> item) m i p l : NoDup l -> In i l ->
  fold_right (fun i s => length (trace (its i) m) + s) 0 l + length (trace p m)
  = fold_right (fun j s => length (trace (set_item its i p j) m) + s) 0 l + length (trace (its i) m).
Proof.
  induction l as [|x l IH]; intros N H; [destruct H|]. apply NoDup_cons_iff in N. destruct N as [N1 N2].
  cbn [fold_right]. destruct H as [->|H].
  - assert (E : fold_right (fun j s => length (trace (set_item its i p j) m) + s) 0 l
              = fold_right (fun j s => length (trace (its j) m) + s) 0 l).
    { clear IH N2. induction l as [|y l IH]; auto. cbn [fold_right].
      rewrite IH by (intros C; apply N1; right; auto).
      unfold set_item at 1. destruct (Nat.eqb_spec y i); auto. subst. exfalso. apply N1. left; auto. }
    rewrite E. unfold set_item. rewrite Nat.eqb_refl. lia.
  - specialize (IH N2 H). unfold set_item at 1. destruct (Nat.eqb_spec x i) as [->|Q]; [contradiction|lia].
Qed.

Section Launch.
Variable n : nat.
Variable its0 : nat -> item.
Variable m0 : memory.
Hypothesis IND : independent n its0 m0.
Notation tr i := (trace (its0 i) m0).

Record consistent (steps : nat) (s : launch) (dn : nat -> list event) : Prop := {
  c_rest : forall i, i < n -> tr i = dn i ++ trace (items s i) m0;
  c_done : forall i a k v, i < n -> In (St a k v) (dn i) -> mem s a k = v;
  c_mem : forall a k, (forall i v, i < n -> ~ In (St a k v) (dn i)) -> mem s a k = m0 a k;
  c_work : steps + work (items s) m0 n = work its0 m0 n
}.

Lemma consistent_init : consistent 0 (mkLaunch its0 m0) (fun _ => []).
Proof. constructor; cbn [items mem app]; auto. intros i a k v Hi []. Qed.

Definition more (dn : nat -> list event) (i : nat) (e : event) : nat -> list event :=
  fun j => if j =? i then dn i ++ [e] else dn j.
Lemma in_more dn i e j x : In x (more dn i e j) <-> In x (dn j) \/ (j = i /\ x = e).
Proof.
  unfold more. destruct (Nat.eqb_spec j i) as [->|N].
  - rewrite in_app_iff. cbn [In]. intuition.
  - intuition.
Qed.

Lemma consistent_step c s s' dn : consistent c s dn -> access n s s' -> exists dn', consistent (S c) s' dn'.
Proof.
  intros C A. destruct A as [its m i a k next Hi E|its m i a k v next Hi E].
  - assert (D := c_rest c _ dn C i Hi). cbn [items mem] in D. rewrite E in D. cbn [trace] in D.
    assert (V : m a k = m0 a k).
    { apply (c_mem c _ dn C). intros j v Hj S. destruct (Nat.eq_dec j i) as [->|N].
      - apply (ind_own n its0 m0 IND i _ _ a k v Hi D S).
      - apply (ind_load n its0 m0 IND j i a k v Hj Hi N).
        + rewrite (c_rest c _ dn C j Hj). apply in_or_app; auto.
        + rewrite D. apply in_or_app. right. left; auto. }
    exists (more dn i (Ld a k)). constructor; cbn [items mem].
    + intros j Hj. unfold set_item, more. destruct (Nat.eqb_spec j i) as [->|N].
      * rewrite <- app_assoc. cbn [app]. rewrite V. auto.
      * apply (c_rest c _ dn C j Hj).
    + intros j a' k' v' Hj H. apply in_more in H. destruct H as [H|[_ H]]; [|discriminate].
      apply (c_done c _ dn C j a' k' v' Hj H).
    + intros a' k' H. apply (c_mem c _ dn C). intros j v Hj S. apply (H j v Hj). apply in_more. auto.
    + assert (W := c_work c _ dn C). cbn [items] in W. unfold work in *.
      assert (X := work_set its m0 i (next (m a k)) (seq 0 n) (seq_NoDup _ _) ltac:(apply in_seq; lia)).
      rewrite E in X. cbn [trace length] in X. rewrite V in X |- *. lia.
  - assert (D := c_rest c _ dn C i Hi). cbn [items mem] in D. rewrite E in D. cbn [trace] in D.
    assert (S0 : In (St a k v) (tr i)) by (rewrite D; apply in_or_app; right; left; auto).
    exists (more dn i (St a k v)). constructor; cbn [items mem].
    + intros j Hj. unfold set_item, more. destruct (Nat.eqb_spec j i) as [->|N].
      * rewrite <- app_assoc. auto.
      * apply (c_rest c _ dn C j Hj).
    + intros j a' k' v' Hj H. unfold store. apply in_more in H. destruct H as [H|[-> H]].
      * assert (T : In (St a' k' v') (tr j)) by (rewrite (c_rest c _ dn C j Hj); apply in_or_app; auto).
        apply (c_done c _ dn C j a' k' v' Hj) in H. cbn [mem] in H.
        destruct (arr_eq a' a) as [->|]; auto. destruct (Z.eqb_spec k' k) as [->|]; auto.
        apply (ind_store n its0 m0 IND i j a k v v' Hi Hj S0 T).
      * injection H as -> -> ->. destruct (arr_eq a a); [|congruence]. rewrite Z.eqb_refl. auto.
    + intros a' k' H. assert (Q : a' = a -> k' = k -> False).
      { intros -> ->. apply (H i v Hi). apply in_more. auto. }
      unfold store. destruct (arr_eq a' a) as [Ea|]; [destruct (Z.eqb_spec k' k) as [Ek|]; [destruct (Q Ea Ek)|]|];
        (apply (c_mem c _ dn C); intros j w Hj S; apply (H j w Hj); apply in_more; auto).
    + assert (W := c_work c _ dn C). cbn [items] in W. unfold work in *.
      assert (X := work_set its m0 i next (seq 0 n) (seq_NoDup _ _) ltac:(apply in_seq; lia)).
      rewrite E in X. cbn [trace length] in X. lia.
Qed.

Lemma consistent_exec c s0 s : execution n s0 c s -> s0 = mkLaunch its0 m0 -> exists dn, consistent c s dn.
Proof.
  intros X E. induction X as [s0|s0 s s' c X IH A]; subst.
  - eexists. apply consistent_init.
  - destruct (IH eq_refl) as [dn C]. apply (consistent_step c s s' dn); auto.
Qed.

(** every access made in any execution is one of the expected ones *)
Theorem accesses_expected c s i a k : execution n (mkLaunch its0 m0) c s -> i < n ->
  next_cell (items s i) = Some (a, k) -> exists e, In e (tr i) /\ cell e = (a, k).
Proof.
  intros X Hi N. destruct (consistent_exec c _ s X eq_refl) as [dn C]. rewrite (c_rest c s dn C i Hi).
  destruct (items s i) as [|a' k' nx|a' k' v' nx]; cbn [next_cell trace] in *; [discriminate| |];
    injection N as <- <-; eexists; (split; [apply in_or_app; right; left; reflexivity|reflexivity]).
Qed.
(** no execution is longer than the total number of accesses *)
Theorem executions_bounded c s : execution n (mkLaunch its0 m0) c s -> c <= work its0 m0 n.
Proof. intros X. destruct (consistent_exec c _ s X eq_refl) as [dn C]. assert (W := c_work c s dn C). lia. Qed.
(** an execution can go on until all work items have finished *)
Lemma not_ended_step s : ~ (exists s', access n s s') -> ended n s.
Proof.
  intros N i Hi. destruct s as [its m]. cbn [items]. destruct (its i) as [|a k nx|a k v nx] eqn:E; auto; exfalso; apply N.
  - eexists. apply (load n its m i a k nx); auto.
  - eexists. apply (write n its m i a k v nx); auto.
Qed.
(** the memory at the end *)
Theorem final_memory c s : execution n (mkLaunch its0 m0) c s -> ended n s ->
  (forall i a k v, i < n -> In (St a k v) (tr i) -> mem s a k = v) /\
  (forall a k, (forall i v, i < n -> ~ In (St a k v) (tr i)) -> mem s a k = m0 a k).
Proof.
  intros X E. destruct (consistent_exec c _ s X eq_refl) as [dn C].
  assert (Q : forall i, i < n -> tr i = dn i).
  { intros i Hi. rewrite (c_rest c s dn C i Hi), (E i Hi). cbn [trace]. apply app_nil_r. }
  split.
  - intros i a k v Hi H. rewrite (Q i Hi) in H. apply (c_done c s dn C i a k v Hi H).
  - intros a k H. apply (c_mem c s dn C). intros i v Hi S. apply (H i v Hi). rewrite (Q i Hi). auto.
Qed.
End Launch.

(** ** Traces of the building blocks *)
Lemma trace_load_all l next m : trace (load_all l next) m =
  map (fun c => Ld (fst c) (snd c)) l ++ trace (next (map (fun c => m (fst c) (snd c)) l)) m.
Proof.
  revert next. induction l as [|[a k] l IH]; intros next; cbn [load_all trace map app fst snd]; auto.
  rewrite IH. auto.
Qed.
Lemma trace_for_each {X} (l : list X) body (bt : X -> list event) after m :
  (forall x nx, In x l -> trace (body x nx) m = bt x ++ trace nx m) ->
  trace (for_each l body after) m = concat (map bt l) ++ trace after m.
Proof.
  induction l as [|x l IH]; intros H; cbn [for_each map concat app]; auto.
  rewrite H by (left; auto). rewrite IH by (intros; apply H; right; auto). rewrite app_assoc. auto.
Qed.
End Kernel.

Arguments Finish {arr}.
Arguments Load {arr}.
Arguments Store {arr}.
Arguments for_each {arr X}.
Arguments load_all {arr}.
Arguments trace {arr}.
Arguments Ld {arr}.
Arguments St {arr}.
Arguments cell {arr}.
Arguments next_cell {arr}.
Arguments mkLaunch {arr}.
Arguments items {arr}.
Arguments mem {arr}.
Arguments ended {arr}.
Arguments independent {arr}.
Arguments ind_load {arr n its m}.
Arguments ind_own {arr n its m}.
Arguments ind_store {arr n its m}.
Arguments execution {arr}.
Arguments access {arr}.
