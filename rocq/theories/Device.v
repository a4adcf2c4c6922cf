(** Host programs driving an OpenCL device.

    The Python code of boxtree allocates arrays, launches kernels and scans, reads single
    cells back and decides what to do next.  A host program is modelled by the sequence of
    these operations.  Array names stand for Python variables: allocating an array under a
    name replaces the array the name denoted before.  The queue is in order: an operation
    starts when the one before it has ended. *)
From Coq Require Import List Arith ZArith Lia Bool.
From Verif Require Import Base TreeBuild Kernel.
Import ListNotations.

Section Device.
Variable arr : Type.
Variable arr_eq : forall a b : arr, {a = b} + {a <> b}.

(** contents and lengths of the arrays *)
Record device := mkDevice { cells : memory arr; size : arr -> Z }.

(** A segmented scan with several components: inputs, flags of segment starts and results
    are kept in the arrays named here (pyopencl's partial scan buffer). *)
Record scan := mkScan {
  scan_flag : arr;
  scan_parts : list (arr * arr * (Z -> Z -> Z))   (* input, result, operation *)
}.

Inductive host (R : Type) :=
| Ret (r : R)
| Launch (n : nat) (code : nat -> item arr) (next : host R)
| Alloc (a : arr) (n : Z) (next : host R)                       (* a = zeros(n) *)
| Move (a b : arr) (next : host R)                              (* b = a; del a *)
| Assign (a : arr) (first : Z) (vals : list Z) (next : host R)  (* a[first:first+len] = vals *)
| Scan (s : scan) (next : host R)
| Peek (a : arr) (k : Z) (next : Z -> host R).
Arguments Ret {R}.
Arguments Launch {R}.
Arguments Alloc {R}.
Arguments Move {R}.
Arguments Assign {R}.
Arguments Scan {R}.
Arguments Peek {R}.

Fixpoint bind {R Q} (h : host R) (f : R -> host Q) : host Q :=
  match h with
  | Ret r => f r
  | Launch n code next => Launch n code (bind next f)
  | Alloc a n next => Alloc a n (bind next f)
  | Move a b next => Move a b (bind next f)
  | Assign a k vals next => Assign a k vals (bind next f)
  | Scan s next => Scan s (bind next f)
  | Peek a k next => Peek a k (fun v => bind (next v) f)
  end.
Fixpoint each {X R} (l : list X) (body : X -> host R -> host R) (after : host R) : host R :=
  match l with
  | [] => after
  | x :: l' => body x (each l' body after)
  end.

Definition alloc (d : device) (a : arr) (n : Z) : device :=
  mkDevice (fun x => if arr_eq x a then fun _ => 0%Z else cells d x) (fun x => if arr_eq x a then n else size d x).
Definition move (d : device) (a b : arr) : device :=
  mkDevice (fun x => if arr_eq x b then cells d a else cells d x)
           (fun x => if arr_eq x b then size d a else if arr_eq x a then 0%Z else size d x).
Definition assign (d : device) (a : arr) (first : Z) (vals : list Z) : device :=
  mkDevice (fun x k => if arr_eq x a then
                         if ((first <=? k) && (k <? first + Z.of_nat (length vals)))%Z
                         then nth (Z.to_nat (k - first)) vals 0%Z else cells d x k
                       else cells d x k) (size d).
(** inclusive scan restarting at the segment starts (Scan.v: equal for all evaluation
    orders used by the device) *)
Definition scanned_value (d : device) (s : scan) (part : arr * arr * (Z -> Z -> Z)) (k : Z) : Z :=
  let '(inp, _, op) := part in
  seg_scan (fun i => negb (cells d (scan_flag s) (Z.of_nat i) =? 0)%Z) op
           (fun i => cells d inp (Z.of_nat i)) (Z.to_nat k).
Definition result_part (s : scan) (x : arr) : option (arr * arr * (Z -> Z -> Z)) :=
  find (fun p => if arr_eq x (snd (fst p)) then true else false) (scan_parts s).
Definition run_scan (d : device) (s : scan) : device :=
  mkDevice (fun x => match result_part s x with
                     | Some p => scanned_value d s p
                     | None => cells d x
                     end) (size d).

(** Runs to the end, with some order of the work items in every launch *)
Inductive completes {R} : host R -> device -> R -> device -> Prop :=
| done_ret r d : completes (Ret r) d r d
| done_launch n code next d steps s r d' :
    execution arr_eq n (mkLaunch code (cells d)) steps s -> ended n s ->
    completes next (mkDevice (mem s) (size d)) r d' -> completes (Launch n code next) d r d'
| done_alloc a n next d r d' : completes next (alloc d a n) r d' -> completes (Alloc a n next) d r d'
| done_move a b next d r d' : completes next (move d a b) r d' -> completes (Move a b next) d r d'
| done_assign a k vals next d r d' : completes next (assign d a k vals) r d' -> completes (Assign a k vals next) d r d'
| done_scan s next d r d' : completes next (run_scan d s) r d' -> completes (Scan s next) d r d'
| done_peek a k next d r d' : completes (next (cells d a k)) d r d' -> completes (Peek a k next) d r d'.

(** Whatever the order of the work items: no access outside of an array, and every launch
    ends *)
Inductive safe {R} : host R -> device -> Prop :=
| safe_ret r d : safe (Ret r) d
| safe_launch n code next d :
    (forall steps s i a k, execution arr_eq n (mkLaunch code (cells d)) steps s -> i < n ->
       next_cell (items s i) = Some (a, k) -> (0 <= k < size d a)%Z) ->
    (exists bound, forall steps s, execution arr_eq n (mkLaunch code (cells d)) steps s -> steps <= bound) ->
    (forall steps s, execution arr_eq n (mkLaunch code (cells d)) steps s -> ended n s ->
       safe next (mkDevice (mem s) (size d))) ->
    safe (Launch n code next) d
| safe_alloc a n next d : (0 <= n)%Z -> safe next (alloc d a n) -> safe (Alloc a n next) d
| safe_move a b next d : safe next (move d a b) -> safe (Move a b next) d
| safe_assign a k vals next d : (0 <= k)%Z -> (k + Z.of_nat (length vals) <= size d a)%Z ->
    safe next (assign d a k vals) -> safe (Assign a k vals next) d
| safe_scan s next d : safe next (run_scan d s) -> safe (Scan s next) d
| safe_peek a k next d : (0 <= k < size d a)%Z -> safe (next (cells d a k)) d -> safe (Peek a k next) d.

(** ** Assertions about a device: some lengths and some cells are known *)
Record known := mkKnown { len : arr -> option Z; val : arr -> nat -> option Z }.
Definition agrees (K : known) (d : device) : Prop :=
  (forall a n, len K a = Some n -> size d a = n) /\
  (forall a n k v, len K a = Some n -> (Z.of_nat k < n)%Z -> val K a k = Some v -> cells d a (Z.of_nat k) = v).

Definition ok {R} (K : known) (h : host R) (Q : R -> device -> Prop) : Prop :=
  forall d, agrees K d -> safe h d /\ forall r d', completes h d r d' -> Q r d'.

Lemma ok_ret {R} K (r : R) (Q : R -> device -> Prop) : (forall d, agrees K d -> Q r d) -> ok K (Ret r) Q.
Proof. intros H d A. split; [constructor|]. intros r' d' C. inversion C; subst. auto. Qed.
Lemma ok_weaken {R} K K' (h : host R) Q : ok K' h Q -> (forall d, agrees K d -> agrees K' d) -> ok K h Q.
Proof. intros O H d A. apply O, H, A. Qed.
Lemma ok_post {R} K (h : host R) (Q Q' : R -> device -> Prop) : ok K h Q -> (forall r d, Q r d -> Q' r d) -> ok K h Q'.
Proof. intros O H d A. destruct (O d A) as [S C]. split; auto. Qed.
Lemma known_weaken K K' d : (forall a n, len K' a = Some n -> len K a = Some n) ->
  (forall a n k v, len K' a = Some n -> (Z.of_nat k < n)%Z -> val K' a k = Some v -> val K a k = Some v) ->
  agrees K d -> agrees K' d.
Proof. intros H1 H2 [A1 A2]. split; auto. intros a n k v L B V. apply (A2 a n k v); eauto. Qed.

Lemma safe_bind {R Q} (h : host R) (f : R -> host Q) d :
  safe h d -> (forall r d', completes h d r d' -> safe (f r) d') -> safe (bind h f) d.
Proof.
  intros S. induction S; intros C; cbn [bind].
  - apply C. constructor.
  - apply safe_launch; auto. intros steps s X E. apply (H2 steps s X E). intros r d' D. apply C.
    eapply done_launch; eauto.
  - apply safe_alloc; auto. apply IHS. intros r d' D. apply C. constructor; auto.
  - apply safe_move; auto. apply IHS. intros r d' D. apply C. constructor; auto.
  - apply safe_assign; auto. apply IHS. intros r d' D. apply C. constructor; auto.
  - apply safe_scan; auto. apply IHS. intros r d' D. apply C. constructor; auto.
  - apply safe_peek; auto. apply IHS. intros r d' D. apply C. constructor; auto.
Qed.
Lemma completes_bind {R Q} (h : host R) (f : R -> host Q) : forall d q d',
  completes (bind h f) d q d' -> exists r d1, completes h d r d1 /\ completes (f r) d1 q d'.
Proof.
  induction h as [r|n code h IHh|a n h IHh|a b h IHh|a k vals h IHh|sc h IHh|a k h IHh];
    intros d q d' C; cbn [bind] in C.
  - exists r, d. split; auto. constructor.
  - inversion C; subst. match goal with X : completes (bind h f) _ _ _ |- _ => destruct (IHh _ _ _ X) as [r [d1 [C1 C2]]] end.
    exists r, d1. split; auto. eapply done_launch; eauto.
  - inversion C; subst. match goal with X : completes (bind h f) _ _ _ |- _ => destruct (IHh _ _ _ X) as [r [d1 [C1 C2]]] end.
    exists r, d1. split; auto. constructor; auto.
  - inversion C; subst. match goal with X : completes (bind h f) _ _ _ |- _ => destruct (IHh _ _ _ X) as [r [d1 [C1 C2]]] end.
    exists r, d1. split; auto. constructor; auto.
  - inversion C; subst. match goal with X : completes (bind h f) _ _ _ |- _ => destruct (IHh _ _ _ X) as [r [d1 [C1 C2]]] end.
    exists r, d1. split; auto. constructor; auto.
  - inversion C; subst. match goal with X : completes (bind h f) _ _ _ |- _ => destruct (IHh _ _ _ X) as [r [d1 [C1 C2]]] end.
    exists r, d1. split; auto. constructor; auto.
  - inversion C; subst. match goal with X : completes (bind (h _) f) _ _ _ |- _ => destruct (IHh _ _ _ _ X) as [r [d1 [C1 C2]]] end.
    exists r, d1. split; auto. constructor; auto.
Qed.
Lemma ok_bind {R Q} K (h : host R) (f : R -> host Q) (P : R -> device -> Prop) (T : Q -> device -> Prop) : ok K h P ->
  (forall r d, P r d -> safe (f r) d /\ forall q d', completes (f r) d q d' -> T q d') -> ok K (bind h f) T.
Proof.
  intros O H d A. destruct (O d A) as [S C]. split.
  - apply safe_bind; auto. intros r d' D. apply H. auto.
  - intros q d' D. apply completes_bind in D. destruct D as [r [d1 [D1 D2]]]. apply (H r d1 (C r d1 D1)). auto.
Qed.

(** *** Allocation, renaming, assignment, reading a cell *)
Definition k_alloc (K : known) (a : arr) (n : Z) : known :=
  mkKnown (fun x => if arr_eq x a then Some n else len K x) (fun x => if arr_eq x a then fun _ => Some 0%Z else val K x).
Lemma ok_alloc {R} K a n (next : host R) Q : (0 <= n)%Z -> ok (k_alloc K a n) next Q -> ok K (Alloc a n next) Q.
Proof.
  intros P O d [A1 A2]. destruct (O (alloc d a n)) as [S C].
  - split; intros x; cbn [alloc k_alloc cells size len val]; destruct (arr_eq x a); intros; try congruence; eauto.
  - split; [constructor; auto|]. intros r d' D. inversion D; subst. auto.
Qed.
Definition k_move (K : known) (a b : arr) : known :=
  mkKnown (fun x => if arr_eq x b then len K a else if arr_eq x a then Some 0%Z else len K x)
          (fun x => if arr_eq x b then val K a else if arr_eq x a then fun _ => None else val K x).
Lemma ok_move {R} K a b (next : host R) Q : ok (k_move K a b) next Q -> ok K (Move a b next) Q.
Proof.
  intros O d [A1 A2]. destruct (O (move d a b)) as [S C].
  - split; intros x; cbn [move k_move cells size len val]; destruct (arr_eq x b); intros; eauto;
      destruct (arr_eq x a); intros; try discriminate; eauto; congruence.
  - split; [constructor; auto|]. intros r d' D. inversion D; subst. auto.
Qed.
Definition k_assign (K : known) (a : arr) (first : nat) (vals : list Z) : known :=
  mkKnown (len K) (fun x k => if arr_eq x a then
     if (first <=? k) && (k <? first + length vals) then nth_error vals (k - first) else val K x k else val K x k).
Lemma ok_assign {R} K a first vals n (next : host R) Q : len K a = Some n ->
  (Z.of_nat (first + length vals) <= n)%Z ->
  ok (k_assign K a first vals) next Q -> ok K (Assign a (Z.of_nat first) vals next) Q.
Proof.
  intros L B O d [A1 A2]. destruct (O (assign d a (Z.of_nat first) vals)) as [S C].
  - split; intros x; cbn [assign k_assign cells size len val]; auto. intros m k v Lx Bx V.
    destruct (arr_eq x a) as [->|]; [|apply (A2 x m k v); auto].
    destruct (Nat.leb_spec first k), (Nat.ltb_spec k (first + length vals)); cbn [andb] in V.
    + assert (E1 : (Z.of_nat first <=? Z.of_nat k)%Z = true) by (apply Z.leb_le; lia).
      assert (E2 : (Z.of_nat k <? Z.of_nat first + Z.of_nat (length vals))%Z = true) by (apply Z.ltb_lt; lia).
      rewrite E1, E2. cbn [andb].
      replace (Z.to_nat (Z.of_nat k - Z.of_nat first)) with (k - first) by lia. apply nth_error_nth. auto.
    + assert (E2 : (Z.of_nat k <? Z.of_nat first + Z.of_nat (length vals))%Z = false) by (apply Z.ltb_ge; lia).
      rewrite E2, andb_false_r. apply (A2 a m k v); auto.
    + assert (E2 : (Z.of_nat first <=? Z.of_nat k)%Z = false) by (apply Z.leb_gt; lia).
      rewrite E2. apply (A2 a m k v); auto.
    + assert (E2 : (Z.of_nat first <=? Z.of_nat k)%Z = false) by (apply Z.leb_gt; lia).
      rewrite E2. apply (A2 a m k v); auto.
  - split.
    + constructor; auto; [lia|]. rewrite (A1 a n L). lia.
    + intros r d' D. inversion D; subst. auto.
Qed.
Lemma ok_peek {R} K a k n v (next : Z -> host R) Q : len K a = Some n -> (Z.of_nat k < n)%Z -> val K a k = Some v ->
  ok K (next v) Q -> ok K (Peek a (Z.of_nat k) next) Q.
Proof.
  intros L B V O d A. destruct (O d A) as [S C]. destruct A as [A1 A2].
  assert (E := A2 a n k v L B V). subst v. split.
  - constructor; [rewrite (A1 a n L); lia|]. auto.
  - intros r d' D. inversion D; subst. auto.
Qed.

(** *** Launches *)
Inductive touch := Get (a : arr) (k : nat) | Put (a : arr) (k : nat) (v : Z).
Definition event_of (t : touch) : event arr :=
  match t with Get a k => Ld a (Z.of_nat k) | Put a k v => St a (Z.of_nat k) v end.
Definition holds (K : known) (m : memory arr) : Prop :=
  forall a n k v, len K a = Some n -> (Z.of_nat k < n)%Z -> val K a k = Some v -> m a (Z.of_nat k) = v.
Definition touched (t : touch) : arr * nat := match t with Get a k => (a, k) | Put a k _ => (a, k) end.

Lemma in_events a k v T : In (St a k v) (map event_of T) <-> exists k', k = Z.of_nat k' /\ In (Put a k' v) T.
Proof.
  rewrite in_map_iff. split.
  - intros [[a' k'|a' k' v'] [E I]]; cbn [event_of] in E; [discriminate|]. injection E as -> <- ->. eauto.
  - intros [k' [-> I]]. exists (Put a k' v). auto.
Qed.
Lemma in_events_ld a k T : In (Ld a k) (map event_of T) <-> exists k', k = Z.of_nat k' /\ In (Get a k') T.
Proof.
  rewrite in_map_iff. split.
  - intros [[a' k'|a' k' v'] [E I]]; cbn [event_of] in E; [|discriminate]. injection E as -> <-. eauto.
  - intros [k' [-> I]]. exists (Get a k'). auto.
Qed.

(** What has to be shown about the cells touched by the work items *)
Record launch_spec (K : known) (n : nat) (T : nat -> list touch) (new : arr -> nat -> option Z) : Prop := {
  ls_bounds : forall i t, i < n -> In t (T i) ->
    exists z, len K (fst (touched t)) = Some z /\ (Z.of_nat (snd (touched t)) < z)%Z;
  ls_load : forall i j a k v, i < n -> j < n -> i <> j -> In (Put a k v) (T i) -> ~ In (Get a k) (T j);
  ls_own : forall i x y a k v, i < n -> T i = x ++ Get a k :: y -> ~ In (Put a k v) x;
  ls_new : forall i a k v, i < n -> In (Put a k v) (T i) -> new a k = Some v;
  ls_old : forall a z k w, len K a = Some z -> (Z.of_nat k < z)%Z -> new a k = Some w ->
    (exists i v, i < n /\ In (Put a k v) (T i)) \/ val K a k = Some w
}.

Lemma ok_launch {R} K n code T new (next : host R) Q :
  (forall m i, holds K m -> i < n -> trace (code i) m = map event_of (T i)) ->
  launch_spec K n T new ->
  ok (mkKnown (len K) new) next Q -> ok K (Launch n code next) Q.
Proof.
  intros TR LS O d [A1 A2].
  assert (TE : forall i, i < n -> trace (code i) (cells d) = map event_of (T i)) by (intros; apply TR; auto).
  assert (IND : independent n code (cells d)).
  { constructor.
    - intros i j a k v Hi Hj N. rewrite (TE i Hi), (TE j Hj), in_events, in_events_ld.
      intros [k1 [-> I1]] [k2 [E I2]]. assert (k1 = k2) by lia. subst k2. apply (ls_load K n T new LS i j a k1 v); auto.
    - intros i x y a k v Hi. rewrite (TE i Hi). intros E S. apply map_eq_app in E. destruct E as [t1 [t2 [E [E1 E2]]]].
      destruct t2 as [|t t2]; [discriminate|]. cbn [map] in E2. injection E2 as E2 E3.
      destruct t as [a' k'|a' k' v']; cbn [event_of] in E2; [|discriminate]. injection E2 as -> <-.
      rewrite <- E1, in_events in S. destruct S as [k2 [E4 S]]. assert (k2 = k') by lia. subst k2.
      apply (ls_own K n T new LS i t1 t2 a k' v Hi E S).
    - intros i j a k v v' Hi Hj. rewrite (TE i Hi), (TE j Hj), !in_events. intros [k1 [-> I1]] [k2 [E I2]].
      assert (k1 = k2) by lia. subst k2.
      assert (X := ls_new K n T new LS i a k1 v Hi I1). assert (Y := ls_new K n T new LS j a k1 v' Hj I2). congruence. }
  assert (FIN : forall steps s, execution arr_eq n (mkLaunch code (cells d)) steps s -> ended n s ->
    agrees (mkKnown (len K) new) (mkDevice (mem s) (size d))).
  { intros steps s X E. destruct (final_memory arr arr_eq n code (cells d) IND steps s X E) as [F1 F2].
    split; cbn [len val cells size]; auto. intros a z k w L B V.
    assert (DEC : (exists i v, i < n /\ In (Put a k v) (T i)) \/ (forall i v, i < n -> ~ In (Put a k v) (T i))).
    { clear - arr_eq. assert (G : forall m, (exists i v, i < m /\ In (Put a k v) (T i)) \/ (forall i v, i < m -> ~ In (Put a k v) (T i))).
      { induction m as [|m IH]; [right; intros; lia|]. destruct IH as [[i [v [A B]]]|IH].
        - left. exists i, v. split; auto.
        - assert (D : (exists v, In (Put a k v) (T m)) \/ (forall v, ~ In (Put a k v) (T m))).
          { induction (T m) as [|t l IHl]; [right; intros v []|].
            destruct IHl as [[v I]|IHl]; [left; exists v; right; auto|].
            destruct t as [a' k'|a' k' v'].
            - right. intros v [E|I]; [discriminate|]. apply (IHl v I).
            - destruct (arr_eq a' a) as [->|N]; [destruct (Nat.eq_dec k' k) as [->|N]|].
              + left. exists v'. left; auto.
              + right. intros v [E|I]; [congruence|]. apply (IHl v I).
              + right. intros v [E|I]; [congruence|]. apply (IHl v I). }
          destruct D as [[v D]|D]; [left; exists m, v; auto|]. right. intros i v Hi.
          destruct (Nat.eq_dec i m) as [->|]; [apply D|apply IH; lia]. }
      apply G. }
    destruct DEC as [[i [v [Hi I]]]|N].
    - assert (Y := ls_new K n T new LS i a k v Hi I). rewrite V in Y. injection Y as ->.
      apply (F1 i a (Z.of_nat k) v Hi). rewrite (TE i Hi), in_events. eauto.
    - rewrite F2.
      + destruct (ls_old K n T new LS a z k w L B V) as [[i [v [Hi I]]]|V0]; [destruct (N i v Hi I)|].
        apply (A2 a z k w L B V0).
      + intros i v Hi. rewrite (TE i Hi), in_events. intros [k' [Ek I]]. assert (k' = k) by lia. subst k'.
        apply (N i v Hi I). }
  split.
  - apply safe_launch.
    + intros steps s i a k X Hi NC.
      destruct (accesses_expected arr arr_eq n code (cells d) IND steps s i a k X Hi NC) as [e [I E]].
      rewrite (TE i Hi), in_map_iff in I. destruct I as [t [<- I]].
      destruct (ls_bounds K n T new LS i t Hi I) as [z [L B]].
      destruct t as [a' k'|a' k' v']; cbn [event_of cell touched fst snd] in *; injection E as -> <-;
        rewrite (A1 a z L); lia.
    + exists (work arr code (cells d) n). intros steps s X. apply (executions_bounded arr arr_eq n code (cells d) IND steps s X).
    + intros steps s X E. apply O. apply (FIN steps s X E).
  - intros r d' D. inversion D; subst. apply (O _ (FIN _ _ H2 H6)). auto.
Qed.

(** launches in which no cell is both loaded and stored to *)
Lemma separate_spec K n T new :
  (forall i t, i < n -> In t (T i) -> exists z, len K (fst (touched t)) = Some z /\ (Z.of_nat (snd (touched t)) < z)%Z) ->
  (forall i j a k v, i < n -> j < n -> In (Put a k v) (T i) -> ~ In (Get a k) (T j)) ->
  (forall i a k v, i < n -> In (Put a k v) (T i) -> new a k = Some v) ->
  (forall a z k w, len K a = Some z -> (Z.of_nat k < z)%Z -> new a k = Some w ->
    (exists i v, i < n /\ In (Put a k v) (T i)) \/ val K a k = Some w) ->
  launch_spec K n T new.
Proof.
  intros B L N O. constructor; auto.
  - intros i j a k v Hi Hj _. apply L; auto.
  - intros i x y a k v Hi E S. apply (L i i a k v Hi Hi); rewrite E; apply in_or_app; [left; auto|right; left; auto].
Qed.

(** *** Scans *)
Definition k_scan (K : known) (s : scan) (n : nat) : known :=
  mkKnown (len K) (fun x => match result_part s x with
    | Some (inp, _, op) => fun k =>
        if forallb (fun i => match val K inp i, val K (scan_flag s) i with Some _, Some _ => true | _, _ => false end) (seq 0 (S k))
           && (k <? n)
        then Some (seg_scan (fun i => match val K (scan_flag s) i with Some v => negb (v =? 0)%Z | None => false end) op
                    (fun i => match val K inp i with Some v => v | None => 0%Z end) k)
        else None
    | None => val K x end).
Lemma seg_scan_ext_le {A} (st st' : nat -> bool) (op : A -> A -> A) (f f' : nat -> A) k :
  (forall i, i <= k -> st i = st' i) -> (forall i, i <= k -> f i = f' i) -> seg_scan st op f k = seg_scan st' op f' k.
Proof.
  induction k as [|k IH]; intros H1 H2; cbn [seg_scan]; [apply H2; lia|].
  rewrite (H1 (S k)), (H2 (S k)), IH by (intros; try apply H1; try apply H2; lia). auto.
Qed.
Lemma ok_scan {R} K s n (next : host R) Q :
  (forall p, In p (scan_parts s) -> len K (fst (fst p)) = Some (Z.of_nat n)) -> len K (scan_flag s) = Some (Z.of_nat n) ->
  ok (k_scan K s n) next Q -> ok K (Scan s next) Q.
Proof.
  intros L1 L2 O d [A1 A2]. destruct (O (run_scan d s)) as [S C].
  - split; cbn [run_scan k_scan len val cells size]; auto. intros a z k v L B V.
    destruct (result_part s a) as [[[inp res] op]|] eqn:E; [|eauto].
    destruct (forallb _ _) eqn:F; [|discriminate]. cbn [andb] in V. destruct (Nat.ltb_spec k n) as [Hk|Hk]; [|discriminate].
    injection V as <-. unfold scanned_value. rewrite Nat2Z.id.
    assert (FL : forall i, i <= k -> exists u w, val K inp i = Some u /\ val K (scan_flag s) i = Some w).
    { intros i Hi. rewrite forallb_forall in F. specialize (F i ltac:(apply in_seq; lia)).
      destruct (val K inp i); [|discriminate]. destruct (val K (scan_flag s) i); [|discriminate]. eauto. }
    apply find_some in E. destruct E as [E _]. assert (LI := L1 _ E). cbn [fst] in LI.
    apply seg_scan_ext_le; intros i Hi; destruct (FL i Hi) as [u [w [U W]]].
    + rewrite W, (A2 _ _ i w L2 ltac:(lia) W). auto.
    + rewrite U, (A2 _ _ i u LI ltac:(lia) U). auto.
  - split; [constructor; auto|]. intros r d' D. inversion D; subst. auto.
Qed.
End Device.

Arguments Ret {arr R}.
Arguments Launch {arr R}.
Arguments Alloc {arr R}.
Arguments Move {arr R}.
Arguments Assign {arr R}.
Arguments Scan {arr R}.
Arguments Peek {arr R}.
Arguments bind {arr R Q}.
Arguments each {arr X R}.
Arguments mkDevice {arr}.
Arguments cells {arr}.
Arguments size {arr}.
Arguments mkScan {arr}.
Arguments mkKnown {arr}.
Arguments len {arr}.
Arguments val {arr}.
Arguments agrees {arr}.
Arguments holds {arr}.
Arguments Get {arr}.
Arguments Put {arr}.
Arguments touched {arr}.
Arguments event_of {arr}.
