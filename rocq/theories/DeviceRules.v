(** Rules for reasoning about launches: work items evaluated with what is known about the
    arrays. *)
From Coq Require Import List Arith ZArith Lia Bool.
From Verif Require Import Base TreeBuild Kernel Device.
Import ListNotations.

Section Rules.
Variable arr : Type.
Variable arr_eq : forall a b : arr, {a = b} + {a <> b}.
Notation known := (known arr).
Notation z := Z.of_nat.

(** the work item touches known cells only, namely these *)
Inductive evals (K : known) : item arr -> list (touch arr) -> Prop :=
| ev_finish : evals K Finish []
| ev_load a k n v next T : len K a = Some n -> (z k < n)%Z -> val K a k = Some v ->
    evals K (next v) T -> evals K (Load a (z k) next) (Get a k :: T)
| ev_store a k n v next T : len K a = Some n -> (z k < n)%Z ->
    evals K next T -> evals K (Store a (z k) v next) (Put a k v :: T).

Lemma evals_trace K p T m : evals K p T -> holds K m -> trace p m = map event_of T.
Proof.
  intros E H. induction E as [|a k n v next T L B V E IH|a k n v next T L B E IH]; cbn [trace map event_of]; auto.
  - rewrite (H a n k v L B V), IH. auto.
  - rewrite IH. auto.
Qed.
Lemma evals_bounds K p T t : evals K p T -> In t T ->
  exists n, len K (fst (touched t)) = Some n /\ (z (snd (touched t)) < n)%Z.
Proof.
  intros E. induction E as [|a k n v next T L B V E IH|a k n v next T L B E IH]; intros I; [destruct I| |];
    (destruct I as [<-|I]; [exists n; auto|auto]).
Qed.

Lemma evals_load_all K cells vs next T :
  Forall2 (fun c v => exists k n, snd c = z k /\ len K (fst c) = Some n /\ (z k < n)%Z /\ val K (fst c) k = Some v) cells vs ->
  evals K (next vs) T ->
  evals K (load_all cells next) (map (fun c => Get (fst c) (Z.to_nat (snd c))) cells ++ T).
Proof.
  intros F. revert next. induction F as [|[a k] v cells vs [k' [n [E [L [B V]]]]] F IH]; intros next Ev;
    cbn [load_all map app fst snd] in *; auto.
  subst k. rewrite Nat2Z.id. apply (ev_load K a k' n v); auto.
Qed.
Lemma evals_for_each {X} K (l : list X) body (bt : X -> list (touch arr)) after T :
  (forall x nx Tx, In x l -> evals K nx Tx -> evals K (body x nx) (bt x ++ Tx)) ->
  evals K after T -> evals K (for_each l body after) (concat (map bt l) ++ T).
Proof.
  intros H E. induction l as [|x l IH]; cbn [for_each map concat app]; auto.
  rewrite <- app_assoc. apply H; [left; auto|]. apply IH. intros; apply H; auto. right; auto.
Qed.

(** launches in which no cell is both loaded and stored to *)
Lemma ok_launch_sep {R} K K' n code T (next : host arr R) Q :
  (forall i, i < n -> evals K (code i) (T i)) ->
  (forall i j a k v, i < n -> j < n -> In (Put a k v) (T i) -> ~ In (Get a k) (T j)) ->
  (forall i a k v, i < n -> In (Put a k v) (T i) -> val K' a k = Some v) ->
  (forall a m, len K' a = Some m -> len K a = Some m) ->
  (forall a m k w, len K' a = Some m -> (z k < m)%Z -> val K' a k = Some w ->
    (exists i v, i < n /\ In (Put a k v) (T i)) \/ val K a k = Some w) ->
  ok arr arr_eq K' next Q -> ok arr arr_eq K (Launch n code next) Q.
Proof.
  intros E S N LE O OK.
  apply (ok_launch arr arr_eq K n code T (fun a k => match len K' a with Some _ => val K' a k
      | None => if (existsb (fun i => existsb (fun t => match t with Put a' k' _ => if arr_eq a' a then k' =? k else false | _ => false end) (T i)) (seq 0 n))
                then val K' a k else None end)).
  - intros m i H Hi. apply (evals_trace K); auto.
  - apply separate_spec.
    + intros i t Hi I. apply (evals_bounds K (code i) (T i)); auto.
    + auto.
    + intros i a k v Hi I. destruct (len K' a); [apply (N i); auto|].
      replace (existsb _ (seq 0 n)) with true; [apply (N i); auto|]. symmetry. apply existsb_exists.
      exists i. split; [apply in_seq; lia|]. apply existsb_exists. exists (Put a k v). split; auto.
      destruct (arr_eq a a); [apply Nat.eqb_refl|congruence].
    + intros a m k w L B V. destruct (len K' a) as [m'|] eqn:L'.
      * apply (O a m' k w); auto. apply LE in L'. rewrite L in L'. injection L' as <-. auto.
      * destruct (existsb _ (seq 0 n)) eqn:X; [|discriminate]. left. apply existsb_exists in X.
        destruct X as [i [Hi X]]. apply in_seq in Hi. apply existsb_exists in X. destruct X as [t [It X]].
        destruct t as [|a' k' v]; [discriminate|]. destruct (arr_eq a' a) as [->|]; [|discriminate]. apply Nat.eqb_eq in X.
        subst k'. exists i, v. split; auto. lia.
  - apply (ok_weaken arr arr_eq _ K'); auto. intros d A. revert A. apply known_weaken; cbn [len val].
    + auto.
    + intros a m k v L B V. rewrite L. auto.
Qed.

(** loops of the host *)
Lemma ok_each {X R} (l : list X) (body : X -> host arr R -> host arr R) (P : list X -> known) after Q :
  (forall x l' nx, (exists l0, l = l0 ++ x :: l') -> ok arr arr_eq (P l') nx Q -> ok arr arr_eq (P (x :: l')) (body x nx) Q) ->
  ok arr arr_eq (P []) after Q -> ok arr arr_eq (P l) (each l body after) Q.
Proof.
  intros H A. assert (G : forall l' l0, l = l0 ++ l' -> ok arr arr_eq (P l') (each l' body after) Q).
  { induction l' as [|x l' IH]; intros l0 E; cbn [each]; auto. apply H; [exists l0; auto|].
    apply (IH (l0 ++ [x])). rewrite <- app_assoc. auto. }
  apply (G l []). auto.
Qed.

(** allocating several arrays of the same length *)
Definition k_allocs (K : known) (l : list arr) (n : Z) : known :=
  mkKnown (fun x => if in_dec arr_eq x l then Some n else len K x)
          (fun x => if in_dec arr_eq x l then fun _ => Some 0%Z else val K x).
Lemma ok_each_alloc {X R} K (l : list X) mk n (next : host arr R) Q : (0 <= n)%Z ->
  ok arr arr_eq (k_allocs K (map mk l) n) next Q -> ok arr arr_eq K (each l (fun x nx => Alloc (mk x) n nx) next) Q.
Proof.
  intros N O. revert K O. induction l as [|x l IH]; intros K O; cbn [each map] in *.
  - apply (ok_weaken arr arr_eq K _ _ _ O). intros d A. exact A.
  - apply ok_alloc; auto. apply IH. apply (ok_weaken arr arr_eq _ _ _ _ O). intros d. apply known_weaken.
    + intros a m. cbn [k_allocs k_alloc len]. destruct (in_dec arr_eq a (map mk l)) as [I|I].
      * destruct (in_dec arr_eq a (mk x :: map mk l)) as [J|J]; auto. exfalso. apply J. right; auto.
      * destruct (arr_eq a (mk x)) as [E|E].
        -- destruct (in_dec arr_eq a (mk x :: map mk l)) as [J|J]; auto. exfalso. apply J. left; auto.
        -- destruct (in_dec arr_eq a (mk x :: map mk l)) as [[J|J]|J]; auto; [congruence|contradiction].
    + intros a m k v _ _. cbn [k_allocs k_alloc val]. destruct (in_dec arr_eq a (map mk l)) as [I|I].
      * destruct (in_dec arr_eq a (mk x :: map mk l)) as [J|J]; auto. exfalso. apply J. right; auto.
      * destruct (arr_eq a (mk x)) as [E|E].
        -- destruct (in_dec arr_eq a (mk x :: map mk l)) as [J|J]; auto. exfalso. apply J. left; auto.
        -- destruct (in_dec arr_eq a (mk x :: map mk l)) as [[J|J]|J]; auto; [congruence|contradiction].
Qed.

(** temporary arrays on top of what is known *)
Definition extend (K : known) (tmp : arr -> option (Z * (nat -> option Z))) : known :=
  mkKnown (fun x => match tmp x with Some (n, _) => Some n | None => len K x end)
          (fun x => match tmp x with Some (_, f) => f | None => val K x end).
End Rules.
Arguments evals {arr}.
Arguments k_allocs {arr}.
Arguments extend {arr}.
