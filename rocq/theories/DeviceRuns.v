(** A safe host program runs to its end, whatever the order of the work items. *)
From Coq Require Import List Arith ZArith Lia Bool.
From Verif Require Import Base Kernel Device.

Section Runs.
Variable arr : Type.
Variable arr_eq : forall a b : arr, {a = b} + {a <> b}.

Lemma ended_or_not n (s : launch arr) : ended n s \/ exists s', access arr_eq n s s'.
Proof.
  assert (H : forall c, c <= n -> (forall i, i < c -> items s i = Finish) \/ exists s', access arr_eq n s s').
  { induction c as [|c IH]; intros C; [left; intros; lia|]. destruct (IH ltac:(lia)) as [F|E]; [|auto].
    destruct s as [its m]. cbn [items] in *. destruct (its c) as [|a k next|a k v next] eqn:E.
    - left. intros i Hi. destruct (Nat.eq_dec i c); [subst; auto|apply F; lia].
    - right. eexists. apply load with (i := c) (a := a) (k := k) (next := next); auto.
    - right. eexists. apply write with (i := c) (a := a) (k := k) (v := v) (next := next); auto. }
  destruct (H n (le_n n)) as [F|E]; [left; exact F|auto].
Qed.
Lemma reaches_end n (s : launch arr) bound :
  (forall steps s', execution arr_eq n s steps s' -> steps <= bound) ->
  exists steps s', execution arr_eq n s steps s' /\ ended n s'.
Proof.
  intros B.
  assert (H : forall c, (exists steps s', execution arr_eq n s steps s' /\ ended n s') \/ exists s', execution arr_eq n s c s').
  { induction c as [|c IH]; [right; exists s; constructor|]. destruct IH as [E|[s' E]]; [auto|].
    destruct (ended_or_not n s') as [F|[s'' A]]; [left; eauto|]. right. exists s''. econstructor; eauto. }
  destruct (H (S bound)) as [E|[s' E]]; auto. apply B in E. lia.
Qed.
Theorem safe_completes {R} (h : host arr R) d : safe arr arr_eq h d -> exists r d', completes arr arr_eq h d r d'.
Proof.
  intros S. induction S as [r d|n code next d _ [bound B] _ IH|a n next d _ _ [r [d' IH]]|a b next d _ [r [d' IH]]
    |a k vals next d _ _ _ [r [d' IH]]|s next d _ [r [d' IH]]|a k next d _ _ [r [d' IH]]].
  - exists r, d. constructor.
  - destruct (reaches_end n _ bound B) as [steps [s [E F]]]. destruct (IH steps s E F) as [r [d' C]].
    exists r, d'. econstructor; eauto.
  - exists r, d'. constructor; auto.
  - exists r, d'. constructor; auto.
  - exists r, d'. constructor; auto.
  - exists r, d'. constructor; auto.
  - exists r, d'. constructor; auto.
Qed.
End Runs.
