(** Rules for host programs in terms of facts about single arrays, and for launches in which
    no cell is both loaded and stored to, by walking through the program of a work item. *)
From Coq Require Import List Arith ZArith Lia Bool.
From Verif Require Import Base TreeBuild Kernel Device DeviceRules.
Import ListNotations.

Section Facts.
Variable arr : Type.
Variable arr_eq : forall a b : arr, {a = b} + {a <> b}.
Notation known := (known arr).
Notation z := Z.of_nat.
Notation ok := (ok arr arr_eq).

(** array [a] has [m] elements; the first [n] of them are known *)
Record has (K : known) (a : arr) (m n : nat) (f : nat -> Z) : Prop := {
  has_len : len K a = Some (z m);
  has_le : n <= m;
  has_val : forall k, k < n -> val K a k = Some (f k)
}.
Lemma has_ext K a m n f g : has K a m n f -> (forall k, k < n -> f k = g k) -> has K a m n g.
Proof. intros [A B C] E. constructor; auto. intros k Hk. rewrite C, E; auto. Qed.
Lemma has_less K a m n n' f : has K a m n f -> n' <= n -> has K a m n' f.
Proof. intros [A B C] E. constructor; auto; [lia|]. intros k Hk. apply C. lia. Qed.
Lemma has_agrees K a m n f d : has K a m n f -> agrees K d ->
  size d a = z m /\ forall k, k < n -> cells d a (z k) = f k.
Proof.
  intros [A B C] [D E]. split; [apply D; auto|]. intros k Hk. apply (E a (z m)); auto. lia.
Qed.

(** ** Allocation, renaming, assignment *)
Lemma has_alloc_same K a m n : n <= m -> has (k_alloc arr arr_eq K a (z m)) a m n (fun _ => 0%Z).
Proof. intros H. constructor; auto; cbn [k_alloc len val]; destruct (arr_eq a a); auto; contradiction. Qed.
Lemma has_alloc_other K a s b m n f : b <> a -> has K b m n f -> has (k_alloc arr arr_eq K a s) b m n f.
Proof. intros N [A B C]. constructor; auto; cbn [k_alloc len val]; destruct (arr_eq b a); auto; contradiction. Qed.
Lemma has_move_same K a b m n f : has K a m n f -> has (k_move arr arr_eq K a b) b m n f.
Proof. intros [A B C]. constructor; auto; cbn [k_move len val]; destruct (arr_eq b b); auto; contradiction. Qed.
Lemma has_move_other K a b c m n f : c <> a -> c <> b -> has K c m n f -> has (k_move arr arr_eq K a b) c m n f.
Proof.
  intros N1 N2 [A B C]. constructor; auto; cbn [k_move len val]; destruct (arr_eq c b); try contradiction; destruct (arr_eq c a); auto; contradiction.
Qed.
Lemma has_assign_other K a first vals b m n f : b <> a -> has K b m n f -> has (k_assign arr arr_eq K a first vals) b m n f.
Proof.
  intros N [A B C]. constructor; auto. intros k Hk. cbn [k_assign val]. destruct (arr_eq b a); auto; contradiction.
Qed.
Lemma has_assign_same K a first vals m n f g : has K a m n f ->
  (forall k, k < n -> g k = if (first <=? k) && (k <? first + length vals) then nth (k - first) vals 0%Z else f k) ->
  has (k_assign arr arr_eq K a first vals) a m n g.
Proof.
  intros [A B C] E. constructor; auto. intros k Hk. cbn [k_assign val]. destruct (arr_eq a a); [|contradiction].
  rewrite (E k Hk). destruct (Nat.leb_spec first k), (Nat.ltb_spec k (first + length vals)); cbn [andb]; auto.
  apply nth_error_nth'. lia.
Qed.
(** nothing was known before *)
Lemma has_assign_fresh K a vals m g : len K a = Some (z m) -> length vals <= m ->
  (forall k, k < length vals -> g k = nth k vals 0%Z) -> has (k_assign arr arr_eq K a 0 vals) a m (length vals) g.
Proof.
  intros L B E. constructor; auto. intros k Hk. cbn [k_assign val]. destruct (arr_eq a a); [|contradiction].
  rewrite (E k Hk). cbn [Nat.leb andb plus]. destruct (Nat.ltb_spec k (length vals)); [|lia].
  rewrite Nat.sub_0_r. apply nth_error_nth'. auto.
Qed.

(** ** Loops of the host *)
Lemma ok_each_inv {X R} (Inv : list X -> known -> Prop) (body : X -> host arr R -> host arr R) after Q l K :
  Inv l K ->
  (forall x l' K nx, (exists l0, l = l0 ++ x :: l') -> Inv (x :: l') K -> (forall K', Inv l' K' -> ok K' nx Q) -> ok K (body x nx) Q) ->
  (forall K', Inv [] K' -> ok K' after Q) -> ok K (each l body after) Q.
Proof.
  intros I0 B A. assert (G : forall l' l0 K, l = l0 ++ l' -> Inv l' K -> ok K (each l' body after) Q).
  { induction l' as [|x l' IH]; intros l0 K0 E I; cbn [each]; auto. apply (B x l'); auto; [exists l0; auto|].
    intros K' I'. apply (IH (l0 ++ [x])); auto. rewrite <- app_assoc. auto. }
  apply (G l []); auto.
Qed.

(** ** Launches *)
(** [F a]: the contents after the launch of an array that is stored to *)
Definition upd (K : known) (F : arr -> option (nat -> option Z)) : known :=
  mkKnown (len K) (fun x => match F x with Some f => f | None => val K x end).
Lemma has_upd_none K F a m n f : F a = None -> has K a m n f -> has (upd K F) a m n f.
Proof. intros E [A B C]. constructor; auto. intros k Hk. cbn [upd val]. rewrite E. auto. Qed.
Lemma has_upd_some K F a m n f g : F a = Some g -> len K a = Some (z m) -> n <= m ->
  (forall k, k < n -> g k = Some (f k)) -> has (upd K F) a m n f.
Proof. intros E A B C. constructor; auto. intros k Hk. cbn [upd val]. rewrite E. auto. Qed.

(** the cells a work item touches, found by walking through its program *)
Fixpoint touches_of (K : known) (p : item arr) : list (touch arr) :=
  match p with
  | Finish => []
  | Load a k next => match val K a (Z.to_nat k) with
                     | Some v => Get a (Z.to_nat k) :: touches_of K (next v)
                     | None => []
                     end
  | Store a k v next => Put a (Z.to_nat k) v :: touches_of K next
  end.
Fixpoint item_ok (K : known) (F : arr -> option (nat -> option Z)) (p : item arr) : Prop :=
  match p with
  | Finish => True
  | Load a k next => exists m v, len K a = Some m /\ (0 <= k < m)%Z /\ val K a (Z.to_nat k) = Some v /\
                       F a = None /\ item_ok K F (next v)
  | Store a k v next => exists m f, len K a = Some m /\ (0 <= k < m)%Z /\ F a = Some f /\ f (Z.to_nat k) = Some v /\
                       item_ok K F next
  end.
Fixpoint stores (K : known) (p : item arr) (a : arr) (k : nat) : Prop :=
  match p with
  | Finish => False
  | Load a' k' next => exists v, val K a' (Z.to_nat k') = Some v /\ stores K (next v) a k
  | Store a' k' _ next => (a' = a /\ k' = z k) \/ stores K next a k
  end.
Lemma stores_touch K p a k : stores K p a k -> exists v, In (Put a k v) (touches_of K p).
Proof.
  induction p as [|a' k' next IH|a' k' v next IH]; cbn [stores touches_of]; [contradiction| |].
  - intros [v [V S]]. rewrite V. destruct (IH v S) as [w W]. exists w. right. auto.
  - intros [[-> ->]|S].
    + exists v. left. rewrite Nat2Z.id. auto.
    + destruct (IH S) as [w W]. exists w. right. auto.
Qed.
Lemma item_ok_evals K F p : item_ok K F p -> evals K p (touches_of K p).
Proof.
  induction p as [|a k next IH|a k v next IH]; cbn [item_ok touches_of]; [constructor| |].
  - intros [m [v [L [B [V [_ O]]]]]]. rewrite V. rewrite <- (Z2Nat.id k) at 1 by lia.
    apply (ev_load arr K a (Z.to_nat k) m v); auto. lia.
  - intros [m [f [L [B [_ [_ O]]]]]]. rewrite <- (Z2Nat.id k) at 1 by lia.
    apply (ev_store arr K a (Z.to_nat k) m v); auto. lia.
Qed.
Lemma item_ok_get K F p a k : item_ok K F p -> In (Get a k) (touches_of K p) -> F a = None.
Proof.
  induction p as [|a' k' next IH|a' k' v next IH]; cbn [item_ok touches_of]; [contradiction| |].
  - intros [m [v [L [B [V [N O]]]]]]. rewrite V. intros [E|I]; [injection E as <- <-; auto|]. apply (IH v); auto.
  - intros [m [f [L [B [_ [_ O]]]]]] [E|I]; [discriminate|auto].
Qed.
Lemma item_ok_put K F p a k v : item_ok K F p -> In (Put a k v) (touches_of K p) -> exists f, F a = Some f /\ f k = Some v.
Proof.
  induction p as [|a' k' next IH|a' k' w next IH]; cbn [item_ok touches_of]; [contradiction| |].
  - intros [m [u [L [B [V [N O]]]]]]. rewrite V. intros [E|I]; [discriminate|]. apply (IH u); auto.
  - intros [m [f [L [B [E1 [E2 O]]]]]] [E|I]; [injection E as -> <- ->; eauto|auto].
Qed.

Lemma ok_launch_items {R} K n code F (next : host arr R) Q :
  (forall i, i < n -> item_ok K F (code i)) ->
  (forall a f m k w, F a = Some f -> len K a = Some m -> (z k < m)%Z -> f k = Some w ->
     (exists i, i < n /\ stores K (code i) a k) \/ val K a k = Some w) ->
  ok (upd K F) next Q -> ok K (Launch n code next) Q.
Proof.
  intros IT CO O. apply ok_launch_sep with (T := fun i => touches_of K (code i)) (K' := upd K F); auto.
  - intros i Hi. apply (item_ok_evals K F). auto.
  - intros i j a k v Hi Hj P G. destruct (item_ok_put K F _ a k v (IT i Hi) P) as [f [E _]].
    rewrite (item_ok_get K F _ a k (IT j Hj) G) in E. discriminate.
  - intros i a k v Hi P. destruct (item_ok_put K F _ a k v (IT i Hi) P) as [f [E V]]. cbn [upd val]. rewrite E. auto.
  - intros a m k w L B V. cbn [upd len val] in L, V. destruct (F a) as [f|] eqn:E; [|right; auto].
    destruct (CO a f m k w E L B V) as [[i [Hi S]]|V0]; [left|right; auto].
    destruct (stores_touch K _ a k S) as [v P]. exists i, v. auto.
Qed.

(** launches in which a work item may load a cell that it stores to afterwards, others don't
    touch that cell *)
Lemma ok_launch_own {R} K n code F (T : nat -> list (touch arr)) (next : host arr R) Q :
  (forall i, i < n -> evals K (code i) (T i)) ->
  (forall i j a k v, i < n -> j < n -> i <> j -> In (Put a k v) (T i) -> ~ In (Get a k) (T j)) ->
  (forall i x y a k v, i < n -> T i = x ++ Get a k :: y -> ~ In (Put a k v) x) ->
  (forall i a k v, i < n -> In (Put a k v) (T i) -> exists f, F a = Some f /\ f k = Some v) ->
  (forall a f m k w, F a = Some f -> len K a = Some m -> (z k < m)%Z -> f k = Some w ->
     (exists i v, i < n /\ In (Put a k v) (T i)) \/ val K a k = Some w) ->
  ok (upd K F) next Q -> ok K (Launch n code next) Q.
Proof.
  intros E LO OW PU OL O. apply (ok_launch arr arr_eq K n code T (val (upd K F))).
  - intros m i H Hi. apply (evals_trace arr K); auto.
  - constructor; auto.
    + intros i t Hi I. apply (evals_bounds arr K (code i) (T i)); auto.
    + intros i a k v Hi I. destruct (PU i a k v Hi I) as [f [E1 E2]]. cbn [upd val]. rewrite E1. auto.
    + intros a m k w L B V. cbn [upd val] in V. destruct (F a) as [f|] eqn:E1; [|right; auto]. apply (OL a f m); auto.
  - exact O.
Qed.

(** ** Walking through the program of a work item *)
Lemma item_load K F a k next m n f : has K a m n f -> k < n -> F a = None -> item_ok K F (next (f k)) ->
  item_ok K F (Load a (z k) next).
Proof.
  intros [A B C] Hk N O. exists (z m), (f k). split; auto. split; [lia|]. rewrite Nat2Z.id. auto.
Qed.
Lemma item_store K F a k v next m f : len K a = Some (z m) -> k < m -> F a = Some f -> f k = Some v ->
  item_ok K F next -> item_ok K F (Store a (z k) v next).
Proof. intros L B E V O. exists (z m), f. split; auto. split; [lia|]. rewrite Nat2Z.id. auto. Qed.
Lemma item_for_each {X} K F (l : list X) body after :
  (forall x nx, In x l -> item_ok K F nx -> item_ok K F (body x nx)) -> item_ok K F after ->
  item_ok K F (for_each l body after).
Proof.
  intros H A. induction l as [|x l IH]; cbn [for_each]; auto. apply H; [left; auto|]. apply IH.
  intros y nx I. apply H. right; auto.
Qed.
Lemma item_load_all {X} K F (l : list X) (g : X -> arr * Z) (v : X -> Z) next :
  (forall x, In x l -> exists m, len K (fst (g x)) = Some m /\ (0 <= snd (g x) < m)%Z /\
     val K (fst (g x)) (Z.to_nat (snd (g x))) = Some (v x) /\ F (fst (g x)) = None) ->
  item_ok K F (next (map v l)) -> item_ok K F (load_all (map g l) next).
Proof.
  revert next. induction l as [|x l IH]; intros next H O; cbn [map load_all] in *; auto.
  destruct (H x (or_introl eq_refl)) as [m [A [B [C D]]]]. destruct (g x) as [a k] eqn:G. cbn [fst snd] in *.
  exists m, (v x). split; auto. split; auto. split; auto. split; auto. apply IH; auto. intros y I. apply H. right; auto.
Qed.
Lemma stores_load K a k next m n f b j : has K a m n f -> k < n -> stores K (next (f k)) b j -> stores K (Load a (z k) next) b j.
Proof. intros [A B C] Hk S. exists (f k). rewrite Nat2Z.id. auto. Qed.
Lemma stores_here K a k v next : stores K (Store a (z k) v next) a k.
Proof. left. auto. Qed.
Lemma stores_later K a k v next b j : stores K next b j -> stores K (Store a k v next) b j.
Proof. right. auto. Qed.
Lemma stores_for_each {X} K (l : list X) body after b j x :
  In x l -> (forall nx, stores K (body x nx) b j) -> (forall y nx, In y l -> stores K nx b j -> stores K (body y nx) b j) ->
  stores K (for_each l body after) b j.
Proof.
  intros I S P. induction l as [|y l IH]; [destruct I|]. cbn [for_each]. destruct I as [<-|I]; [apply S|].
  apply P; [left; auto|]. apply IH; auto. intros w nx J. apply P. right; auto.
Qed.
Lemma stores_after_each {X} K (l : list X) body after b j :
  stores K after b j -> (forall y nx, In y l -> stores K nx b j -> stores K (body y nx) b j) ->
  stores K (for_each l body after) b j.
Proof.
  intros S P. induction l as [|y l IH]; cbn [for_each]; auto. apply P; [left; auto|]. apply IH.
  intros w nx J. apply P. right; auto.
Qed.
Lemma stores_load_all {X} K (l : list X) (g : X -> arr * Z) (v : X -> Z) next b j :
  (forall x, In x l -> val K (fst (g x)) (Z.to_nat (snd (g x))) = Some (v x)) ->
  stores K (next (map v l)) b j -> stores K (load_all (map g l) next) b j.
Proof.
  revert next. induction l as [|x l IH]; intros next H O; cbn [map load_all] in *; auto.
  assert (C := H x (or_introl eq_refl)). destruct (g x) as [a k] eqn:G. cbn [fst snd] in *.
  exists (v x). split; auto. apply IH; auto. intros y I. apply H. right; auto.
Qed.
End Facts.
Arguments has {arr}.
Arguments upd {arr}.
Arguments item_ok {arr}.
Arguments stores {arr}.
Arguments touches_of {arr}.
