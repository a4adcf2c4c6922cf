(** Specification of FMM results for an arbitrary expansion wrangler: the ways a source can
    act on a target, what it contributes along each of them, and what "linear" means for the
    numerical routines. *)
From Coq Require Import List Arith ZArith Lia Bool.
From Verif Require Import Base Tree Spec Traversal SpecTraversal FmmGen.
Import ListNotations.

(** The translations are linear: they commute with addition. *)
Record linear {Wt : Type} {M L V : cmonoid} (R : routines Wt M L V) : Prop := {
  m2m_0 : forall sl c tl b, m2m R sl c tl b e0 = e0;
  m2m_op : forall sl c tl b x y, m2m R sl c tl b (op x y) = op (m2m R sl c tl b x) (m2m R sl c tl b y);
  m2l_0 : forall l s b, m2l R l s b e0 = e0;
  m2l_op : forall l s b x y, m2l R l s b (op x y) = op (m2l R l s b x) (m2l R l s b y);
  m2p_0 : forall l b i, m2p R l b i e0 = e0;
  m2p_op : forall l b i x y, m2p R l b i (op x y) = op (m2p R l b i x) (m2p R l b i y);
  l2l_0 : forall sl s tl b, l2l R sl s tl b e0 = e0;
  l2l_op : forall sl s tl b x y, l2l R sl s tl b (op x y) = op (l2l R sl s tl b x) (l2l R sl s tl b y);
  l2p_0 : forall l b i, l2p R l b i e0 = e0;
  l2p_op : forall l b i x y, l2p R l b i (op x y) = op (l2p R l b i x) (l2p R l b i y)
}.

(** How the sources of one box reach the targets of another. *)
Inductive route :=
| Direct                         (* evaluated particle by particle *)
| ViaM2L (B A : nat)             (* multipole of A turned into a local expansion of B *)
| ViaM2P (A : nat)               (* multipole of A evaluated at the targets *)
| ViaP2L (B : nat).              (* local expansion of B formed from the sources *)

(** Route [r] from box S to box T is in the interaction lists. *)
Definition listed (t : tree) (tr : traversal) (T S : nat) (r : route) : Prop :=
  match r with
  | Direct => In S (list1_of tr T) \/ In S (list3_close_of tr T) \/ In S (list4_close_of tr T)
  | ViaM2L B A => In B (ancestors_or_self t T) /\ In A (ancestors_or_self t S) /\ In A (list2_of tr B)
  | ViaM2P A => In A (ancestors_or_self t S) /\ In A (list3_of tr T)
  | ViaP2L B => In B (ancestors_or_self t T) /\ In S (list4_of tr B)
  end.

Section Contribution.
Context {Wt : Type} {M L V : cmonoid} (R : routines Wt M L V).
Variable t : tree.
Notation lev := (box_level t).

(** multipole expansion [m] of box x, moved up k levels *)
Fixpoint raise (k x : nat) (m : M) : M :=
  match k with
  | 0 => m
  | S k' => raise k' (box_parent t x) (m2m R (lev x) x (lev (box_parent t x)) (box_parent t x) m)
  end.
(** local expansion [l] of the box k levels above x, moved down to x *)
Fixpoint lower (k x : nat) (l : L) : L :=
  match k with
  | 0 => l
  | S k' => l2l R (lev (box_parent t x)) (box_parent t x) (lev x) x (lower k' (box_parent t x) l)
  end.

(** What source j of box S, of strength w, contributes at target i of box T along a route. *)
Definition contribution (T i S j : nat) (w : Wt) (r : route) : V :=
  let multipole_at A := raise (lev S - lev A) S (p2m R (lev S) S j w) in
  let value_of_local B l := l2p R (lev T) T i (lower (lev T - lev B) T l) in
  match r with
  | Direct => p2p R i j w
  | ViaM2L B A => value_of_local B (m2l R (lev B) A B (multipole_at A))
  | ViaM2P A => m2p R (lev A) A i (multipole_at A)
  | ViaP2L B => value_of_local B (p2l R (lev B) B j w)
  end.
End Contribution.

(** Errors: [close e x y] says that y is x up to an error e; errors add up. *)
Record accumulates {V E : cmonoid} (close : E -> V -> V -> Prop) : Prop := {
  close_0 : close e0 e0 e0;
  close_op : forall e x y e' x' y', close e x y -> close e' x' y' -> close (op e e') (op x x') (op y y')
}.
