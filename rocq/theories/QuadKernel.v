(** A concrete expansion wrangler for the FMM model: the kernel |x - y|^2 in two dimensions,
    whose expansions (moments up to second order) and translations are exact.  Nothing here
    models code; it shows that the hypotheses of the FMM theorems are met by routines that
    really depend on box centers and particle positions. *)
From Coq Require Import List Arith ZArith Lia Bool Permutation.
From Verif Require Import Base Tree Spec TreeFacts Traversal SpecTraversal Fmm SpecFmm FmmGen SpecFmmGen FmmGenFacts.
Import ListNotations.
Local Open Scope Z_scope.

Definition quad := (Z * Z * Z * Z)%type.
Definition qadd (a b : quad) : quad :=
  let '(a1, a2, a3, a4) := a in let '(b1, b2, b3, b4) := b in (a1 + b1, a2 + b2, a3 + b3, a4 + b4).
Lemma qadd_assoc a b c : qadd a (qadd b c) = qadd (qadd a b) c.
Proof.
  destruct a as [[[? ?] ?] ?], b as [[[? ?] ?] ?], c as [[[? ?] ?] ?]. simpl. repeat (apply pair_equal_spec; split); lia.
Qed.
Lemma qadd_comm a b : qadd a b = qadd b a.
Proof. destruct a as [[[? ?] ?] ?], b as [[[? ?] ?] ?]. simpl. repeat (apply pair_equal_spec; split); lia. Qed.
Lemma qadd_0 a : qadd (0, 0, 0, 0) a = a.
Proof. destruct a as [[[? ?] ?] ?]. reflexivity. Qed.
Definition Qm : cmonoid := mkMonoid quad (0, 0, 0, 0) qadd qadd_assoc qadd_comm qadd_0.

Section Quad.
Variables cx cy : nat -> Z.                 (* box centers *)
Variables sx sy tx ty : nat -> Z.           (* positions of sources and targets, tree order *)

Definition sq (x y : Z) : Z := x * x + y * y.

(** moments (Σ w, Σ w (x - c), Σ w (y - c), Σ w |.|^2) of one source about the center of b *)
Definition q_p2m (b j : nat) (w : Z) : quad :=
  let dx := sx j - cx b in let dy := sy j - cy b in (w, w * dx, w * dy, w * sq dx dy).
Definition q_m2m (c b : nat) (m : quad) : quad :=
  let '(q, px, py, s) := m in let dx := cx c - cx b in let dy := cy c - cy b in
  (q, px + q * dx, py + q * dy, s + 2 * (px * dx + py * dy) + q * sq dx dy).
Definition q_m2p (b i : nat) (m : quad) : Z :=
  let '(q, px, py, s) := m in let rx := tx i - cx b in let ry := ty i - cy b in
  q * sq rx ry - 2 * (px * rx + py * ry) + s.
(** a + bx rx + by ry + q |r|^2, r relative to the center *)
Definition q_m2l (src tgt : nat) (m : quad) : quad :=
  let '(q, px, py, s) := m in let dx := cx tgt - cx src in let dy := cy tgt - cy src in
  (q * sq dx dy - 2 * (px * dx + py * dy) + s, 2 * q * dx - 2 * px, 2 * q * dy - 2 * py, q).
Definition q_p2l (b j : nat) (w : Z) : quad :=
  let dx := cx b - sx j in let dy := cy b - sy j in (w * sq dx dy, 2 * w * dx, 2 * w * dy, w).
Definition q_l2l (par chi : nat) (l : quad) : quad :=
  let '(a, bx, by_, q) := l in let dx := cx chi - cx par in let dy := cy chi - cy par in
  (a + bx * dx + by_ * dy + q * sq dx dy, bx + 2 * q * dx, by_ + 2 * q * dy, q).
Definition q_l2p (b i : nat) (l : quad) : Z :=
  let '(a, bx, by_, q) := l in let rx := tx i - cx b in let ry := ty i - cy b in
  a + bx * rx + by_ * ry + q * sq rx ry.

Definition quad_routines : routines Z Qm Qm Zm := {|
  p2m := fun _ b j w => q_p2m b j w : Qm; m2m := fun _ c _ b (m : Qm) => q_m2m c b m : Qm;
  m2l := fun _ s b (m : Qm) => q_m2l s b m : Qm; m2p := fun _ b i (m : Qm) => q_m2p b i m : Zm;
  p2l := fun _ b j w => q_p2l b j w : Qm; l2l := fun _ s _ b (l : Qm) => q_l2l s b l : Qm;
  l2p := fun _ b i (l : Qm) => q_l2p b i l : Zm;
  p2p := fun i j w => (w * sq (tx i - sx j) (ty i - sy j)) : Zm; finalize := fun v => v |}.

Ltac quads := repeat match goal with x : carrier Qm |- _ => destruct x as [[[? ?] ?] ?] end.
Ltac pairs := repeat match goal with |- (_, _) = (_, _) => apply pair_equal_spec; split end.
Ltac zring := match goal with |- ?a = ?b => change (@eq Z a b) end; ring.
Lemma quad_linear : linear quad_routines.
Proof.
  split; intros; quads; cbn -[Z.add Z.mul Z.sub]; unfold sq; pairs; zring.
Qed.

Variable t : tree.
Lemma quad_raise k x j w : raise quad_routines t k x (q_p2m x j w) = q_p2m (up t k x) j w.
Proof.
  revert x. induction k as [|k IH]; intros x; [reflexivity|].
  cbn [raise]. replace (m2m quad_routines _ x _ (box_parent t x) (q_p2m x j w)) with (q_p2m (box_parent t x) j w : Qm).
  - rewrite IH. f_equal. change (box_parent t x) with (up t 1 x). rewrite up_up. f_equal. lia.
  - cbn -[Z.add Z.mul Z.sub]. unfold q_p2m, sq. pairs; zring.
Qed.
Lemma quad_lower k x j w : lower quad_routines t k x (q_p2l (up t k x) j w) = q_p2l x j w.
Proof.
  revert x. induction k as [|k IH]; intros x; [reflexivity|].
  cbn [lower]. replace (up t (S k) x) with (up t k (box_parent t x)).
  - rewrite IH. cbn -[Z.add Z.mul Z.sub]. unfold q_p2l, sq. pairs; zring.
  - change (box_parent t x) with (up t 1 x). rewrite up_up. f_equal. lia.
Qed.

Hypothesis W : wf_tree t.
Lemma up_of_anc A S : (S < nboxes t)%nat -> In A (ancestors_or_self t S) ->
  up t (box_level t S - box_level t A) S = A.
Proof.
  intros HS HA. apply in_chain in HA; auto. destruct HA as [k [Hk ->]]. rewrite anc_level by auto. reflexivity.
Qed.

Lemma quad_exact tr T i S j w r : (T < nboxes t)%nat -> (S < nboxes t)%nat -> listed t tr T S r ->
  contribution quad_routines t T i S j w r = w * sq (tx i - sx j) (ty i - sy j).
Proof.
  intros HT HS H. destruct r as [|B A|A|B]; cbn [contribution listed] in *.
  - reflexivity.
  - destruct H as [HB [HA _]].
    change (p2m quad_routines (box_level t S) S j w) with (q_p2m S j w). rewrite quad_raise, up_of_anc by auto.
    change (m2l quad_routines (box_level t B) A B (q_p2m A j w)) with (q_m2l A B (q_p2m A j w)).
    replace (q_m2l A B (q_p2m A j w)) with (q_p2l B j w).
    2:{ cbn -[Z.add Z.mul Z.sub]. unfold q_p2l, sq. pairs; zring. }
    rewrite <- (up_of_anc B T) at 2 by auto. rewrite quad_lower. cbn -[Z.add Z.mul Z.sub]. unfold sq. zring.
  - destruct H as [HA _].
    change (p2m quad_routines (box_level t S) S j w) with (q_p2m S j w). rewrite quad_raise, up_of_anc by auto.
    cbn -[Z.add Z.mul Z.sub]. unfold sq. zring.
  - destruct H as [HB _]. change (p2l quad_routines (box_level t B) B j w) with (q_p2l B j w).
    rewrite <- (up_of_anc B T) at 2 by auto. rewrite quad_lower. cbn -[Z.add Z.mul Z.sub]. unfold sq. zring.
Qed.
End Quad.
