(** Scans do not depend on the order of evaluation. *)
From Coq Require Import List Arith ZArith Lia Bool Permutation.
From Verif Require Import Base Tree Walk Traversal Fmm TreeBuild ArrayFacts Scan.
Import ListNotations.

Section Assoc.
Context {A : Type}.
Variable add : A -> A -> A.
Variable neutral : A.
Variable ok : A -> Prop.
Variable start : nat -> bool.
Variable input : nat -> A.
Definition op (a b : A) (f : bool) : A := if f then b else add a b.
Hypothesis ok_neutral : ok neutral.
Hypothesis ok_add : forall a b, ok a -> ok b -> ok (add a b).
Hypothesis assoc : forall a b c, ok a -> ok b -> ok c -> add (add a b) c = add a (add b c).
Hypothesis neutral_l : forall a, ok a -> add neutral a = a.
Hypothesis neutral_r : forall a, ok a -> add a neutral = a.

Notation runA := (run op neutral start input).
Definition join (x y : bool * A) : bool * A := (fst x || fst y, op (snd x) (snd y) (fst y)).
Definition one (i : nat) := (start i, input i).
Definition lfold (l : list nat) : bool * A := fold_left (fun x i => join x (one i)) l (false, neutral).

Lemma join_assoc x y z : ok (snd x) -> ok (snd y) -> ok (snd z) -> join (join x y) z = join x (join y z).
Proof.
  destruct x as [fx x], y as [fy y], z as [fz z]. cbn. intros. unfold join, op. cbn. rewrite <- orb_assoc.
  destruct fz, fy; cbn; auto. rewrite assoc; auto.
Qed.
Lemma join_neutral_l x : ok (snd x) -> join (false, neutral) x = x.
Proof. destruct x as [f x]. unfold join, op. cbn. intros. destruct f; rewrite ?neutral_l; auto. Qed.
Lemma join_neutral_r x : ok (snd x) -> join x (false, neutral) = x.
Proof. destruct x as [f x]. unfold join, op. cbn. intros. rewrite orb_false_r, neutral_r; auto. Qed.
Lemma ok_join x y : ok (snd x) -> ok (snd y) -> ok (snd (join x y)).
Proof. unfold join, op. cbn. destruct (fst y); auto. Qed.
Lemma fold_from l : (forall i, In i l -> ok (input i)) -> forall x, ok (snd x) ->
  ok (snd (fold_left (fun x i => join x (one i)) l x)) /\
  fold_left (fun x i => join x (one i)) l x = join x (lfold l).
Proof.
  induction l as [|i l IH]; intros H x Hx; cbn [fold_left].
  - split; auto. unfold lfold. cbn. rewrite join_neutral_r; auto.
  - assert (Hi : ok (snd (one i))) by (cbn; apply H; left; auto).
    assert (Hl : forall i, In i l -> ok (input i)) by (intros; apply H; right; auto).
    destruct (IH Hl (join x (one i)) (ok_join _ _ Hx Hi)) as [H1 H2].
    destruct (IH Hl (join (false, neutral) (one i)) (ok_join (false, neutral) (one i) ok_neutral Hi)) as [H3 H4].
    split; auto. rewrite H2. unfold lfold at 2. cbn [fold_left]. rewrite H4. rewrite join_neutral_l by auto.
    apply join_assoc; auto. apply (IH Hl (false, neutral)). cbn. auto.
Qed.
Lemma lfold_ok l : (forall i, In i l -> ok (input i)) -> ok (snd (lfold l)).
Proof. intros H. apply (fold_from l H (false, neutral)). cbn; auto. Qed.
Lemma run_lfold br : (forall i, In i (range_of br) -> ok (input i)) -> runA br = lfold (range_of br).
Proof.
  induction br as [i| |l IHl r IHr]; intros H; cbn [run range_of] in *.
  - unfold lfold. cbn. symmetry. apply join_neutral_l. cbn. apply H. left; auto.
  - auto.
  - assert (Hl : forall i, In i (range_of l) -> ok (input i)) by (intros; apply H, in_or_app; auto).
    assert (Hr : forall i, In i (range_of r) -> ok (input i)) by (intros; apply H, in_or_app; auto).
    rewrite IHl, IHr by auto. unfold lfold at 3. rewrite fold_left_app. fold (lfold (range_of l)).
    rewrite (proj2 (fold_from _ Hr _ (lfold_ok _ Hl))). unfold join.
    destruct (lfold (range_of l)), (lfold (range_of r)); auto.
Qed.
Lemma lfold_seg_scan i : (forall j, j <= i -> ok (input j)) -> snd (lfold (seq 0 (S i))) = seg_scan start add input i.
Proof.
  induction i; intros H.
  - unfold lfold. cbn. unfold op. destruct (start 0); auto.
  - rewrite seq_S. unfold lfold. rewrite fold_left_app. fold (lfold (seq 0 (S i))). cbn [fold_left Nat.add].
    unfold join, one, op. cbn [fst snd seg_scan]. rewrite IHi by (intros; apply H; lia). auto.
Qed.
Lemma item_seg_scan i v : (forall j, j <= i -> ok (input j)) ->
  item_at op neutral start input i v -> v = seg_scan start add input i.
Proof.
  intros H [br [R ->]]. rewrite run_lfold by (rewrite R; intros j Hj; apply H; apply in_seq in Hj; lia).
  rewrite R. apply lfold_seg_scan; auto.
Qed.
End Assoc.

(** ** Homomorphisms: components of records *)
Section Component.
Context {A B : Type}.
Variable f : A -> B.
Variables (opA : A -> A -> bool -> A) (opB : B -> B -> bool -> B).
Hypothesis hom : forall a b s, f (opA a b s) = opB (f a) (f b) s.
Lemma run_component nA start input br :
  let rA := run opA nA start input br in
  run opB (f nA) start (fun i => f (input i)) br = (fst rA, f (snd rA)).
Proof.
  induction br as [i| |l IHl r IHr]; cbn [run]; auto. cbv zeta in *. rewrite IHl, IHr.
  destruct (run opA nA start input l), (run opA nA start input r). cbn. rewrite hom. auto.
Qed.
Lemma item_component nA start input i v : item_at opA nA start input i v ->
  item_at opB (f nA) start (fun j => f (input j)) i (f v).
Proof. intros [br [R ->]]. exists br. split; auto. rewrite run_component. auto. Qed.
End Component.

Lemma item_ext {A} (op op' : A -> A -> bool -> A) n start start' input input' i v :
  (forall a b s, op a b s = op' a b s) -> (forall j, j <= i -> start j = start' j) -> (forall j, j <= i -> input j = input' j) ->
  item_at op n start input i v -> item_at op' n start' input' i v.
Proof.
  intros H1 H2 H3 [br [R ->]]. exists br. split; auto. f_equal.
  assert (X : forall j, In j (range_of br) -> j <= i) by (rewrite R; intros j Hj; apply in_seq in Hj; lia).
  clear R. induction br as [j| |l IHl r IHr]; cbn [run range_of] in *; auto.
  - rewrite H2, H3; auto; apply X; left; auto.
  - rewrite IHl, IHr by (intros; apply X, in_or_app; auto). destruct (run op' n start' input' l), (run op' n start' input' r). rewrite H1. auto.
Qed.

Lemma seg_nat_item start input i v : item_at seg_add 0 start input i v -> v = seg_scan start Nat.add input i.
Proof. apply (item_seg_scan Nat.add 0 (fun _ => True)); auto; intros; lia. Qed.
(** without segments *)
Lemma plain_run input br : snd (run plain_add 0 no_segments input br) = nsum (map input (range_of br)).
Proof.
  induction br as [j| |l IHl r IHr]; cbn [run range_of]; auto.
  - cbn. lia.
  - destruct (run plain_add 0 no_segments input l), (run plain_add 0 no_segments input r). cbn [snd] in *. rewrite map_app, nsum_app. unfold plain_add. lia.
Qed.
Lemma plain_item input i v : item_at plain_add 0 no_segments input i v -> v = nsum (map input (seq 0 (S i))).
Proof. intros [br [R ->]]. rewrite plain_run, R. auto. Qed.
Lemma plain_prev input i v : prev_item_at plain_add 0 no_segments input i v -> v = nsum (map input (seq 0 i)).
Proof. intros [br [R ->]]. rewrite plain_run, R. auto. Qed.

(** saturating addition is associative where it matters *)
Definition weight_ok (x : Z) : Prop := (0 <= x <= INT_MAX)%Z.
Lemma sat_ok a b : weight_ok a -> weight_ok b -> weight_ok (add_sat a b).
Proof. unfold weight_ok, add_sat. intros. destruct (Z.ltb_spec INT_MAX (a + b)); unfold INT_MAX in *; lia. Qed.
Lemma sat_assoc a b c : weight_ok a -> weight_ok b -> weight_ok c -> add_sat (add_sat a b) c = add_sat a (add_sat b c).
Proof.
  unfold weight_ok, add_sat. intros. destruct (Z.ltb_spec INT_MAX (a + b)), (Z.ltb_spec INT_MAX (b + c));
  repeat match goal with |- context [Z.ltb ?x ?y] => destruct (Z.ltb_spec x y) end; unfold INT_MAX in *; lia.
Qed.
Lemma sat_neutral_l a : weight_ok a -> add_sat 0 a = a.
Proof. unfold weight_ok, add_sat. intros. destruct (Z.ltb_spec INT_MAX (0 + a)); lia. Qed.
Lemma sat_neutral_r a : weight_ok a -> add_sat a 0 = a.
Proof. unfold weight_ok, add_sat. intros. destruct (Z.ltb_spec INT_MAX (a + 0)); lia. Qed.
Lemma seg_sat_item start input i v : (forall j, j <= i -> weight_ok (input j)) ->
  item_at (op add_sat) 0%Z start input i v -> v = seg_scan start add_sat input i.
Proof.
  apply (item_seg_scan add_sat 0%Z weight_ok).
  - unfold weight_ok, INT_MAX. lia.
  - apply sat_ok.
  - apply sat_assoc.
  - apply sat_neutral_l.
  - apply sat_neutral_r.
Qed.

(** ** Compaction by a scan of a mask: prefix counts give the position in the filtered list *)
Lemma count_filter (p : nat -> bool) l : nsum (map (fun i => if p i then 1 else 0) l) = length (filter p l).
Proof. induction l; cbn [map filter]; auto. change (nsum (?x :: ?y)) with (x + nsum y). rewrite IHl. destruct (p a); cbn; lia. Qed.
Lemma filter_nth (p : nat -> bool) n i : i < n -> p i = true -> nth (length (filter p (seq 0 i))) (filter p (seq 0 n)) 0 = i.
Proof.
  intros Hi Hp. replace n with (i + S (n - S i)) by lia. rewrite seq_app, filter_app. rewrite app_nth2 by lia.
  rewrite Nat.sub_diag. cbn [Nat.add]. change (seq i (S (n - S i))) with (i :: seq (S i) (n - S i)). cbn [filter]. rewrite Hp. auto.
Qed.
