(** Proofs about plots. *)
From Coq Require Import List Arith ZArith QArith Qfield String Ascii DecimalString DecimalNat Lia Lqa Bool.
From Verif Require Import Base Tree Spec TreeFacts Traversal SpecTraversal TraversalLists Coverage ListFacts FmmThm AreaMore CostFacts Plot SpecPlot.
Import ListNotations.
Local Open Scope string_scope.
Local Open Scope list_scope.
Local Open Scope nat_scope.

(** ** Roman numerals: all 3999 of them *)
Definition roman_check (n : Z) : bool :=
  match int_to_roman n with
  | Some s => String.eqb s (roman_numeral n) && match roman_value s with Some v => Z.eqb v n | None => false end && letters_only s
  | None => false end.
Lemma roman_checked : forallb (fun k => roman_check (Z.of_nat k)) (seq 1 3999) = true.
Proof. vm_cast_no_check (eq_refl true). Qed.
Lemma roman_ok n : (0 < n < 4000)%Z ->
  int_to_roman n = Some (roman_numeral n) /\ roman_value (roman_numeral n) = Some n /\ letters_only (roman_numeral n) = true.
Proof.
  intros H. assert (C := roman_checked). rewrite forallb_forall in C. specialize (C (Z.to_nat n)).
  rewrite Z2Nat.id in C by lia. assert (I : In (Z.to_nat n) (seq 1 3999)).
  { apply in_seq. replace (1 + 3999) with (Z.to_nat 4000) by (vm_compute; reflexivity). lia. }
  specialize (C I). clear I. unfold roman_check in C. destruct (int_to_roman n) as [s|]; [|discriminate].
  apply andb_true_iff in C. destruct C as [C L]. apply andb_true_iff in C. destruct C as [C V]. apply String.eqb_eq in C. subst s.
  destruct (roman_value (roman_numeral n)); [|discriminate]. apply Z.eqb_eq in V. subst. auto.
Qed.
Lemma roman_none n : int_to_roman n = None <-> (n < 0 \/ 4000 <= n)%Z.
Proof.
  unfold int_to_roman. destruct (Z.eqb_spec n 0); [split; [discriminate|lia]|].
  destruct (Z.ltb_spec 0 n), (Z.ltb_spec n 4000); cbn [andb negb]; split; try discriminate; auto; lia.
Qed.
Lemma roman_name b : b < 4000 -> exists r, int_to_roman (Z.of_nat b) = Some r /\ letters_only r = true.
Proof.
  intros H. assert (B : (Z.of_nat b < 4000)%Z). { replace 4000%Z with (Z.of_nat 4000) by (vm_compute; reflexivity). lia. }
  destruct (Nat.eq_dec b 0) as [->|]; [exists "Z"; split; reflexivity|].
  destruct (roman_ok (Z.of_nat b)) as [A [_ L]]; [lia|]. eauto.
Qed.
Lemma roman_inj m n r : int_to_roman m = Some r -> int_to_roman n = Some r -> m = n.
Proof.
  intros A B.
  assert (G : forall k s, int_to_roman k = Some s -> k = 0%Z /\ s = "Z" \/ roman_value s = Some k).
  { clear. intros k s H. destruct (Z.eq_dec k 0) as [->|]; [left; split; auto; cbv in H; congruence|]. right.
    assert (R : (0 < k < 4000)%Z).
    { destruct (Z_lt_dec k 0); [rewrite (proj2 (roman_none k)) in H by lia; discriminate|].
      destruct (Z_le_dec 4000 k); [rewrite (proj2 (roman_none k)) in H by lia; discriminate|]. lia. }
    destruct (roman_ok k R) as [E [V _]]. rewrite E in H. injection H as <-. auto. }
  destruct (G m r A) as [[-> ->]|VA], (G n _ B) as [[-> X]|VB]; auto; try (subst r); try (cbn in VA; discriminate); try (cbn in VB; discriminate); congruence.
Qed.
Lemma dec_inj m n : dec m = dec n -> m = n.
Proof.
  unfold dec. intros H. apply Unsigned.to_uint_inj. assert (A := NilEmpty.usu (Nat.to_uint m)). rewrite H, NilEmpty.usu in A. congruence.
Qed.
Lemma append_inj a s s' : append a s = append a s' -> s = s'.
Proof. induction a; cbn [append]; intros H; [auto|injection H; auto]. Qed.

(** ** Extents *)
Section Boxes.
Variable t : tree.
Hypothesis W : wf_tree t.

Lemma size_eq b : b < nboxes t -> (get_box_size t b == 2 * inject_Z (box_rad t b))%Q.
Proof.
  intros H. unfold get_box_size, box_rad. rewrite (rad_exact t W (box_level t b)) at 1 by (apply (wf_level_lt t W); auto).
  rewrite inject_Z_mult. replace (Z.of_nat (box_level t b + 1)) with (1 + Z.of_nat (box_level t b))%Z by lia. rewrite Z.pow_add_r by lia.
  rewrite inject_Z_mult. change (inject_Z (2 ^ 1)) with 2%Q. field.
  intros E. unfold Qeq in E. cbn in E. assert (0 < 2 ^ Z.of_nat (box_level t b))%Z by (apply Z.pow_pos_nonneg; lia). lia.
Qed.
Lemma low_eq b a : b < nboxes t -> (extent_low t b a == inject_Z (box_center t b a - box_rad t b))%Q.
Proof. intros H. unfold extent_low. rewrite size_eq by auto. unfold Zminus. rewrite inject_Z_plus, inject_Z_opp. ring. Qed.
Lemma high_eq b a : b < nboxes t -> (extent_high t b a == inject_Z (box_center t b a + box_rad t b))%Q.
Proof. intros H. unfold extent_high. rewrite low_eq, size_eq by auto. unfold Zminus. rewrite !inject_Z_plus, inject_Z_opp. ring. Qed.

Lemma draw_box_scaled b s st f : b < nboxes t -> (f == 1 - s)%Q -> scaled_box t b f (draw_box t b s st).
Proof.
  intros H E. unfold scaled_box, draw_box. cbn [vertices].
  assert (L : forall a, ((if Qeq_bool s 0 then extent_low t b a else extent_low t b a + ((1#2) * (extent_low t b a + extent_high t b a) - extent_low t b a) * s) == inject_Z (box_center t b a) - f * inject_Z (box_rad t b))%Q).
  { intros a. destruct (Qeq_bool s 0) eqn:Z0.
    - apply Qeq_bool_eq in Z0. rewrite low_eq, E, Z0 by auto. unfold Zminus. rewrite inject_Z_plus, inject_Z_opp. ring.
    - rewrite low_eq, high_eq, E by auto. unfold Zminus. rewrite !inject_Z_plus, inject_Z_opp. ring. }
  assert (G : forall a, ((if Qeq_bool s 0 then extent_high t b a else extent_high t b a + ((1#2) * (extent_low t b a + extent_high t b a) - extent_high t b a) * s) == inject_Z (box_center t b a) + f * inject_Z (box_rad t b))%Q).
  { intros a. destruct (Qeq_bool s 0) eqn:Z0.
    - apply Qeq_bool_eq in Z0. rewrite high_eq, E, Z0 by auto. rewrite inject_Z_plus. ring.
    - rewrite low_eq, high_eq, E by auto. unfold Zminus. rewrite !inject_Z_plus, inject_Z_opp. ring. }
  repeat (constructor; [split; cbn [fst snd]; auto|]). constructor.
Qed.

(** no box sticks out of the root box *)
Lemma in_root b : b < nboxes t -> forall a, a < dim t ->
  (box_center t 0 a - box_rad t 0 <= box_center t b a - box_rad t b)%Z /\ (box_center t b a + box_rad t b <= box_center t 0 a + box_rad t 0)%Z.
Proof.
  remember (box_level t b) as l eqn:El. revert b El. induction l; intros b El Hb a Ha.
  - symmetry in El. apply (level_0 t W) in El; auto. subst. lia.
  - assert (H0 : 0 < b). { destruct b; [rewrite (wf_root_level t W) in El|]; lia. }
    assert (X := parent_center t W b a Hb H0 Ha). assert (Y := parent_rad t W b Hb H0). assert (R := box_rad_pos t W b Hb).
    destruct (IHl (box_parent t b)) with (a := a) as [A B]; auto.
    { rewrite (parent_level t W b) in El by auto. lia. } { apply parent_lt; auto. }
    lia.
Qed.

(** ** Lists *)
Definition keyed (keys : list nat) (c : csr) : Prop := NoDup keys /\ List.length (starts c) = S (List.length keys).
Definition shows (ibox : nat) (color : string) (h : option string) (keys : list (list nat)) (es : list nat) (ps : list patch) : Prop :=
  Forall2 (marks t) (colored color h ps) es /\
  (forall c h', (c, h') <> (color, h) -> colored c h' ps = []) /\
  Forall (fun p => surrounds t p ibox /\ edgecolor (look p) = Some "blue") (outlines ps) /\
  List.length (outlines ps) = List.length (filter (fun k => negb (existsb (Nat.eqb ibox) k)) keys).

Lemma where_in keys b : NoDup keys -> In b keys -> exists k, where_equal keys b = [k] /\ k < List.length keys /\ nth k keys 0 = b.
Proof.
  intros ND I. destruct (In_nth keys b 0 I) as [k [Hk E]]. exists k. split; auto. unfold where_equal.
  assert (S : seq 0 (List.length keys) = seq 0 k ++ k :: seq (S k) (List.length keys - S k)).
  { replace (List.length keys) with (k + S (List.length keys - S k)) at 1 by lia. rewrite seq_app. reflexivity. }
  assert (N : forall l, (forall j, In j l -> j < List.length keys /\ j <> k) -> filter (fun i => nth i keys 0 =? b) l = []).
  { induction l as [|j l IH]; intros H; auto. cbn [filter]. destruct (H j (or_introl eq_refl)) as [H1 H2].
    destruct (Nat.eqb_spec (nth j keys 0) b) as [e|]; [|apply IH; intros; apply H; right; auto].
    elim H2. apply (proj1 (NoDup_nth keys 0) ND); auto. congruence. }
  rewrite S, filter_app. cbn [filter]. rewrite E, Nat.eqb_refl, N, N; auto.
  - intros j J. apply in_seq in J. lia.
  - intros j J. apply in_seq in J. lia.
Qed.
Lemma where_notin keys b : ~ In b keys -> where_equal keys b = [].
Proof.
  intros N. unfold where_equal. assert (G : forall l, (forall j, In j l -> j < List.length keys) -> filter (fun i => nth i keys 0 =? b) l = []).
  { induction l as [|j l IH]; intros H; auto. cbn [filter]. destruct (Nat.eqb_spec (nth j keys 0) b) as [e|]; [|apply IH; intros; apply H; right; auto].
    elim N. rewrite <- e. apply nth_In. apply H. left; auto. }
  apply G. intros j J. apply in_seq in J. lia.
Qed.
Lemma existsb_in b keys : existsb (Nat.eqb b) keys = true <-> In b keys.
Proof. rewrite existsb_exists. split; [intros [x [I E]]; apply Nat.eqb_eq in E; subst; auto|intros I; exists b; split; auto; apply Nat.eqb_refl]. Qed.
Lemma option_string_eqb_eq a b : option_string_eqb a b = true <-> a = b.
Proof.
  destruct a, b; cbn [option_string_eqb]; split; try discriminate; auto.
  - intros H. apply String.eqb_eq in H. congruence.
  - intros H. injection H as ->. apply String.eqb_refl.
Qed.
Lemma csr_get_empty c k : nth k (starts c) 0 = nth (S k) (starts c) 0 -> csr_get c k = [].
Proof. intros E. unfold csr_get. rewrite E, Nat.sub_diag. reflexivity. Qed.

Lemma row_shows c key ibox color h r es : S key < List.length (starts c) -> csr_get c key = es -> (forall x, In x es -> x < nboxes t) -> (0 <= r)%Q -> (r < 1)%Q ->
  exists ps, draw_row t c key color h r = Some ps /\ shows ibox color h [] es ps.
Proof.
  intros K E R R0 R1. unfold draw_row. destruct (Nat.ltb_spec (S key) (List.length (starts c))); [|lia]. cbn [negb].
  assert (S0 : shows ibox color h [] [] []).
  { split; [constructor|]. split; [auto|]. split; [constructor|reflexivity]. }
  destruct (Nat.eqb_spec (nth key (starts c) 0) (nth (S key) (starts c) 0)) as [e|_].
  - exists []. split; auto. rewrite (csr_get_empty c key e) in E. subst es. auto.
  - rewrite E. eexists. split; [reflexivity|]. clear E K H. induction es as [|x es IH]; [auto|]. cbn [map].
    destruct IH as [A [B [C D]]]; [intros; apply R; right; auto|]. split; [|split; [|split]].
    + unfold colored. cbn [filter look draw_box fill facecolor hatch]. rewrite (proj2 (option_string_eqb_eq _ _) eq_refl), (proj2 (option_string_eqb_eq _ _) eq_refl). cbn [andb].
      constructor; auto. exists (1 - ((1#10) + r * (2#10)))%Q. split; [lra|]. split; [lra|]. apply draw_box_scaled; [apply R; left; auto|reflexivity].
    + intros c' h' N. unfold colored. cbn [filter look draw_box fill facecolor hatch].
      destruct (option_string_eqb (Some color) (Some c')) eqn:E1; [|apply B; auto]. destruct (option_string_eqb h h') eqn:E2; [|apply B; auto].
      apply option_string_eqb_eq in E1, E2. elim N. congruence.
    + exact C.
    + exact D.
Qed.

Lemma list_shows c keys ibox color h r : keyed keys c -> ibox < nboxes t -> (forall x, In x (entries keys c ibox) -> x < nboxes t) -> (0 <= r)%Q -> (r < 1)%Q ->
  exists ps, draw_box_list t ibox c (Some keys) color h r = Some ps /\ shows ibox color h [keys] (entries keys c ibox) ps.
Proof.
  intros [ND LE] B R R0 R1. unfold draw_box_list. destruct (existsb (Nat.eqb ibox) keys) eqn:EX.
  - assert (I := proj1 (existsb_in ibox keys) EX). destruct (where_in keys ibox ND I) as [k [-> [Hk Ek]]].
    assert (E := entries_row keys c k ND Hk). rewrite Ek in E.
    destruct (row_shows c k ibox color h r (entries keys c ibox)) as [ps [P1 [A [B' [C D]]]]]; auto; [lia|].
    exists ps. split; auto. split; auto. split; auto. split; auto. rewrite D. cbn [filter]. rewrite EX. reflexivity.
  - assert (N : ~ In ibox keys) by (intros I; apply existsb_in in I; congruence). rewrite (where_notin keys ibox N), (entries_notin keys c ibox N).
    eexists. split; [reflexivity|]. split; [constructor|]. split; [reflexivity|]. cbn [outlines filter look draw_box fill negb]. split.
    + constructor; [|constructor]. split; [|reflexivity]. exists (1 - (-(1#10) + (1#10) * r))%Q. split; [lra|]. split; [lra|]. apply draw_box_scaled; auto. reflexivity.
    + rewrite EX. reflexivity.
Qed.
End Boxes.
