(** Translation and rotation classes of list 2. *)
From Coq Require Import List Arith ZArith NArith Lia Bool.
From Verif Require Import Base Tree Spec TreeFacts Traversal GeomFacts SpecTraversal TraversalLists Coverage ListFacts Tools ToolsFacts AreaMore
  Classes SpecClasses ClassFacts.
Import ListNotations.

Lemma in_slice {A} (l : list A) s e k d : s <= k < e -> k < length l -> In (nth k l d) (firstn (e - s) (skipn s l)).
Proof.
  intros H L. replace (nth k l d) with (nth (k - s) (firstn (e - s) (skipn s l)) d).
  - apply nth_In. rewrite firstn_length, skipn_length. lia.
  - assert (SK : forall s (l : list A) k, nth k (skipn s l) d = nth (s + k) l d).
    { clear. induction s as [|s IH]; intros [|x l] k; cbn [skipn Nat.add nth]; auto; destruct k; auto. }
    assert (FN : forall m (l : list A) k, k < m -> nth k (firstn m l) d = nth k l d).
    { clear. induction m as [|m IH]; intros [|x l] k Hk; try lia; auto. destruct k; cbn; auto. apply IH. lia. }
    rewrite FN, SK by lia. f_equal. lia.
Qed.

Section Pairs.
Variable t : tree.
Hypothesis W : wf_tree t.
Variable P : trav_params.
Hypothesis WP : wf_params t P.
Variable tr : traversal.
Hypothesis Htr : build_traversal t P = Some tr.
Notation n := (well_sep_is_n_away P).
Notation ttpb := (target_or_target_parent_boxes tr).
Notation c := (from_sep_siblings tr).

Definition rows : list (list nat) := map (list2_list t n) ttpb.
Lemma c_rows : c = csr_of rows.
Proof. unfold rows. rewrite (tr_eq t W P WP tr Htr). reflexivity. Qed.
Lemma rows_length : length rows = length ttpb.
Proof. unfold rows. apply map_length. Qed.
Lemma starts_total i : i <= length ttpb -> nth i (starts c) 0 = total rows i.
Proof. intros H. rewrite c_rows. apply starts_nth. rewrite rows_length. auto. Qed.

Lemma pair_exists k : k < length (lists c) -> exists A B, list2_pair tr k A B.
Proof.
  intros H. assert (T : k < total rows (length rows)) by (rewrite total_all; rewrite c_rows in H; exact H).
  rewrite rows_length in T. assert (K : forall m, m <= length ttpb -> k < total rows m -> exists i, i < m /\ total rows i <= k < total rows (S i)).
  { induction m as [|m IH]; intros Hm L; [cbn in L; lia|]. destruct (Nat.lt_ge_cases k (total rows m)) as [C|C].
    - destruct (IH ltac:(lia) C) as [i [Hi X]]. exists i. split; auto.
    - exists m. auto. }
  destruct (K _ (le_n _) T) as [i [Hi R]]. exists (nth i ttpb 0), (nth k (lists c) 0), i.
  rewrite !starts_total by lia. auto.
Qed.
Lemma pair_lt k A B : list2_pair tr k A B -> k < length (lists c).
Proof.
  intros [i [Hi [R _]]]. rewrite !starts_total in R by lia. rewrite c_rows. change (lists (csr_of rows)) with (concat rows).
  rewrite <- (total_all rows). assert (X := total_mono rows (S i) (length rows) ltac:(rewrite rows_length; lia) ltac:(auto)). lia.
Qed.
Lemma pair_unique k A B A' B' : list2_pair tr k A B -> list2_pair tr k A' B' -> A = A' /\ B = B'.
Proof.
  intros [i [Hi [R [-> ->]]]] [j [Hj [R' [-> ->]]]]. rewrite !starts_total in R, R' by lia. split; auto. f_equal.
  destruct (Nat.lt_trichotomy i j) as [C|[C|C]]; auto; exfalso.
  - assert (X := total_mono rows (S i) j ltac:(lia) ltac:(rewrite rows_length; lia)). lia.
  - assert (X := total_mono rows (S j) i ltac:(lia) ltac:(rewrite rows_length; lia)). lia.
Qed.
Lemma pair_list2 k A B : list2_pair tr k A B -> In A ttpb /\ In B (list2_of tr A).
Proof.
  intros X. assert (L := pair_lt _ _ _ X). destruct X as [i [Hi [R [-> ->]]]].
  assert (IA : In (nth i ttpb 0) ttpb) by (apply nth_In; auto). split; auto.
  unfold list2_of, entries. apply in_concat. exists (csr_get c i). split.
  - apply in_map_iff. exists i. rewrite Nat.eqb_refl. split; auto. apply in_seq. lia.
  - unfold csr_get. apply in_slice; auto.
Qed.

(** the translation vector in box widths *)
Definition unit_vec (A B : nat) (i : nat) : Z := (translation t A B i / (2 * box_rad t B))%Z.
Lemma pair_geometry k A B : list2_pair tr k A B ->
  A < nboxes t /\ B < nboxes t /\ box_level t A = box_level t B /\ in_bounds (dim t) n (unit_vec A B) /\
  (forall i, i < dim t -> translation t A B i = (unit_vec A B i * (2 * box_rad t B))%Z) /\
  exists i, i < dim t /\ (Z.of_nat n + 1 <= Z.abs (unit_vec A B i))%Z.
Proof.
  intros X. destruct (pair_list2 _ _ _ X) as [HA HB]. assert (LA := tr_ttpb_range t W P WP tr Htr A HA).
  destruct (list2_spec t W P WP tr Htr A HA) as [_ I]. apply I in HB. destruct HB as [LB [A0 [B0 [LV [NW [_ [WL WN]]]]]]].
  assert (R : box_rad t A = box_rad t B) by (unfold box_rad; rewrite LV; auto).
  assert (RP := box_rad_pos t W B LB).
  assert (U : forall i, i < dim t -> translation t A B i = (unit_vec A B i * (2 * box_rad t B))%Z).
  { intros i Hi. unfold unit_vec, translation. destruct (grid t W A LA i Hi) as [g1 E1]. destruct (grid t W B LB i Hi) as [g2 E2].
    replace (box_center t A i - box_center t B i)%Z with ((g1 - g2) * (2 * box_rad t B))%Z by (rewrite E1, E2, R; ring).
    rewrite Z.div_mul by lia. ring. }
  split; auto. split; auto. split; auto. split; [|split; [exact U|]].
  - intros i Hi. specialize (WN i Hi). specialize (U i Hi). unfold translation in U.
    assert (PA := parent_center t W A i LA ltac:(lia) Hi). assert (PB := parent_center t W B i LB ltac:(lia) Hi).
    rewrite (parent_rad t W A LA ltac:(lia)), R in WN. rewrite R in PA. set (r := box_rad t B) in *. set (u := unit_vec A B i) in *.
    assert (Z.abs (u * (2 * r)) <= (4 * Z.of_nat n + 2) * r)%Z by lia. nia.
  - destruct (Exists_dec (fun i => Z.of_nat n + 1 <= Z.abs (unit_vec A B i))%Z (seq 0 (dim t))) as [E|E].
    { intros i. apply Z_le_dec. }
    + apply Exists_exists in E. destruct E as [i [Hi E]]. apply in_seq in Hi. exists i. split; [lia|auto].
    + exfalso. apply NW. split; [auto|]. intros i Hi. specialize (U i Hi). unfold translation in U. rewrite U, R.
      assert (~ (Z.of_nat n + 1 <= Z.abs (unit_vec A B i))%Z).
      { intros Q. apply E. apply Exists_exists. exists i. split; auto. apply in_seq. lia. }
      nia.
Qed.
Lemma normalized_unit k A B i : list2_pair tr k A B -> i < dim t ->
  normalized_vector t (box_level t B) (box_center t B) (box_center t A) i = unit_vec A B i.
Proof.
  intros X Hi. destruct (pair_geometry _ _ _ X) as [LA [LB [_ [_ [U _]]]]]. specialize (U i Hi). unfold normalized_vector.
  unfold translation in U. rewrite U. assert (RP := box_rad_pos t W B LB). unfold box_rad in *. apply rint_exact. lia.
Qed.

Notation N := (nclasses_per_level n (dim t)).
Definition full_class (per_level : bool) (A B : nat) : nat :=
  code (dim t) n (unit_vec A B) + if per_level then box_level t B * N else 0.
Lemma bounds_ext v w : (forall i, i < dim t -> v i = w i) -> in_bounds (dim t) n v -> in_bounds (dim t) n w.
Proof. intros E H i Hi. rewrite <- (E i Hi). apply H; auto. Qed.
Lemma item_ok per_level k A B : list2_pair tr k A B -> class_item t n per_level c ttpb k = Some (full_class per_level A B).
Proof.
  intros X. destruct (pair_geometry _ _ _ X) as [LA [LB [LV [BD [U _]]]]]. assert (X0 := X). destruct X as [i [Hi [R [EA EB]]]].
  unfold class_item. rewrite !starts_total in R by lia. 
  assert (RO := row_of rows i k ltac:(rewrite rows_length; auto) R). rewrite <- c_rows, rows_length in RO. rewrite RO.
  rewrite <- EB, <- EA, <- LV, Nat.eqb_refl. cbn [negb]. rewrite LV.
  set (v := normalized_vector _ _ _ _).
  assert (E : forall i, i < dim t -> v i = unit_vec A B i) by (intros; apply (normalized_unit k); auto).
  rewrite class_code.
  - unfold full_class. rewrite (code_ext _ _ _ _ E). destruct per_level; f_equal; lia.
  - apply (bounds_ext (unit_vec A B)); auto. intros; symmetry; auto.
Qed.
Lemma compute_ok per_level : exists cls, compute_translation_classes t n per_level tr =
    Some (map (fun k => existsb (Nat.eqb k) cls) (seq 0 (N * (if per_level then nlevels t else 1))), cls) /\
  length cls = length (lists c) /\ forall k A B, list2_pair tr k A B -> nth k cls 0 = full_class per_level A B.
Proof.
  destruct (run_all_some (class_item t n per_level c ttpb) (seq 0 (length (lists c)))) as [cls [E [L Q]]].
  - intros k Hk. apply in_seq in Hk. destruct (pair_exists k ltac:(lia)) as [A [B X]]. rewrite (item_ok _ _ _ _ X). eauto.
  - exists cls. unfold compute_translation_classes. rewrite E. rewrite seq_length in L. split; [reflexivity|]. split; auto.
    intros k A B X. assert (Hk := pair_lt _ _ _ X). specialize (Q k 0 0 ltac:(rewrite seq_length; auto)).
    rewrite seq_nth in Q by auto. rewrite Nat.add_0_l, (item_ok _ _ _ _ X) in Q. congruence.
Qed.
Lemma full_class_lt per_level k A B : list2_pair tr k A B -> full_class per_level A B < N * (if per_level then nlevels t else 1).
Proof.
  intros X. destruct (pair_geometry _ _ _ X) as [LA [LB [LV [BD _]]]]. assert (Y := code_lt _ _ _ BD). assert (Z := wf_level_lt t W B LB).
  unfold full_class. destruct per_level; nia.
Qed.
Lemma full_class_mod per_level k A B : list2_pair tr k A B ->
  full_class per_level A B mod N = code (dim t) n (unit_vec A B) /\ full_class per_level A B / N = if per_level then box_level t B else 0.
Proof.
  intros X. destruct (pair_geometry _ _ _ X) as [LA [LB [LV [BD _]]]]. assert (Y := code_lt _ _ _ BD). unfold full_class. destruct per_level.
  - rewrite Nat.mod_add, Nat.div_add by lia. rewrite Nat.mod_small, Nat.div_small by auto. auto.
  - rewrite Nat.add_0_r. rewrite Nat.mod_small, Nat.div_small by auto. auto.
Qed.

(** ** The compacted classes *)
Definition level_factor (per_level : bool) (B : nat) : Z := if per_level then 1%Z else (2 ^ Z.of_nat (box_level t B))%Z.
Lemma classes_ok per_level : exists ci used, translation_classes t n per_level tr = Some ci /\
  length used = N * (if per_level then nlevels t else 1) /\
  length (ci_classes ci) = length (lists c) /\
  ci_shape ci = (dim t, length used) /\
  ci_starts ci (nlevels t) = Some (rank used (length used)) /\
  (forall l, l < nlevels t -> ci_starts ci l = if l * N <? length used then Some (rank used (l * N)) else None) /\
  (forall k A B, list2_pair tr k A B -> let i := full_class per_level A B in
     nth i used false = true /\ i < length used /\ nth k (ci_classes ci) None = Some (rank used i) /\
     exists v, ci_dist ci (rank used i) = Some v /\ forall a, a < dim t -> v a = (level_factor per_level B * translation t A B a)%Z) /\
  (forall i, i < length used -> nth i used false = true -> exists k A B, list2_pair tr k A B /\ full_class per_level A B = i).
Proof.
  destruct (compute_ok per_level) as [cls [E [L Q]]]. set (M := N * (if per_level then nlevels t else 1)) in *.
  set (used := map (fun k => existsb (Nat.eqb k) cls) (seq 0 M)) in *.
  assert (LU : length used = M) by (unfold used; rewrite map_length, seq_length; auto).
  assert (ST := state_ok t n used (length used) (le_n _)). cbv zeta in ST.
  assert (SA : state_at t n used (length used) = fold_left (class_step t n) (combine (seq 0 (length used)) used) (mkCS 0 None (fun _ => None) (fun _ => None) (fun _ => None))).
  { unfold state_at. rewrite firstn_all. auto. }
  destruct ST as [H1 [_ [H3 [H4 H5]]]]. unfold translation_classes. rewrite E, <- SA.
  eexists. exists used. split; [reflexivity|]. split; [exact LU|]. cbn [ci_classes ci_shape ci_starts ci_dist].
  split; [rewrite map_length; auto|]. split; [auto|].
  split. { unfold set. rewrite Nat.eqb_refl, H1. auto. }
  split. { intros l Hl. unfold set. destruct (Nat.eqb_spec l (nlevels t)); [lia|]. apply H3. }
  assert (US : forall i, i < M -> nth i used false = existsb (Nat.eqb i) cls) by 
    (intros i Hi; unfold used; rewrite (nth_indep _ false (existsb (Nat.eqb 0) cls)) by (rewrite map_length, seq_length; auto);
     rewrite (map_nth (fun k => existsb (Nat.eqb k) cls)), seq_nth by auto; auto).
  split.
  - intros k A B X. cbv zeta. assert (FL := full_class_lt per_level _ _ _ X). fold M in FL. assert (PL := pair_lt _ _ _ X).
    set (i := full_class per_level A B) in *.
    assert (UI : nth i used false = true).
    { rewrite US by auto. apply existsb_exists. exists i. split; [|apply Nat.eqb_refl]. unfold i. rewrite <- (Q k A B X). apply nth_In. lia. }
    split; auto. split; [lia|]. split.
    + rewrite (nth_indep _ None (cs_map (state_at t n used (length used)) 0)) by (rewrite map_length; lia).
      rewrite map_nth, (Q k A B X). fold i. rewrite H4, UI. destruct (Nat.ltb_spec i (length used)); [auto|lia].
    + exists (dist_of t n i). split; [apply H5; auto; lia|]. intros a Ha. unfold dist_of.
      destruct (full_class_mod per_level _ _ _ X) as [M1 M2]. unfold i. rewrite M1, M2.
      destruct (pair_geometry _ _ _ X) as [LA [LB [LV [BD [U _]]]]]. rewrite code_vector by auto. rewrite (U a Ha).
      assert (RE := rad_exact t W (box_level t B) (wf_level_lt t W B LB)). fold (box_rad t B) in RE. rewrite RE.
      replace (Z.of_nat (box_level t B + 1)) with (Z.of_nat (box_level t B) + 1)%Z by lia. rewrite Z.pow_add_r, Z.pow_1_r by lia.
      assert (QP : (0 < 2 ^ Z.of_nat (box_level t B))%Z) by (apply Z.pow_pos_nonneg; lia).
      unfold level_factor. destruct per_level.
      * replace (unit_vec A B a * (box_rad t B * (2 ^ Z.of_nat (box_level t B) * 2)))%Z
          with (unit_vec A B a * (2 * box_rad t B) * 2 ^ Z.of_nat (box_level t B))%Z by ring.
        rewrite Z.div_mul by lia. ring.
      * change (2 ^ Z.of_nat 0)%Z with 1%Z. rewrite Z.div_1_r. ring.
  - intros i Hi Ui. rewrite US in Ui by lia. apply existsb_exists in Ui. destruct Ui as [x [Hx Ex]]. apply Nat.eqb_eq in Ex. subst x.
    apply (In_nth _ _ 0) in Hx. destruct Hx as [k [Hk Ek]]. destruct (pair_exists k ltac:(lia)) as [A [B X]].
    exists k, A, B. split; auto. rewrite <- (Q k A B X). auto.
Qed.
Lemma full_class_inj k A B k' A' B' : list2_pair tr k A B -> list2_pair tr k' A' B' ->
  (full_class true A B = full_class true A' B' <-> box_level t A = box_level t A' /\ forall a, a < dim t -> translation t A B a = translation t A' B' a).
Proof.
  intros X X'. destruct (pair_geometry _ _ _ X) as [LA [LB [LV [BD [U _]]]]]. destruct (pair_geometry _ _ _ X') as [LA' [LB' [LV' [BD' [U' _]]]]].
  destruct (full_class_mod true _ _ _ X) as [M1 M2]. destruct (full_class_mod true _ _ _ X') as [M1' M2']. split.
  - intros E. rewrite E in M1, M2. assert (EL : box_level t B = box_level t B') by congruence.
    assert (EC : code (dim t) n (unit_vec A B) = code (dim t) n (unit_vec A' B')) by congruence. split; [congruence|].
    intros a Ha. rewrite (U a Ha), (U' a Ha). rewrite (code_inj _ _ _ _ BD BD' EC a Ha). unfold box_rad. rewrite EL. auto.
  - intros [EL ET]. assert (EB : box_level t B = box_level t B') by congruence.
    unfold full_class. rewrite EB. f_equal. apply code_ext. intros i Hi. unfold unit_vec. rewrite (ET i Hi). unfold box_rad. rewrite EB. auto.
Qed.
End Pairs.
