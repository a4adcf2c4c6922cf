(** The cost model computes the total cost of the operations of an FMM run. *)
From Coq Require Import List Arith ZArith Lia Bool QArith Qcanon Permutation.
From Verif Require Import Base Tree Traversal TreeFacts SpecTraversal LevelStarts Fmm FmmFacts Cost SpecCost.
Import ListNotations.
Local Open Scope Qc_scope.

(** ** Sums of rationals *)
Lemma of_Z_add a b : of_Z (a + b) = of_Z a + of_Z b.
Proof.
  apply Qc_is_canon. unfold of_Z, Qcplus. cbn [this Q2Qc].
  assert (E : forall q, (Qred q == q)%Q) by apply Qred_correct.
  rewrite !E, inject_Z_plus. reflexivity.
Qed.
Lemma of_Z_mul a b : of_Z (a * b) = of_Z a * of_Z b.
Proof.
  apply Qc_is_canon. unfold of_Z, Qcmult. cbn [this Q2Qc].
  assert (E : forall q, (Qred q == q)%Q) by apply Qred_correct.
  rewrite !E, inject_Z_mult. reflexivity.
Qed.
Lemma of_Z_0 : of_Z 0 = 0. Proof. reflexivity. Qed.
Lemma of_Z_1 : of_Z 1 = 1. Proof. reflexivity. Qed.

Lemma qsum_app a b : qsum (a ++ b) = qsum a + qsum b.
Proof. induction a; simpl; [ring|]. rewrite IHa. ring. Qed.
Lemma qsum_cons a l : qsum (a :: l) = a + qsum l.
Proof. reflexivity. Qed.
Lemma qsum_map_concat {A} (f : A -> Qc) ll :
  qsum (map f (concat ll)) = qsum (map (fun l => qsum (map f l)) ll).
Proof. induction ll; simpl; auto. rewrite map_app, qsum_app, IHll. auto. Qed.
Lemma qsum_for_each {A B} (f : B -> Qc) (l : list A) (g : A -> list B) :
  qsum (map f (for_each l g)) = qsum (map (fun x => qsum (map f (g x))) l).
Proof. unfold for_each. rewrite qsum_map_concat, map_map. auto. Qed.
Lemma qsum_ext {A} (f g : A -> Qc) l : (forall x, In x l -> f x = g x) -> qsum (map f l) = qsum (map g l).
Proof. intros. f_equal. apply map_ext_in. auto. Qed.
Lemma qsum_const {A} (l : list A) c : qsum (map (fun _ => c) l) = of_Z (Z.of_nat (length l)) * c.
Proof.
  induction l. { cbn [map qsum fold_right length]. change (Z.of_nat 0) with 0%Z. rewrite of_Z_0. ring. }
  cbn [map length]. rewrite qsum_cons, IHl, Nat2Z.inj_succ. unfold Z.succ. rewrite of_Z_add, of_Z_1. ring.
Qed.
Lemma qsum_map_add {A} (f g : A -> Qc) l : qsum (map (fun x => f x + g x) l) = qsum (map f l) + qsum (map g l).
Proof. induction l; simpl; [ring|]. rewrite IHl. ring. Qed.
Lemma qsum_map_mul {A} (f : A -> Qc) l c : qsum (map (fun x => f x * c) l) = qsum (map f l) * c.
Proof. induction l; simpl; [ring|]. rewrite IHl. ring. Qed.
Lemma qsum_map_0 {A} (f : A -> Qc) l : (forall x, In x l -> f x = 0) -> qsum (map f l) = 0.
Proof.
  induction l; intros H; cbn [map]; auto. rewrite qsum_cons, IHl by (intros; apply H; simpl; auto).
  rewrite H by (simpl; auto). ring.
Qed.
Lemma qsum_perm a b : Permutation a b -> qsum a = qsum b.
Proof. induction 1; simpl; try congruence. ring. Qed.
Lemma qsum_of_Z {A} (f : A -> Z) l : qsum (map (fun x => of_Z (f x)) l) = of_Z (zsum (map f l)).
Proof. induction l; simpl; auto. rewrite IHl, of_Z_add. auto. Qed.
Lemma qsum_fold {A} (f : A -> Qc) l a : fold_left (fun a x => a + f x) l a = a + qsum (map f l).
Proof. revert a. induction l; intros; simpl; [ring|]. rewrite IHl. ring. Qed.
Lemma qsum_rev l : qsum (rev l) = qsum l.
Proof. apply qsum_perm. symmetry. apply Permutation_rev. Qed.
Lemma qsum_swap {A B} (f : A -> B -> Qc) la lb :
  qsum (map (fun a => qsum (map (f a) lb)) la) = qsum (map (fun b => qsum (map (fun a => f a b) la)) lb).
Proof.
  induction la; cbn [map].
  - symmetry. apply qsum_map_0. auto.
  - rewrite qsum_cons, IHla, <- qsum_map_add. apply qsum_ext. intros. rewrite qsum_cons. auto.
Qed.
Lemma qsum_one {A} (dec : forall x y : A, {x = y} + {x <> y}) (l : list A) (f : A -> Qc) b : NoDup l ->
  qsum (map (fun x => if dec x b then f x else 0) l) = if in_dec dec b l then f b else 0.
Proof.
  induction 1 as [|x l Hn ND IH]; [reflexivity|]. cbn [map]. rewrite qsum_cons, IH.
  destruct (in_dec dec b (x :: l)) as [i|i], (in_dec dec b l) as [j|j], (dec x b) as [e|e];
  simpl in i; subst; try tauto; try ring; try (destruct i; tauto).
Qed.
Lemma qsum_subset n l (f : nat -> Qc) : NoDup l -> (forall b, In b l -> (b < n)%nat) ->
  (forall b, (b < n)%nat -> ~ In b l -> f b = 0) ->
  qsum (map f (seq 0 n)) = qsum (map f l).
Proof.
  intros ND Hr H0.
  rewrite (qsum_ext f (fun b => if in_dec Nat.eq_dec b l then f b else 0) (seq 0 n)).
  2:{ intros b Hb. apply in_seq in Hb. destruct (in_dec _ _ _); auto. apply H0; auto; lia. }
  rewrite (qsum_ext _ (fun b => qsum (map (fun x => if Nat.eq_dec x b then f x else 0) l)) (seq 0 n)).
  2:{ intros b _. rewrite qsum_one by auto. auto. }
  rewrite qsum_swap. apply qsum_ext. intros x Hx.
  rewrite (qsum_ext _ (fun b => if Nat.eq_dec b x then f b else 0)).
  2:{ intros b _. destruct (Nat.eq_dec x b), (Nat.eq_dec b x); subst; auto; congruence. }
  rewrite qsum_one by apply seq_NoDup. destruct (in_dec _ _ _) as [i|i]; auto.
  exfalso. apply i. apply in_seq. pose proof (Hr x Hx). lia.
Qed.

(** ** 32-bit arithmetic *)
Lemma wrap32_id z : (- 2 ^ 31 <= z < 2 ^ 31)%Z -> wrap32 z = z.
Proof. intros H. unfold wrap32. rewrite Z.mod_small; lia. Qed.
Lemma fold_add32 (f : nat -> Z) l a : (forall x, 0 <= f x)%Z -> (0 <= a)%Z -> (a + zsum (map f l) < 2 ^ 31)%Z ->
  fold_left (fun n S => add32 n (f S)) l a = (a + zsum (map f l))%Z.
Proof.
  intros Hf. revert a. induction l as [|x l IH]; intros a Ha H; cbn [fold_left map] in *.
  - change (zsum []) with 0%Z. lia.
  - change (zsum (f x :: map f l)) with (f x + zsum (map f l))%Z in *.
    assert (0 <= zsum (map f l))%Z.
    { clear -Hf. induction l; [reflexivity|]. cbn [map]. change (zsum (f a :: map f l)) with (f a + zsum (map f l))%Z.
      pose proof (Hf a). lia. }
    pose proof (Hf x). unfold add32 at 2. rewrite wrap32_id by lia. rewrite IH; lia.
Qed.

(** ** Rows of list-of-lists *)
Lemma combine_seq_nth {A} (l : list A) d k :
  combine (seq k (length l)) l = map (fun i => (i, nth (i - k) l d)) (seq k (length l)).
Proof.
  revert k. induction l as [|x l IH]; intros k; [reflexivity|]. cbn [length seq combine map].
  f_equal. { rewrite Nat.sub_diag. auto. }
  rewrite IH. apply map_ext_in. intros i Hi. apply in_seq in Hi.
  replace (i - k)%nat with (S (i - S k)) by lia. auto.
Qed.
Lemma map_nth_seq {A B} (f : A -> B) (l : list A) d :
  map (fun i => f (nth i l d)) (seq 0 (length l)) = map f l.
Proof.
  assert (G : forall k, map (fun i => f (nth (i - k) l d)) (seq k (length l)) = map f l).
  { induction l as [|x l IH]; intros k; [reflexivity|]. cbn [length seq map].
    rewrite Nat.sub_diag. f_equal. rewrite <- (IH (S k)). apply map_ext_in. intros i Hi. apply in_seq in Hi.
    replace (i - k)%nat with (S (i - S k)) by lia. auto. }
  rewrite <- (G 0%nat). apply map_ext. intros. rewrite Nat.sub_0_r. auto.
Qed.
Lemma entries_row boxes c i : NoDup boxes -> (i < length boxes)%nat ->
  entries boxes c (nth i boxes 0%nat) = csr_get c i.
Proof.
  intros ND Hi. unfold entries.
  assert (E : seq 0 (length boxes) = seq 0 i ++ i :: seq (S i) (length boxes - S i)).
  { replace (length boxes) with (i + S (length boxes - S i))%nat at 1 by lia. rewrite seq_app. reflexivity. }
  assert (N : forall j, (j < length boxes)%nat -> nth j boxes 0%nat = nth i boxes 0%nat -> j = i).
  { intros j Hj. apply (proj1 (NoDup_nth boxes 0%nat) ND); auto. }
  rewrite E, map_app, concat_app. cbn [map concat]. rewrite Nat.eqb_refl.
  assert (Z : forall l, (forall j, In j l -> (j < length boxes)%nat /\ j <> i) ->
    concat (map (fun j => if (nth j boxes 0 =? nth i boxes 0)%nat then csr_get c j else []) l) = []).
  { induction l as [|j l IH]; intros H; auto. cbn [map concat]. rewrite IH by (intros; apply H; simpl; auto).
    destruct (H j (or_introl eq_refl)) as [H1 H2].
    destruct (Nat.eqb_spec (nth j boxes 0%nat) (nth i boxes 0%nat)) as [e|]; auto. elim H2. auto. }
  rewrite !Z, app_nil_r; auto.
  - intros j Hj. apply in_seq in Hj. lia.
  - intros j Hj. apply in_seq in Hj. lia.
Qed.
Lemma rows_entries {A} boxes c (f : nat -> list nat -> A) : NoDup boxes ->
  map (fun i => f (nth i boxes 0%nat) (csr_get c i)) (seq 0 (length boxes)) =
  map (fun b => f b (entries boxes c b)) boxes.
Proof.
  intros ND. rewrite <- (map_nth_seq (fun b => f b (entries boxes c b)) boxes 0%nat).
  apply map_ext_in. intros i Hi. apply in_seq in Hi. rewrite entries_row by (auto; lia). auto.
Qed.
Definition rows_measured (c : csr) (n : nat) : Prop :=
  forall i, (i < n)%nat -> row_len c i = Z.of_nat (length (csr_get c i)).

(** ** fancy-index updates *)
Lemma fold_qset (l : list nat) (g : nat -> Qc) a b : 
  fold_left (fun r iv => qset r (fst iv) (snd iv)) (map (fun x => (x, g x)) l) a b =
  if in_dec Nat.eq_dec b l then g b else a b.
Proof.
  revert a. induction l as [|x l IH]; intros a; cbn [map fold_left]; auto. rewrite IH.
  cbn [fst snd]. unfold qset.
  destruct (in_dec Nat.eq_dec b l) as [j|j], (in_dec Nat.eq_dec b (x :: l)) as [i|i]; simpl in i; auto; try tauto.
  - destruct i as [->|]; [|tauto]. rewrite Nat.eqb_refl. auto.
  - destruct (Nat.eqb_spec b x); auto. subst. tauto.
Qed.
Lemma combine_map_r {A B} (l : list A) (g : A -> B) : combine l (map g l) = map (fun x => (x, g x)) l.
Proof. induction l; simpl; auto. rewrite IHl. auto. Qed.
Lemma fancy_add_at a idx (g : nat -> Qc) b :
  fancy_add a idx (map g idx) b = a b + (if in_dec Nat.eq_dec b idx then g b else 0).
Proof.
  unfold fancy_add. rewrite combine_map_r, map_map. cbn [fst snd].
  rewrite combine_map_r, fold_qset. destruct (in_dec _ _ _); ring.
Qed.

(** ** What the theorems need from a traversal *)
Definition starts_by_level (t : tree) (ls bl : list nat) : Prop :=
  forall l, (l <= nlevels t)%nat -> (nth l ls 0 <= length bl)%nat /\
    forall i, (i < length bl)%nat -> (box_level t (nth i bl 0%nat) < l <-> i < nth l ls 0)%nat.

Record cost_ready (t : tree) (tr : traversal) : Prop := {
  cr_sb_nodup : NoDup (source_boxes tr);
  cr_spb_nodup : NoDup (source_parent_boxes tr);
  cr_tb_nodup : NoDup (target_boxes tr);
  cr_ttpb_nodup : NoDup (target_or_target_parent_boxes tr);
  cr_sb_range : forall b, In b (source_boxes tr) -> (b < nboxes t)%nat;
  cr_spb_range : forall b, In b (source_parent_boxes tr) -> (b < nboxes t)%nat;
  cr_tb_range : forall b, In b (target_boxes tr) -> (b < nboxes t)%nat;
  cr_ttpb_range : forall b, In b (target_or_target_parent_boxes tr) -> (b < nboxes t)%nat;
  cr_sb_levels : starts_by_level t (level_start_source_box_nrs tr) (source_boxes tr);
  cr_spb_levels : starts_by_level t (level_start_source_parent_box_nrs tr) (source_parent_boxes tr);
  cr_tb_levels : starts_by_level t (level_start_target_box_nrs tr) (target_boxes tr);
  cr_ttpb_levels : starts_by_level t (level_start_target_or_target_parent_box_nrs tr)
                     (target_or_target_parent_boxes tr);
  cr_l2_rows : rows_measured (from_sep_siblings tr) (length (target_or_target_parent_boxes tr));
  cr_l3 : forall l, let lc := nth l (from_sep_smaller_by_level tr) ([], csr_of []) in
    NoDup (fst lc) /\ incl (fst lc) (target_boxes tr) /\ rows_measured (snd lc) (length (fst lc)) /\
    forall T B, In T (target_boxes tr) -> In B (list3_level_of tr l T) -> box_level t B = l
}.

Section Facts.
Variable t : tree.
Hypothesis W : wf_tree t.
Variable p : particles.
Variable tr : traversal.
Hypothesis R : cost_ready t tr.
Variable tcounts : nat -> nat.
Variable F : cost_factors.

(** the level charged by the code for point-to-local: the source box's *)
Definition source_level (B A : nat) : nat := box_level t B.
Notation cost := (op_cost t F source_level).
Notation total := (total_cost t F source_level).

Lemma total_app a b : total (a ++ b) = total a + total b.
Proof. unfold total_cost. rewrite map_app, qsum_app. auto. Qed.
Lemma total_for_each {A} (l : list A) f : total (for_each l f) = qsum (map (fun x => total (f x)) l).
Proof. unfold total_cost. rewrite qsum_for_each. auto. Qed.
Lemma total_map {A} (l : list A) (f : A -> op) c : (forall x, In x l -> cost (f x) = c) ->
  total (map f l) = of_Z (Z.of_nat (length l)) * c.
Proof.
  intros H. unfold total_cost. rewrite map_map, (qsum_ext _ (fun _ => c)) by auto. apply qsum_const.
Qed.

(** *** per-box values of the kernels *)
Definition form_multipoles_box b := of_Z (nsrc p b) * p2m_cost F (box_level t b).
Definition ndirect_box T := nsources_in p (list1_of tr T ++ list3_close_of tr T ++ list4_close_of tr T).
Definition direct_box T := of_Z (ndirect_box T * ntgt tcounts T) * p2p_cost F.
Definition list2_box A := of_Z (Z.of_nat (length (list2_of tr A))) * m2l_cost F (box_level t A).
Definition list3_box T := qsum (map (fun B => of_Z (ntgt tcounts T) * m2p_cost F (box_level t B)) (list3_of tr T)).
Definition list4_box A := qsum (map (fun B => of_Z (nsrc p B) * p2l_cost F (box_level t B)) (list4_of tr A)).
Definition eval_locals_box T := of_Z (ntgt tcounts T) * l2p_cost F (box_level t T).

Lemma form_multipoles_eq : form_multipoles_cost t p tr F = map form_multipoles_box (source_boxes tr).
Proof. reflexivity. Qed.
Lemma eval_locals_eq : eval_locals_cost t tr tcounts F = map eval_locals_box (target_boxes tr).
Proof. reflexivity. Qed.
Lemma list2_eq : list2_cost t tr F = map list2_box (target_or_target_parent_boxes tr).
Proof.
  unfold list2_cost. rewrite (combine_seq_nth _ 0%nat), map_map.
  etransitivity; [|apply (rows_entries (target_or_target_parent_boxes tr) (from_sep_siblings tr)
    (fun A row => of_Z (Z.of_nat (length row)) * m2l_cost F (box_level t A))); apply R].
  apply map_ext_in. intros i Hi. apply in_seq in Hi. cbn [fst snd]. rewrite Nat.sub_0_r.
  rewrite (cr_l2_rows t tr R) by lia. auto.
Qed.
Lemma list4_eq : list4_cost t p tr F = map list4_box (target_or_target_parent_boxes tr).
Proof.
  unfold list4_cost.
  etransitivity; [|apply (rows_entries (target_or_target_parent_boxes tr) (from_sep_bigger tr)
    (fun A row => qsum (map (fun B => of_Z (nsrc p B) * p2l_cost F (box_level t B)) row))); apply R].
  apply map_ext. intros i. rewrite qsum_fold. unfold lvl. ring.
Qed.

Lemma nsrc_nonneg b : (0 <= nsrc p b)%Z. Proof. unfold nsrc. lia. Qed.
Lemma nsources_in_nonneg l : (0 <= nsources_in p l)%Z.
Proof.
  unfold nsources_in. induction l; [reflexivity|]. cbn [map].
  change (zsum (?x :: ?y)) with (x + zsum y)%Z. lia.
Qed.
Lemma nsources_in_app a b : nsources_in p (a ++ b) = (nsources_in p a + nsources_in p b)%Z.
Proof. unfold nsources_in. rewrite map_app, zsum_app. auto. Qed.

Lemma ndirect_kernel_map c (g : nat -> Z) : 
  (forall T, In T (target_boxes tr) -> (0 <= g T)%Z /\
     (g T + nsources_in p (entries (target_boxes tr) c T) < 2 ^ 31)%Z) ->
  ndirect_kernel p c (map g (target_boxes tr)) =
  map (fun T => (g T + nsources_in p (entries (target_boxes tr) c T))%Z) (target_boxes tr).
Proof.
  intros H. unfold ndirect_kernel.
  rewrite (combine_seq_nth _ 0%Z), map_map, map_length. cbn [fst snd].
  etransitivity; [|apply (rows_entries (target_boxes tr) c (fun T row => (g T + nsources_in p row)%Z)); apply R].
  apply map_ext_in. intros i Hi. apply in_seq in Hi. rewrite Nat.sub_0_r.
  assert (HT : In (nth i (target_boxes tr) 0%nat) (target_boxes tr)) by (apply nth_In; lia).
  destruct (H _ HT) as [H1 H2]. rewrite entries_row in H2 by (auto; try lia; apply R).
  pose proof (nsources_in_nonneg (csr_get c i)) as H3.
  rewrite (fold_add32 (nsrc p)); auto using nsrc_nonneg; try lia.
  2:{ change (zsum (map (nsrc p) (csr_get c i))) with (nsources_in p (csr_get c i)). lia. }
  change (zsum (map (nsrc p) (csr_get c i))) with (nsources_in p (csr_get c i)).
  rewrite (nth_indep _ 0%Z (g 0%nat)) by (rewrite map_length; lia). rewrite map_nth.
  unfold add32. apply wrap32_id. lia.
Qed.

Hypothesis FIT : fits32 p tr tcounts.

Lemma ndirect_eq : ndirect_sources p tr = map ndirect_box (target_boxes tr).
Proof.
  unfold ndirect_sources.
  assert (B : forall T, In T (target_boxes tr) -> (nsources_in p (list1_of tr T) +
     nsources_in p (list3_close_of tr T) + nsources_in p (list4_close_of tr T) < 2 ^ 31)%Z).
  { intros T HT. destruct (FIT T HT) as [H _]. rewrite !nsources_in_app in H. lia. }
  assert (N : forall l, (0 <= nsources_in p l)%Z) by apply nsources_in_nonneg.
  rewrite ndirect_kernel_map.
  2:{ intros T HT. split; [lia|]. pose proof (B T HT). fold (list1_of tr T).
      pose proof (N (list3_close_of tr T)). pose proof (N (list4_close_of tr T)). lia. }
  assert (E1 : ndirect_opt p (from_sep_close_smaller tr)
     (map (fun T => (0 + nsources_in p (entries (target_boxes tr) (neighbor_source_boxes tr) T))%Z) (target_boxes tr)) =
     map (fun T => (nsources_in p (list1_of tr T) + nsources_in p (list3_close_of tr T))%Z) (target_boxes tr)).
  { unfold ndirect_opt, list3_close_of in *. destruct (from_sep_close_smaller tr) as [c|].
    - rewrite ndirect_kernel_map. { apply map_ext. intros T. unfold list1_of. lia. }
      intros T HT. pose proof (B T HT). fold (list1_of tr T). pose proof (N (list1_of tr T)).
      pose proof (N (list4_close_of tr T)). lia.
    - apply map_ext. intros T. change (nsources_in p []) with 0%Z. unfold list1_of. lia. }
  rewrite E1.
  assert (E2 : forall T, ndirect_box T = (nsources_in p (list1_of tr T) + nsources_in p (list3_close_of tr T) +
     nsources_in p (list4_close_of tr T))%Z).
  { intros T. unfold ndirect_box. rewrite !nsources_in_app. lia. }
  rewrite (map_ext _ _ E2).
  unfold ndirect_opt, list4_close_of in *. destruct (from_sep_close_bigger tr) as [c|].
  - rewrite ndirect_kernel_map. { apply map_ext. intros T. lia. }
    intros T HT. pose proof (B T HT). pose proof (N (list1_of tr T)). pose proof (N (list3_close_of tr T)). lia.
  - apply map_ext. intros T. change (nsources_in p []) with 0%Z. lia.
Qed.
Lemma direct_eq : direct_cost tr tcounts F (ndirect_sources p tr) = map direct_box (target_boxes tr).
Proof.
  rewrite ndirect_eq. unfold direct_cost.
  assert (E : forall (g : nat -> Z) l, combine (map g l) l = map (fun T => (g T, T)) l).
  { intros g l. induction l; simpl; auto. rewrite IHl. auto. }
  rewrite E, map_map. apply map_ext_in. intros T HT. cbn [fst snd]. unfold direct_box, mul32.
  rewrite wrap32_id; auto. destruct (FIT T HT) as [_ [H _]].
  pose proof (nsources_in_nonneg (list1_of tr T ++ list3_close_of tr T ++ list4_close_of tr T)).
  unfold ndirect_box, ntgt. split; [|auto].
  transitivity 0%Z; [lia|]. apply Z.mul_nonneg_nonneg; lia.
Qed.

(** list 3 *)
Lemma fold_qadd_at {A} (l : list A) (f : A -> nat) (v : A -> Qc) a b :
  fold_left (fun a x => qadd_at a (f x) (v x)) l a b =
  a b + qsum (map (fun x => if Nat.eqb (f x) b then v x else 0) l).
Proof.
  revert a. induction l as [|x l IH]; intros a; cbn [fold_left map]. { change (qsum []) with 0. ring. }
  rewrite IH, qsum_cons. unfold qadd_at, qset. rewrite (Nat.eqb_sym b).
  destruct (Nat.eqb_spec (f x) b); subst; ring.
Qed.
Lemma list3_kernel_at l a b : 
  let lc := nth l (from_sep_smaller_by_level tr) ([], csr_of []) in
  list3_kernel_cost tcounts F l (fst lc) (snd lc) a b =
  a b + qsum (map (fun B => of_Z (ntgt tcounts b) * m2p_cost F (box_level t B)) (list3_level_of tr l b)).
Proof.
  intros lc. unfold list3_kernel_cost. rewrite (fold_qadd_at _ snd). f_equal.
  destruct (cr_l3 t tr R l) as [ND [INC [RM LEV]]]. fold lc in ND, INC, RM, LEV.
  rewrite (combine_seq_nth _ 0%nat), map_map. cbn [fst snd].
  rewrite (map_ext_in _ (fun i => (fun T row => if Nat.eqb T b then
     of_Z (ntgt tcounts b * Z.of_nat (length row)) * m2p_cost F l else 0)
       (nth i (fst lc) 0%nat) (csr_get (snd lc) i))).
  2:{ intros i Hi. apply in_seq in Hi. rewrite Nat.sub_0_r.
      destruct (Nat.eqb_spec (nth i (fst lc) 0%nat) b) as [E|]; auto.
      rewrite RM by lia. rewrite E. unfold mul32. rewrite wrap32_id; auto.
      assert (HT : In b (target_boxes tr)) by (apply INC; rewrite <- E; apply nth_In; lia).
      destruct (FIT b HT) as [_ [_ H]]. specialize (H l). unfold list3_level_of in H. fold lc in H.
      rewrite <- E, entries_row in H by (auto; lia). rewrite E in H. unfold ntgt. lia. }
  rewrite (rows_entries (fst lc) (snd lc) (fun T row => if Nat.eqb T b then
     of_Z (ntgt tcounts b * Z.of_nat (length row)) * m2p_cost F l else 0)) by auto.
  rewrite (qsum_ext _ (fun T => if Nat.eq_dec T b then
     of_Z (ntgt tcounts T * Z.of_nat (length (entries (fst lc) (snd lc) T))) * m2p_cost F l else 0)).
  2:{ intros T _. destruct (Nat.eqb_spec T b), (Nat.eq_dec T b); subst; auto; congruence. }
  rewrite qsum_one by auto.
  destruct (in_dec Nat.eq_dec b (fst lc)) as [i|i].
  - change (list3_level_of tr l b) with (entries (fst lc) (snd lc) b) in *.
    rewrite (qsum_ext _ (fun _ => of_Z (ntgt tcounts b) * m2p_cost F l)).
    { rewrite qsum_const, of_Z_mul. ring. }
    intros B HB. rewrite (LEV b B); auto.
  - assert (E : list3_level_of tr l b = []).
    { unfold list3_level_of. fold lc. unfold entries.
      assert (G : forall l, (forall i, In i l -> (i < length (fst lc))%nat) ->
        concat (map (fun i => if (nth i (fst lc) 0 =? b)%nat then csr_get (snd lc) i else []) l) = []).
      { induction l0 as [|j l0 IH]; intros H; auto. cbn [map concat]. rewrite IH by (intros; apply H; simpl; auto).
        destruct (Nat.eqb_spec (nth j (fst lc) 0%nat) b) as [e|]; auto. exfalso. apply i. rewrite <- e.
        apply nth_In. apply H. simpl. auto. }
      apply G. intros j Hj. apply in_seq in Hj. lia. }
    rewrite E. reflexivity.
Qed.
Lemma list3_of_levels b :
  list3_of tr b = concat (map (fun l => list3_level_of tr l b) (seq 0 (length (from_sep_smaller_by_level tr)))).
Proof.
  unfold list3_of, list3_level_of. f_equal.
  rewrite (map_nth_seq (fun lc => entries (fst lc) (snd lc) b)). auto.
Qed.
Lemma list3_eq b : list3_cost tr tcounts F b = list3_box b.
Proof.
  unfold list3_cost, list3_box. rewrite list3_of_levels, qsum_map_concat, map_map.
  rewrite (combine_seq_nth _ ([], csr_of [])).
  assert (G : forall ls a, fold_left (fun nm2p lb => list3_kernel_cost tcounts F (fst lb) (fst (snd lb)) (snd (snd lb)) nm2p)
     (map (fun i => (i, nth (i - 0) (from_sep_smaller_by_level tr) ([], csr_of []))) ls) a b =
     a b + qsum (map (fun l => qsum (map (fun B => of_Z (ntgt tcounts b) * m2p_cost F (box_level t B))
       (list3_level_of tr l b))) ls)).
  { induction ls as [|l ls IH]; intros a; cbn [map fold_left]. { change (qsum []) with 0. ring. }
    rewrite IH, qsum_cons. cbn [fst snd]. rewrite Nat.sub_0_r, list3_kernel_at. ring. }
  rewrite G. unfold qzeros. ring.
Qed.
Lemma list3_box_0 b : ~ In b (target_boxes tr) -> list3_box b = 0.
Proof.
  intros Hn. unfold list3_box. rewrite list3_of_levels, qsum_map_concat, map_map. apply qsum_map_0.
  intros l _. destruct (cr_l3 t tr R l) as [ND [INC _]].
  replace (list3_level_of tr l b) with (@nil nat); auto. symmetry. unfold list3_level_of, entries.
  assert (G : forall bl c ix, ~ In b bl -> (forall i, In i ix -> (i < length bl)%nat) ->
        concat (map (fun i => if (nth i bl 0 =? b)%nat then csr_get c i else []) ix) = []).
  { induction ix as [|j ix IH]; intros Hb H; auto. cbn [map concat]. rewrite IH by (auto; intros; apply H; simpl; auto).
    destruct (Nat.eqb_spec (nth j bl 0%nat) b) as [e|]; auto. exfalso. apply Hb. rewrite <- e.
    apply nth_In. apply H. simpl. auto. }
  apply G. { intros Hb. apply Hn, INC. auto. }
  intros j Hj. apply in_seq in Hj. lia.
Qed.

(** *** operations *)
Lemma total_form_multipoles : total (ops_form_multipoles p tr) = qsum (map form_multipoles_box (source_boxes tr)).
Proof.
  unfold ops_form_multipoles. rewrite total_for_each. apply qsum_ext. intros b _.
  rewrite (total_map _ _ (p2m_cost F (box_level t b))) by auto. unfold sources_of. rewrite seq_length. reflexivity.
Qed.
Lemma direct_T row T : total (for_each (row T) (fun S => for_each (sources_of p S) (fun s => map (P2P S s T) (targets_of tcounts T))))
  = of_Z (nsources_in p (row T) * ntgt tcounts T) * p2p_cost F.
Proof.
  rewrite total_for_each. unfold nsources_in.
  induction (row T) as [|x l IH]; cbn [map]. { change (zsum []) with 0%Z. rewrite Z.mul_0_l, of_Z_0. change (qsum []) with 0. ring. }
  rewrite qsum_cons, IH. change (zsum (?a :: ?b)) with (a + zsum b)%Z.
  rewrite total_for_each.
  rewrite (qsum_ext _ (fun _ => of_Z (ntgt tcounts T) * p2p_cost F)).
  2:{ intros s _. rewrite (total_map _ _ (p2p_cost F)) by auto. unfold targets_of. rewrite seq_length. auto. }
  rewrite qsum_const. unfold sources_of. rewrite seq_length, Z.mul_add_distr_r, of_Z_add, !of_Z_mul. ring.
Qed.
Lemma total_eval_direct : total (ops_eval_direct p tr tcounts) = qsum (map direct_box (target_boxes tr)).
Proof.
  unfold ops_eval_direct, ops_direct. rewrite !total_app, !total_for_each.
  rewrite <- !qsum_map_add. apply qsum_ext. intros T _. rewrite !direct_T. unfold direct_box, ndirect_box.
  rewrite !nsources_in_app, !Z.mul_add_distr_r, !of_Z_add. ring.
Qed.
Lemma total_list2 : total (ops_multipole_to_local tr) = qsum (map list2_box (target_or_target_parent_boxes tr)).
Proof.
  unfold ops_multipole_to_local. rewrite total_for_each. apply qsum_ext. intros A _.
  apply total_map. auto.
Qed.
Lemma total_list3_T T : total (for_each (list3_of tr T) (fun B => map (M2P B T) (targets_of tcounts T))) = list3_box T.
Proof.
  rewrite total_for_each. apply qsum_ext. intros B _.
  rewrite (total_map _ _ (m2p_cost F (box_level t B))) by auto. unfold targets_of. rewrite seq_length. reflexivity.
Qed.
Lemma total_list3 : total (ops_eval_multipoles tr tcounts) = qsum (map list3_box (target_boxes tr)).
Proof. unfold ops_eval_multipoles. rewrite total_for_each. apply qsum_ext. intros T _. apply total_list3_T. Qed.
Lemma total_list4_A A : total (for_each (list4_of tr A) (fun S => map (fun s => P2L S s A) (sources_of p S))) = list4_box A.
Proof.
  rewrite total_for_each. apply qsum_ext. intros B _.
  rewrite (total_map _ _ (p2l_cost F (box_level t B))) by auto. unfold sources_of. rewrite seq_length. reflexivity.
Qed.
Lemma total_list4 : total (ops_form_locals p tr) = qsum (map list4_box (target_or_target_parent_boxes tr)).
Proof. unfold ops_form_locals. rewrite total_for_each. apply qsum_ext. intros A _. apply total_list4_A. Qed.
Lemma total_eval_locals : total (ops_eval_locals tr tcounts) = qsum (map eval_locals_box (target_boxes tr)).
Proof.
  unfold ops_eval_locals. rewrite total_for_each. apply qsum_ext. intros T _.
  rewrite (total_map _ _ (l2p_cost F (box_level t T))) by auto. unfold targets_of. rewrite seq_length. reflexivity.
Qed.

(** upward and downward propagation *)
Lemma children_of_nchild b : length (children_of t b) = nchild t b.
Proof.
  unfold children_of, nchild. induction (seq 0 (nchildren t)) as [|m l IH]; auto. cbn [map filter].
  destruct (negb (box_child t m b =? 0)%nat); cbn [length]; auto.
Qed.
Lemma by_level_sum (f : nat -> Qc) bl ls : NoDup ls ->
  (forall b, In b bl -> ~ In (box_level t b) ls -> f b = 0) ->
  qsum (map (fun l => qsum (map f (filter (fun b => (box_level t b =? l)%nat) bl))) ls) = qsum (map f bl).
Proof.
  intros ND H.
  rewrite (qsum_ext _ (fun l => qsum (map (fun b => if Nat.eq_dec (box_level t b) l then f b else 0) bl))).
  2:{ intros l _. induction bl as [|x bl IH]; auto. cbn [filter map]. rewrite qsum_cons.
      rewrite <- IH by (intros; apply H; simpl; auto).
      destruct (Nat.eqb_spec (box_level t x) l), (Nat.eq_dec (box_level t x) l); try congruence.
      - cbn [map]. rewrite qsum_cons. auto.
      - ring. }
  rewrite qsum_swap. apply qsum_ext. intros b Hb.
  rewrite (qsum_ext _ (fun l => if Nat.eq_dec l (box_level t b) then f b else 0)).
  2:{ intros l _. destruct (Nat.eq_dec (box_level t b) l), (Nat.eq_dec l (box_level t b)); congruence. }
  rewrite (qsum_one Nat.eq_dec ls (fun _ => f b)) by auto. destruct (in_dec _ _ _); auto.
  symmetry. auto.
Qed.
Lemma no_children_at_bottom b : (b < nboxes t)%nat -> (nlevels t <= box_level t b + 1)%nat -> nchild t b = 0%nat.
Proof.
  intros Hb L. unfold nchild. rewrite (proj2 (length_zero_iff_nil _)); auto.
  destruct (filter _ _) as [|m l] eqn:E; auto. exfalso.
  assert (Hm : In m (m :: l)) by (simpl; auto). rewrite <- E in Hm. apply filter_In in Hm.
  destruct Hm as [Hm Hc]. apply in_seq in Hm. apply negb_true_iff, Nat.eqb_neq in Hc.
  destruct (child_facts t W m b Hb ltac:(lia) Hc) as [_ [H2 H1]].
  pose proof (wf_level_lt t W (box_child t m b) H1). lia.
Qed.
Lemma total_coarsen : total (ops_coarsen_multipoles t tr) = coarsen_multipoles_cost t tr F.
Proof.
  unfold ops_coarsen_multipoles, coarsen_multipoles_cost. rewrite total_for_each, map_rev, qsum_rev.
  set (f := fun b => if (lvl t b <=? 1)%nat then 0 else of_Z (Z.of_nat (nchild t b)) * m2m_cost F (lvl t b)).
  rewrite <- (by_level_sum f _ (seq 2 (nlevels t - 3)) (seq_NoDup _ _)).
  - apply qsum_ext. intros l Hl. apply in_seq in Hl. rewrite total_for_each. apply qsum_ext. intros b Hb.
    apply filter_In in Hb. destruct Hb as [_ Hb]. apply Nat.eqb_eq in Hb.
    rewrite (total_map _ _ (m2m_cost F (box_level t b))) by auto. rewrite children_of_nchild.
    unfold f, lvl. destruct (Nat.leb_spec (box_level t b) 1); [lia|auto].
  - intros b Hb Hn. unfold f, lvl. destruct (Nat.leb_spec (box_level t b) 1); auto.
    rewrite no_children_at_bottom.
    + change (Z.of_nat 0) with 0%Z. rewrite of_Z_0. ring.
    + apply (cr_spb_range t tr R); auto.
    + destruct (Nat.le_gt_cases (nlevels t) (box_level t b + 1)); auto. exfalso. apply Hn. apply in_seq. lia.
Qed.
Lemma filter_level_count ls bl l : starts_by_level t ls bl -> (l < nlevels t)%nat ->
  Z.of_nat (length (filter (fun b => (box_level t b =? l)%nat) bl)) =
  (Z.of_nat (nth (l + 1) ls 0%nat) - Z.of_nat (nth l ls 0%nat))%Z.
Proof.
  intros H Hl. destruct (H l) as [H1 H2]; [lia|]. destruct (H (l + 1)%nat) as [H3 H4]; [lia|].
  set (a := nth l ls 0%nat) in *. set (c := nth (l + 1) ls 0%nat) in *.
  assert (Hac : (a <= c)%nat).
  { destruct (Nat.le_gt_cases a c); auto. exfalso. pose proof (proj2 (H2 c ltac:(lia)) H0).
    pose proof (proj1 (H4 c ltac:(lia)) ltac:(lia)). lia. }
  rewrite <- (filter_slice [] (fun b => (box_level t b =? l)%nat) bl a c); auto.
  - rewrite firstn_length, skipn_length. lia.
  - intros i Hi. rewrite Nat.eqb_eq. pose proof (H2 i Hi). pose proof (H4 i Hi). lia.
Qed.
Lemma total_refine : total (ops_refine_locals t tr) = refine_locals_cost t tr F.
Proof.
  unfold ops_refine_locals, refine_locals_cost. rewrite total_for_each. apply qsum_ext. intros l Hl.
  apply in_seq in Hl. rewrite (total_map _ _ (l2l_cost F (l - 1)%nat)).
  - rewrite (filter_level_count (level_start_target_or_target_parent_box_nrs tr)); [auto|apply R|lia].
  - intros b Hb. apply filter_In in Hb. destruct Hb as [_ Hb]. apply Nat.eqb_eq in Hb. simpl. rewrite Hb. auto.
Qed.

(** *** per box *)
Lemma cost_per_box_at b : cost_per_box t p tr tcounts F b =
  (if in_dec Nat.eq_dec b (source_boxes tr) then form_multipoles_box b else 0) +
  (if in_dec Nat.eq_dec b (target_boxes tr) then direct_box b else 0) +
  (if in_dec Nat.eq_dec b (target_or_target_parent_boxes tr) then list2_box b else 0) +
  (if in_dec Nat.eq_dec b (target_boxes tr) then list3_box b else 0) +
  (if in_dec Nat.eq_dec b (target_or_target_parent_boxes tr) then list4_box b else 0) +
  (if in_dec Nat.eq_dec b (target_boxes tr) then eval_locals_box b else 0).
Proof.
  unfold cost_per_box, cost_per_box_with. cbv zeta.
  rewrite eval_locals_eq, fancy_add_at, list4_eq, fancy_add_at, list3_eq, list2_eq, fancy_add_at,
    direct_eq, fancy_add_at, form_multipoles_eq, fancy_add_at. unfold qzeros.
  destruct (in_dec Nat.eq_dec b (target_boxes tr)); [ring|]. rewrite list3_box_0 by auto. ring.
Qed.

Definition charged_cost b (ops : list op) := total (filter (is_charged_to b) ops).
Lemma charged_app b x y : charged_cost b (x ++ y) = charged_cost b x + charged_cost b y.
Proof. unfold charged_cost. rewrite filter_app. apply total_app. Qed.
Lemma charged_all b ops : (forall o, In o ops -> charged_to o = Some b) -> charged_cost b ops = total ops.
Proof.
  intros H. unfold charged_cost. f_equal. induction ops as [|o ops IH]; auto. cbn [filter].
  unfold is_charged_to at 1. rewrite (H o) by (simpl; auto). rewrite Nat.eqb_refl. f_equal. apply IH.
  intros; apply H; simpl; auto.
Qed.
Lemma charged_none b ops : (forall o, In o ops -> charged_to o <> Some b) -> charged_cost b ops = 0.
Proof.
  intros H. unfold charged_cost. replace (filter (is_charged_to b) ops) with (@nil op); auto.
  induction ops as [|o ops IH]; auto. cbn [filter]. pose proof (H o (or_introl eq_refl)) as Ho.
  unfold is_charged_to at 1. destruct (charged_to o) as [b'|].
  - destruct (Nat.eqb_spec b' b); [congruence|]. apply IH. intros; apply H; simpl; auto.
  - apply IH. intros; apply H; simpl; auto.
Qed.
Lemma in_for_each {A B} (l : list A) (f : A -> list B) y : In y (for_each l f) <-> exists x, In x l /\ In y (f x).
Proof. unfold for_each. rewrite in_concat. split.
  - intros [l' [H1 H2]]. apply in_map_iff in H1. destruct H1 as [x [<- H]]. eauto.
  - intros [x [H1 H2]]. exists (f x). split; auto. apply in_map; auto.
Qed.
Lemma charged_for_each b bl f : NoDup bl -> (forall x o, In x bl -> In o (f x) -> charged_to o = Some x) ->
  charged_cost b (for_each bl f) = if in_dec Nat.eq_dec b bl then total (f b) else 0.
Proof.
  intros ND H. rewrite <- (qsum_one Nat.eq_dec bl (fun x => total (f x)) b ND).
  unfold for_each. induction bl as [|x bl IH]; [reflexivity|].
  cbn [map concat]. rewrite charged_app, qsum_cons. inversion ND; subst.
  rewrite IH by (auto; intros y o Hy; apply H; simpl; auto). f_equal.
  destruct (Nat.eq_dec x b) as [->|].
  - apply charged_all. intros o Ho. apply (H b o); simpl; auto.
  - apply charged_none. intros o Ho E. rewrite (H x o) in E by (simpl; auto). congruence.
Qed.

Theorem per_box_total b : cost_per_box t p tr tcounts F b = charged_cost b (fmm_ops t p tr tcounts).
Proof.
  rewrite cost_per_box_at. unfold fmm_ops. rewrite !charged_app.
  assert (C1 : charged_cost b (ops_coarsen_multipoles t tr) = 0).
  { apply charged_none. intros o Ho. unfold ops_coarsen_multipoles in Ho.
    apply in_for_each in Ho. destruct Ho as [l [_ Ho]]. apply in_for_each in Ho. destruct Ho as [x [_ Ho]].
    apply in_map_iff in Ho. destruct Ho as [c [<- _]]. simpl. congruence. }
  assert (C2 : charged_cost b (ops_refine_locals t tr) = 0).
  { apply charged_none. intros o Ho. unfold ops_refine_locals in Ho.
    apply in_for_each in Ho. destruct Ho as [l [_ Ho]].
    apply in_map_iff in Ho. destruct Ho as [c [<- _]]. simpl. congruence. }
  rewrite C1, C2. clear C1 C2.
  unfold ops_form_multipoles, ops_eval_direct, ops_direct, ops_multipole_to_local, ops_eval_multipoles,
    ops_form_locals, ops_eval_locals. rewrite !charged_app.
  rewrite !charged_for_each; try apply R;
    try (intros x o _ Ho; repeat (apply in_for_each in Ho; destruct Ho as [? [_ Ho]]);
         apply in_map_iff in Ho; destruct Ho as [? [<- _]]; reflexivity).
  rewrite !direct_T.
  rewrite !total_list3_T, !total_list4_A.
  rewrite (total_map (sources_of p b) _ (p2m_cost F (box_level t b))) by auto.
  rewrite (total_map (list2_of tr b) _ (m2l_cost F (box_level t b))) by auto.
  rewrite (total_map (targets_of tcounts b) _ (l2p_cost F (box_level t b))) by auto.
  unfold sources_of, targets_of. rewrite !seq_length.
  unfold form_multipoles_box, direct_box, ndirect_box, list2_box, eval_locals_box.
  rewrite !nsources_in_app, !Z.mul_add_distr_r, !of_Z_add. unfold nsrc, ntgt.
  destruct (in_dec Nat.eq_dec b (source_boxes tr)), (in_dec Nat.eq_dec b (target_boxes tr)),
    (in_dec Nat.eq_dec b (target_or_target_parent_boxes tr)); ring.
Qed.

Theorem per_stage_total :
  cost_per_stage t p tr tcounts F =
  {| form_multipoles_stage := total (ops_form_multipoles p tr);
     coarsen_multipoles_stage := total (ops_coarsen_multipoles t tr);
     eval_direct_stage := total (ops_eval_direct p tr tcounts);
     multipole_to_local_stage := total (ops_multipole_to_local tr);
     eval_multipoles_stage := total (ops_eval_multipoles tr tcounts);
     form_locals_stage := total (ops_form_locals p tr);
     refine_locals_stage := total (ops_refine_locals t tr);
     eval_locals_stage := total (ops_eval_locals tr tcounts) |}.
Proof.
  unfold cost_per_stage, cost_per_stage_with.
  rewrite total_form_multipoles, total_coarsen, total_eval_direct, total_list2, total_list3, total_list4,
    total_refine, total_eval_locals, direct_eq, list2_eq, list4_eq.
  f_equal. rewrite (qsum_ext _ list3_box) by (intros; apply list3_eq).
  apply qsum_subset; [apply R|apply R|]. intros b _. apply list3_box_0.
Qed.

Lemma sum_in_dec (l : list nat) (f : nat -> Qc) : NoDup l -> (forall b, In b l -> (b < nboxes t)%nat) ->
  qsum (map (fun b => if in_dec Nat.eq_dec b l then f b else 0) (seq 0 (nboxes t))) = qsum (map f l).
Proof.
  intros ND Hr. rewrite (qsum_subset (nboxes t) l); auto.
  - apply qsum_ext. intros b Hb. destruct (in_dec _ _ _); tauto.
  - intros b _ Hn. destruct (in_dec _ _ _); tauto.
Qed.
Theorem per_box_sum :
  qsum (map (cost_per_box t p tr tcounts F) (seq 0 (nboxes t))) =
  let c := cost_per_stage t p tr tcounts F in
  form_multipoles_stage c + eval_direct_stage c + multipole_to_local_stage c + eval_multipoles_stage c +
  form_locals_stage c + eval_locals_stage c.
Proof.
  cbv zeta. rewrite per_stage_total. cbn [form_multipoles_stage eval_direct_stage multipole_to_local_stage
    eval_multipoles_stage form_locals_stage eval_locals_stage].
  rewrite total_form_multipoles, total_eval_direct, total_list2, total_list3, total_list4, total_eval_locals.
  rewrite (qsum_ext _ _ _ (fun b _ => cost_per_box_at b)). rewrite !qsum_map_add.
  rewrite !sum_in_dec by apply R. auto.
Qed.

(** *** reference implementation *)
Lemma by_levels_at ls bl upd (g : nat -> Qc) : starts_by_level t ls bl ->
  (forall b, In b bl -> (box_level t b < nlevels t)%nat) ->
  (forall a l i b j, upd a l i b j = if (j =? i)%nat then (upd a l i b i) else a j) ->
  (forall a l i b, a i = 0 -> box_level t b = l -> upd a l i b i = g b) ->
  map (by_levels t ls bl upd) (seq 0 (length bl)) = map g bl.
Proof.
  intros H HL U1 U2. rewrite <- (map_nth_seq g bl 0%nat). apply map_ext_in. intros i Hi. apply in_seq in Hi.
  unfold by_levels.
  assert (Slice : forall l, (l < nlevels t)%nat ->
    let start := nth l ls 0%nat in let stop := nth (l + 1) ls 0%nat in
    combine (seq start (stop - start)) (slice bl start stop) =
    map (fun j => (j, nth j bl 0%nat)) (seq start (stop - start)) /\
    (forall j, In j (seq start (stop - start)) -> (j < length bl)%nat /\ box_level t (nth j bl 0%nat) = l) /\
    (forall j, (j < length bl)%nat -> box_level t (nth j bl 0%nat) = l -> In j (seq start (stop - start)))).
  { intros l Hl start stop. destruct (H l) as [H1 H2]; [lia|]. destruct (H (l + 1)%nat) as [H3 H4]; [lia|].
    fold start in H1, H2. fold stop in H3, H4.
    assert (EL : length (slice bl start stop) = (stop - start)%nat).
    { unfold slice. rewrite firstn_length, skipn_length. lia. }
    split; [|split].
    - rewrite <- EL at 1. rewrite (combine_seq_nth _ 0%nat), EL. apply map_ext_in. intros j Hj. apply in_seq in Hj.
      f_equal. unfold slice. 
      assert (E : forall (l : list nat) n k d, (k < n)%nat -> nth k (firstn n l) d = nth k l d).
      { induction l0; intros [|n] [|k] d Hk; simpl; auto; try lia. apply IHl0. lia. }
      rewrite E by lia.
      assert (E2 : forall (l : list nat) n k d, nth k (skipn n l) d = nth (n + k) l d).
      { induction l0; intros [|n] k d; simpl; auto. destruct k; auto. }
      rewrite E2. f_equal. lia.
    - intros j Hj. apply in_seq in Hj. assert (j < length bl)%nat by lia.
      pose proof (H2 j H0). pose proof (H4 j H0). lia.
    - intros j Hj El. pose proof (H2 j Hj). pose proof (H4 j Hj). apply in_seq. lia. }
  (* one level *)
  assert (One : forall l a, (l < nlevels t)%nat ->
    fold_left (fun a ib => upd a l (fst ib) (snd ib))
      (combine (seq (nth l ls 0) (nth (l + 1) ls 0 - nth l ls 0))%nat
               (slice bl (nth l ls 0%nat) (nth (l + 1) ls 0%nat))) a i =
    if (box_level t (nth i bl 0%nat) =? l)%nat then (if Qc_eq_dec (a i) 0 then g (nth i bl 0%nat) else
      fold_left (fun a ib => upd a l (fst ib) (snd ib))
      (combine (seq (nth l ls 0) (nth (l + 1) ls 0 - nth l ls 0))%nat
               (slice bl (nth l ls 0%nat) (nth (l + 1) ls 0%nat))) a i) else a i).
  { intros l a Hl. destruct (Slice l Hl) as [S1 [S2 S3]]. cbv zeta in S1. rewrite S1.
    assert (ND : NoDup (seq (nth l ls 0) (nth (l + 1) ls 0 - nth l ls 0))%nat) by apply seq_NoDup.
    set (js := (seq (nth l ls 0) (nth (l + 1) ls 0 - nth l ls 0))%nat) in *.
    assert (K : forall js, NoDup js -> (forall j, In j js -> box_level t (nth j bl 0%nat) = l) -> forall a,
      (~ In i js -> fold_left (fun a ib => upd a l (fst ib) (snd ib)) (map (fun j => (j, nth j bl 0%nat)) js) a i = a i) /\
      (In i js -> a i = 0 -> fold_left (fun a ib => upd a l (fst ib) (snd ib)) (map (fun j => (j, nth j bl 0%nat)) js) a i = g (nth i bl 0%nat))).
    { clear -U1 U2. induction js as [|j js IH]; intros ND HL a; cbn [map fold_left]; [simpl; tauto|].
      inversion ND; subst. destruct (IH H2 (fun j Hj => HL j (or_intror Hj)) (upd a l (fst (j, nth j bl 0%nat)) (snd (j, nth j bl 0%nat)))) as [I1 I2].
      cbn [fst snd] in *. split.
      - intros Hn. rewrite I1 by (simpl in Hn; tauto). rewrite U1. destruct (Nat.eqb_spec i j); auto. subst. simpl in Hn. tauto.
      - intros Hi Ha. destruct (Nat.eq_dec i j) as [->|Ne].
        + rewrite I1 by auto. apply U2; auto.
        + apply I2; [simpl in Hi; destruct Hi; [congruence|auto]|].
          rewrite U1. destruct (Nat.eqb_spec i j); congruence. }
    destruct (K js ND (fun j Hj => proj2 (S2 j Hj)) a) as [K1 K2].
    destruct (Nat.eqb_spec (box_level t (nth i bl 0%nat)) l) as [E|E].
    - destruct (Qc_eq_dec (a i) 0); auto. apply K2; auto. apply S3; auto. lia.
    - apply K1. intros Hin. apply E. apply S2; auto. }
  (* all levels *)
  assert (All : forall lsq a, NoDup lsq -> (forall l, In l lsq -> (l < nlevels t)%nat) -> a i = 0 ->
    fold_left (fun a l => fold_left (fun a ib => upd a l (fst ib) (snd ib))
      (combine (seq (nth l ls 0) (nth (l + 1) ls 0 - nth l ls 0))%nat
               (slice bl (nth l ls 0%nat) (nth (l + 1) ls 0%nat))) a) lsq a i =
    if in_dec Nat.eq_dec (box_level t (nth i bl 0%nat)) lsq then g (nth i bl 0%nat) else 0).
  { assert (Keep : forall lsq a, (forall l, In l lsq -> (l < nlevels t)%nat) -> ~ In (box_level t (nth i bl 0%nat)) lsq ->
      fold_left (fun a l => fold_left (fun a ib => upd a l (fst ib) (snd ib))
      (combine (seq (nth l ls 0) (nth (l + 1) ls 0 - nth l ls 0))%nat
               (slice bl (nth l ls 0%nat) (nth (l + 1) ls 0%nat))) a) lsq a i = a i).
    { induction lsq as [|l lsq IH]; intros a Hl Hn; cbn [fold_left]; auto.
      rewrite IH by (try (intros; apply Hl); simpl in *; tauto).
      rewrite One by (apply Hl; simpl; auto). destruct (Nat.eqb_spec (box_level t (nth i bl 0%nat)) l); auto.
      subst. simpl in Hn. tauto. }
    induction lsq as [|l lsq IH]; intros a ND Hl Ha; cbn [fold_left]; auto. inversion ND; subst.
    destruct (Nat.eq_dec (box_level t (nth i bl 0%nat)) l) as [E|E].
    - rewrite Keep; [|intros; apply Hl; simpl; auto|rewrite E; auto].
      rewrite One by (apply Hl; simpl; auto). rewrite (proj2 (Nat.eqb_eq _ _) E).
      destruct (Qc_eq_dec (a i) 0); [|congruence].
      destruct (in_dec Nat.eq_dec (box_level t (nth i bl 0%nat)) (l :: lsq)) as [q|q]; [auto|elim q; simpl; auto].
    - rewrite IH; auto.
      + destruct (in_dec Nat.eq_dec (box_level t (nth i bl 0%nat)) lsq), (in_dec Nat.eq_dec (box_level t (nth i bl 0%nat)) (l :: lsq)) as [q|q]; auto.
        * exfalso. apply q. simpl. auto.
        * simpl in q. exfalso. destruct q; [congruence|tauto].
      + intros; apply Hl; simpl; auto.
      + rewrite One by (apply Hl; simpl; auto). destruct (Nat.eqb_spec (box_level t (nth i bl 0%nat)) l); congruence. }
  rewrite All; auto using seq_NoDup.
  - destruct (in_dec _ _ _) as [|n0]; auto. exfalso. apply n0. apply in_seq.
    pose proof (HL (nth i bl 0%nat) (nth_In _ _ (proj2 Hi))). lia.
  - intros l Hl. apply in_seq in Hl. lia.
Qed.

Lemma sb_level b : In b (source_boxes tr) -> (box_level t b < nlevels t)%nat.
Proof. intros H. apply (wf_level_lt t W), (cr_sb_range t tr R). auto. Qed.
Lemma tb_level b : In b (target_boxes tr) -> (box_level t b < nlevels t)%nat.
Proof. intros H. apply (wf_level_lt t W), (cr_tb_range t tr R). auto. Qed.

Lemma py_form_multipoles_eq : py_form_multipoles t p tr F = map form_multipoles_box (source_boxes tr).
Proof.
  apply by_levels_at; try apply R; auto using sb_level.
  - intros a l i b j. unfold qset. rewrite Nat.eqb_refl. auto.
  - intros a l i b _ <-. unfold qset. rewrite Nat.eqb_refl. auto.
Qed.
Lemma py_eval_locals_eq : py_eval_locals t tr tcounts F = map eval_locals_box (target_boxes tr).
Proof.
  apply by_levels_at; try apply R; auto using tb_level.
  - intros a l i b j. unfold qadd_at, qset. rewrite Nat.eqb_refl. auto.
  - intros a l i b Ha <-. unfold qadd_at, qset. rewrite Nat.eqb_refl, Ha. unfold eval_locals_box. ring.
Qed.
Lemma py_list2_eq : py_list2 t tr F = map list2_box (target_or_target_parent_boxes tr).
Proof. rewrite <- list2_eq. apply map_ext. intros [i b]. cbn [fst snd]. ring. Qed.
Lemma py_ndirect_eq : py_ndirect p tr = map ndirect_box (target_boxes tr).
Proof.
  assert (E : map ndirect_box (target_boxes tr) = map (fun i =>
    (nsources_in p (csr_get (neighbor_source_boxes tr) i) +
     match from_sep_close_smaller tr with Some c => nsources_in p (csr_get c i) | None => 0 end +
     match from_sep_close_bigger tr with Some c => nsources_in p (csr_get c i) | None => 0 end)%Z)
    (seq 0 (length (target_boxes tr)))).
  { rewrite <- (map_nth_seq ndirect_box (target_boxes tr) 0%nat). apply map_ext_in. intros i Hi. apply in_seq in Hi.
    unfold ndirect_box. rewrite !nsources_in_app. unfold list1_of, list3_close_of, list4_close_of.
    rewrite entries_row by (try apply R; lia).
    destruct (from_sep_close_smaller tr), (from_sep_close_bigger tr); rewrite ?entries_row by (try apply R; lia);
    change (nsources_in p []) with 0%Z; lia. }
  unfold py_ndirect. cbv zeta. rewrite E. apply map_ext_in. intros i Hi. apply in_seq in Hi.
  assert (HT : In (nth i (target_boxes tr) 0%nat) (target_boxes tr)) by (apply nth_In; lia).
  destruct (FIT _ HT) as [B _]. rewrite !nsources_in_app in B. revert B.
  unfold list1_of, list3_close_of, list4_close_of. rewrite entries_row by (try apply R; lia).
  assert (Add : forall a l, (0 <= a)%Z -> (a + nsources_in p l < 2 ^ 31)%Z ->
    fold_left (fun n S => add32 n (nsrc p S)) l a = (a + nsources_in p l)%Z).
  { intros a l Ha HB. apply fold_add32; auto using nsrc_nonneg. }
  pose proof (nsources_in_nonneg (csr_get (neighbor_source_boxes tr) i)).
  destruct (from_sep_close_smaller tr) as [c|], (from_sep_close_bigger tr) as [c'|];
    rewrite ?entries_row by (try apply R; lia); change (nsources_in p []) with 0%Z; intros B;
    try (pose proof (nsources_in_nonneg (csr_get c i))); try (pose proof (nsources_in_nonneg (csr_get c' i)));
    rewrite (Add 0%Z) by lia; try (rewrite (Add (0 + nsources_in p (csr_get (neighbor_source_boxes tr) i))%Z) by lia); try (rewrite Add by lia); lia.
Qed.
Lemma py_direct_eq : py_direct tr tcounts F (py_ndirect p tr) = map direct_box (target_boxes tr).
Proof.
  rewrite py_ndirect_eq. unfold py_direct.
  assert (E : forall (g : nat -> Z) l, combine (map g l) l = map (fun T => (g T, T)) l).
  { intros g l. induction l; simpl; auto. rewrite IHl. auto. }
  rewrite E, map_map. apply map_ext. intros T. cbn [fst snd]. unfold direct_box. rewrite of_Z_mul. ring.
Qed.
Lemma count_children b n : fold_left (fun n m => if (box_child t m b =? 0)%nat then n else (n + 1)%nat)
              (seq 0 (nchildren t)) n = (n + nchild t b)%nat.
Proof.
  unfold nchild. revert n. induction (seq 0 (nchildren t)) as [|m l IH]; intros n; cbn [fold_left filter]; [simpl; lia|].
  rewrite IH. destruct (box_child t m b =? 0)%nat; cbn [negb length]; lia.
Qed.
Lemma starts_slice ls bl l : starts_by_level t ls bl -> (l < nlevels t)%nat ->
  slice bl (nth l ls 0%nat) (nth (l + 1) ls 0%nat) = filter (fun b => (box_level t b =? l)%nat) bl.
Proof.
  intros H Hl. destruct (H l) as [H1 H2]; [lia|]. destruct (H (l + 1)%nat) as [H3 H4]; [lia|].
  unfold slice. apply (filter_slice []); auto.
  - set (a := nth l ls 0%nat) in *. set (c := nth (l + 1) ls 0%nat) in *.
    destruct (Nat.le_gt_cases a c); auto. exfalso. pose proof (proj2 (H2 c ltac:(lia)) H0).
    pose proof (proj1 (H4 c ltac:(lia)) ltac:(lia)). lia.
  - intros i Hi. rewrite Nat.eqb_eq. pose proof (H2 i Hi). pose proof (H4 i Hi). lia.
Qed.
Lemma py_coarsen_eq : py_coarsen_multipoles t tr F = coarsen_multipoles_cost t tr F.
Proof.
  rewrite <- total_coarsen. unfold py_coarsen_multipoles, ops_coarsen_multipoles. cbv zeta.
  rewrite (qsum_fold (fun sl => m2m_cost F (sl - 1)%nat * of_Z (Z.of_nat (fold_left _ _ 0%nat)))).
  rewrite total_for_each, !map_rev, !qsum_rev, <- seq_shift, map_map. rewrite Qcplus_0_l.
  apply qsum_ext. intros l Hl. apply in_seq in Hl. replace (S l - 1)%nat with l by lia.
  rewrite starts_slice by (try apply R; lia). rewrite total_for_each.
  assert (C : forall bl n, fold_left (fun n ibox => fold_left (fun n m => if (box_child t m ibox =? 0)%nat then n else (n + 1)%nat)
              (seq 0 (nchildren t)) n) bl n = (n + nsum (map (nchild t) bl))%nat).
  { induction bl as [|b bl IH]; intros n; cbn [fold_left map]; [simpl; lia|]. rewrite IH, count_children.
    change (nsum (nchild t b :: map (nchild t) bl)) with (nchild t b + nsum (map (nchild t) bl))%nat. lia. }
  rewrite C, Nat.add_0_l, of_nat_nsum, map_map, <- qsum_of_Z, Qcmult_comm, <- qsum_map_mul.
  apply qsum_ext. intros b Hb. apply filter_In in Hb. destruct Hb as [_ Hb]. apply Nat.eqb_eq in Hb.
  rewrite (total_map _ _ (m2m_cost F (box_level t b))) by auto. rewrite children_of_nchild, Hb. auto.
Qed.
Lemma py_refine_eq : py_refine_locals t tr F = refine_locals_cost t tr F.
Proof.
  unfold py_refine_locals, refine_locals_cost. cbv zeta.
  rewrite (qsum_fold (fun l => of_Z (Z.of_nat (nth (l + 1) _ 0%nat) - Z.of_nat (nth l _ 0%nat)) * l2l_cost F (l - 1)%nat)).
  ring.
Qed.
Theorem py_per_stage : py_cost_per_stage t p tr tcounts F = cost_per_stage t p tr tcounts F.
Proof.
  unfold py_cost_per_stage, cost_per_stage, cost_per_stage_with.
  rewrite py_form_multipoles_eq, py_coarsen_eq, py_direct_eq, direct_eq, py_list2_eq, list2_eq, py_refine_eq,
    py_eval_locals_eq. reflexivity.
Qed.
Theorem py_per_box b : py_cost_per_box t p tr tcounts F b = cost_per_box t p tr tcounts F b.
Proof.
  unfold py_cost_per_box, cost_per_box, cost_per_box_with.
  rewrite py_form_multipoles_eq, py_direct_eq, direct_eq, py_list2_eq, list2_eq, py_eval_locals_eq. reflexivity.
Qed.
End Facts.
