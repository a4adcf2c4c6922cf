(** Separation of targets from multipole centers and of sources from local centers. *)
From Coq Require Import List Arith ZArith Lia Bool.
From Verif Require Import Base Tree Spec TreeFacts GeomFacts Walk Traversal SpecTraversal TraversalLists
  Coverage CoverageThm ListFacts FmmThm SpecSep SepFacts.
Import ListNotations.

Lemma smaller_linf t ex T B p : wf_extent ex -> (0 < box_rad t B)%Z -> from_sep_smaller_crit ex <> static_l2 ->
  meets_sep_smaller t ex T B = true -> target_region t ex T p ->
  apart_linf (dim t) p (box_center t B) ((3 * eps_den ex - 8 * eps_num ex) * box_rad t B) (eps_den ex).
Proof.
  intros [S1 [S2 [E1 [E2 E3]]]] R NL M G. unfold meets_sep_smaller in M. unfold target_region in G.
  set (rB := box_rad t B) in *. set (ed := eps_den ex) in *. set (en := eps_num ex) in *. set (sd := stick_out_den ex) in *. set (sn := stick_out_num ex) in *.
  destruct (from_sep_smaller_crit ex); [| |congruence].
  - apply Z.leb_le in M. cbv zeta in M. set (L := max_axes _ _) in M.
    assert (LP : (0 < L)%Z). { assert (0 < (2 * ed - 8 * en) * rB * sd)%Z by nia. nia. }
    destruct (max_axes_ge _ _ L LP (Z.le_refl _)) as [i [Hi H]]. cbv beta in H. exists i. split; auto.
    specialize (G i Hi). fold sd sn in G. set (rT := box_rad t T) in *. clearbody rB ed en sd sn rT L.
    set (cT := box_center t T i) in *. set (cB := box_center t B i) in *.
    assert (A : (sd * Z.abs (cT - cB) <= sd * (Z.abs (p i - cT) + Z.abs (p i - cB)))%Z) by (apply Z.mul_le_mono_nonneg_l; lia).
    assert (B1 : (L + rB * sd <= sd * Z.abs (p i - cB))%Z) by lia.
    assert (B2 : (ed * (L + rB * sd) <= ed * (sd * Z.abs (p i - cB)))%Z) by (apply Z.mul_le_mono_nonneg_l; lia).
    apply (Z.mul_le_mono_pos_l _ _ sd); [lia|]. clear - M B2. nia.
  - apply Z.leb_le in M. cbv zeta in M. set (L := max_axes _ _) in M.
    assert (LP : (0 < L)%Z). { assert (0 < (2 * ed - 8 * en) * rB * 2)%Z by nia. nia. }
    destruct (max_axes_ge _ _ L LP (Z.le_refl _)) as [i [Hi H]]. cbv beta in H. exists i. split; auto.
    specialize (G i Hi). set (c2 := tgt_ext_center2 ex T i) in *. set (r2 := tgt_ext_radius2 ex T i) in *. clearbody L rB ed en c2 r2.
    set (cB := box_center t B i) in *.
    assert (B1 : (L + 2 * rB <= 2 * Z.abs (p i - cB))%Z) by lia.
    assert (B2 : (ed * (L + 2 * rB) <= ed * (2 * Z.abs (p i - cB)))%Z) by (apply Z.mul_le_mono_nonneg_l; lia). nia.
Qed.
Lemma smaller_l2 t ex T B p : wf_extent ex -> (0 < box_rad t B)%Z ->
  meets_sep_smaller t ex T B = true -> target_region t ex T p ->
  apart_l2 (dim t) p (box_center t B) ((3 * eps_den ex - 8 * eps_num ex) * box_rad t B) (eps_den ex).
Proof.
  intros WE R M G.
  assert (D : from_sep_smaller_crit ex = static_l2 \/ from_sep_smaller_crit ex <> static_l2) by (destruct (from_sep_smaller_crit ex); auto; right; congruence).
  destruct D as [C|C].
  2:{ destruct WE as [? [? [? [? ?]]]]. apply apart_linf_l2; [nia|lia|]. eapply smaller_linf; eauto. repeat split; auto. }
  destruct WE as [S1 [S2 [E1 [E2 E3]]]].
  unfold meets_sep_smaller in M. unfold target_region in G. rewrite C in M, G. cbv zeta in M.
  set (rB := box_rad t B) in *. set (ed := eps_den ex) in *. set (en := eps_num ex) in *. set (sd := stick_out_den ex) in *. set (sn := stick_out_num ex) in *.
  set (a := ((3 * ed - 8 * en) * sd * rB)%Z) in *. set (b := (Z.of_nat (dim t) * _)%Z) in M.
  apply andb_true_iff in M. destruct M as [M1 M2]. apply Z.leb_le in M1. apply Z.leb_le in M2.
  unfold in_enlarged_ball in G. cbv zeta in G. fold sd sn in G.
  assert (H := triangle_far (fun i => sd * ed * (box_center t T i - box_center t B i))%Z (fun i => sd * ed * (p i - box_center t T i))%Z (seq 0 (dim t)) (a * a)%Z b).
  cbv beta zeta in H.
  assert (SC : forall (f g : nat -> Z) l, zsum (map (fun i => sd * ed * (f i - g i) * (sd * ed * (f i - g i))) l)%Z = (sd * ed * (sd * ed) * zsum (map (fun i => (f i - g i) * (f i - g i)) l))%Z).
  { intros f g l. rewrite <- zsum_map_mul. f_equal. apply map_ext. intros i. ring. }
  rewrite (SC (box_center t T) (box_center t B)), (SC p (box_center t T)) in H.
  assert (X : (a * a <= zsum (map (fun i => (sd * ed * (box_center t T i - box_center t B i) + sd * ed * (p i - box_center t T i)) *
      (sd * ed * (box_center t T i - box_center t B i) + sd * ed * (p i - box_center t T i))) (seq 0 (dim t))))%Z).
  { apply H.
    - apply Z.square_nonneg.
    - unfold b. assert (Y := Z.square_nonneg ((sd + sn) * ed * box_rad t T)). nia.
    - exact M1.
    - exact M2.
    - fold (dist2 (dim t) p (box_center t T)). unfold b.
      assert (Y : (ed * ed * (sd * sd * dist2 (dim t) p (box_center t T)) <= ed * ed * (Z.of_nat (dim t) * ((sd + sn) * box_rad t T * ((sd + sn) * box_rad t T))))%Z)
        by (apply Z.mul_le_mono_nonneg_l; [nia|exact G]).
      clear - Y. nia. }
  replace (map _ (seq 0 (dim t))) with (map (fun i => sd * ed * (p i - box_center t B i) * (sd * ed * (p i - box_center t B i)))%Z (seq 0 (dim t))) in X by (apply map_ext; intros; ring).
  rewrite (SC p (box_center t B)) in X. fold (dist2 (dim t) p (box_center t B)) in X. unfold apart_l2.
  apply (Z.mul_le_mono_pos_l _ _ (sd * sd)); [nia|]. unfold a in X. clear - X. fold rB. nia.
Qed.

Section Thm.
Variable t : tree.
Hypothesis W : wf_tree t.
Hypothesis F : wf_flags t.
Variable P : trav_params.
Hypothesis WP : wf_params t P.
Let n := well_sep_is_n_away P.
Let ex := extents P.
Variable tr : traversal.
Hypothesis Htr : build_traversal t P = Some tr.

(** points of T itself are outside of three times the radius of B *)
Lemma list3_points T B p : In T (target_boxes tr) -> In B (list3_of tr T) -> in_closed_box t T p ->
  apart_linf (dim t) p (box_center t B) (3 * box_rad t B) 1.
Proof.
  intros HT HB G. destruct (list3_entry_facts t W F P WP tr Htr T B HT HB) as [H1 [H2 [H3 [H4 [H5 _]]]]].
  destruct (not_adj_gap t W T B H1 H2 H5) as [i [Hi H]]. exists i. split; auto. specialize (G i Hi).
  assert (RR : (box_rad t B <= box_rad t T)%Z).
  { unfold box_rad. rewrite (rad_pow t W (box_level t T) (box_level t B - box_level t T)) by (pose proof (wf_level_lt t W B H2); lia).
    replace (box_level t T + (box_level t B - box_level t T)) with (box_level t B) by lia.
    assert (0 < 2 ^ Z.of_nat (box_level t B - box_level t T))%Z by (apply Z.pow_pos_nonneg; lia).
    pose proof (rad_pos t W (box_level t B) (wf_level_lt t W B H2)). nia. }
  rewrite Z.min_r in H by auto. lia.
Qed.
Lemma list4_points A s q : In A (target_or_target_parent_boxes tr) -> In s (list4_of tr A) -> in_closed_box t s q ->
  apart_linf (dim t) q (box_center t A) (3 * box_rad t A) 1.
Proof.
  intros HA HS G. destruct (list4_entry_facts t W P WP tr Htr A s HA HS) as [H1 [H2 [H3 [H4 [H5 _]]]]].
  destruct (not_adj_gap t W A s H1 H2 H5) as [i [Hi H]]. exists i. split; auto. specialize (G i Hi).
  assert (RR : (box_rad t A <= box_rad t s)%Z).
  { unfold box_rad. rewrite (rad_pow t W (box_level t s) (box_level t A - box_level t s)) by (pose proof (wf_level_lt t W A H1); lia).
    replace (box_level t s + (box_level t A - box_level t s)) with (box_level t A) by lia.
    assert (0 < 2 ^ Z.of_nat (box_level t A - box_level t s))%Z by (apply Z.pow_pos_nonneg; lia).
    pose proof (rad_pos t W (box_level t A) (wf_level_lt t W A H1)). nia. }
  rewrite Z.min_l in H by auto. lia.
Qed.
Lemma list4_ext A s q : targets_have_extent ex = true -> wf_extent ex ->
  In A (target_or_target_parent_boxes tr) -> In s (list4_of tr A) -> in_closed_box t s q ->
  let r := (3 * (stick_out_den ex + stick_out_num ex) * box_rad t A)%Z in
  apart_linf (dim t) q (box_center t A) (eps_den ex * r - 8 * eps_num ex * (r + stick_out_den ex * box_rad t s)) (eps_den ex * stick_out_den ex).
Proof.
  intros E [S1 [S2 [E1 [E2 E3]]]] HA HS G. cbv zeta. destruct (list4_entry_facts t W P WP tr Htr A s HA HS) as [H1 [H2 [H3 [H4 [H5 M]]]]].
  specialize (M E). fold ex in M. unfold meets_sep_bigger in M. apply Z.leb_le in M. fold (box_rad t A) in M. fold (box_rad t s) in M.
  pose proof (box_rad_pos t W A H1) as PA. pose proof (box_rad_pos t W s H2) as PS.
  set (ed := eps_den ex) in *. set (en := eps_num ex) in *. set (sd := stick_out_den ex) in *. set (sn := stick_out_num ex) in *.
  rewrite linf_dist_max in M. set (L := max_axes _ _) in M.
  assert (LP : (0 < L)%Z).
  { assert (0 < ed - 8 * en)%Z by lia. assert (0 < 3 * (sd + sn) * box_rad t A + sd * box_rad t s)%Z by nia. nia. }
  destruct (max_axes_ge _ _ L LP (Z.le_refl _)) as [i [Hi H]]. cbv beta in H. exists i. split; auto. specialize (G i Hi).
  clearbody L. set (rA := box_rad t A) in *. set (rs := box_rad t s) in *. set (cA := box_center t A i) in *. set (cs := box_center t s i) in *.
  assert (B1 : (L <= Z.abs (q i - cA) + rs)%Z) by lia.
  assert (0 <= ed * sd)%Z by nia.
  assert (B2 : (ed * sd * L <= ed * sd * (Z.abs (q i - cA) + rs))%Z) by (apply Z.mul_le_mono_nonneg_l; lia).
  clear - M B2. nia.
Qed.
Lemma list2_points A B q : In A (target_or_target_parent_boxes tr) -> In B (list2_of tr A) -> in_closed_box t B q ->
  apart_linf (dim t) q (box_center t A) ((2 * Z.of_nat n + 1) * box_rad t A) 1.
Proof.
  intros HA HB G. destruct (list2_entry_facts t W P WP tr Htr A B HA HB) as [H1 [H2 [H3 [H4 H5]]]].
  destruct (not_within_gap t W n A B H1 H2 H4 H5) as [i [Hi H]]. exists i. split; auto. specialize (G i Hi).
  assert (R : box_rad t B = box_rad t A) by (unfold box_rad; congruence). rewrite R in G. lia.
Qed.
End Thm.

(** ** Nesting of the regions *)
Lemma closed_nested t b A q : wf_tree t -> b < nboxes t -> In A (ancestors_or_self t b) -> in_closed_box t b q -> in_closed_box t A q.
Proof.
  intros W Hb HA G i Hi. apply in_chain in HA; auto. destruct HA as [k [Hk ->]].
  assert (X := anc_inside t W b k i Hb Hk Hi). specialize (G i Hi). lia.
Qed.
Lemma enlarged_nested t ex b A p : wf_tree t -> wf_extent ex -> b < nboxes t -> In A (ancestors_or_self t b) ->
  in_enlarged t ex b p -> in_enlarged t ex A p.
Proof.
  intros W [S1 [S2 _]] Hb HA G i Hi. apply in_chain in HA; auto. destruct HA as [k [Hk ->]].
  assert (X := anc_inside t W b k i Hb Hk Hi). specialize (G i Hi).
  set (A := anc t k b) in *. clearbody A. set (sd := stick_out_den ex) in *. set (sn := stick_out_num ex) in *.
  assert (Y : (sd * Z.abs (p i - box_center t A i) <= sd * (Z.abs (p i - box_center t b i) + (box_rad t A - box_rad t b)))%Z) by (apply Z.mul_le_mono_nonneg_l; lia).
  assert (0 <= sn * (box_rad t A - box_rad t b))%Z by (apply Z.mul_nonneg_nonneg; lia). nia.
Qed.
Lemma enlarged_ball t ex b p : wf_extent ex -> in_enlarged t ex b p -> in_enlarged_ball t ex b p.
Proof.
  intros [S1 [S2 _]] G. unfold in_enlarged_ball, dist2. cbv zeta. rewrite <- zsum_map_mul.
  rewrite <- (seq_length (dim t) 0) at 2. rewrite <- zsum_const. apply zsum_map_mono. intros i Hi. apply in_seq in Hi. specialize (G i ltac:(lia)).
  set (z := (p i - box_center t b i)%Z) in *. set (r := ((stick_out_den ex + stick_out_num ex) * box_rad t b)%Z) in *. set (sd := stick_out_den ex) in *.
  assert (E : (z * z = Z.abs z * Z.abs z)%Z) by (rewrite <- Z.abs_mul; symmetry; apply Z.abs_eq; apply Z.square_nonneg).
  rewrite E. assert (0 <= sd * Z.abs z)%Z by (apply Z.mul_nonneg_nonneg; lia). nia.
Qed.
Lemma ball_nested t ex b A p : wf_tree t -> wf_extent ex -> b < nboxes t -> In A (ancestors_or_self t b) ->
  in_enlarged_ball t ex b p -> in_enlarged_ball t ex A p.
Proof.
  intros W [S1 [S2 _]] Hb HA G. apply in_chain in HA; auto. destruct HA as [k [Hk ->]].
  assert (X := fun i => anc_inside t W b k i Hb Hk). set (A := anc t k b) in *.
  assert (HAl : A < nboxes t) by (apply anc_lt; auto). pose proof (box_rad_pos t W A HAl) as PA. pose proof (box_rad_pos t W b Hb) as PB.
  assert (RR : dim t <> 0 -> (box_rad t b <= box_rad t A)%Z) by (intros D; specialize (X 0 ltac:(lia)); lia).
  unfold in_enlarged_ball in *. cbv zeta in *. clearbody A.
  set (sd := stick_out_den ex) in *. set (sn := stick_out_num ex) in *.
  destruct (Nat.eq_dec (dim t) 0) as [D|D]. { unfold dist2. rewrite D. simpl. lia. }
  specialize (RR D). set (rb := box_rad t b) in *. set (rA := box_rad t A) in *.
  assert (TN := triangle_near (fun i => sd * (p i - box_center t b i))%Z (fun i => sd * (box_center t b i - box_center t A i))%Z (seq 0 (dim t))
     (Z.of_nat (dim t)) ((sd + sn) * rb) (sd * (rA - rb)) ltac:(lia) ltac:(nia) ltac:(nia)).
  assert (SC : forall (f g : nat -> Z) l, zsum (map (fun i => sd * (f i - g i) * (sd * (f i - g i))) l)%Z = (sd * sd * zsum (map (fun i => (f i - g i) * (f i - g i)) l))%Z).
  { intros f g l. rewrite <- zsum_map_mul. f_equal. apply map_ext. intros i. ring. }
  cbv beta in TN. rewrite (SC p (box_center t b)), (SC (box_center t b) (box_center t A)) in TN. specialize (TN G).
  assert (Q : (sd * sd * zsum (map (fun i => (box_center t b i - box_center t A i) * (box_center t b i - box_center t A i)) (seq 0 (dim t))) <= Z.of_nat (dim t) * (sd * (rA - rb) * (sd * (rA - rb))))%Z).
  { rewrite <- zsum_map_mul. rewrite <- (seq_length (dim t) 0) at 2. rewrite <- zsum_const. apply zsum_map_mono. intros i Hi. apply in_seq in Hi.
    specialize (X i ltac:(lia)). set (z := (box_center t b i - box_center t A i)%Z) in *. set (w := (rA - rb)%Z) in *. clearbody z w.
    replace (sd * w * (sd * w))%Z with (sd * sd * (w * w))%Z by ring. apply Z.mul_le_mono_nonneg_l; [nia|]. nia. }
  specialize (TN Q).
  replace (map _ (seq 0 (dim t))) with (map (fun i => sd * (p i - box_center t A i) * (sd * (p i - box_center t A i)))%Z (seq 0 (dim t))) in TN by (apply map_ext; intros; ring).
  rewrite (SC p (box_center t A)) in TN. fold (dist2 (dim t) p (box_center t A)) in TN.
  eapply Z.le_trans; [exact TN|]. apply Z.mul_le_mono_nonneg_l; [lia|].
  assert (0 <= (sd + sn) * rb + sd * (rA - rb) <= (sd + sn) * rA)%Z by nia. nia.
Qed.
