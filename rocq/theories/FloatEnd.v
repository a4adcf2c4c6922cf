(** C99: distances between floating-point particles and computed centers of other boxes. *)
From Coq Require Import List Arith ZArith Bool Reals Lra Lia.
From Flocq Require Import Core.
From Verif Require Import Base Tree Spec TreeFacts GeomFacts Fmm TreeBuild BuildInv BuildGeom BuildThm BuildThm2 Floats FloatFacts TravFloat TravFloatFacts
  Traversal Coverage SpecTraversal FloatBuild SpecFloatBuild SpecBuild SpecRounding FloatBuildFacts FloatBuildThm SepFacts PropsBuild.
Import ListNotations.
Local Open Scope R_scope.

Lemma apart_combine x fa ea eb fb ra rb m la lb w : 0 <= w ->
  Rabs (x - fa) <= ra + (la + 5) * w -> Rabs (fa - ea) <= la * w -> Rabs (fb - eb) <= lb * w ->
  ra + m * rb <= Rabs (ea - eb) -> m * rb - (2 * la + lb + 5) * w <= Rabs (x - fb).
Proof.
  intros Hw H1 H2 H3 H4.
  assert (T : Rabs (ea - eb) <= Rabs (x - fa) + Rabs (fa - ea) + Rabs (x - fb) + Rabs (fb - eb)).
  { replace (ea - eb) with (- (x - fa) - (fa - ea) + (x - fb) + (fb - eb)) by ring.
    eapply Rle_trans; [apply Rabs_triang|]. apply Rplus_le_compat_r. eapply Rle_trans; [apply Rabs_triang|]. apply Rplus_le_compat_r.
    unfold Rminus at 1. eapply Rle_trans; [apply Rabs_triang|]. rewrite !Rabs_Ropp. lra. }
  lra.
Qed.

Section Far.
Variable prec : Z.
Hypothesis Hprec : (24 <= prec)%Z.
Variable huge : R.
Notation A := (rounded prec huge).
Notation oi := (real_of_int prec).
Variable axes : list (list R).
Variable inp : input.
Hypothesis RS : resolvable prec huge axes (npart inp).
Hypothesis VG : valid_geometry inp.
Hypothesis RUN : runs_on A oi Zfloor axes inp.
Let G : float_geometry R := root_geometry A oi axes.
Variable t : tree.
Hypothesis W : wf_tree t.
Hypothesis LC : forall a, (a < dim t)%nat -> (box_center t 0 a - level_to_rad t 0 = bbox_min inp a)%Z.
Hypothesis TD : dim t = idim inp.
Hypothesis TE : root_extent t = the_root_extent inp.
Hypothesis TL : (nlevels t <= 30)%nat.
Variable K : R.
Hypothesis HK : forall i, (i < dim t)%nat -> Rabs (f_root_center G i) + 2 * f_extent G <= K.
Hypothesis HK2 : 2 * f_extent G <= K.
Hypothesis COND : (4 * INR (nlevels t) + 4 * INR 1 + 20) * (bpow radix2 (- prec) * K) < f_extent G * bpow radix2 (- Z.of_nat (nlevels t)).

Lemma far_center a b u i m : (a < nboxes t)%nat -> (b < nboxes t)%nat -> (u < npart inp)%nat -> (i < dim t)%nat ->
  in_cell t a (coord inp u) ->
  (box_rad t a + m * box_rad t b <= Z.abs (box_center t a i - box_center t b i))%Z ->
  (IZR m - 3 / 4) * f_rad (rounded_trav prec) G (box_level t b)
    <= Rabs (coordinate A oi axes u i - f_center (rounded_trav prec) t G b i).
Proof.
  intros Ha Hb Hu Hi IC GP. destruct (G_fmt prec Hprec huge axes (npart inp) RS) as [Fm Pp]. fold G in Fm, Pp.
  assert (NC := near_center prec Hprec huge axes (npart inp) RS inp eq_refl VG RUN t W LC TD TE TL K HK HK2 COND a u i Ha Hu Hi IC).
  assert (CA := center_err prec Hprec t W G Fm Pp 1%nat (le_n 1) K HK HK2 COND _ a i Ha Hi eq_refl).
  assert (CB := center_err prec Hprec t W G Fm Pp 1%nat (le_n 1) K HK HK2 COND _ b i Hb Hi eq_refl).
  fold G in NC. rewrite (f_rad_exact prec Hprec G Fm 1%nat (le_n 1)) in NC. rewrite (f_rad_exact prec Hprec G Fm 1%nat (le_n 1)).
  assert (WP := w_pos prec Hprec G Pp K HK2).
  assert (ED := E_diff t W G Pp a b i).
  assert (RA := h_box_rad t W G 1%nat (le_n 1) a Ha). assert (RB := h_box_rad t W G 1%nat (le_n 1) b Hb).
  assert (HP := h_pos t W G Pp).
  assert (GR : rad G (box_level t a) + IZR m * rad G (box_level t b) <= Rabs (E t G a i - E t G b i)).
  { rewrite ED, RA, RB. apply IZR_le in GP. rewrite plus_IZR, mult_IZR in GP.
    apply Rmult_le_compat_l with (r := f_extent G / IZR (root_extent t)) in GP; [lra|]. apply Rlt_le. exact HP. }
  assert (C := apart_combine _ _ _ _ _ _ _ _ _ _ _ (Rlt_le _ _ WP) NC CA CB GR).
  eapply Rle_trans; [|exact C].
  assert (LV := wf_level_lt t W b Hb). assert (LVA := wf_level_lt t W a Ha).
  assert (RM := rad_min t G Pp 1%nat (le_n 1) (box_level t b) LV).
  assert (LI : INR (box_level t b) <= INR (nlevels t)) by (apply le_INR; lia).
  assert (LJ : INR (box_level t a) <= INR (nlevels t)) by (apply le_INR; lia).
  change (INR 1) with 1 in COND.
  assert (CC := COND). set (w := bpow radix2 (- prec) * K) in *. set (l := INR (box_level t b)) in *. set (l' := INR (box_level t a)) in *. set (L := INR (nlevels t)) in *.
  assert (l * w <= L * w) by (apply Rmult_le_compat_r; lra).
  assert (l' * w <= L * w) by (apply Rmult_le_compat_r; lra). lra.
Qed.
End Far.

Lemma precise_1 prec t n G : (1 <= n)%nat -> (0 < f_extent G) -> precise_enough prec t n G -> precise_enough prec t 1 G.
Proof.
  intros Hn HG [K [H1 [H2 H3]]]. exists K. split; [auto|]. split; [auto|]. eapply Rle_lt_trans; [|exact H3].
  apply Rmult_le_compat_r.
  - apply Rmult_le_pos; [apply Rlt_le, bpow_gt_0|lra].
  - assert (INR 1 <= INR n) by (apply le_INR; lia). lra.
Qed.

(** gaps of the lists, in lattice units *)
Section Gaps.
Variable t : tree.
Hypothesis W : wf_tree t.
Hypothesis F : wf_flags t.
Variable P : trav_params.
Hypothesis WP : wf_params t P.
Variable tr : traversal.
Hypothesis Htr : build_traversal t P = Some tr.
Lemma smaller_rad a b : (a < nboxes t)%nat -> (b < nboxes t)%nat -> (box_level t a <= box_level t b)%nat -> (box_rad t b <= box_rad t a)%Z.
Proof.
  intros Ha Hb L. unfold box_rad. rewrite (rad_pow t W (box_level t a) (box_level t b - box_level t a)) by (pose proof (wf_level_lt t W b Hb); lia).
  replace (box_level t a + (box_level t b - box_level t a))%nat with (box_level t b) by lia.
  assert (0 < 2 ^ Z.of_nat (box_level t b - box_level t a))%Z by (apply Z.pow_pos_nonneg; lia).
  pose proof (rad_pos t W (box_level t b) (wf_level_lt t W b Hb)). nia.
Qed.
Lemma list3_gap T b : In T (target_boxes tr) -> In b (list3_of tr T) ->
  (T < nboxes t)%nat /\ (b < nboxes t)%nat /\ exists i, (i < dim t)%nat /\ (box_rad t T + 3 * box_rad t b <= Z.abs (box_center t T i - box_center t b i))%Z.
Proof.
  intros HT HB. destruct (list3_entry_facts t W F P WP tr Htr T b HT HB) as [H1 [H2 [H3 [H4 [H5 _]]]]].
  split; [auto|]. split; [auto|]. destruct (not_adj_gap t W T b H1 H2 H5) as [i [Hi H]]. exists i. split; [auto|].
  rewrite Z.min_r in H by (apply smaller_rad; auto; lia). lia.
Qed.
Lemma list4_gap a s : In a (target_or_target_parent_boxes tr) -> In s (list4_of tr a) ->
  (a < nboxes t)%nat /\ (s < nboxes t)%nat /\ exists i, (i < dim t)%nat /\ (box_rad t s + 3 * box_rad t a <= Z.abs (box_center t s i - box_center t a i))%Z.
Proof.
  intros HA HS. destruct (list4_entry_facts t W P WP tr Htr a s HA HS) as [H1 [H2 [H3 [H4 [H5 _]]]]].
  split; [auto|]. split; [auto|]. destruct (not_adj_gap t W a s H1 H2 H5) as [i [Hi H]]. exists i. split; [auto|].
  rewrite Z.min_l in H by (apply smaller_rad; auto; lia). lia.
Qed.
Lemma list2_gap a b : In a (target_or_target_parent_boxes tr) -> In b (list2_of tr a) ->
  (a < nboxes t)%nat /\ (b < nboxes t)%nat /\ box_level t a = box_level t b /\ exists i, (i < dim t)%nat /\
    (box_rad t a + (2 * Z.of_nat (well_sep_is_n_away P) + 1) * box_rad t b <= Z.abs (box_center t a i - box_center t b i))%Z /\
    (box_rad t b + (2 * Z.of_nat (well_sep_is_n_away P) + 1) * box_rad t a <= Z.abs (box_center t b i - box_center t a i))%Z.
Proof.
  intros HA HB. destruct (list2_entry_facts t W P WP tr Htr a b HA HB) as [H1 [H2 [H3 [H4 H5]]]].
  split; [auto|]. split; [auto|]. split; [auto|].
  destruct (not_within_gap t W _ a b H1 H2 H4 H5) as [i [Hi H]]. exists i. split; [auto|].
  assert (RR : box_rad t b = box_rad t a) by (unfold box_rad; congruence). rewrite RR.
  split; lia.
Qed.
End Gaps.
