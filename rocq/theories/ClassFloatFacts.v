(** Rounding errors of the translation classes of ClassFloat.v. *)
From Coq Require Import List Arith ZArith Bool Reals Lra Lia.
From Flocq Require Import Core Relative Mult_error.
From Verif Require Import Base Tree Spec TreeFacts Traversal GeomFacts SpecTraversal Coverage TravRounded CoverBy TravAgree Floats FloatFacts TravFloat SpecRounding TravFloatFacts
  TravFloatThm Tools Classes SpecClasses ClassFacts ClassThm ClassFloat.
Import ListNotations.
Local Open Scope R_scope.

Section Facts.
Variable prec : Z.
Hypothesis Hprec : (24 <= prec)%Z.
Notation A := (rounded_trav prec).
Notation rnd := (round radix2 (FLX_exp prec) ZnearestE).
Notation fmt := (generic_format radix2 (FLX_exp prec)).
Let u := bpow radix2 (- prec).
Local Instance precpos : Prec_gt_0 prec. Proof. unfold Prec_gt_0. lia. Qed.
Variable t : tree.
Hypothesis W : wf_tree t.
Variable G : float_geometry R.
Notation rho := (f_extent G).
Notation c0 := (f_root_center G).
Hypothesis Frho : fmt rho.
Hypothesis Prho : 0 < rho.
Variable n : nat.
Hypothesis Hn : (1 <= n)%nat.
Variable K : R.
Hypothesis HK : forall i, (i < dim t)%nat -> Rabs (c0 i) + 2 * rho <= K.
Hypothesis HK2 : 2 * rho <= K.
Hypothesis COND : (4 * INR (nlevels t) + 4 * INR n + 20) * (bpow radix2 (- prec) * K) < rho * bpow radix2 (- Z.of_nat (nlevels t)).
Notation w := (bpow radix2 (- prec) * K).
Notation L := (INR (nlevels t)).
Notation E := (E t G).
Notation rad := (rad G).

Lemma centers_err a b i : (a < nboxes t)%nat -> (b < nboxes t)%nat -> (i < dim t)%nat ->
  Rabs (f_center A t G a i - f_center A t G b i - (E a i - E b i)) <= 2 * L * w /\
  Rabs (E a i - E b i) <= rho /\ Rabs (f_center A t G a i - f_center A t G b i) <= 2 * K.
Proof.
  intros Ha Hb Hi.
  assert (CA := center_err prec Hprec t W G Frho Prho n Hn K HK HK2 COND _ a i Ha Hi eq_refl).
  assert (CB := center_err prec Hprec t W G Frho Prho n Hn K HK HK2 COND _ b i Hb Hi eq_refl).
  fold (f_center A t G a i) in CA. fold (f_center A t G b i) in CB.
  set (x := f_center A t G a i) in *. set (y := f_center A t G b i) in *. cbn [num base rounded_trav rounded] in x, y.
  assert (LA := wf_level_lt t W a Ha). assert (LB := wf_level_lt t W b Hb).
  apply Nat.lt_le_incl in LA, LB. assert (XA := lev_err prec Hprec t W G Prho n Hn K HK2 COND _ LA). assert (XB := lev_err prec Hprec t W G Prho n Hn K HK2 COND _ LB).
  apply le_INR in LA, LB. assert (P := w_pos prec Hprec G Prho K HK2).
  assert (INR (box_level t a) * w <= L * w) by (apply Rmult_le_compat_r; lra).
  assert (INR (box_level t b) * w <= L * w) by (apply Rmult_le_compat_r; lra).
  assert (D : Rabs (x - y - (E a i - E b i)) <= 2 * L * w).
  { replace (x - y - (E a i - E b i)) with ((x - E a i) + - (y - E b i)) by ring.
    eapply Rle_trans; [apply Rabs_triang|]. rewrite Rabs_Ropp. lra. }
  assert (BA := E_bound t W G Prho n Hn _ a i Ha Hi eq_refl). assert (BB := E_bound t W G Prho n Hn _ b i Hb Hi eq_refl).
  assert (PA := rad_pos' G Prho (box_level t a)). assert (PB := rad_pos' G Prho (box_level t b)).
  assert (DE : Rabs (E a i - E b i) <= rho).
  { replace (E a i - E b i) with ((E a i - c0 i) + - (E b i - c0 i)) by ring. eapply Rle_trans; [apply Rabs_triang|]. rewrite Rabs_Ropp. lra. }
  split; [exact D|]. split; [exact DE|].
  replace (x - y) with ((x - E a i) + - (y - E b i) + (E a i - E b i)) by ring.
  eapply Rle_trans; [apply Rabs_triang|]. assert (T2 := Rabs_triang (x - E a i) (- (y - E b i))). rewrite Rabs_Ropp in T2. lra.
Qed.

Lemma two_rad l : mul A (of_int A 2) (f_rad A G l) = 2 * rad l.
Proof.
  rewrite (f_rad_exact prec Hprec G Frho n Hn). cbn [num base rounded_trav rounded mul of_int].
  rewrite (r_small prec Hprec 2) by lia.
  assert (X : 2 * rad l = rho * bpow radix2 (- Z.of_nat l)).
  { unfold rad. replace (- Z.of_nat l)%Z with (1 + - (Z.of_nat l + 1))%Z by lia. rewrite bpow_plus. simpl (bpow radix2 1). lra. }
  rewrite X. apply round_generic; auto with typeclass_instances. apply mult_bpow_exact_FLX; auto.
Qed.

(** two boxes of a level *)
Section Pair.
Variables a b i : nat.
Hypothesis Ha : (a < nboxes t)%nat.
Hypothesis Hb : (b < nboxes t)%nat.
Hypothesis Hi : (i < dim t)%nat.
Variable k : Z.
Hypothesis Hk : (box_center t a i - box_center t b i = k * (2 * box_rad t b))%Z.
Lemma E_pair : E a i - E b i = IZR k * (2 * rad (box_level t b)).
Proof.
  unfold TravFloatFacts.E. rewrite (h_box_rad t W G n Hn b Hb). set (h := rho / IZR (root_extent t)).
  replace (c0 i + h * IZR (box_center t a i - box_center t 0 i) - (c0 i + h * IZR (box_center t b i - box_center t 0 i)))
    with (h * IZR (box_center t a i - box_center t b i)) by (rewrite !minus_IZR; ring).
  rewrite Hk, !mult_IZR. ring.
Qed.
Lemma vector_exact : f_vector A ZnearestE t G b a i = k.
Proof.
  destruct (centers_err a b i Ha Hb Hi) as [D [DE B]]. rewrite E_pair in D, DE. unfold f_vector. rewrite two_rad.
  cbn [num base rounded_trav rounded div sub].
  set (x := f_center A t G a i) in *. set (y := f_center A t G b i) in *. cbn [num base rounded_trav rounded] in x, y.
  set (r := rad (box_level t b)) in *. assert (Pr : 0 < r) by (apply rad_pos'; auto).
  assert (RM := rad_min t G Prho n Hn (box_level t b) (wf_level_lt t W b Hb)). fold r in RM.
  assert (Q := round_err prec Hprec _ _ _ _ D B). assert (U := u_bound prec Hprec). fold u in Q, U, D, COND.
  set (d := rnd (x - y)) in *. assert (P := w_pos prec Hprec G Prho K HK2). fold u in P.
  assert (N := n_ge n Hn). assert (L1 := L_ge t W n Hn).
  assert (Z1 : Rabs (d / (2 * r) - IZR k) * (2 * r) <= (2 * L + 2) * (u * K)).
  { rewrite <- (Rabs_pos_eq (2 * r)) at 2 by lra. rewrite <- Rabs_mult.
    replace ((d / (2 * r) - IZR k) * (2 * r)) with (d - IZR k * (2 * r)) by (field; lra). lra. }
  assert (Z2 := r_rel prec Hprec (d / (2 * r))). fold u in Z2. set (z := d / (2 * r)) in *.
  apply Znearest_imp. apply Rmult_lt_reg_r with (2 * r); [lra|].
  assert (Z3 : Rabs z * (2 * r) <= rho + (2 * L + 2) * (u * K)).
  { assert (T := Rabs_triang (z - IZR k) (IZR k)). replace (z - IZR k + IZR k) with z in T by ring.
    rewrite Rabs_mult, (Rabs_pos_eq (2 * r)) in DE by lra.
    assert (Rabs z * (2 * r) <= (Rabs (z - IZR k) + Rabs (IZR k)) * (2 * r)) by (apply Rmult_le_compat_r; lra). lra. }
  assert (Z4 : Rabs (rnd z - IZR k) <= u * Rabs z + Rabs (z - IZR k)).
  { replace (rnd z - IZR k) with ((rnd z - z) + (z - IZR k)) by ring. eapply Rle_trans; [apply Rabs_triang|]. lra. }
  assert (Z5 : Rabs (rnd z - IZR k) * (2 * r) <= u * (Rabs z * (2 * r)) + Rabs (z - IZR k) * (2 * r)).
  { replace (u * (Rabs z * (2 * r)) + Rabs (z - IZR k) * (2 * r)) with ((u * Rabs z + Rabs (z - IZR k)) * (2 * r)) by ring. apply Rmult_le_compat_r; lra. }
  assert (Z6 : u * (Rabs z * (2 * r)) <= u * (rho + (2 * L + 2) * (u * K))) by (apply Rmult_le_compat_l; lra).
  assert (Z7 : u * rho <= u * K) by (apply Rmult_le_compat_l; lra).
  assert (Z8 : 0 <= (2 * L + 2) * (u * K)) by (apply Rmult_le_pos; lra).
  assert (Z9 : u * ((2 * L + 2) * (u * K)) <= 1 * ((2 * L + 2) * (u * K))) by (apply Rmult_le_compat_r; lra).
  assert (Z10 : 0 <= (INR n - 1) * (u * K)) by (apply Rmult_le_pos; lra).
  assert (Z11 : 0 <= L * (u * K)) by (apply Rmult_le_pos; lra).
  lra.
Qed.
(** the vector recorded for the displacement [k], before the division by a power of two is applied *)
Lemma distance_err v : v = div A (mul A (of_int A k) rho) (of_int A (2 ^ Z.of_nat (box_level t b))) -> (Z.abs k <= 2 * Z.of_nat n + 1)%Z ->
  Rabs (v - (E a i - E b i)) <= w /\ Rabs (v - (f_center A t G a i - f_center A t G b i)) <= (2 * L + 1) * w.
Proof.
  intros -> Sk. destruct (centers_err a b i Ha Hb Hi) as [D [DE B]].
  cbn [num base rounded_trav rounded div mul of_int]. 
  assert (NS := n_small prec Hprec t W G Prho n Hn K HK2 COND).
  assert (SK : (Z.abs k < 2 ^ prec)%Z).
  { assert (X : (2 ^ prec = 8 * 2 ^ (prec - 3))%Z) by (replace prec with (3 + (prec - 3))%Z at 1 by lia; rewrite Z.pow_add_r by lia; reflexivity). lia. }
  rewrite (r_int prec k SK), (IZR_pow2 (box_level t b)), (r_bpow prec Hprec).
  assert (X : rnd (rnd (IZR k * rho) / bpow radix2 (Z.of_nat (box_level t b))) = rnd (IZR k * rho) * bpow radix2 (- Z.of_nat (box_level t b))).
  { unfold Rdiv. rewrite <- bpow_opp. apply round_generic; auto with typeclass_instances. apply mult_bpow_exact_FLX.
    apply generic_format_round; auto with typeclass_instances. }
  rewrite X. assert (Y : E a i - E b i = IZR k * rho * bpow radix2 (- Z.of_nat (box_level t b))).
  { rewrite E_pair. unfold TravFloatFacts.rad. replace (- Z.of_nat (box_level t b))%Z with (1 + - (Z.of_nat (box_level t b) + 1))%Z by lia.
    rewrite (bpow_plus radix2 1). change (bpow radix2 1) with 2. ring. }
  assert (BP := bpow_gt_0 radix2 (- Z.of_nat (box_level t b))). set (s := bpow radix2 (- Z.of_nat (box_level t b))) in *.
  assert (U := u_bound prec Hprec). fold u in U.
  assert (V : Rabs (rnd (IZR k * rho) * s - (E a i - E b i)) <= w).
  { rewrite Y. replace (rnd (IZR k * rho) * s - IZR k * rho * s) with ((rnd (IZR k * rho) - IZR k * rho) * s) by ring.
    rewrite Rabs_mult, (Rabs_pos_eq s) by lra. assert (Q := r_rel prec Hprec (IZR k * rho)). fold u in Q.
    eapply Rle_trans; [apply Rmult_le_compat_r; [lra|exact Q]|].
    replace (u * Rabs (IZR k * rho) * s) with (u * Rabs (IZR k * rho * s)) by (rewrite (Rabs_mult (IZR k * rho) s), (Rabs_pos_eq s) by lra; ring).
    rewrite <- Y. fold u. apply Rmult_le_compat_l; lra. }
  split; [exact V|].
  set (x := f_center A t G a i) in *. set (y := f_center A t G b i) in *. cbn [num base rounded_trav rounded] in x, y.
  replace (rnd (IZR k * rho) * s - (x - y)) with ((rnd (IZR k * rho) * s - (E a i - E b i)) + - (x - y - (E a i - E b i))) by ring.
  eapply Rle_trans; [apply Rabs_triang|]. rewrite Rabs_Ropp. lra.
Qed.
End Pair.
End Facts.

(** ** the classes *)
Local Open Scope nat_scope.
Section Classes.
Variable prec : Z.
Hypothesis Hprec : (24 <= prec)%Z.
Variable t : tree.
Hypothesis W : wf_tree t.
Variable G : float_geometry R.
Hypothesis GO : geometry_ok prec G.
Variable P : trav_params.
Hypothesis WP : wf_params t P.
Hypothesis PE : precise_enough prec t (well_sep_is_n_away P) G.
Variable tr : traversal.
Hypothesis Htr : build_traversal t P = Some tr.
Notation A := (rounded_trav prec).
Notation n := (well_sep_is_n_away P).
Notation ttpb := (target_or_target_parent_boxes tr).
Notation c := (from_sep_siblings tr).
Notation N := (nclasses_per_level n (dim t)).

Lemma f_vector_unit k a b i : list2_pair tr k a b -> i < dim t -> f_vector A ZnearestE t G b a i = unit_vec t a b i.
Proof.
  intros X Hi. destruct (pair_geometry t W P WP tr Htr _ _ _ X) as [LA [LB [_ [_ [U _]]]]]. specialize (U i Hi). unfold translation in U.
  destruct PE as [K [H1 [H2 H3]]]. destruct GO as [F [Pp _]]. destruct WP as [Hn _].
  exact (vector_exact prec Hprec t W G F Pp n Hn K H2 H1 H3 a b i LA LB Hi _ U).
Qed.
Lemma f_item_ok per_level k a b : list2_pair tr k a b ->
  f_class_item A ZnearestE t G n per_level c ttpb k = class_item t n per_level c ttpb k.
Proof.
  intros X. rewrite (item_ok t W P WP tr Htr per_level k a b X).
  destruct (pair_geometry t W P WP tr Htr _ _ _ X) as [LA [LB [LV [BD [U _]]]]]. assert (X0 := X). destruct X as [i [Hi [R [EA EB]]]].
  unfold f_class_item. rewrite !(starts_total t W P WP tr Htr) in R by lia.
  assert (RO := row_of (rows t P tr) i k ltac:(rewrite rows_length; auto) R). rewrite <- (c_rows t W P WP tr Htr), rows_length in RO. rewrite RO.
  rewrite <- EB, <- EA, <- LV, Nat.eqb_refl. cbn [negb].
  set (v := f_vector _ _ _ _ _ _).
  assert (E : forall i, i < dim t -> v i = unit_vec t a b i) by (intros; apply (f_vector_unit k); auto).
  rewrite class_code.
  - unfold full_class. rewrite (code_ext _ _ _ _ E), LV. destruct per_level; f_equal; lia.
  - apply (bounds_ext t P (unit_vec t a b)); auto. intros; symmetry; auto.
Qed.
Lemma run_all_ext {X Y} (f g : X -> option Y) l : (forall x, In x l -> f x = g x) -> run_all f l = run_all g l.
Proof. induction l as [|x l IH]; intros H; cbn; auto. rewrite (H x (or_introl eq_refl)), IH by (intros; apply H; right; auto). auto. Qed.
Lemma f_compute_eq per_level : f_compute_classes A ZnearestE t G n per_level tr = compute_translation_classes t n per_level tr.
Proof.
  unfold f_compute_classes, compute_translation_classes. f_equal. apply run_all_ext. intros k Hk. apply in_seq in Hk.
  destruct (pair_exists t W P WP tr Htr k ltac:(lia)) as [a [b X]]. apply (f_item_ok per_level k a b X).
Qed.
End Classes.

(** ** the columns *)
Section Columns.
Variable A : trav_arith.
Variable t : tree.
Variable G : float_geometry (num A).
Variable n : nat.
Variable used : list bool.
Definition f_state_at (m : nat) := fold_left (f_class_step A t G n) (combine (seq 0 m) (firstn m used))
  (mkCS 0 None (fun _ => None) (fun _ => None) (fun _ => None), fun _ => None).
Lemma f_state_ok m : m <= length used ->
  fst (f_state_at m) = state_at t n used m /\
  (forall i, i < m -> nth i used false = true -> snd (f_state_at m) (rank used i) = Some (f_distance A t G n i)).
Proof.
  induction m as [|m IH]; intros Hm.
  - split; [reflexivity|intros; lia].
  - destruct (IH ltac:(lia)) as [I1 I2]. clear IH. unfold f_state_at, state_at. rewrite (combine_seq_S _ _ false) by lia.
    rewrite !fold_left_app. cbn [fold_left]. fold (f_state_at m). fold (state_at t n used m).
    destruct (f_state_at m) as [st d]. cbn [fst snd] in *. unfold f_class_step. cbn [fst snd]. rewrite I1. split; [reflexivity|].
    destruct (state_ok t n used m ltac:(lia)) as [H1 _]. cbv zeta in H1. rewrite H1.
    intros i Hi Ui. destruct (Nat.eq_dec i m) as [->|D].
    + rewrite Ui. unfold set. rewrite Nat.eqb_refl. reflexivity.
    + specialize (I2 i ltac:(lia) Ui). destruct (nth m used false) eqn:Um; [|exact I2].
      unfold set. destruct (Nat.eqb_spec (rank used i) (rank used m)) as [E|_]; [|exact I2].
      apply (rank_inj used) in E; auto; lia.
Qed.
End Columns.

Section All.
Variable prec : Z.
Hypothesis Hprec : (24 <= prec)%Z.
Variable t : tree.
Hypothesis W : wf_tree t.
Variable G : float_geometry R.
Hypothesis GO : geometry_ok prec G.
Variable P : trav_params.
Hypothesis WP : wf_params t P.
Hypothesis PE : precise_enough prec t (well_sep_is_n_away P) G.
Variable tr tr0 : traversal.
Hypothesis Htr : build_traversal_in (rounded_trav prec) G t P = Some tr.
Hypothesis Htr0 : build_traversal t P = Some tr0.
Notation n := (well_sep_is_n_away P).

Lemma same_lists : from_sep_siblings tr = from_sep_siblings tr0 /\ target_or_target_parent_boxes tr = target_or_target_parent_boxes tr0.
Proof.
  rewrite (build_in_eq prec Hprec t W G GO P WP PE) in Htr. rewrite (build_traversal_eq t W P (proj1 WP)) in Htr0.
  injection Htr as <-. injection Htr0 as <-. split; reflexivity.
Qed.
Lemma compute_same per_level : f_compute_classes (rounded_trav prec) ZnearestE t G n per_level tr = compute_translation_classes t n per_level tr0.
Proof.
  rewrite <- (f_compute_eq prec Hprec t W G GO P WP PE tr0 Htr0). unfold f_compute_classes. destruct same_lists as [-> ->]. reflexivity.
Qed.
Lemma pairs_same k a b : list2_pair tr k a b <-> list2_pair tr0 k a b.
Proof. unfold list2_pair. destruct same_lists as [-> ->]. tauto. Qed.
Lemma f_classes_ok per_level : exists fi ci, f_translation_classes (rounded_trav prec) ZnearestE t G n per_level tr = Some fi /\
  translation_classes t n per_level tr0 = Some ci /\ fi_classes fi = ci_classes ci /\ fi_starts fi = ci_starts ci /\
  (forall k a b, list2_pair tr k a b -> exists cl, nth k (fi_classes fi) None = Some cl /\
     fi_dist fi cl = Some (f_distance (rounded_trav prec) t G n (full_class t P per_level a b))).
Proof.
  destruct (compute_ok t W P WP tr0 Htr0 per_level) as [cls [EC [LC Q]]].
  destruct (classes_ok t W P WP tr0 Htr0 per_level) as [ci [used0 [E [LU [_ [_ [_ [_ [PR _]]]]]]]]].
  unfold translation_classes in E |- *. unfold f_translation_classes. rewrite compute_same, EC in *.
  set (used := map _ _) in *. injection E as Eci.
  assert (ST := f_state_ok (rounded_trav prec) t G n used (length used) (le_n _)). unfold f_state_at, state_at in ST. rewrite firstn_all in ST.
  destruct (fold_left (f_class_step (rounded_trav prec) t G n) _ _) as [st d]. cbn [fst snd] in ST. destruct ST as [-> S2].
  eexists. exists ci. split; [reflexivity|]. split; [f_equal; exact Eci|]. subst ci. cbn [fi_classes ci_classes fi_starts ci_starts fi_dist] in *.
  split; [reflexivity|]. split; [reflexivity|]. intros k a b X. apply pairs_same in X.
  assert (FL := full_class_lt t W P WP tr0 Htr0 per_level _ _ _ X). assert (PL := pair_lt t W P WP tr0 Htr0 _ _ _ X).
  set (i := full_class t P per_level a b) in *.
  assert (UL : length used = nclasses_per_level n (dim t) * (if per_level then nlevels t else 1)) by (unfold used; rewrite map_length, seq_length; auto).
  assert (UI : nth i used false = true).
  { unfold used. rewrite (nth_indep _ false (existsb (Nat.eqb 0) cls)) by (rewrite map_length, seq_length; auto).
    rewrite (map_nth (fun k => existsb (Nat.eqb k) cls)), seq_nth by auto. apply existsb_exists. exists i. split; [|apply Nat.eqb_refl].
    unfold i. rewrite <- (Q k a b X). apply nth_In. lia. }
  exists (rank used i). split; [|apply S2; [lia|exact UI]].
  destruct (state_ok t n used (length used) (le_n _)) as [_ [_ [_ [H4 _]]]]. unfold state_at in H4. rewrite firstn_all in H4.
  match goal with |- context [map ?f cls] => rewrite (nth_indep _ None (f 0)) by (rewrite map_length; lia); rewrite map_nth end.
  rewrite (Q k a b X). fold i. rewrite H4, UI. destruct (Nat.ltb_spec i (length used)); [reflexivity|lia].
Qed.
(** the recorded vector of a pair *)
Lemma f_distance_ok k a b i K : list2_pair tr k a b -> i < dim t ->
  (2 * f_extent G <= K)%R -> (forall i, (i < dim t)%nat -> Rabs (f_root_center G i) + 2 * f_extent G <= K)%R ->
  ((4 * INR (nlevels t) + 4 * INR n + 20) * (bpow radix2 (- prec) * K) < f_extent G * bpow radix2 (- Z.of_nat (nlevels t)))%R ->
  let v := f_distance (rounded_trav prec) t G n (full_class t P true a b) i in
  (Rabs (v - f_extent G * IZR (translation t a b i) / IZR (root_extent t)) <= bpow radix2 (- prec) * K)%R /\
  (Rabs (v - (f_center (rounded_trav prec) t G a i - f_center (rounded_trav prec) t G b i)) <= (2 * INR (nlevels t) + 1) * (bpow radix2 (- prec) * K))%R.
Proof.
  intros X Hi H1 H2 H3 v. apply pairs_same in X.
  destruct (pair_geometry t W P WP tr0 Htr0 _ _ _ X) as [LA [LB [LV [BD [U _]]]]].
  destruct (full_class_mod t W P WP tr0 Htr0 true _ _ _ X) as [M1 M2].
  assert (EV : v = div (rounded_trav prec) (mul (rounded_trav prec) (of_int (rounded_trav prec) (unit_vec t a b i)) (f_extent G)) (of_int (rounded_trav prec) (2 ^ Z.of_nat (box_level t b)))).
  { unfold v, f_distance. rewrite M1, M2, code_vector by auto. reflexivity. }
  assert (UI := U i Hi). unfold translation in UI. destruct GO as [F [Pp _]]. destruct WP as [Hn _].
  assert (D := distance_err prec Hprec t W G F Pp n Hn K H2 H1 H3 a b i LA LB Hi _ UI v EV).
  destruct D as [D1 D2]. { specialize (BD i Hi). lia. }
  split; [|exact D2].
  replace (f_extent G * IZR (translation t a b i) / IZR (root_extent t))%R with (E t G a i - E t G b i)%R; [exact D1|].
  unfold E, translation. rewrite !minus_IZR. unfold Rdiv. ring.
Qed.
End All.
