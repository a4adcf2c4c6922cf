(** The separation criteria of the model and those of SpecExtLists.v agree; contents of the lists. *)
From Coq Require Import List Arith ZArith NArith Reals Lra Lia Bool.
From Verif Require Import Base Tree Spec TreeFacts Walk WalkFacts Traversal GeomFacts SpecTraversal TraversalLists
  Coverage CoverageThm ListFacts SepFacts FmmThm SpecExtLists.
Import ListNotations.

Section Crit.
Variable t : tree.
Hypothesis W : wf_tree t.
Variable ex : extent_info.
Hypothesis WE : wf_extent ex.
Local Open Scope R_scope.

Lemma sd_pos : 0 < IZR (stick_out_den ex).
Proof. destruct WE as [? [? _]]. apply IZR_lt. auto. Qed.
Lemma ed_pos : 0 < IZR (eps_den ex).
Proof. destruct WE as [? [? [? [? ?]]]]. apply IZR_lt. auto. Qed.
Lemma sn_eq : IZR (stick_out_num ex) = stick_out ex * IZR (stick_out_den ex).
Proof. unfold stick_out. pose proof sd_pos. field. lra. Qed.
Lemma en_eq : IZR (eps_num ex) = mach_eps ex * IZR (eps_den ex).
Proof. unfold mach_eps. pose proof ed_pos. field. lra. Qed.
Lemma so_nonneg : 0 <= stick_out ex.
Proof. destruct WE as [? _]. unfold stick_out. pose proof sd_pos. apply Rmult_le_pos; [apply IZR_le; auto|]. left. apply Rinv_0_lt_compat. auto. Qed.
Lemma eps_small : 0 <= mach_eps ex /\ 12 * mach_eps ex <= 1.
Proof.
  destruct WE as [? [? [? [? ?]]]]. pose proof ed_pos. split.
  - unfold mach_eps. apply Rmult_le_pos; [apply IZR_le; auto|]. left. apply Rinv_0_lt_compat. auto.
  - apply Rmult_le_reg_r with (IZR (eps_den ex)); auto. rewrite Rmult_assoc, <- en_eq. rewrite <- mult_IZR, Rmult_1_l. apply IZR_le. auto.
Qed.

Lemma max_axes_exists d f r k : (0 < k)%Z -> (0 < r)%Z -> ((r <= max_axes d f * k)%Z <-> exists i, (i < d)%nat /\ (r <= f i * k)%Z).
Proof.
  intros Hk Hr. split.
  - intros H. assert (P : (0 < max_axes d f)%Z) by nia.
    destruct (max_axes_ge d f _ P (Z.le_refl _)) as [i [Hi H2]]. exists i. split; auto. nia.
  - intros [i [Hi H]]. assert (f i <= max_axes d f)%Z; [|nia].
    unfold max_axes. destruct (fold_max_le f (seq 0 d) 0%Z (fold_left (fun acc i => Z.max acc (f i)) (seq 0 d) 0%Z)) as [G _].
    destruct (G (Z.le_refl _)) as [_ G2]. apply G2. apply in_seq. lia.
Qed.

Lemma smaller_crit T B : (T < nboxes t)%nat -> (B < nboxes t)%nat ->
  (meets_sep_smaller t ex T B = true <-> separated_smaller t ex T B).
Proof.
  intros HT HB. pose proof (box_rad_pos t W T HT) as PT. pose proof (box_rad_pos t W B HB) as PB.
  destruct WE as [S1 [S2 [E1 [E2 E3]]]].
  pose proof sd_pos as SD. pose proof ed_pos as ED. pose proof sn_eq as SN. pose proof en_eq as EN.
  assert (PB' : 0 < radius t B) by (apply IZR_lt; auto). assert (PT' : 0 < radius t T) by (apply IZR_lt; auto).
  assert (G1 : (0 < (2 * eps_den ex - 8 * eps_num ex) * box_rad t B)%Z) by nia.
  unfold meets_sep_smaller, separated_smaller. destruct (from_sep_smaller_crit ex).
  - rewrite Z.leb_le. rewrite max_axes_exists by nia.
    split; intros [i [Hi H]]; exists i; (split; [auto|]).
    + apply IZR_le in H. rewrite !mult_IZR, !minus_IZR, !mult_IZR, plus_IZR, abs_IZR, minus_IZR in H. rewrite SN, EN in H.
      fold (center t T i) (center t B i) (radius t T) (radius t B) in H.
      set (c := Rabs _) in *. set (sd := IZR (stick_out_den ex)) in *. set (ed := IZR (eps_den ex)) in *.
      apply Rmult_le_reg_r with (sd * ed); [apply Rmult_lt_0_compat; auto|]. lra.
    + apply le_IZR. rewrite !mult_IZR, !minus_IZR, !mult_IZR, plus_IZR, abs_IZR, minus_IZR. rewrite SN, EN.
      fold (center t T i) (center t B i) (radius t T) (radius t B).
      set (c := Rabs _) in *. set (sd := IZR (stick_out_den ex)) in *. set (ed := IZR (eps_den ex)) in *.
      apply Rmult_le_compat_r with (r := sd * ed) in H; [lra|]. apply Rlt_le, Rmult_lt_0_compat; auto.
  - rewrite Z.leb_le. rewrite max_axes_exists by nia.
    assert (A2 : forall i, Rabs (IZR (tgt_ext_center2 ex T i) - 2 * center t B i) = 2 * Rabs (bbox_center ex T i - center t B i)).
    { intros i. replace (IZR (tgt_ext_center2 ex T i) - 2 * center t B i) with (2 * (bbox_center ex T i - center t B i)) by (unfold bbox_center; field).
      rewrite Rabs_mult, (Rabs_pos_eq 2) by lra. auto. }
    assert (B2 : forall i, IZR (tgt_ext_radius2 ex T i) = 2 * bbox_radius ex T i) by (intros; unfold bbox_radius; field).
    split; intros [i [Hi H]]; exists i; (split; [auto|]).
    + apply IZR_le in H. rewrite !mult_IZR, !minus_IZR, !mult_IZR, abs_IZR, minus_IZR, mult_IZR in H. rewrite EN in H.
      fold (center t B i) (radius t B) in H. rewrite A2, B2 in H.
      set (c := Rabs _) in *. set (ed := IZR (eps_den ex)) in *. set (q := bbox_radius ex T i) in *.
      apply Rmult_le_reg_r with (2 * ed); [lra|]. lra.
    + apply le_IZR. rewrite !mult_IZR, !minus_IZR, !mult_IZR, abs_IZR, minus_IZR, mult_IZR. rewrite EN.
      fold (center t B i) (radius t B). rewrite A2, B2.
      set (c := Rabs _) in *. set (ed := IZR (eps_den ex)) in *. set (q := bbox_radius ex T i) in *.
      apply Rmult_le_compat_r with (r := 2 * ed) in H; lra.
  - cbv zeta. set (D2 := zsum _). set (a := ((3 * eps_den ex - 8 * eps_num ex) * stick_out_den ex * box_rad t B)%Z).
    set (w := ((stick_out_den ex + stick_out_num ex) * eps_den ex * box_rad t T)%Z).
    set (k := (stick_out_den ex * eps_den ex)%Z).
    assert (Pa : (0 < a)%Z) by (unfold a; assert (0 < 3 * eps_den ex - 8 * eps_num ex)%Z by lia; nia).
    assert (Pw : (0 < w)%Z) by (unfold w; nia). assert (Pk : (0 < k)%Z) by (unfold k; nia).
    assert (PD : (0 <= D2)%Z) by (apply zsum_nonneg; intros; apply Z.square_nonneg).
    assert (EDist : center_dist t T B = sqrt (IZR D2)).
    { clear PD. unfold center_dist. f_equal. unfold D2. induction (seq 0 (dim t)) as [|i l IH]; [reflexivity|].
      cbn [map fold_right]. rewrite IH. unfold zsum. cbn [fold_right map]. rewrite plus_IZR, mult_IZR, minus_IZR. reflexivity. }
    rewrite EDist. set (d := dim t).
    assert (REW : (2 - 8 * mach_eps ex) * radius t B <= sqrt (IZR D2) - sqrt (INR d) * ((1 + stick_out ex) * radius t T) - radius t B <->
       IZR a + sqrt (INR d) * IZR w <= IZR k * sqrt (IZR D2)).
    { unfold a, w, k. rewrite !mult_IZR, minus_IZR, !mult_IZR, plus_IZR. rewrite SN, EN.
      fold (radius t T) (radius t B). set (sd := IZR (stick_out_den ex)) in *. set (ed := IZR (eps_den ex)) in *.
      set (q := sqrt (INR d)). set (z := sqrt (IZR D2)).
      assert (PP : 0 < sd * ed) by (apply Rmult_lt_0_compat; auto). split; intros H.
      - apply Rmult_le_compat_r with (r := sd * ed) in H; lra.
      - apply Rmult_le_reg_r with (sd * ed); auto; lra. }
    rewrite REW. clear REW.
    assert (HA : 0 < IZR a) by (apply IZR_lt; auto). assert (HW : 0 < IZR w) by (apply IZR_lt; auto). assert (HK : 0 < IZR k) by (apply IZR_lt; auto).
    assert (HD : 0 <= IZR D2) by (apply IZR_le; auto).
    set (b := (Z.of_nat d * (w * w))%Z). assert (Pb : (0 <= b)%Z) by (unfold b; nia).
    set (q := sqrt (INR d)). set (z := sqrt (IZR D2)).
    assert (Q0 : 0 <= q) by apply sqrt_pos. assert (Z0 : 0 <= z) by apply sqrt_pos.
    assert (Q2 : q * q = INR d) by (apply sqrt_sqrt; apply pos_INR). assert (Z2 : z * z = IZR D2) by (apply sqrt_sqrt; auto).
    assert (EB : IZR b = (q * IZR w) * (q * IZR w)).
    { unfold b. rewrite !mult_IZR, <- INR_IZR_INZ, <- Q2. ring. }
    set (r := (k * k * D2 - a * a - b)%Z).
    assert (ER : IZR r = (IZR k * z) * (IZR k * z) - IZR a * IZR a - (q * IZR w) * (q * IZR w)).
    { unfold r. rewrite !minus_IZR, !mult_IZR, EB, <- Z2. ring. }
    rewrite andb_true_iff, !Z.leb_le.
    replace (4 * (a * a) * b)%Z with ((4 * (a * a)) * b)%Z by ring.
    set (y := IZR k * z) in *. set (x := q * IZR w) in *. assert (Y0 : 0 <= y) by (unfold y; nra). assert (X0 : 0 <= x) by (unfold x; nra).
    assert (I1 : (0 <= r)%Z <-> 0 <= IZR r) by (split; [apply IZR_le|apply le_IZR]).
    assert (I2 : (4 * (a * a) * b <= r * r)%Z <-> 4 * (IZR a * IZR a) * (x * x) <= IZR r * IZR r).
    { rewrite <- EB. split; intros H; [apply IZR_le in H|apply le_IZR]; rewrite !mult_IZR in *; auto. }
    rewrite I1, I2, ER. set (al := IZR a) in *. clearbody al x y. clear - HA X0 Y0. split.
    + intros [H1 H2]. assert (H3 : 2 * al * x <= y * y - al * al - x * x).
      { apply Rsqr_incr_0_var; auto. unfold Rsqr. nra. }
      apply Rsqr_incr_0_var; auto. unfold Rsqr. nra.
    + intros H. assert (H3 : (al + x) * (al + x) <= y * y) by (apply Rmult_le_compat; lra).
      set (m := y * y - al * al - x * x). assert (H4 : 2 * al * x <= m) by (unfold m; lra).
      assert (H5 : 0 <= al * x) by (apply Rmult_le_pos; lra). split; [lra|].
      replace (4 * (al * al) * (x * x)) with ((2 * al * x) * (2 * al * x)) by ring. apply Rmult_le_compat; lra.
Qed.

Lemma bigger_crit A s : (A < nboxes t)%nat -> (s < nboxes t)%nat ->
  (meets_sep_bigger t ex (box_center t A) (box_level t A) (box_center t s) (box_level t s) = true <-> separated_bigger t ex A s).
Proof.
  intros HA HS. pose proof (box_rad_pos t W A HA) as PA. pose proof (box_rad_pos t W s HS) as PS.
  destruct WE as [S1 [S2 [E1 [E2 E3]]]].
  pose proof sd_pos as SD. pose proof ed_pos as ED. pose proof sn_eq as SN. pose proof en_eq as EN.
  unfold meets_sep_bigger, separated_bigger. rewrite Z.leb_le. fold (box_rad t A) (box_rad t s). rewrite linf_dist_max.
  rewrite max_axes_exists.
  2:{ nia. }
  2:{ assert (0 < eps_den ex - 8 * eps_num ex)%Z by lia. assert (0 < 3 * (stick_out_den ex + stick_out_num ex) * box_rad t A + stick_out_den ex * box_rad t s)%Z by nia. nia. }
  split; intros [i [Hi H]]; exists i; (split; [auto|]).
  - apply IZR_le in H. rewrite !mult_IZR, minus_IZR, plus_IZR, !mult_IZR, plus_IZR, abs_IZR, minus_IZR in H. rewrite SN, EN in H.
    fold (center t A i) (center t s i) (radius t A) (radius t s) in H.
    set (c := Rabs _) in *. set (sd := IZR (stick_out_den ex)) in *. set (ed := IZR (eps_den ex)) in *.
    apply Rmult_le_reg_r with (sd * ed); [apply Rmult_lt_0_compat; auto|]. lra.
  - apply le_IZR. rewrite !mult_IZR, minus_IZR, plus_IZR, !mult_IZR, plus_IZR, abs_IZR, minus_IZR. rewrite SN, EN.
    fold (center t A i) (center t s i) (radius t A) (radius t s).
    set (c := Rabs _) in *. set (sd := IZR (stick_out_den ex)) in *. set (ed := IZR (eps_den ex)) in *.
    apply Rmult_le_compat_r with (r := sd * ed) in H; [lra|]. apply Rlt_le, Rmult_lt_0_compat; auto.
Qed.
End Crit.

Section Lists.
Variable t : tree.
Hypothesis W : wf_tree t.
Hypothesis F : wf_flags t.
Variable P : trav_params.
Hypothesis WP : wf_params t P.
Let n := well_sep_is_n_away P.
Let Hn : 1 <= n := proj1 WP.
Let ex := extents P.
Hypothesis WE : wf_extent ex.
Hypothesis EX : targets_have_extent ex = true.
Variable tr : traversal.
Hypothesis Htr : build_traversal t P = Some tr.

Lemma stop_iff T B : T < nboxes t -> B < nboxes t -> (stop t ex T B = true <-> through_multipole t ex T B).
Proof.
  intros HT HB. unfold stop, is_far, through_multipole. rewrite EX.
  rewrite !andb_true_iff, !negb_true_iff, Nat.ltb_ge, (smaller_crit t W ex WE T B HT HB).
  assert (A := adj_touching t W T B HT HB). destruct (adj t T B); intuition discriminate.
Qed.
Lemma stop_iff_false T B : T < nboxes t -> B < nboxes t -> (stop t ex T B = false <-> ~ through_multipole t ex T B).
Proof. intros HT HB. rewrite <- (stop_iff T B HT HB). destruct (stop t ex T B); intuition discriminate. Qed.

Lemma list3_ext_spec l T : In T (target_boxes tr) -> l < nlevels t ->
  NoDup (list3_level_of tr l T) /\
  forall B, In B (list3_level_of tr l T) <->
   B < nboxes t /\ holds_sources t B /\ box_level t B = l /\ box_level t T < l /\
   (exists C, In C (ancestors_or_self t B) /\ C <> T /\ within_n_boxes t n T C) /\
   through_multipole t ex T B /\
   forall A, In A (ancestors_or_self t B) -> box_level t T < box_level t A < l -> ~ through_multipole t ex T A.
Proof.
  intros HT Hl. split; [apply (list3_level_NoDup t W F P WP tr Htr); auto|].
  pose proof (tr_tb_range t W P WP tr Htr T HT) as HTl. intros B.
  rewrite (list3_level_in t W F P WP tr Htr l T B HT Hl). split.
  - intros [HB [HH [HL [HLT [Hin [ES HA]]]]]]. repeat (split; [assumption|]). split; [|split].
    + apply (chain_at t W P WP); auto; lia.
    + apply stop_iff; auto.
    + intros A HAc [L1 L2]. apply in_chain in HAc; auto. destruct HAc as [k [Hk ->]].
      rewrite anc_level in L1, L2 by auto. apply stop_iff_false; auto. apply anc_lt; auto.
  - intros [HB [HH [HL [HLT [HC [ES HA]]]]]]. repeat (split; [assumption|]). split; [|split].
    + apply (chain_at t W P WP) in HC; auto; lia.
    + apply stop_iff; auto.
    + intros k Hk. apply stop_iff_false; auto; [apply anc_lt; auto|]. apply HA.
      * apply in_chain; auto. exists k. split; auto; lia.
      * rewrite anc_level; auto; lia.
Qed.

Lemma close3_count T s : In T (target_boxes tr) -> s < nboxes t -> is_source t s = true ->
  count s (list3_close_of tr T) =
  if (box_level t T <? box_level t s) &&
     (forallb (fun j => negb (stop t ex T (anc t j s)))
              (seq (S (box_level t T)) (box_level t s - S (box_level t T))) && (negb (adj t T s) && negb (is_far t ex T s)))
  then count (anc t (box_level t T) s) (slnws_list t n T) else 0.
Proof.
  intros HT Hs Ss. pose proof (tr_tb_range t W P WP tr Htr T HT) as HTl.
  rewrite (tr_eq t W P WP tr Htr), list3_close_of_count by (auto; rewrite <- (tr_tb t W P WP tr Htr); auto).
  fold n ex. rewrite EX. rewrite list3_count_raw by auto.
  destruct (Nat.ltb_spec (box_level t T) (box_level t s)) as [L|L]; simpl andb; auto.
  rewrite list3_close_out by auto.
  assert (E2 : forall l0, (forall j, In j l0 -> j < box_level t s) ->
    forallb (fun k => snd (list3_visit t ex T None (anc t k s) 0)) l0 =
    forallb (fun j => negb (stop t ex T (anc t j s))) l0).
  { induction l0 as [|j l0 IH]; intros H; simpl; auto. rewrite IH by (intros; apply H; right; auto).
    f_equal. specialize (H j (or_introl eq_refl)). rewrite list3_desc; auto.
    eapply (hsc_anc t W n); eauto. }
  rewrite E2 by (intros j Hj; apply in_seq in Hj; lia). clear E2.
  destruct (forallb _ _); simpl; auto.
  destruct (_ && _); [rewrite count_cons, Nat.eqb_refl, count_nil; lia|rewrite count_nil; lia].
Qed.
Lemma close3_source T s : In T (target_boxes tr) -> In s (list3_close_of tr T) -> s < nboxes t /\ is_source t s = true.
Proof.
  intros HT Hs. pose proof (tr_tb_range t W P WP tr Htr T HT) as HTl.
  apply count_In in Hs. rewrite (tr_eq t W P WP tr Htr), list3_close_of_count in Hs by (auto; rewrite <- (tr_tb t W P WP tr Htr); auto).
  fold n ex in Hs. rewrite EX in Hs. apply count_In in Hs. assert (Hs2 := Hs).
  unfold pick in Hs. apply in_map_iff in Hs. destruct Hs as [p [<- Hp]]. apply filter_In in Hp. destruct Hp as [Hp Hf].
  assert (R : snd p < nboxes t) by (eapply list3_in_range; eauto). split; auto.
  apply count_In in Hs2. rewrite list3_count_raw in Hs2 by auto.
  destruct (is_source t (snd p)) eqn:E; auto. exfalso.
  assert (Z : pick false (fst (list3_visit t ex T None (snd p) 0)) = []); [|rewrite Z, count_nil in Hs2; destruct (_ && _); lia].
  unfold list3_visit. rewrite E. destruct (flag _ _); [|reflexivity]. destruct (adj t T (snd p)).
  - destruct (has_source_child t (snd p)); reflexivity.
  - rewrite EX. cbn [andb]. destruct (meets_sep_smaller _ _ _ _ && _); reflexivity.
Qed.
Lemma close3_ext_spec T : In T (target_boxes tr) ->
  NoDup (list3_close_of tr T) /\
  forall s, In s (list3_close_of tr T) <->
   s < nboxes t /\ is_source t s = true /\ box_level t T < box_level t s /\
   (exists C, In C (ancestors_or_self t s) /\ C <> T /\ within_n_boxes t n T C) /\
   ~ touching t T s /\
   forall A, In A (ancestors_or_self t s) -> box_level t T < box_level t A -> ~ through_multipole t ex T A.
Proof.
  intros HT. pose proof (tr_tb_range t W P WP tr Htr T HT) as HTl. split.
  - apply NoDup_count. intros x. destruct (in_dec Nat.eq_dec x (list3_close_of tr T)) as [i|i].
    + destruct (close3_source T x HT i) as [Hx Sx]. rewrite close3_count by auto. destruct (_ && _); [|lia].
      apply NoDup_count. apply slnws_NoDup; auto.
    + apply count_notIn in i. lia.
  - intros s. split.
    + intros Hs. destruct (close3_source T s HT Hs) as [Hx Sx]. apply count_In in Hs. rewrite close3_count in Hs by auto.
      destruct (Nat.ltb_spec (box_level t T) (box_level t s)) as [L|L]; simpl in Hs; [|lia].
      destruct (forallb _ _) eqn:FB; simpl in Hs; [|lia].
      destruct (adj t T s) eqn:EA; simpl in Hs; [lia|]. destruct (is_far t ex T s) eqn:EF; simpl in Hs; [lia|].
      apply count_In in Hs. repeat (split; [assumption|]). split; [apply (chain_at t W P WP); auto|]. split.
      * intros TC. apply adj_touching in TC; auto. congruence.
      * intros A HAc L1. apply in_chain in HAc; auto. destruct HAc as [k [Hk ->]]. rewrite anc_level in L1 by auto.
        apply stop_iff_false; auto; [apply anc_lt; auto|].
        destruct (Nat.eq_dec k (box_level t s)) as [->|NE].
        -- rewrite anc_self. unfold stop. rewrite EA, EF. reflexivity.
        -- rewrite forallb_forall in FB. specialize (FB k ltac:(apply in_seq; lia)). apply negb_true_iff in FB. auto.
    + intros [Hx [Sx [L [HC [NT HA]]]]]. apply count_In. rewrite close3_count by auto.
      rewrite (proj2 (Nat.ltb_lt _ _) L). cbn [andb].
      assert (EA : adj t T s = false). { destruct (adj t T s) eqn:E; auto. exfalso. apply NT. apply adj_touching in E; auto. }
      assert (ES : stop t ex T s = false).
      { apply stop_iff_false; auto. apply HA; auto. apply in_chain; auto. exists (box_level t s). split; auto. symmetry. apply anc_self. }
      unfold stop in ES. rewrite EA in *. cbn [negb andb] in *. rewrite ES.
      rewrite (proj2 (forallb_forall _ _)).
      * cbn [negb andb]. apply count_In. apply (chain_at t W P WP); auto.
      * intros k Hk. apply in_seq in Hk. apply negb_true_iff. apply stop_iff_false; auto; [apply anc_lt; auto|]. apply HA.
        -- apply in_chain; auto. exists k. split; auto; lia.
        -- rewrite anc_level; auto; lia.
Qed.

(** *** List 4 *)
Lemma entry_sound tag A x : A < nboxes t -> x < nboxes t -> 1 <= box_level t x -> box_level t x <= box_level t A ->
  In x (slnws_list t n (anc t (box_level t x) A)) ->
  count x (pick tag (list4_entry t ex n A (box_level t x) x)) =
  let mb a := meets_sep_bigger t ex (box_center t a) (box_level t a) (box_center t x) (box_level t x) in
  if is_source t x && negb (adj t A x) &&
     (if tag then mb A && ((box_level t A =? box_level t x) || adj t (box_parent t A) x || negb (mb (box_parent t A)))
      else negb (mb A) && is_target t A) then 1 else 0.
Proof.
  intros HA Hx L1 L2 Hin. cbv zeta. unfold list4_entry. destruct (is_source t x); [|reflexivity].
  assert (A0 : 0 < A). { destruct A; [rewrite (wf_root_level t W) in L2; lia|lia]. }
  replace (is_adj t (box_center t A) (box_level t A) (box_center t x) (box_level t x))
    with (adj t A x) by reflexivity.
  replace (is_adj t (box_center t (box_parent t A)) (box_level t A - 1) (box_center t x) (box_level t x))
    with (adj t (box_parent t A) x) by (unfold adj; rewrite parent_level_pred by auto; auto).
  rewrite EX. rewrite parent_level_pred by auto.
  destruct (adj t A x) eqn:EA; [destruct tag; reflexivity|]. cbn [negb andb].
  destruct (meets_sep_bigger t ex (box_center t A) (box_level t A) (box_center t x) (box_level t x)); cbn [negb andb].
  2:{ destruct tag, (is_target t A); try reflexivity; unfold pick; cbn; rewrite count_cons, Nat.eqb_refl; reflexivity. }
  set (mp := meets_sep_bigger _ _ _ _ _ _).
  assert (one : count x (pick tag [(true, x)]) = if tag then 1 else 0).
  { destruct tag; unfold pick; cbn; [rewrite count_cons, Nat.eqb_refl|]; reflexivity. }
  destruct (Nat.eqb_spec (box_level t A) (box_level t x)) as [EL|NL]; cbn [orb].
  - destruct (Nat.ltb_spec 1 n) as [L|L].
    + rewrite EL, Nat.ltb_irrefl, andb_false_r. rewrite one. destruct tag; reflexivity.
    + exfalso. assert (N1 : n = 1) by lia. apply slnws_in in Hin; auto using anc_lt.
      destruct Hin as [_ [_ [_ Hin]]]. rewrite <- EL, anc_self, N1 in Hin.
      apply adj_near in Hin; auto. congruence.
  - assert (E : (if 1 <? n then box_level t x <? box_level t A else true) = true).
    { destruct (1 <? n); auto. apply Nat.ltb_lt. lia. }
    rewrite E, andb_true_r.
    destruct (adj t (box_parent t A) x); cbn [negb orb]; [rewrite one; destruct tag; reflexivity|].
    destruct mp; cbn [negb]; [destruct tag; reflexivity|rewrite one; destruct tag; reflexivity].
Qed.
Lemma colleague_chain A s : A < nboxes t -> s < nboxes t ->
  (1 <= box_level t s /\ box_level t s <= box_level t A /\ In s (slnws_list t n (anc t (box_level t s) A)) <->
   box_level t s <= box_level t A /\ colleague_above t n A s).
Proof.
  intros HA Hs. split.
  - intros [L1 [L2 Hin]]. split; auto. exists (anc t (box_level t s) A). split; [apply in_chain; eauto|].
    apply slnws_in in Hin; auto using anc_lt. destruct Hin as [_ [G1 [G2 G3]]]. split; auto. apply near_within; auto.
  - intros [L2 [C [HC [HC1 HC2]]]]. apply in_chain in HC; auto. destruct HC as [k [Hk ->]].
    assert (EK : k = box_level t s) by (destruct HC2 as [L _]; rewrite anc_level in L; auto). subst k.
    split; [|split; auto].
    + destruct (box_level t s) eqn:E0; [|lia]. exfalso. apply HC1. rewrite anc_0 by auto. symmetry. apply (level_0 t W); auto.
    + apply slnws_in; auto using anc_lt. destruct HC2 as [L WN]. repeat split; auto. apply near_within; auto. split; auto.
Qed.
Lemma list4_in_gen tag (lst : list nat) A : A < nboxes t ->
  (forall x, In x lst -> x < nboxes t) ->
  (forall x, count x lst = count x (pick tag (list4_list t n ex A))) ->
  NoDup lst /\ forall s, In s lst <->
    s < nboxes t /\ is_source t s = true /\ box_level t s <= box_level t A /\ colleague_above t n A s /\ ~ touching t A s /\
    (if tag then separated_bigger t ex A s /\
       (box_level t A = box_level t s \/ touching t (box_parent t A) s \/ ~ separated_bigger t ex (box_parent t A) s)
     else ~ separated_bigger t ex A s /\ is_target t A = true).
Proof.
  intros HA R K.
  assert (K2 : forall x, x < nboxes t -> count x lst =
    if (1 <=? box_level t x) && (box_level t x <=? box_level t A)
    then count x (slnws_list t n (anc t (box_level t x) A)) *
         count x (pick tag (list4_entry t ex n A (box_level t x) x)) else 0).
  { intros x Hx. rewrite K. apply list4_count; auto. }
  split.
  - apply NoDup_count. intros x. destruct (in_dec Nat.eq_dec x lst) as [i|i].
    + pose proof (R x i) as Hx. rewrite K2 by auto.
      destruct (Nat.leb_spec 1 (box_level t x)) as [L1|L1]; simpl; [|lia].
      destruct (Nat.leb_spec (box_level t x) (box_level t A)) as [L2|L2]; [|lia].
      destruct (in_dec Nat.eq_dec x (slnws_list t n (anc t (box_level t x) A))) as [j|j].
      * rewrite entry_sound by auto. rewrite count_NoDup_In; auto.
        -- cbv zeta. destruct (_ && _); lia.
        -- apply slnws_NoDup; auto using anc_lt.
      * apply count_notIn in j. rewrite j. lia.
    + apply count_notIn in i. lia.
  - intros s.
    assert (D : s < nboxes t -> (In s lst <-> (1 <= box_level t s /\ box_level t s <= box_level t A /\ In s (slnws_list t n (anc t (box_level t s) A))) /\
       is_source t s = true /\ ~ touching t A s /\
    (if tag then separated_bigger t ex A s /\
       (box_level t A = box_level t s \/ touching t (box_parent t A) s \/ ~ separated_bigger t ex (box_parent t A) s)
     else ~ separated_bigger t ex A s /\ is_target t A = true))).
    { intros Hs. pose proof (parent_lt t W A HA) as HP.
      assert (T1 := adj_touching t W A s HA Hs). assert (T2 := adj_touching t W (box_parent t A) s HP Hs).
      assert (M1 := bigger_crit t W ex WE A s HA Hs). assert (M2 := bigger_crit t W ex WE (box_parent t A) s HP Hs).
      rewrite count_In, K2 by auto. split.
      - destruct (Nat.leb_spec 1 (box_level t s)) as [L1|L1]; simpl; [|lia].
        destruct (Nat.leb_spec (box_level t s) (box_level t A)) as [L2|L2]; [|lia]. intros H.
        assert (Hin : In s (slnws_list t n (anc t (box_level t s) A))) by (apply count_In; lia).
        rewrite entry_sound in H by auto. cbv zeta in H. split; auto.
        destruct (_ && _) eqn:E in H; [|lia]. rewrite !andb_true_iff, negb_true_iff in E. destruct E as [[E1 E2] E3].
        split; auto. split; [intros X; apply T1 in X; congruence|].
        destruct tag; rewrite andb_true_iff in E3; destruct E3 as [E3 E4].
        + split; [apply M1; auto|]. rewrite !orb_true_iff, Nat.eqb_eq, negb_true_iff in E4. destruct E4 as [[E4|E4]|E4]; auto.
          * right; left. apply T2. auto.
          * right; right. intros X. apply M2 in X. congruence.
        + split; auto. intros X. apply M1 in X. rewrite X in E3. discriminate.
      - intros [[L1 [L2 Hin]] [S1 [NT C]]].
        rewrite (proj2 (Nat.leb_le _ _) L1), (proj2 (Nat.leb_le _ _) L2). cbn [andb].
        rewrite entry_sound by auto. cbv zeta. rewrite S1.
        assert (EA : adj t A s = false) by (destruct (adj t A s); auto; exfalso; tauto). rewrite EA. cbn [negb andb].
        apply count_In in Hin.
        assert (X : (if tag then meets_sep_bigger t ex (box_center t A) (box_level t A) (box_center t s) (box_level t s) &&
            ((box_level t A =? box_level t s) || adj t (box_parent t A) s || negb (meets_sep_bigger t ex (box_center t (box_parent t A)) (box_level t (box_parent t A)) (box_center t s) (box_level t s)))
           else negb (meets_sep_bigger t ex (box_center t A) (box_level t A) (box_center t s) (box_level t s)) && is_target t A) = true).
        { destruct tag; destruct C as [C1 C2]; apply andb_true_iff; split.
          - apply M1. auto.
          - rewrite !orb_true_iff, Nat.eqb_eq, negb_true_iff. destruct C2 as [C2|[C2|C2]]; auto.
            + left; right. apply T2. auto.
            + right. destruct (meets_sep_bigger _ _ (box_center t (box_parent t A)) _ _ _) eqn:EM; auto. exfalso. apply C2. apply M2. reflexivity.
          - apply negb_true_iff. destruct (meets_sep_bigger _ _ _ _ _ _) eqn:EM; auto. exfalso. apply C1. apply M1. reflexivity.
          - auto. }
        rewrite X. lia. }
    split.
    + intros H. pose proof (R s H) as Hs. apply D in H; auto. destruct H as [H1 [H2 [H3 H4]]].
      apply colleague_chain in H1; auto. tauto.
    + intros [Hs [H2 [H3 [H4 [H5 H6]]]]]. apply D; auto. split; [|tauto]. apply colleague_chain; auto.
Qed.
Lemma list4_ext_spec A : In A (target_or_target_parent_boxes tr) ->
  NoDup (list4_of tr A) /\
  forall s, In s (list4_of tr A) <->
   s < nboxes t /\ is_source t s = true /\ box_level t s <= box_level t A /\ colleague_above t n A s /\ ~ touching t A s /\
   separated_bigger t ex A s /\
   (box_level t A = box_level t s \/ touching t (box_parent t A) s \/ ~ separated_bigger t ex (box_parent t A) s).
Proof.
  intros HA. apply (list4_in_gen true).
  - apply (tr_ttpb_range t W P WP tr Htr); auto.
  - intros x Hx. eapply list4_of_in_range; eauto.
  - intros x. rewrite (tr_eq t W P WP tr Htr). apply list4_of_count. rewrite <- (tr_ttpb t W P WP tr Htr). auto.
Qed.
Lemma close4_ext_spec T : In T (target_boxes tr) ->
  NoDup (list4_close_of tr T) /\
  forall s, In s (list4_close_of tr T) <->
   s < nboxes t /\ is_source t s = true /\ box_level t s <= box_level t T /\ colleague_above t n T s /\ ~ touching t T s /\
   ~ separated_bigger t ex T s.
Proof.
  intros HT. pose proof (tr_tb_range t W P WP tr Htr T HT) as HTl.
  assert (K : forall x, count x (list4_close_of tr T) = count x (pick false (list4_list t n ex T))).
  { intros x. rewrite (tr_eq t W P WP tr Htr), list4_close_of_count by (auto; rewrite <- (tr_tb t W P WP tr Htr); auto).
    fold ex n. rewrite EX. auto. }
  assert (IT : is_target t T = true).
  { apply (tb_ttpb t P Hn T WP). rewrite <- (tr_tb t W P WP tr Htr). auto. }
  destruct (list4_in_gen false (list4_close_of tr T) T HTl) as [N I]; auto.
  { intros x Hx. apply (close4_range t W P WP tr Htr T x HT Hx). }
  split; auto. intros s. rewrite I. rewrite IT. tauto.
Qed.
End Lists.
