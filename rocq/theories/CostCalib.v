(** Linearity of the modelled costs in the calibration parameters, and the least-squares
    estimation of these parameters. *)
From Coq Require Import List Arith ZArith Lia Bool QArith Qcanon Field.
From Verif Require Import Base Tree Spec Traversal SpecTraversal Fmm SpecFmm Cost SpecCost CostFacts.
Import ListNotations.
Local Open Scope Qc_scope.

(** ** Linearity *)
Definition scale_stages (c : calibration) (s : stage_costs) : stage_costs :=
  {| form_multipoles_stage := c_p2m c * form_multipoles_stage s;
     coarsen_multipoles_stage := c_m2m c * coarsen_multipoles_stage s;
     eval_direct_stage := c_p2p c * eval_direct_stage s;
     multipole_to_local_stage := c_m2l c * multipole_to_local_stage s;
     eval_multipoles_stage := c_m2p c * eval_multipoles_stage s;
     form_locals_stage := c_p2l c * form_locals_stage s;
     refine_locals_stage := c_l2l c * refine_locals_stage s;
     eval_locals_stage := c_l2p c * eval_locals_stage s |}.

Section Linear.
Variables (t : tree) (p : particles) (tr : traversal) (tcounts : nat -> nat).
Variables (x : xlat_model) (c : calibration).
Notation F := (factors_from_model x c).
Notation U := (factors_from_model x unit_calibration).
Lemma qsum_scale {A} (f g : A -> Qc) l k : (forall y, In y l -> f y = k * g y) -> qsum (map f l) = k * qsum (map g l).
Proof.
  intros H. rewrite (qsum_ext f (fun y => g y * k)); [rewrite qsum_map_mul; ring|]. intros y Hy. rewrite H; auto. ring.
Qed.
Lemma list3_fold_scale ls a u k : (forall b, a b = k * u b) ->
  (forall l, m2p_cost F l = k * m2p_cost U l) -> forall b,
  fold_left (fun nm2p lb => list3_kernel_cost tcounts F (fst lb) (fst (snd lb)) (snd (snd lb)) nm2p) ls a b =
  k * fold_left (fun nm2p lb => list3_kernel_cost tcounts U (fst lb) (fst (snd lb)) (snd (snd lb)) nm2p) ls u b.
Proof.
  intros H HF. revert a u H. induction ls as [|[l [bx cs]] ls IH]; intros a u H b; cbn [fold_left]; auto.
  apply IH. clear b. cbn [fst snd]. unfold list3_kernel_cost. revert a u H.
  induction (combine (seq 0 (length bx)) bx) as [|[i T] es IHe]; intros a u H b; cbn [fold_left]; auto.
  apply IHe. intros b'. cbn [fst snd]. unfold qadd_at, qset. destruct (b' =? T)%nat; auto.
  rewrite H, HF. ring.
Qed.
Theorem stage_costs_linear : cost_per_stage t p tr tcounts F = scale_stages c (cost_per_stage t p tr tcounts U).
Proof.
  unfold cost_per_stage, cost_per_stage_with, scale_stages.
  cbn [form_multipoles_stage coarsen_multipoles_stage eval_direct_stage multipole_to_local_stage
       eval_multipoles_stage form_locals_stage refine_locals_stage eval_locals_stage].
  f_equal.
  - unfold form_multipoles_cost. apply qsum_scale. intros y _. cbn [p2m_cost factors_from_model unit_calibration c_p2m]. ring.
  - unfold coarsen_multipoles_cost. apply qsum_scale. intros y _. cbn [m2m_cost factors_from_model unit_calibration c_m2m].
    destruct (lvl t y <=? 1)%nat; ring.
  - unfold direct_cost. apply qsum_scale. intros y _. cbn [p2p_cost factors_from_model unit_calibration c_p2p]. ring.
  - unfold list2_cost. apply qsum_scale. intros y _. cbn [m2l_cost factors_from_model unit_calibration c_m2l]. ring.
  - apply qsum_scale. intros b _. unfold list3_cost. apply list3_fold_scale.
    + intros b'. unfold qzeros. ring.
    + intros l. cbn [m2p_cost factors_from_model unit_calibration c_m2p]. ring.
  - unfold list4_cost. apply qsum_scale. intros y _. rewrite !qsum_fold.
    rewrite (qsum_scale _ (fun S => of_Z (nsrc p S) * p2l_cost U (lvl t S)) _ (c_p2l c)); [ring|].
    intros S _. cbn [p2l_cost factors_from_model unit_calibration c_p2l]. ring.
  - unfold refine_locals_cost. apply qsum_scale. intros y _. cbn [l2l_cost factors_from_model unit_calibration c_l2l]. ring.
  - unfold eval_locals_cost. apply qsum_scale. intros y _. cbn [l2p_cost factors_from_model unit_calibration c_l2p]. ring.
Qed.
End Linear.

(** ** Least squares *)
Lemma sq_nonneg (x : Qc) : 0 <= x * x.
Proof.
  destruct (Qclt_le_dec x 0) as [H|H].
  - replace (x * x) with ((- x) * (- x)) by ring.
    assert (H' : 0 <= - x). { apply Qclt_le_weak in H. apply Qcopp_le_compat in H. exact H. }
    replace 0 with (0 * - x) by ring. apply Qcmult_le_compat_r; auto.
  - replace 0 with (0 * x) by ring. apply Qcmult_le_compat_r; auto.
Qed.
Lemma qsum_nonneg {A} (f : A -> Qc) l : (forall y, 0 <= f y) -> 0 <= qsum (map f l).
Proof.
  intros H. induction l; cbn [map]; [apply Qcle_refl|]. rewrite qsum_cons.
  replace 0 with (0 + 0) by ring. apply Qcplus_le_compat; auto.
Qed.
Lemma qdot_cons x a y b : qdot (x :: a) (y :: b) = x * y + qdot a b.
Proof. unfold qdot. cbn [combine map fst snd]. apply qsum_cons. Qed.
Lemma qdot_nil b : qdot [] b = 0. Proof. reflexivity. Qed.
Lemma qdot_self_nonneg u : 0 <= qdot u u.
Proof.
  induction u as [|x u IH]; [apply Qcle_refl|]. rewrite qdot_cons. replace 0 with (0 + 0) by ring.
  apply Qcplus_le_compat; auto. apply sq_nonneg.
Qed.
Lemma qdot_self_0 u : qdot u u = 0 -> forall x, In x u -> x = 0.
Proof.
  induction u as [|y u IH]; intros H x Hx; [contradiction|]. rewrite qdot_cons in H.
  assert (Hy : y * y = 0).
  { apply Qcle_antisym; [|apply sq_nonneg]. rewrite <- H. replace (y * y) with (y * y + 0) at 1 by ring.
    apply Qcplus_le_compat; [apply Qcle_refl|apply qdot_self_nonneg]. }
  assert (y = 0) by (destruct (Qcmult_integral _ _ Hy); auto). subst y.
  destruct Hx as [->|Hx]; auto. apply IH; auto. rewrite <- H. ring.
Qed.
Lemma atol_pos : 0 < atol. Proof. reflexivity. Qed.
Lemma all_close_zero_0 u : (forall x, In x u -> x = 0) -> all_close_zero u = true.
Proof. intros H. unfold all_close_zero. apply forallb_forall. intros x Hx. rewrite (H x Hx). reflexivity. Qed.
Lemma fit_nonzero u : all_close_zero u = false -> qdot u u <> 0.
Proof. intros H E. rewrite all_close_zero_0 in H; [discriminate|]. apply qdot_self_0. auto. Qed.
Lemma fit_eq u a : all_close_zero u = false -> fit u a = Fin (qdot a u / qdot u u).
Proof.
  intros H. unfold fit, fdiv. rewrite H. destruct (Qc_eq_dec (qdot u u) 0) as [E|]; auto.
  destruct (fit_nonzero u H E).
Qed.
Lemma qdot_scale c u v : qdot (map (fun x => c * x) u) v = c * qdot u v.
Proof.
  revert v. induction u as [|x u IH]; intros [|y v]; cbn [map]; rewrite ?qdot_nil; try (unfold qdot; simpl; ring).
  rewrite !qdot_cons, IH. ring.
Qed.
Lemma fit_exact u c : all_close_zero u = false -> fit u (map (fun x => c * x) u) = Fin c.
Proof.
  intros H. rewrite fit_eq by auto. f_equal. rewrite qdot_scale. field. apply fit_nonzero. auto.
Qed.

Lemma sq_error_eq k u a : length u = length a ->
  sq_error k u a = qdot a a - (k + k) * qdot a u + k * k * qdot u u.
Proof.
  unfold sq_error. revert a. induction u as [|x u IH]; intros [|y a] H; try discriminate.
  - unfold qdot. simpl. ring.
  - injection H as H. cbn [combine map fst snd]. rewrite qsum_cons, IH by auto. rewrite !qdot_cons. ring.
Qed.
Lemma fit_optimal u a r : length u = length a -> all_close_zero u = false -> fit u a = Fin r ->
  forall k, sq_error r u a <= sq_error k u a.
Proof.
  intros L Z E k. rewrite (fit_eq u a Z) in E. injection E as E. pose proof (fit_nonzero u Z) as N.
  rewrite !sq_error_eq by auto.
  assert (D : qdot a u = r * qdot u u) by (rewrite <- E; field; auto).
  rewrite D. 
  assert (G : qdot a a - (r + r) * (r * qdot u u) + r * r * qdot u u + (k - r) * (k - r) * qdot u u =
              qdot a a - (k + k) * (r * qdot u u) + k * k * qdot u u) by ring.
  rewrite <- G.
  replace (qdot a a - (r + r) * (r * qdot u u) + r * r * qdot u u)
     with (qdot a a - (r + r) * (r * qdot u u) + r * r * qdot u u + 0) at 1 by ring.
  apply Qcplus_le_compat; [apply Qcle_refl|].
  replace 0 with (0 * qdot u u) by ring. apply Qcmult_le_compat_r; [apply sq_nonneg|apply qdot_self_nonneg].
Qed.

Lemma uncalibrated_std s q sc : In (s, q) stage_to_param ->
  uncalibrated stage_to_param q (with_stage_costs sc) = cost_of sc s.
Proof.
  intros H. simpl in H. repeat (destruct H as [H|H]; [injection H as <- <-; reflexivity|]). contradiction.
Qed.
Lemma run_all_map {A B C} (f : B -> option C) (g : A -> B) (h : A -> C) l :
  (forall x, In x l -> f (g x) = Some (h x)) -> run_all f (map g l) = Some (map h l).
Proof.
  induction l as [|x l IH]; intros H; cbn [map run_all]; auto.
  rewrite (H x) by (simpl; auto). rewrite IH; auto. intros; apply H; simpl; auto.
Qed.
Lemma lookup_std s : In s (map fst stage_to_param) -> exists q, In (s, q) stage_to_param /\ lookup_param s stage_to_param = Some q.
Proof.
  intros H. simpl in H. repeat (destruct H as [<-|H]; [eexists; split; [|reflexivity]; simpl; tauto|]). contradiction.
Qed.
Lemma param_eqb_eq a b : param_eqb a b = true <-> a = b.
Proof.
  destruct a, b; simpl; split; intros H; try discriminate; auto.
  - apply Nat.eqb_eq in H. subst. auto.
  - injection H as ->. apply Nat.eqb_refl.
Qed.
Lemma std_inj s s' q : In (s, q) stage_to_param -> In (s', q) stage_to_param -> s = s'.
Proof.
  intros H H'. simpl in H, H'.
  repeat (destruct H as [H|H]; [injection H as <- <-; repeat (destruct H' as [H'|H']; [try discriminate H'; injection H' as <-; reflexivity|]); contradiction|]).
  contradiction.
Qed.
Lemma actual_std s q tm f : In (s, q) stage_to_param -> timed_stages tm f ->
  actual stage_to_param q tm = Some (f s).
Proof.
  intros Hs [ND [T1 T2]].
  assert (G : forall (tm : list (stage * Qc)) (v0 : Qc), (forall s' v, In (s', v) tm -> In s' (map fst stage_to_param)) ->
    NoDup (map fst tm) ->
    fold_left (fun (v : option Qc) st => match v, lookup_param (fst st) stage_to_param with
                         | Some v, Some q' => Some (if param_eqb q' q then snd st else v)
                         | _, _ => None
                         end) tm (Some v0) =
    Some (match find (fun e => stage_eqb (fst e) s) tm with Some e => snd e | None => v0 end)).
  { clear -Hs. induction tm as [|[s' v'] tm IH]; intros v0 H ND; cbn [fold_left find]; auto. cbn [fst snd].
    inversion ND as [|? ? N1 N2]; subst.
    destruct (lookup_std s') as [q' [Q1 Q2]]. { apply (H s' v'). simpl; auto. }
    rewrite Q2. rewrite IH; [|intros; eapply H; simpl; eauto|auto].
    assert (SE : forall a b, In a (map fst stage_to_param) -> In b (map fst stage_to_param) ->
      stage_eqb a b = true <-> a = b).
    { intros a b Ha Hb. split; [|intros ->; destruct b; simpl; auto using Nat.eqb_refl].
      destruct a, b; simpl; try discriminate; auto. intros E. apply Nat.eqb_eq in E. subst. auto. }
    assert (Ss : In s (map fst stage_to_param)) by (apply in_map_iff; exists (s, q); auto).
    assert (Ss' : In s' (map fst stage_to_param)) by (apply in_map_iff; exists (s', q'); auto).
    destruct (stage_eqb s' s) eqn:E.
    - apply SE in E; auto. subst s'.
      assert (q' = q) by (clear -Hs Q1; simpl in *; repeat (destruct Hs as [Hs|Hs]; [injection Hs as <- <-; repeat (destruct Q1 as [Q1|Q1]; [try discriminate Q1; injection Q1 as <-; reflexivity|]); contradiction|]); contradiction).
      subst q'. rewrite (proj2 (param_eqb_eq q q) eq_refl).
      destruct (find _ tm) as [[s2 v2]|] eqn:E2; auto. exfalso. apply find_some in E2. destruct E2 as [E2 E3].
      cbn [fst] in E3. apply SE in E3; auto; [|eapply H; simpl; eauto]. subst s2. apply N1. apply in_map_iff. exists (s, v2). auto.
    - assert (E' : param_eqb q' q = false).
      { destruct (param_eqb q' q) eqn:E'; auto. apply param_eqb_eq in E'. subst q'.
        rewrite (std_inj s' s q Q1 Hs) in E. rewrite (proj2 (SE s s Ss Ss) eq_refl) in E. discriminate. }
      rewrite E'. auto. }
  unfold actual. rewrite G; auto.
  assert (Ss : In s (map fst stage_to_param)) by (apply in_map_iff; exists (s, q); auto).
  pose proof (T1 s Ss) as HI. clear G.
  assert (SE : forall a b, stage_eqb a b = true <-> a = b).
  { intros a b. split; [|intros ->; destruct b; simpl; auto using Nat.eqb_refl].
    destruct a, b; simpl; try discriminate; auto. intros E. apply Nat.eqb_eq in E. subst. auto. }
  destruct (find (fun e => stage_eqb (fst e) s) tm) as [[s2 v2]|] eqn:E.
  - apply find_some in E. destruct E as [E1 E2]. cbn [fst snd] in *. apply SE in E2. subst s2.
    f_equal. clear -ND HI E1. induction tm as [|[a b] tm IH]; [contradiction|].
    inversion ND as [|? ? N1 N2]; subst. destruct E1 as [E1|E1], HI as [HI|HI].
    + congruence.
    + injection E1 as -> ->. destruct N1. apply in_map_iff. exists (s, f s). auto.
    + injection HI as -> ->. destruct N1. apply in_map_iff. exists (s, v2). auto.
    + auto.
  - apply (find_none _ _ E) in HI. cbn [fst] in HI. rewrite (proj2 (SE s s) eq_refl) in HI. discriminate.
Qed.

Section Estimate.
(** calibration cases: model results with unit parameters, and timings of the runs *)
Variable cases : list (stage_costs * list (stage * Qc)).
Variable time : stage_costs * list (stage * Qc) -> stage -> Qc.
Hypothesis TM : forall x, In x cases -> timed_stages (snd x) (time x).
Let models := map (fun x => with_stage_costs (fst x)) cases.
Let timings := map snd cases.

Lemma estimate_eq s q : In (s, q) stage_to_param ->
  estimate stage_to_param models timings q =
  Some (fit (map (fun x => cost_of (fst x) s) cases) (map (fun x => time x s) cases)).
Proof.
  intros Hs. unfold estimate, models, timings. rewrite !map_length, Nat.eqb_refl.
  rewrite (run_all_map _ _ (fun x => time x s)) by (intros x Hx; apply actual_std; auto).
  rewrite map_map. f_equal. f_equal. apply map_ext. intros x. apply uncalibrated_std. auto.
Qed.
End Estimate.
