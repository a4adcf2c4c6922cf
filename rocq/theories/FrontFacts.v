(** Proofs about BuildFront.v. *)
From Coq Require Import List Arith ZArith Lia Bool.
From Verif Require Import Base Tree Fmm TreeBuild BuildFront SpecBuild SpecFront.
Import ListNotations.
Local Open Scope Z_scope.

(** ** Reductions *)
Lemma find_bbox_min huge x rad r ax : (forall i, In i (elements r) -> x i ax - rad i <= huge) ->
  (forall i, In i (elements r) -> fst (find_bbox huge x rad r) ax <= x i ax - rad i) /\
  fst (find_bbox huge x rad r) ax <= huge /\
  (fst (find_bbox huge x rad r) ax = huge \/ exists i, In i (elements r) /\ fst (find_bbox huge x rad r) ax = x i ax - rad i).
Proof.
  induction r as [|i|l IHl r IHr]; intros H; cbn [find_bbox elements] in *.
  - cbn. split; [intros i []|]. split; [lia|auto].
  - cbn. split; [intros j [->|[]]; lia|]. split; [apply H; left; auto|]. right. exists i. auto.
  - destruct IHl as [L1 [L2 L3]]; [intros i Hi; apply H; apply in_or_app; auto|].
    destruct IHr as [R1 [R2 R3]]; [intros i Hi; apply H; apply in_or_app; auto|].
    cbn [agg_bbox fst]. split; [|split; [lia|]].
    + intros i Hi. apply in_app_or in Hi. destruct Hi as [Hi|Hi]; [specialize (L1 i Hi)|specialize (R1 i Hi)]; lia.
    + destruct (Z.min_spec (fst (find_bbox huge x rad l) ax) (fst (find_bbox huge x rad r) ax)) as [[_ ->]|[_ ->]].
      * destruct L3 as [L3|[i [Hi E]]]; auto. right. exists i. rewrite in_app_iff. auto.
      * destruct R3 as [R3|[i [Hi E]]]; auto. right. exists i. rewrite in_app_iff. auto.
Qed.
Lemma find_bbox_max huge x rad r ax : (forall i, In i (elements r) -> - huge <= x i ax + rad i) ->
  (forall i, In i (elements r) -> x i ax + rad i <= snd (find_bbox huge x rad r) ax) /\
  - huge <= snd (find_bbox huge x rad r) ax /\
  (snd (find_bbox huge x rad r) ax = - huge \/ exists i, In i (elements r) /\ snd (find_bbox huge x rad r) ax = x i ax + rad i).
Proof.
  induction r as [|i|l IHl r IHr]; intros H; cbn [find_bbox elements] in *.
  - cbn. split; [intros i []|]. split; [lia|auto].
  - cbn. split; [intros j [->|[]]; lia|]. split; [apply H; left; auto|]. right. exists i. auto.
  - destruct IHl as [L1 [L2 L3]]; [intros i Hi; apply H; apply in_or_app; auto|].
    destruct IHr as [R1 [R2 R3]]; [intros i Hi; apply H; apply in_or_app; auto|].
    cbn [agg_bbox snd]. split; [|split; [lia|]].
    + intros i Hi. apply in_app_or in Hi. destruct Hi as [Hi|Hi]; [specialize (L1 i Hi)|specialize (R1 i Hi)]; lia.
    + destruct (Z.max_spec (snd (find_bbox huge x rad l) ax) (snd (find_bbox huge x rad r) ax)) as [[_ ->]|[_ ->]].
      * destruct R3 as [R3|[i [Hi E]]]; auto. right. exists i. rewrite in_app_iff. auto.
      * destruct L3 as [L3|[i [Hi E]]]; auto. right. exists i. rewrite in_app_iff. auto.
Qed.
Lemma bbox_exact huge x rad r n ax : reduces r n -> (0 < n)%nat ->
  (forall i, (i < n)%nat -> - huge <= x i ax + rad i /\ x i ax - rad i <= huge) ->
  (forall i, (i < n)%nat -> fst (find_bbox huge x rad r) ax <= x i ax - rad i) /\
  (exists i, (i < n)%nat /\ fst (find_bbox huge x rad r) ax = x i ax - rad i) /\
  (forall i, (i < n)%nat -> x i ax + rad i <= snd (find_bbox huge x rad r) ax) /\
  (exists i, (i < n)%nat /\ snd (find_bbox huge x rad r) ax = x i ax + rad i).
Proof.
  intros R Hn H.
  destruct (find_bbox_min huge x rad r ax) as [L1 [L2 L3]]; [intros i Hi; apply H; apply R; auto|].
  destruct (find_bbox_max huge x rad r ax) as [U1 [U2 U3]]; [intros i Hi; apply H; apply R; auto|].
  assert (I0 : In 0%nat (elements r)) by (apply R; auto).
  split; [intros i Hi; apply L1; apply R; auto|]. split.
  { destruct L3 as [E|[i [Hi E]]].
    - exists 0%nat. split; auto. specialize (L1 _ I0). destruct (H 0%nat Hn). lia.
    - exists i. split; auto. apply R; auto. }
  split; [intros i Hi; apply U1; apply R; auto|].
  destruct U3 as [E|[i [Hi E]]].
  - exists 0%nat. split; auto. specialize (U1 _ I0). destruct (H 0%nat Hn). lia.
  - exists i. split; auto. apply R; auto.
Qed.

(** ** The checks *)
Section Front.
Variable a : args.
Variable r : reduction.
Variable inp : input.
Hypothesis H : front a r = inl inp.

Lemma front_facts : exists w maxw lo hi,
  (have_radii a && shared a = false) /\ limits a = inl (w, maxw) /\ root_box a r = inl (lo, hi) /\
  0 < maxw /\ maxw <= INT_MAX /\ (0 < nsrcntgts a)%nat /\
  (forall u, (u < nsrcntgts a)%nat -> 0 <= w u <= maxw) /\
  (0 < first_guess a maxw (zsum (map w (seq 0 (nsrcntgts a)))))%nat /\
  (have_radii a = true -> exists s, a_stick_out a = Some s) /\
  inp = {| idim := a_dim a; npart := nsrcntgts a; nsrc := a_nsources a; same := shared a; coord := srcntgts a;
             ext := if have_radii a then
                      match a_stick_out a with
                      | Some (sn, sd) => Some (mkExtents (srcntgt_radii a) sn sd (match a_norm a with Some nm => nm | None => Linf end))
                      | None => None
                      end
                    else None;
             weight := w; max_weight := maxw; bbox_min := lo; bbox_max := hi; build_kind := a_kind a;
             nlevels_max := a_nlevels_max a; skip_prune := a_skip_prune a;
             nboxes_guess := first_guess a maxw (zsum (map w (seq 0 (nsrcntgts a)))); lr_lookbehind := a_lookbehind a |}.
Proof.
  unfold front in H.
  destruct (have_radii a && shared a) eqn:E1; [discriminate|].
  destruct (negb (shape_ok (a_nsources a) (a_source_radii a))) eqn:E2; [discriminate|].
  destruct (negb (shape_ok (ntargets_arg a) (a_target_radii a))) eqn:E3; [discriminate|].
  destruct (have_radii a && match a_stick_out a with None => true | _ => false end) eqn:E4; [discriminate|].
  destruct (limits a) as [[w maxw]|e] eqn:E5; [|discriminate].
  destruct (negb (0 <? maxw)) eqn:E6; [discriminate|].
  destruct (Nat.eqb_spec (nsrcntgts a) 0) as [|E7]; [discriminate|].
  destruct (negb (forallb (fun u => w u <=? maxw) (seq 0 (nsrcntgts a)))) eqn:E8; [discriminate|].
  destruct (negb (forallb (fun u => 0 <=? w u) (seq 0 (nsrcntgts a)))) eqn:E9; [discriminate|].
  destruct (root_box a r) as [[lo hi]|e] eqn:E10; [|discriminate].
  cbv zeta in H.
  destruct (negb (0 <? first_guess a maxw (zsum (map w (seq 0 (nsrcntgts a)))))%nat) eqn:E11; [discriminate|].
  destruct (negb (maxw <=? INT_MAX)) eqn:E12; [discriminate|].
  injection H as <-. exists w, maxw, lo, hi.
  apply negb_false_iff in E6, E8, E9, E11, E12. apply Z.ltb_lt in E6. apply Nat.ltb_lt in E11. apply Z.leb_le in E12.
  rewrite forallb_forall in E8, E9.
  do 3 (split; auto). split; auto. split; auto. split; [lia|]. split.
  { intros u Hu. specialize (E8 u ltac:(apply in_seq; lia)). specialize (E9 u ltac:(apply in_seq; lia)).
    apply Z.leb_le in E8, E9. lia. }
  split; auto. split; auto. intros HR. rewrite HR in E4. destruct (a_stick_out a); [eauto|discriminate].
Qed.
End Front.

(** ** The user's points *)
Lemma point_of a u : (u < nsrcntgts a)%nat -> user_point a u (srcntgts a u).
Proof.
  unfold nsrcntgts, ntargets_arg, srcntgts, user_point. destruct (a_targets a) as [[n tg]|]; intros Hu.
  - destruct (Nat.ltb_spec u (a_nsources a)); [left; auto|right]. exists n, tg. repeat split; auto; lia.
  - left. split; auto. lia.
Qed.
Lemma point_eq a u p : user_point a u p -> p = srcntgts a u /\ (u < nsrcntgts a)%nat.
Proof.
  unfold nsrcntgts, ntargets_arg, srcntgts. intros [[Hu ->]|[n [tg [E [Hu ->]]]]].
  - destruct (a_targets a) as [[n tg]|]; [|split; auto; lia]. destruct (Nat.ltb_spec u (a_nsources a)); [|lia]. split; auto; lia.
  - rewrite E. destruct (Nat.ltb_spec u (a_nsources a)); [lia|]. split; auto; lia.
Qed.
Lemma radius_of a u : (u < nsrcntgts a)%nat -> user_radius a u (srcntgt_radii a u).
Proof.
  unfold nsrcntgts, ntargets_arg, srcntgt_radii, user_radius. intros Hu. destruct (Nat.ltb_spec u (a_nsources a)); [left; auto|].
  destruct (a_targets a) as [[n tg]|]; [|lia]. right. exists n, tg. repeat split; auto; lia.
Qed.
Lemma radius_eq a u rho : user_radius a u rho -> rho = srcntgt_radii a u.
Proof.
  unfold srcntgt_radii. intros [[Hu ->]|[n [tg [E [Hu ->]]]]]; destruct (Nat.ltb_spec u (a_nsources a)); auto; lia.
Qed.
(** radii that were not given are zero *)
Lemma radii_used a u : (if have_radii a then srcntgt_radii a else fun _ => 0) u = srcntgt_radii a u.
Proof.
  unfold have_radii, srcntgt_radii. destruct (a_source_radii a), (a_target_radii a); auto. destruct (u <? a_nsources a)%nat; auto.
Qed.
Lemma find_bbox_ext huge x rad rad' r ax : (forall i, rad i = rad' i) ->
  fst (find_bbox huge x rad r) ax = fst (find_bbox huge x rad' r) ax /\ snd (find_bbox huge x rad r) ax = snd (find_bbox huge x rad' r) ax.
Proof.
  intros E. induction r as [|i|l [L1 L2] r [R1 R2]]; cbn [find_bbox]; auto.
  - cbn. rewrite E. auto.
  - cbn [agg_bbox fst snd]. rewrite L1, L2, R1, R2. auto.
Qed.

Section Auto.
Variable a : args.
Variable r : reduction.
Hypothesis R : reduces r (user_count a).
Hypothesis UF : user_floats a.
Hypothesis N0 : (0 < nsrcntgts a)%nat.
Notation lo := (fst (bbox_auto a r)).
Notation hi := (snd (bbox_auto a r)).
Lemma auto_exact ax :
  (forall u, (u < nsrcntgts a)%nat -> lo ax <= srcntgts a u ax - srcntgt_radii a u) /\
  (exists u, (u < nsrcntgts a)%nat /\ lo ax = srcntgts a u ax - srcntgt_radii a u) /\
  (forall u, (u < nsrcntgts a)%nat -> srcntgts a u ax + srcntgt_radii a u <= hi ax) /\
  (exists u, (u < nsrcntgts a)%nat /\ hi ax = srcntgts a u ax + srcntgt_radii a u).
Proof.
  unfold bbox_auto. destruct (find_bbox_ext (a_huge a) (srcntgts a) _ (srcntgt_radii a) r ax (radii_used a)) as [-> ->].
  apply bbox_exact; auto. intros u Hu. destruct (uf_range a UF u _ _ ax (point_of a u Hu) (radius_of a u Hu)).
  destruct (uf_radius a UF u _ (radius_of a u Hu)). lia.
Qed.
Lemma auto_unit ax : (unit_length | hi ax - lo ax).
Proof.
  destruct (auto_exact ax) as [_ [[u [Hu E1]] [_ [v [Hv E2]]]]]. rewrite E1, E2.
  assert (P1 := uf_point a UF u _ ax (point_of a u Hu)). assert (P2 := uf_point a UF v _ ax (point_of a v Hv)).
  destruct (uf_radius a UF u _ (radius_of a u Hu)) as [Q1 _]. destruct (uf_radius a UF v _ (radius_of a v Hv)) as [Q2 _].
  apply Z.divide_sub_r; [apply Z.divide_add_r|apply Z.divide_sub_r]; auto.
Qed.
Lemma fold_max_spec l x : x <= fold_left Z.max l x /\ (forall y, In y l -> y <= fold_left Z.max l x) /\ (fold_left Z.max l x = x \/ In (fold_left Z.max l x) l).
Proof.
  revert x. induction l as [|y l IH]; intros x; cbn [fold_left].
  - split; [lia|]. split; [intros y []|auto].
  - destruct (IH (Z.max x y)) as [I1 [I2 I3]]. split; [lia|]. split.
    + intros z [->|Hz]; [lia|auto].
    + destruct I3 as [->|I3]; [|right; right; auto]. destruct (Z.max_spec x y) as [[_ ->]|[_ ->]]; [right; left; auto|left; auto].
Qed.
Lemma max_extent_spec : (0 < a_dim a)%nat ->
  (forall ax, (ax < a_dim a)%nat -> hi ax - lo ax <= max_extent a r) /\ (exists ax, (ax < a_dim a)%nat /\ max_extent a r = hi ax - lo ax).
Proof.
  intros D. unfold max_extent. 
  destruct (fold_max_spec (map (fun ax => hi ax - lo ax) (seq 1 (a_dim a - 1))) (hi 0%nat - lo 0%nat)) as [M1 [M2 M3]].
  split.
  - intros ax Hax. destruct ax; [exact M1|]. apply M2. apply in_map_iff. exists (S ax). split; auto. apply in_seq. lia.
  - destruct M3 as [->|M3]; [exists 0%nat; auto|]. apply in_map_iff in M3. destruct M3 as [ax [E Hax]]. apply in_seq in Hax.
    exists ax. split; [lia|]. symmetry. exact E.
Qed.
Lemma stretched_spec : (0 < a_dim a)%nat -> exists k, max_extent a r = k * unit_length /\ stretched_extent a r = k * 10001 * 2 ^ 30.
Proof.
  intros D. destruct (max_extent_spec D) as [_ [ax [Hax E]]]. destruct (auto_unit ax) as [k K]. exists k. rewrite E, K. split; auto.
  unfold stretched_extent. rewrite E, K. unfold unit_length. replace (k * (10000 * 2 ^ 30) * 10001) with (k * 10001 * 2 ^ 30 * 10000) by ring.
  apply Z.div_mul. lia.
Qed.
End Auto.
