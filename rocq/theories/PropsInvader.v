(** Space invader query with distances stored as bit patterns of single precision numbers. *)
From Coq Require Import List ZArith Arith Bool Reals Lia Lra Permutation SpecFloat.
From Flocq Require Import Core.
From Verif Require Import Base Tree Spec SpecArea AreaQuery GeomFacts TraversalLists AreaFacts AreaMore PropsArea Invader SpecInvader InvaderFacts ExampleTree CheckTree SpecBuild PropsBuild.
Import ListNotations.
Local Open Scope nat_scope.

(** ** C101: the atomic maximum of bit patterns is the maximum of the numbers.
    For all numbers of single precision that are not NaN and have a clear sign bit, the patterns
    compare, as signed integers, like the numbers. *)
Definition nonnegative_float (x : spec_float) : Prop :=
  valid_binary 24 128 x = true /\
  match x with S754_zero s => s = false | S754_infinity s => s = false | S754_finite s _ _ => s = false | S754_nan => False end.
Theorem C101_bit_patterns : forall x y, nonnegative_float x -> nonnegative_float y ->
  ((as_int x <= as_int y)%Z <-> SFleb x y = true).
Proof.
  intros x y [V1 S1] [V2 S2].
  apply valid_order; auto; destruct x, y; try contradiction; auto.
Qed.

(** ** C101: what the query returns, for every order of the atomic updates.
    [e]: the coordinates are multiples of 2^[e]; [prec], [emax]: the coordinate type. *)
Definition within_single_error (d y : R) : Prop :=
  nearest_single d y /\ (single_number d -> y = d) /\
  (two_to (-126) <= d -> Rabs (y - d) <= two_to (-24) * d)%R /\
  (d < two_to (-126) -> Rabs (y - d) <= two_to (-150))%R.
Theorem C101_space_invader_values : forall t bmin balls e prec emax,
  wf_tree t -> flags_tell_leaves t -> lower_corner t bmin -> 0 < dim t ->
  (forall b, b < nboxes t -> leaf t b -> meets_unstretched t b) ->
  (forall j, j < length balls -> (0 <= snd (nth j balls no_ball))%Z) ->
  (24 <= prec)%Z -> (128 <= emax)%Z -> (prec < emax)%Z ->
  exists updates, query_updates t bmin e balls = Some updates /\
  forall schedule b, Permutation schedule updates -> b < nboxes t ->
    (~ leaf t b -> float_value (query_result prec emax schedule b) = Some 0%R) /\
    (leaf t b -> exists v,
       furthest_ball t (length balls) (fun j => fst (nth j balls no_ball)) (fun j => snd (nth j balls no_ball)) b v /\
       (single_range (scaled_int v e) -> exists y, float_value (query_result prec emax schedule b) = Some y /\
          within_single_error (scaled_int v e) y) /\
       (~ single_range (scaled_int v e) -> query_result prec emax schedule b = S754_infinity false)).
Proof.
  intros t bmin balls e prec emax W F BM DP U R Hp He Hl.
  destruct (C30_space_invaders t bmin balls (fun d => as_int (to_single e d)) W F BM DP U R (single_zero e) (single_mono e)) as [ups [E Q]].
  exists ups. split; [exact E|]. intros sch b P Hb. destruct (Q sch b P Hb) as [Q1 Q2]. split.
  - intros NL. unfold query_result. rewrite (Q1 NL). reflexivity.
  - intros L. destruct (Q2 L) as [v [V FB]]. exists v. split; [exact FB|].
    assert (V0 : (0 <= v)%Z).
    { destruct FB as [[-> _]|[[j [_ [_ [A [i [Hi Ei]]]]]] _]]; [lia|]. lia. }
    unfold query_result. rewrite V, of_int_single by exact V0.
    assert (D0 := scaled_nonneg e v V0). split.
    + intros RG. destruct (single_value e v RG) as [SV [FI BV]]. exists (rnd_to 24 128 (scaled_int v e)).
      split; [rewrite to_single_b, to_coord_value by auto; rewrite BV; reflexivity|].
      split; [apply rnds_nearest, RG|]. split; [apply rnds_exact|]. split; intros B.
      * assert (X := rnds_rel (scaled_int v e)). rewrite (Rabs_pos_eq (scaled_int v e) D0) in X. auto.
      * apply rnds_abs. rewrite Rabs_pos_eq; auto.
    + intros RG. rewrite single_overflow by auto. reflexivity.
Qed.

(** ** C101: enlarged by one unit in the last place of single precision the returned distance
    reaches every ball that meets the leaf. *)
Theorem C101_enlarged_distances_cover : forall t bmin balls e prec emax,
  wf_tree t -> flags_tell_leaves t -> lower_corner t bmin -> 0 < dim t ->
  (forall b, b < nboxes t -> leaf t b -> meets_unstretched t b) ->
  (forall j, j < length balls -> (0 <= snd (nth j balls no_ball))%Z) ->
  (24 <= prec)%Z -> (128 <= emax)%Z -> (prec < emax)%Z ->
  exists updates, query_updates t bmin e balls = Some updates /\
  forall schedule b y j w, Permutation schedule updates -> b < nboxes t -> leaf t b ->
    float_value (query_result prec emax schedule b) = Some y ->
    j < length balls -> ball_meets_box t (fst (nth j balls no_ball)) (snd (nth j balls no_ball)) b ->
    linf_distance (dim t) (fst (nth j balls no_ball)) (box_center t b) w ->
    (scaled_int w e <= y * (1 + two_to (-23)) + two_to (-150))%R.
Proof.
  intros t bmin balls e prec emax W F BM DP U R Hp He Hl.
  destruct (C101_space_invader_values t bmin balls e prec emax W F BM DP U R Hp He Hl) as [ups [E Q]].
  exists ups. split; [exact E|]. intros sch b y j w P Hb L Y Hj M LD. destruct (Q sch b P Hb) as [_ Q2].
  destruct (Q2 L) as [v [FB [Q3 Q4]]].
  destruct FB as [[_ N]|[[j' [_ [_ [A [i [Hi Ei]]]]]] MX]]; [exfalso; exact (N j Hj M)|].
  assert (V0 : (0 <= v)%Z) by lia.
  assert (LE := scaled_le e w v (MX j w Hj M LD)). assert (D0 := scaled_nonneg e v V0).
  destruct (range_dec (scaled_int v e)) as [RG|RG].
  - destruct (Q3 RG) as [y' [Y' [NS [_ [E1 E2]]]]]. rewrite Y in Y'. injection Y' as <-.
    assert (Y0 : (0 <= y)%R).
    { destruct NS as [_ NS]. assert (S0 : single_number 0) by (exists 0%Z, 0%Z; split; [unfold scaled_int; ring|split; [reflexivity|lia]]).
      specialize (NS 0%R S0). rewrite (Rabs_left1 (0 - scaled_int v e)) in NS by lra. apply Rabs_le_inv in NS. lra. }
    assert (T23 : two_to (-23) = (/ 8388608)%R) by reflexivity. assert (T24 : two_to (-24) = (/ 16777216)%R) by reflexivity.
    assert (T150 : (0 < two_to (-150))%R) by (rewrite two_to_bpow; apply bpow_gt_0).
    rewrite T23. rewrite T24 in E1. destruct (Rle_or_lt (two_to (-126)) (scaled_int v e)) as [B|B].
    + specialize (E1 B). apply Rabs_le_inv in E1. lra.
    + specialize (E2 B). apply Rabs_le_inv in E2. lra.
  - rewrite (Q4 RG) in Y. discriminate.
Qed.

(** * What does not hold *)
(** ** C101: in double precision the returned distance can be smaller than the distance of a ball
    that meets the leaf: 2^24 + 1 is returned as 2^24. *)
Definition far_ball : list ball := [((fun i => if i =? 0 then 16777231%Z else 14%Z), 16777217%Z)].
Theorem C101_distances_cover_refuted : exists t bmin balls updates b w y,
  (wf_tree t /\ flags_tell_leaves t /\ lower_corner t bmin /\ 0 < dim t /\
   (forall b, b < nboxes t -> leaf t b -> meets_unstretched t b) /\
   (forall j, j < length balls -> (0 <= snd (nth j balls no_ball))%Z)) /\
  query_updates t bmin 0 balls = Some updates /\ b < nboxes t /\ leaf t b /\ 0 < length balls /\
  ball_meets_box t (fst (nth 0 balls no_ball)) (snd (nth 0 balls no_ball)) b /\
  linf_distance (dim t) (fst (nth 0 balls no_ball)) (box_center t b) w /\
  float_value (query_result 53 1024 updates b) = Some y /\ (y < scaled_int w 0)%R.
Proof.
  destruct area_example as [W [F [BM [DP [U _]]]]].
  destruct (query_updates ex_tree (fun _ => 0%Z) 0 far_ball) as [ups|] eqn:E; [|vm_compute in E; discriminate].
  exists ex_tree, (fun _ => 0%Z), far_ball, ups, 24, 16777217%Z, (scaled_int 4503599627370496 (-28)).
  assert (L : leaf ex_tree 24) by (change (leaf_box ex_tree 24); apply leafb_spec; vm_compute; reflexivity).
  split. { split; [exact W|]. split; [exact F|]. split; [exact BM|]. split; [exact DP|]. split; [exact U|].
    intros j Hj. cbn in Hj. destruct j as [|j]; [cbn; lia|lia]. }
  split; [exact E|]. split; [cbn; lia|]. split; [exact L|]. split; [cbn; lia|].
  split. { apply (ov_spec ex_tree W); [cbn; lia|cbn; lia|]. vm_compute. reflexivity. }
  split. { split.
    - intros i Hi. cbn in Hi. destruct i as [|[|i]]; [vm_compute; discriminate..|lia].
    - exists 0. split; [cbn; lia|]. vm_compute. reflexivity. }
  split.
  - assert (X : query_result 53 1024 ups 24 = S754_finite false 4503599627370496 (-28)).
    { assert (Y : option_map (fun u => query_result 53 1024 u 24) (query_updates ex_tree (fun _ => 0%Z) 0 far_ball) = Some (S754_finite false 4503599627370496 (-28))) by (vm_compute; reflexivity).
      rewrite E in Y. injection Y as Y. exact Y. }
    rewrite X. reflexivity.
  - unfold scaled_int. assert (T : two_to (-28) = (/ 268435456)%R) by reflexivity. assert (T0 : two_to 0 = 1%R) by reflexivity. rewrite T, T0. lra.
Qed.

(** * Non-vacuity *)
(** the hypotheses are met by a tree with five levels and three balls (area_example); the array
    that is returned for them, at some boxes, for coordinates in quarters *)
Example invader_example :
  option_map (fun u => map (query_result 53 1024 (rev u)) [0; 24; 15; 27]) (query_updates ex_tree (fun _ => 0%Z) (-2) ex_balls) =
    Some (map (fun q => binary_normalize 53 1024 q (-2) false) [0; 2; 12; 1])%Z.
Proof. vm_compute. reflexivity. Qed.
Example pattern_example : nonnegative_float (to_single 0 1) /\ nonnegative_float (to_single (-150) 7) /\
  as_int (to_single 0 1) = 0x3f800000%Z /\ as_int (to_single (-150) 7) = 4%Z /\ as_int (to_single 0 16777217) = as_int (to_single 0 16777216).
Proof. repeat (split; [vm_compute; auto|]). vm_compute. reflexivity. Qed.

Print Assumptions C101_bit_patterns.
Print Assumptions C101_space_invader_values.
Print Assumptions C101_enlarged_distances_cover.
Print Assumptions C101_distances_cover_refuted.
