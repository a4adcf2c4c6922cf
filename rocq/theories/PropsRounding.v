(** C95: the traversal in floating-point arithmetic.  The tests of the traversal builder run on box
    centers and radii that carry rounding errors (TravFloat.v).  If the precision resolves the
    smallest boxes (SpecRounding.v) the traversal of a point tree is the exact one, and with target
    extents every pair of boxes is still covered exactly once. *)
From Coq Require Import List Arith ZArith NArith Bool Reals Lra Lia SpecFloat.
From Flocq Require Import Core.
From Verif Require Import Base Tree Spec TreeFacts Traversal GeomFacts SpecTraversal Coverage TravRounded Floats TravFloat SpecRounding
  TravFloatFacts TravFloatThm CheckTree ExampleTree PropsTraversal.
Import ListNotations.

(** the adjacency test finds exactly the boxes whose closed boxes touch *)
Theorem C95_adjacency_with_rounding : forall prec t G a b, (24 <= prec)%Z ->
  wf_tree t -> geometry_ok prec G -> precise_enough prec t 1 G -> a < nboxes t -> b < nboxes t ->
  (f_adjacent (rounded_trav prec) t G 1 a (box_level t a) b (box_level t b) = true <-> touching t a b).
Proof.
  intros prec t G a b Hp W GO PE Ha Hb. rewrite (adjacent_exact prec Hp t W G GO 1 a b (le_n 1) PE Ha Hb).
  rewrite <- near_1_touching by auto. apply adj_n_near; auto.
Qed.

(** points: the traversal is the one of exact arithmetic, so that C01 and C04 - C11 hold for it *)
Theorem C95_traversal_with_rounding_is_exact : forall prec t G P, (24 <= prec)%Z ->
  wf_tree t -> geometry_ok prec G -> wf_params t P -> precise_enough prec t (well_sep_is_n_away P) G ->
  targets_have_extent (extents P) = false ->
  build_traversal_in (rounded_trav prec) G t P = build_traversal t P.
Proof. intros prec t G P Hp W GO WP PE X. apply build_in_points; auto. Qed.

(** with or without extents: the traversal is built, its lists 1 and 2 and the same-level lists are
    those of exact arithmetic, and every pair is covered once *)
Theorem C95_coverage_with_rounding : forall prec t G P, (24 <= prec)%Z ->
  wf_tree t -> wf_flags t -> geometry_ok prec G -> wf_params t P -> precise_enough prec t (well_sep_is_n_away P) G ->
  exists tr tr0, build_traversal_in (rounded_trav prec) G t P = Some tr /\ build_traversal t P = Some tr0 /\
    target_boxes tr = target_boxes tr0 /\
    neighbor_source_boxes tr = neighbor_source_boxes tr0 /\
    from_sep_siblings tr = from_sep_siblings tr0 /\
    same_level_non_well_sep_boxes tr = same_level_non_well_sep_boxes tr0 /\
    (forall T s, In T (target_boxes tr) -> s < nboxes t -> is_source t s = true -> coverage t tr T s = 1).
Proof.
  intros prec t G P Hp W F GO WP PE. eexists. eexists. split; [apply build_in_eq; auto|].
  split; [apply build_traversal_eq; auto; apply WP|]. do 4 (split; [reflexivity|]).
  intros T s HT Hs Ss. eapply build_in_coverage; eauto. apply build_in_eq; auto.
Qed.

(** A computed box center is off by at most one rounding error per level. *)
Theorem C95_center_error : forall prec t G n b i K, (24 <= prec)%Z ->
  wf_tree t -> geometry_ok prec G -> (1 <= n)%nat ->
  (2 * f_extent G <= K)%R -> (forall i, (i < dim t)%nat -> Rabs (f_root_center G i) + 2 * f_extent G <= K)%R ->
  ((4 * INR (nlevels t) + 4 * INR n + 20) * (bpow radix2 (- prec) * K) < f_extent G * bpow radix2 (- Z.of_nat (nlevels t)))%R ->
  (b < nboxes t)%nat -> (i < dim t)%nat ->
  (Rabs (f_center (rounded_trav prec) t G b i -
         (f_root_center G i + f_extent G * IZR (box_center t b i - box_center t 0 i) / IZR (root_extent t)))
   <= INR (box_level t b) * (bpow radix2 (- prec) * K))%R.
Proof.
  intros prec t G n b i K Hp W [Fm [Pp _]] Hn H1 H2 H3 Hb Hi.
  assert (X := center_err prec Hp t W G Fm Pp n Hn K H2 H1 H3 _ b i Hb Hi eq_refl).
  unfold E in X. replace (f_extent G * IZR (box_center t b i - box_center t 0 i) / IZR (root_extent t))%R
    with (f_extent G / IZR (root_extent t) * IZR (box_center t b i - box_center t 0 i))%R by (unfold Rdiv; ring). exact X.
Qed.

(** ** Without the condition the claim is false.
    A tree in single precision: root box of size 1 around (100, 0), refined 17 times around the point
    that separates two sibling leaves of size 2^-17, the distance of neighboring numbers near 100.
    The computed centers of the siblings are so far apart that none of the lists
    connects them: their interaction is lost. *)
Definition chain_bits : list bool := [false; true; true; true; false; false; false; false; true; false; false; false; false; false; true; false].
Definition chain_center (b : nat) : Z :=
  let r l := (2 ^ (18 - 1 - Z.of_nat l))%Z in
  let c := fold_left (fun c l => if nth (l - 1) chain_bits false then c + r l else c - r l)%Z (seq 1 (Nat.min b 16)) 0%Z in
  if b =? 17 then (c - r 17%nat)%Z else if b =? 18 then (c + r 17%nat)%Z else c.
Definition chain_center_y (b : nat) : Z :=
  fold_left (fun c l => c - 2 ^ (18 - 1 - Z.of_nat l))%Z (seq 1 (Nat.min b 17)) 0%Z.
Definition chain_tree : tree := {|
  dim := 2; nlevels := 18; nboxes := 19; root_extent := 2 ^ 18;
  box_center := fun b i => if i =? 0 then chain_center b else chain_center_y b;
  box_level := fun b => Nat.min b 17;
  box_parent := fun b => Nat.min (b - 1) 16;
  box_child := fun m b =>
    if b <? 16 then (if m =? (if nth b chain_bits false then 2 else 0) then S b else 0)
    else if b =? 16 then (if m =? 0 then 17 else if m =? 2 then 18 else 0) else 0;
  box_flags := fun b => if b <? 17 then 12%N else 3%N
|}.
Definition chain_params : trav_params := {|
  well_sep_is_n_away := 1;
  extents := {| targets_have_extent := false; stick_out_num := 0; stick_out_den := 1; eps_num := 1; eps_den := 2 ^ 23;
    from_sep_smaller_crit := static_linf; tgt_ext_center2 := fun _ _ => 0%Z; tgt_ext_radius2 := fun _ _ => 0%Z;
    box_source_counts_cumul := fun _ => 1; from_sep_smaller_min_nsources_cumul := 0 |};
  sources_are_targets := true; source_boxes_mask := fun _ => true; source_parent_boxes_mask := fun _ => true;
  level_start_box_nrs := fun l => l |}.
Definition single (z : Z) : spec_float := binary_normalize 24 128 z 0 false.
Definition chain_geometry : float_geometry spec_float :=
  {| f_extent := single 1; f_root_center := fun i => if i =? 0 then single 100 else single 0;
     f_stick_out := single 0; f_bb_min := fun _ _ => single 0; f_bb_max := fun _ _ => single 0 |}.
Theorem C95_refuted_single : exists t P (G : float_geometry (num (ieee_trav 24 128))) tr T s,
  wf_tree t /\ wf_flags t /\ wf_params t P /\ targets_have_extent (extents P) = false /\
  f_extent G = single 1 /\ f_root_center G 0 = single 100 /\ f_root_center G 1 = single 0 /\ dim t = 2 /\
  build_traversal_in (ieee_trav 24 128) G t P = Some tr /\
  In T (target_boxes tr) /\ s < nboxes t /\ is_source t s = true /\ box_parent t T = box_parent t s /\ touching t T s /\
  coverage t tr T s = 0.
Proof.
  assert (W : wf_tree chain_tree) by (apply check_wf_ok; vm_compute; reflexivity).
  exists chain_tree, chain_params, chain_geometry.
  destruct (build_traversal_in (ieee_trav 24 128) chain_geometry chain_tree chain_params) as [tr|] eqn:B.
  2:{ exfalso. assert (X : match build_traversal_in (ieee_trav 24 128) chain_geometry chain_tree chain_params with Some _ => true | None => false end = true)
        by (vm_compute; reflexivity). rewrite B in X. discriminate X. }
  exists tr, 17, 18. split; [exact W|]. split; [apply check_flags_ok; vm_compute; reflexivity|].
  split. { split; [simpl; lia|]. intros _ b Hb. do 19 (destruct b as [|b]; [reflexivity|]). simpl in Hb. lia. }
  do 5 (split; [reflexivity|]). split; [reflexivity|].
  assert (X : match build_traversal_in (ieee_trav 24 128) chain_geometry chain_tree chain_params with
    | Some tr => (existsb (Nat.eqb 17) (target_boxes tr), coverage chain_tree tr 17 18) | None => (false, 1) end = (true, 0)) by (vm_compute; reflexivity).
  rewrite B in X. assert (X1 := f_equal fst X). assert (X2 := f_equal snd X). cbn [fst snd] in X1, X2.
  split. { apply existsb_exists in X1. destruct X1 as [x [Hx E]]. apply Nat.eqb_eq in E. subst x. exact Hx. }
  split; [simpl; lia|]. split; [reflexivity|]. split; [reflexivity|]. split; [|exact X2].
  apply near_1_touching; [exact W|simpl; lia|simpl; lia|].
  intros i Hi. simpl in Hi. destruct i as [|[|i]]; [vm_compute; discriminate|vm_compute; discriminate|lia].
Qed.

(** ** The hypotheses are met: the example tree with extents, two boxes away, in single precision *)
Definition ex_geometry : float_geometry R :=
  {| f_extent := 1%R; f_root_center := fun _ => (/ 2)%R; f_stick_out := (/ 4)%R; f_bb_min := fun _ _ => 0%R; f_bb_max := fun _ _ => 0%R |}.
Example rounding_example : wf_tree ex_tree /\ wf_flags ex_tree /\ geometry_ok 24 ex_geometry /\ precise_enough 24 ex_tree 2 ex_geometry /\
  wf_params ex_tree (ex_params 2 (ex_extent true static_l2 5)) /\
  exists tr, build_traversal_in (rounded_trav 24) ex_geometry ex_tree (ex_params 2 (ex_extent true static_l2 5)) = Some tr /\
    In 14 (target_boxes tr) /\ coverage ex_tree tr 14 5 = 1.
Proof.
  destruct ex_tree_wf as [W [F _]]. destruct (ex_params_wf 2 true static_l2 5 ltac:(lia)) as [WP _].
  assert (GO : geometry_ok 24 ex_geometry).
  { split; [|simpl; lra]. simpl. change 1%R with (bpow radix2 0). apply generic_format_bpow. unfold FLX_exp. lia. }
  assert (PE : precise_enough 24 ex_tree 2 ex_geometry).
  { exists (5 / 2)%R. cbn [f_extent f_root_center ex_geometry]. split; [lra|]. split; [intros i _; rewrite Rabs_pos_eq; lra|]. simpl. lra. }
  split; [exact W|]. split; [exact F|]. split; [exact GO|]. split; [exact PE|]. split; [exact WP|].
  destruct (C95_coverage_with_rounding 24 ex_tree ex_geometry (ex_params 2 (ex_extent true static_l2 5)) ltac:(lia) W F GO WP PE)
    as [tr [tr0 [B [B0 [T0 [_ [_ [_ C]]]]]]]].
  exists tr. assert (T14 : In 14 (target_boxes tr)).
  { rewrite T0. assert (X : match build_traversal ex_tree (ex_params 2 (ex_extent true static_l2 5)) with Some tr => existsb (Nat.eqb 14) (target_boxes tr) | None => false end = true)
      by (vm_compute; reflexivity). rewrite B0 in X. apply existsb_exists in X. destruct X as [x [Hx E]]. apply Nat.eqb_eq in E. subst x. exact Hx. }
  split; [exact B|]. split; [exact T14|]. apply C; [exact T14|simpl; lia|reflexivity].
Qed.

Print Assumptions C95_adjacency_with_rounding.
Print Assumptions C95_traversal_with_rounding_is_exact.
Print Assumptions C95_coverage_with_rounding.
Print Assumptions C95_center_error.
Print Assumptions C95_refuted_single.
