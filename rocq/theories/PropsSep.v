(** C81: expansions are only used where they converge.

    Multipole expansions are centered at source boxes, local expansions at target boxes.  The
    criterion of the code (traversal.py:778-806 and 942-954) is that a multipole expansion of a box
    of radius r is evaluated at a distance of at least 3 r from its center, and that a local
    expansion for targets within a distance of R takes in sources at a distance of at least 3 R.
    Vocabulary: SpecSep.v. *)
From Coq Require Import List Arith ZArith NArith Lia Bool.
From Verif Require Import Base Tree Spec SpecTraversal LevelStarts Fmm SpecFmm ListFacts SpecSep SepFacts SepThm CheckTree ExampleTree PropsTraversal Traversal.
From Verif Require Import TreeBuild ArrayFacts BuildInv BuildScan BuildStep BuildLoop BuildGeom BuildLR BuildPrune BuildFinish BuildFull
  SpecBuild BuildThm BuildThm2 ExampleBuild PropsBuild PropsFmmGenBuild.
Import ListNotations.

(** ** Trees without extents (or ignoring them): all points of the boxes *)
Theorem C81_separated_points : forall t P tr,
  wf_tree t -> wf_flags t -> wf_params t P -> build_traversal t P = Some tr ->
  let center := box_center t in let r := box_rad t in
  (* list 3: multipole of B evaluated in T *)
  (forall T B p q, In T (target_boxes tr) -> In B (list3_of tr T) -> in_closed_box t T p -> in_closed_box t B q ->
     apart_linf (dim t) p (center B) (3 * r B) 1 /\ forall i, i < dim t -> (Z.abs (q i - center B i) <= r B)%Z) /\
  (* list 4: sources of S taken into the local expansion of A *)
  (forall A S p q, In A (target_or_target_parent_boxes tr) -> In S (list4_of tr A) -> in_closed_box t A p -> in_closed_box t S q ->
     apart_linf (dim t) q (center A) (3 * r A) 1 /\ forall i, i < dim t -> (Z.abs (p i - center A i) <= r A)%Z) /\
  (* list 2: multipole of B translated to the local expansion of A *)
  (forall A B p q, In A (target_or_target_parent_boxes tr) -> In B (list2_of tr A) -> in_closed_box t A p -> in_closed_box t B q ->
     let n := Z.of_nat (well_sep_is_n_away P) in
     r A = r B /\ apart_linf (dim t) q (center A) ((2 * n + 1) * r A) 1 /\ apart_linf (dim t) p (center B) ((2 * n + 1) * r B) 1) /\
  (* the same for all points of the boxes below *)
  (forall b A q, b < nboxes t -> In A (ancestors_or_self t b) -> in_closed_box t b q -> in_closed_box t A q).
Proof.
  intros t P tr W F WP B. cbv zeta. split; [|split; [|split]].
  - intros T Bx p q HT HB Hp Hq. split; [eapply list3_points; eauto|]. exact Hq.
  - intros A S p q HA HS Hp Hq. split; [eapply list4_points; eauto|]. exact Hp.
  - intros A Bx p q HA HB Hp Hq. destruct (list2_entry_facts t W P WP tr B A Bx HA HB) as [H1 [H2 [H3 [H4 H5]]]].
    assert (R : box_rad t A = box_rad t Bx) by (unfold box_rad; congruence).
    split; auto. split; [eapply list2_points; eauto|].
    destruct (not_within_gap t W _ A Bx H1 H2 H4 H5) as [i [Hi H]]. exists i. split; auto. specialize (Hp i Hi). rewrite <- R. lia.
  - intros. eapply closed_nested; eauto.
Qed.

(** ** Targets with extents: the regions in which they may be *)
(** list 3: every point of the region that the chosen criterion is about (SpecSep.target_region) *)
Theorem C81_list3_with_extents : forall t P tr T B p,
  wf_tree t -> wf_flags t -> wf_params t P -> build_traversal t P = Some tr ->
  let ex := Traversal.extents P in
  targets_have_extent ex = true -> wf_extent ex ->
  In T (target_boxes tr) -> In B (list3_of tr T) -> target_region t ex T p ->
  let distance := ((3 * eps_den ex - 8 * eps_num ex) * box_rad t B)%Z in
  apart_l2 (dim t) p (box_center t B) distance (eps_den ex) /\
  (from_sep_smaller_crit ex <> static_l2 -> apart_linf (dim t) p (box_center t B) distance (eps_den ex)).
Proof.
  intros t P tr T B p W F WP H ex E WE HT HB HP. cbv zeta.
  destruct (list3_entry_facts t W F P WP tr H T B HT HB) as [H1 [H2 [H3 [H4 [H5 H6]]]]].
  assert (R := TreeFacts.box_rad_pos t W B H2).
  split; [eapply smaller_l2; eauto; apply H6; auto|]. intros C. eapply smaller_linf; eauto; apply H6; auto.
Qed.
(** list 4: every source of S, against the box A enlarged by the stick-out factor *)
Theorem C81_list4_with_extents : forall t P tr A S q,
  wf_tree t -> wf_flags t -> wf_params t P -> build_traversal t P = Some tr ->
  let ex := Traversal.extents P in
  targets_have_extent ex = true -> wf_extent ex ->
  In A (target_or_target_parent_boxes tr) -> In S (list4_of tr A) -> in_closed_box t S q ->
  let R3 := (3 * (stick_out_den ex + stick_out_num ex) * box_rad t A)%Z in  (* 3 (1 + stick_out) r * den *)
  apart_linf (dim t) q (box_center t A)
    (eps_den ex * R3 - 8 * eps_num ex * (R3 + stick_out_den ex * box_rad t S)) (eps_den ex * stick_out_den ex).
Proof. intros t P tr A S q W F WP H ex E WE HA HS HQ. cbv zeta. eapply (list4_ext t W P WP tr H); eauto. Qed.
(** the enlarged boxes and balls are nested, so this covers all targets below A *)
Theorem C81_regions_nested : forall t ex b A p,
  wf_tree t -> wf_extent ex -> b < nboxes t -> In A (ancestors_or_self t b) ->
  (in_enlarged t ex b p -> in_enlarged t ex A p) /\ (in_enlarged_ball t ex b p -> in_enlarged_ball t ex A p) /\
  (in_enlarged t ex b p -> in_enlarged_ball t ex b p).
Proof. intros t ex b A p W WE Hb HA. split; [|split]; intros H; [eapply enlarged_nested|eapply ball_nested|apply enlarged_ball]; eauto. Qed.

(** ** Built trees: the actual sources and targets *)
(** a point of the ball (in the extent norm) around a target *)
Definition in_ball (e : TreeBuild.extents) (d : nat) (p x : nat -> Z) (rho : Z) : Prop :=
  match extent_norm e with
  | Linf => forall a, a < d -> (Z.abs (p a - x a) <= rho)%Z
  | L2 => (0 <= rho)%Z /\ (dist2 d p x <= rho * rho)%Z
  end.
(** the extent information the traversal builder takes from the tree *)
Record extents_of_tree (e : TreeBuild.extents) (B : built) (ex : extent_info) : Prop := {
  eo_have : targets_have_extent ex = true;
  eo_num : stick_out_num ex = sof_num e;
  eo_den : stick_out_den ex = sof_den e;
  eo_center : forall b a, tgt_ext_center2 ex b a = (b_target_bbox_min B b a + b_target_bbox_max B b a)%Z;
  eo_radius : forall b a, tgt_ext_radius2 ex b a = (b_target_bbox_max B b a - b_target_bbox_min B b a)%Z;
  (* traversal.py:1785-1792: ValueError otherwise *)
  eo_crit : extent_norm e = L2 -> from_sep_smaller_crit ex <> static_linf
}.
Lemma cell_closed t b x : in_cell t b x -> in_closed_box t b x.
Proof. intros C i Hi. specialize (C i Hi). lia. Qed.
Theorem C81_built_trees : forall inp e B P tr,
  valid_input inp -> valid_geometry inp -> ext inp = Some e ->
  not_restricted_with_extents inp -> levels_stay_populated inp ->
  build_tree inp = inl B -> nlevels (b_tree B) <= 30 ->
  1 <= well_sep_is_n_away P -> sources_are_targets P = same inp ->
  (forall b, source_boxes_mask P b = true) ->
  extents_of_tree e B (Traversal.extents P) -> wf_extent (Traversal.extents P) ->
  build_traversal (b_tree B) P = Some tr ->
  let t := b_tree B in let ex := Traversal.extents P in
  (* evaluating multipoles: list 3 *)
  (forall T S k p, In T (target_boxes tr) -> In S (list3_of tr T) ->
     all_targets B T k -> in_ball e (dim t) p (b_targets B k) (b_target_radii B k) ->
     apart_l2 (dim t) p (box_center t S) ((3 * eps_den ex - 8 * eps_num ex) * box_rad t S) (eps_den ex)) /\
  (* forming local expansions: lists 4 and 2 *)
  (forall A S k, In A (target_or_target_parent_boxes tr) -> In S (list4_of tr A) -> all_sources B S k ->
     let R3 := (3 * (stick_out_den ex + stick_out_num ex) * box_rad t A)%Z in
     apart_linf (dim t) (b_sources B k) (box_center t A) (3 * box_rad t A) 1 /\
     apart_linf (dim t) (b_sources B k) (box_center t A)
       (eps_den ex * R3 - 8 * eps_num ex * (R3 + stick_out_den ex * box_rad t S)) (eps_den ex * stick_out_den ex)) /\
  (forall A S k, In A (target_or_target_parent_boxes tr) -> In S (list2_of tr A) -> all_sources B S k ->
     apart_linf (dim t) (b_sources B k) (box_center t A) ((2 * Z.of_nat (well_sep_is_n_away P) + 1) * box_rad t A) 1) /\
  (* where the expansions' own sources and targets are *)
  (forall S k, S < nboxes t -> all_sources B S k -> in_closed_box t S (b_sources B k)) /\
  (forall A k p, A < nboxes t -> A <> 0 -> all_targets B A k -> in_ball e (dim t) p (b_targets B k) (b_target_radii B k) ->
     in_enlarged_ball t ex A p /\ (extent_norm e = Linf -> in_enlarged t ex A p)).
Proof.
  intros inp e B P tr V G EE NR L H D WS ST M1 EO WE TR. cbv zeta.
  assert (WT : wf_tree (b_tree B) /\ wf_flags (b_tree B) /\ wf_params (b_tree B) P /\
     forall S k, S < nboxes (b_tree B) -> all_sources B S k -> in_closed_box (b_tree B) S (b_sources B k)).
  { destruct (built_levels inp B V L H) as [st [pth [_ [F [EB FULL]]]]]. subst B. assert (PE := pe inp NR).
    split; [apply (finish_wf_tree inp V st pth F G D)|]. split; [apply (finish_wf_flags inp V st pth F PE)|]. split.
    - split; auto. intros S b Hb. rewrite M1, andb_true_r. apply (finish_same_flags inp V st pth F PE); auto. congruence.
    - intros S k HS A. assert (Hk := all_sources_lt inp V st pth F S k HS A). apply (all_sources_reach inp V st pth F S k HS Hk) in A.
      assert (SL : sp_source_ids (the_split inp (prune inp st)) k < npart inp).
      { assert (X := source_id_lt inp V st pth F k Hk). assert (Y := v_nsrc _ V). lia. }
      assert (C := reach_cell inp V st pth F G D _ S SL HS A). apply cell_closed. exact C. }
  destruct WT as [W [F [WP SRC]]].
  destruct (C52_stick_out_bound inp B e V G EE H D) as [_ FT].
  assert (REG : forall A k p, A < nboxes (b_tree B) -> A <> 0 -> all_targets B A k -> in_ball e (dim (b_tree B)) p (b_targets B k) (b_target_radii B k) ->
     in_enlarged_ball (b_tree B) (Traversal.extents P) A p /\ (extent_norm e = Linf -> in_enlarged (b_tree B) (Traversal.extents P) A p)).
  { intros A k p HA A0 AT IB. specialize (FT A k HA A0 AT). unfold fits in FT. unfold in_ball in IB. 
    assert (ED := eo_den _ _ _ EO). assert (EN := eo_num _ _ _ EO). assert (SP : (0 < sof_den e)%Z) by (destruct WE as [_ [X _]]; lia).
    destruct (extent_norm e).
    - assert (X : in_enlarged (b_tree B) (Traversal.extents P) A p).
      { intros i Hi. specialize (FT i Hi). specialize (IB i Hi). rewrite ED, EN.
        set (c := box_center (b_tree B) A i) in *. set (x := b_targets B k i) in *. set (rho := b_target_radii B k) in *. set (R := ((sof_den e + sof_num e) * box_rad (b_tree B) A)%Z) in *.
        destruct FT as [F1 F2].
        assert (U : (sof_den e * (p i - c) <= sof_den e * (x + rho - c))%Z) by (apply Z.mul_le_mono_nonneg_l; lia).
        assert (U2 : (sof_den e * (c - p i) <= sof_den e * (c - (x - rho)))%Z) by (apply Z.mul_le_mono_nonneg_l; lia).
        destruct (Z.abs_spec (p i - c)) as [[_ ->]|[_ ->]]; lia. }
      split; [apply enlarged_ball; auto|auto].
    - split; [|discriminate]. destruct IB as [RP IB]. unfold fits_l2 in FT. cbv zeta in FT. destruct FT as [F1 F2].
      unfold in_enlarged_ball. cbv zeta. rewrite ED, EN. set (sd := sof_den e) in *. set (R := ((sd + sof_num e) * box_rad (b_tree B) A)%Z) in *.
      set (rho := b_target_radii B k) in *. set (x := b_targets B k) in *. set (d := dim (b_tree B)) in *.
      assert (TS := triangle_strict (fun a => sd * (x a - box_center (b_tree B) A a))%Z (fun a => sd * (p a - x a))%Z (seq 0 d) (Z.of_nat d * R * R)%Z (sd * rho * (sd * rho))%Z).
      cbv beta zeta in TS.
      assert (SC : forall (f g : nat -> Z) l, zsum (map (fun i => sd * (f i - g i) * (sd * (f i - g i))) l)%Z = (sd * sd * zsum (map (fun i => (f i - g i) * (f i - g i)) l))%Z).
      { intros f g l. rewrite <- zsum_map_mul. f_equal. apply map_ext. intros i. ring. }
      assert (X := TS (Z.square_nonneg _) F1). clear TS.
      specialize (X ltac:(rewrite Z.mul_assoc; exact F2)).
      rewrite (SC p x) in X. fold (dist2 d p x) in X.
      specialize (X ltac:(replace (sd * rho * (sd * rho))%Z with (sd * sd * (rho * rho))%Z by ring; apply Z.mul_le_mono_nonneg_l; [nia|exact IB])).
      replace (map _ (seq 0 d)) with (map (fun i => sd * (p i - box_center (b_tree B) A i) * (sd * (p i - box_center (b_tree B) A i)))%Z (seq 0 d)) in X by (apply map_ext; intros; ring).
      rewrite (SC p (box_center (b_tree B) A)) in X. fold (dist2 d p (box_center (b_tree B) A)) in X. rewrite Z.mul_assoc. exact X. }
  split; [|split; [|split; [|split]]]; auto.
  - intros T S k p HT HS AT IB.
    destruct (list3_entry_facts _ W F P WP tr TR T S HT HS) as [H1 [H2 [H3 _]]].
    apply (C81_list3_with_extents (b_tree B) P tr T S p W F WP TR (eo_have _ _ _ EO) WE HT HS).
    destruct (REG T k p H1 ltac:(lia) AT IB) as [R1 R2].
    unfold target_region. destruct (from_sep_smaller_crit (Traversal.extents P)) eqn:C; auto.
    + apply R2. destruct (extent_norm e) eqn:NM; auto. exfalso. apply (eo_crit _ _ _ EO NM). auto.
    + intros i Hi. rewrite (eo_center _ _ _ EO), (eo_radius _ _ _ EO).
      destruct (C23_target_bounding_boxes inp B T i V NR L H H1 Hi) as [X _]. specialize (X k AT). cbv zeta in X.
      assert (Y : (Z.abs (p i - b_targets B k i) <= b_target_radii B k)%Z).
      { unfold in_ball in IB. destruct (extent_norm e); [apply IB; auto|]. destruct IB as [RP IB].
        assert (T1 := zsum_term (fun i => (p i - b_targets B k i) * (p i - b_targets B k i))%Z (seq 0 (dim (b_tree B))) i
          (fun j _ => Z.square_nonneg (p j - b_targets B k j)) ltac:(apply in_seq; lia)).
        unfold dist2 in IB. cbv beta in T1. set (z := (p i - b_targets B k i)%Z) in *. nia. }
      lia.
  - intros A S k HA HS AS. destruct (list4_entry_facts _ W P WP tr TR A S HA HS) as [H1 [H2 _]].
    split; [eapply list4_points; eauto|]. eapply (list4_ext _ W P WP tr TR); eauto. apply (eo_have _ _ _ EO).
  - intros A S k HA HS AS. destruct (list2_entry_facts _ W P WP tr TR A S HA HS) as [H1 [H2 _]]. eapply list2_points; eauto.
Qed.

(** ** Non-vacuity *)
(** target 8 has radius 1, in a box of radius 4; sources and targets on several levels *)
Definition sep_points : list (list Z) := ([[1;1];[1;3];[3;1];[3;3];[12;12];[13;2];[1;2];[2;2];[12;4]])%Z.
Definition sep_input : input := example_input sep_points 6 false (Some (radii [0;0;0;0;0;0;0;0;1]%Z Linf)) [] 1 Adaptive false.
Definition sep_params (B : built) : trav_params := {|
  well_sep_is_n_away := 1; sources_are_targets := false;
  source_boxes_mask := fun _ => true; source_parent_boxes_mask := fun _ => true;
  Traversal.extents := {| targets_have_extent := true; stick_out_num := 1; stick_out_den := 4;
    eps_num := 1; eps_den := 2^52; from_sep_smaller_crit := precise_linf;
    tgt_ext_center2 := fun b i => (b_target_bbox_min B b i + b_target_bbox_max B b i)%Z;
    tgt_ext_radius2 := fun b i => (b_target_bbox_max B b i - b_target_bbox_min B b i)%Z;
    box_source_counts_cumul := b_source_cumul B; from_sep_smaller_min_nsources_cumul := 0 |};
  level_start_box_nrs := fun l => nth l (b_level_starts B) 0 |}.
Example sep_input_ok : valid_input sep_input /\ valid_geometry sep_input /\ not_restricted_with_extents sep_input /\
  levels_stay_populated sep_input /\ ext sep_input <> None /\
  deep_ok sep_input (fun B => match build_traversal (b_tree B) (sep_params B) with
    | Some tr => existsb (Nat.eqb 4) (list3_of tr 2) && existsb (Nat.eqb 2) (list4_of tr 6) &&
        existsb (Nat.eqb 2) (target_boxes tr) && existsb (Nat.eqb 6) (target_or_target_parent_boxes tr) &&
        (0 <? b_target_cumul B 2) && (0 <? b_source_cumul B 2) && (0 <? b_source_cumul B 4)
    | None => false end) = true.
Proof. example_ok. Qed.
Example sep_params_ok : forall B, extents_of_tree (radii [0;0;0;0;0;0;0;0;1]%Z Linf) B (Traversal.extents (sep_params B)) /\
  wf_extent (Traversal.extents (sep_params B)) /\ 1 <= well_sep_is_n_away (sep_params B) /\ sources_are_targets (sep_params B) = same sep_input.
Proof. intros B. split; [constructor; auto; discriminate|]. split; [|split; auto]. vm_compute. repeat split; discriminate. Qed.
(** and the example tree of PropsTraversal.v ([ex_lists_nonempty], [ex_close_lists_nonempty]): a point
    outside of the box that the theorem is about *)
Example region_case : let p := fun i : nat => (box_center ex_tree 7 i + 5 * box_rad ex_tree 7 / 4)%Z in
  in_enlarged ex_tree (ex_extent true static_l2 2) 7 p /\ target_region ex_tree (ex_extent true static_l2 2) 7 p /\ ~ in_closed_box ex_tree 7 p.
Proof.
  cbv zeta. assert (W := proj1 ex_tree_wf). 
  assert (X : in_enlarged ex_tree (ex_extent true static_l2 2) 7 (fun i : nat => (box_center ex_tree 7 i + 5 * box_rad ex_tree 7 / 4)%Z)).
  { intros i Hi. assert (i = 0 \/ i = 1) as [-> | ->] by (change (i < 2) in Hi; lia); vm_compute; discriminate. }
  split; auto. split; [apply enlarged_ball; auto; vm_compute; repeat split; discriminate|].
  intros H. specialize (H 0 ltac:(vm_compute; lia)). vm_compute in H. apply H. reflexivity.
Qed.

Print Assumptions C81_separated_points.
Print Assumptions C81_list3_with_extents.
Print Assumptions C81_list4_with_extents.
Print Assumptions C81_regions_nested.
Print Assumptions C81_built_trees.
