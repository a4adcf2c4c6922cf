(** Properties C17-C26 and C50-C54: the particle tree builder. *)
From Coq Require Import List Arith ZArith NArith Lia Bool Permutation.
From Verif Require Import Base Tree Spec SpecTraversal LevelStarts Fmm SpecFmm PropsTraversal PropsFmm Traversal.
From Verif Require Import TreeBuild BuildInv BuildStep BuildLoop BuildDone BuildTerm BuildPrune BuildFull BuildSplit BuildFinish BuildLR BuildSkip
  SpecBuild BuildThm BuildThm2 ExampleBuild.
Import ListNotations.

Lemma no_ext inp : ext inp = None -> have_extent inp = false.
Proof. unfold have_extent. intros ->. auto. Qed.
Lemma pe inp : not_restricted_with_extents inp -> (level_restrict inp && have_extent inp)%bool = false.
Proof.
  unfold not_restricted_with_extents, level_restrict. destruct (build_kind inp); auto. intros H. rewrite no_ext; auto.
Qed.
Lemma kind_ok inp : build_kind inp <> NonAdaptive \/ ext inp = None -> adaptive inp = true \/ have_extent inp = false.
Proof. unfold adaptive. intros [K|K]; [left; destruct (build_kind inp); congruence|right; apply no_ext; auto]. Qed.
(** the final state behind a returned tree *)
Lemma built_fin inp B : valid_input inp -> build_tree inp = inl B -> exists st pth, level_loop inp = Done st /\ fin inp st pth /\ B = finish inp st.
Proof.
  intros V H. destruct (built_done inp B H) as [st [D E]]. destruct (done_fin inp V st D) as [pth F]. exists st, pth. auto.
Qed.
Lemma built_levels inp B : valid_input inp -> levels_stay_populated inp -> build_tree inp = inl B ->
  exists st pth, level_loop inp = Done st /\ fin inp st pth /\ B = finish inp st /\ (skip_prune inp = true \/ populated inp st pth).
Proof.
  intros V L H. destruct (built_done inp B H) as [st [D E]]. destruct L as [L|L].
  - destruct (done_fin inp V st D) as [pth F]. exists st, pth. auto.
  - destruct (populated_done inp (V_WT inp V) (V_MW inp V) (v_npart _ V) (v_guess _ V) (kind_ok inp L) st D) as [pth [F P]]. exists st, pth. auto.
Qed.

(** ** C17: user_source_ids is a permutation, sorted_target_ids the inverse of the target
    permutation, and coordinates and radii in tree order are the user's. *)
Theorem C17_particles_are_permuted : forall inp B,
  valid_input inp -> build_tree inp = inl B ->
  let P := b_particles B in
  nsources P = nsrc inp /\ ntargets P = num_targets inp /\
  Permutation (map (user_source_ids P) (seq 0 (nsources P))) (seq 0 (nsources P)) /\
  (forall k a, k < nsources P -> b_sources B k a = coord inp (user_source_ids P k) a) /\
  (forall k, k < nsources P -> b_source_radii B k = rad_of inp (user_source_ids P k)) /\
  Permutation (map (sorted_target_ids P) (seq 0 (ntargets P))) (seq 0 (ntargets P)) /\
  (forall j a, j < ntargets P -> b_targets B (sorted_target_ids P j) a = coord inp (first_target inp + j) a) /\
  (forall j, j < ntargets P -> b_target_radii B (sorted_target_ids P j) = rad_of inp (first_target inp + j)).
Proof.
  intros inp B V H. destruct (built_fin inp B V H) as [st [pth [_ [F ->]]]].
  destruct (finish_perm inp V st pth F) as [H1 [H2 [H3 [H4 [H5 [H6 [H7 H8]]]]]]]. cbv zeta. repeat split; assumption.
Qed.

(** ** C18: every particle index belongs to exactly one box's own range, and its coordinates lie
    in the half-open cell of that box. *)
Theorem C18_particles_in_their_boxes : forall inp B,
  valid_input inp -> valid_geometry inp -> not_restricted_with_extents inp ->
  build_tree inp = inl B -> nlevels (b_tree B) <= 30 ->
  let t := b_tree B in let P := b_particles B in
  owned_once t (box_source_starts P) (box_source_counts_nonchild P) (nsources P) /\
  owned_once t (box_target_starts P) (box_target_counts_nonchild P) (ntargets P) /\
  (forall b k, b < nboxes t -> own_sources B b k -> in_cell t b (b_sources B k)) /\
  (forall b k, b < nboxes t -> own_targets B b k -> in_cell t b (b_targets B k)).
Proof.
  intros inp B V G NR H D. destruct (built_fin inp B V H) as [st [pth [_ [F ->]]]]. cbv zeta.
  destruct (finish_wf_particles inp V st pth F (pe inp NR)) as [_ _ W1 W2 _ _].
  split; [exact W1|]. split; [exact W2|]. split; intros b k Hb O; [apply (finish_source_in_cell inp V st pth F (pe inp NR))|apply (finish_target_in_cell inp V st pth F (pe inp NR))]; auto.
Qed.

(** ... without extents the cumulative range holds exactly the particles in the cell *)
Theorem C18_cumulative_ranges_are_cells : forall inp B,
  valid_input inp -> valid_geometry inp -> ext inp = None ->
  build_tree inp = inl B -> nlevels (b_tree B) <= 30 ->
  (forall b k, b < nboxes (b_tree B) -> k < nsrc inp -> (all_sources B b k <-> in_cell (b_tree B) b (b_sources B k))) /\
  (forall b k, b < nboxes (b_tree B) -> k < num_targets inp -> (all_targets B b k <-> in_cell (b_tree B) b (b_targets B k))).
Proof.
  intros inp B V G NE H D. destruct (built_fin inp B V H) as [st [pth [_ [F ->]]]].
  assert (SL : forall k, k < nsrc inp -> sp_source_ids (the_split inp (prune inp st)) k < npart inp).
  { intros k Hk. assert (X := source_id_lt inp V st pth F k Hk). assert (Y := v_nsrc _ V). lia. }
  assert (TL : forall k, k < num_targets inp -> sp_target_ids (the_split inp (prune inp st)) k < npart inp).
  { intros k Hk. assert (X := target_ids_range inp (prune inp st) _ _ (PI inp V st pth F) (v_nsrc _ V) (v_same _ V) k Hk).
    unfold tgt_base, ntgt in X. destruct (same inp); lia. }
  split; intros b k Hb Hk.
  - rewrite (all_sources_reach inp V st pth F b k Hb Hk). split.
    + apply (reach_cell inp V st pth F G D); auto.
    + apply (cell_reach inp V st pth F G D); auto. apply no_ext; auto.
  - rewrite (all_targets_reach inp V st pth F b k Hb Hk). split.
    + apply (reach_cell inp V st pth F G D); auto.
    + apply (cell_reach inp V st pth F G D); auto. apply no_ext; auto.
Qed.

(** ** C19: own particles first, then the children's ranges in Morton order. *)
Theorem C19_ranges_partition : forall inp B,
  valid_input inp -> not_restricted_with_extents inp -> build_tree inp = inl B ->
  let t := b_tree B in let P := b_particles B in
  forall b, b < nboxes t ->
  (b_source_cumul B b = box_source_counts_nonchild P b +
     nsum (map (fun m => if box_child t m b =? 0 then 0 else b_source_cumul B (box_child t m b)) (seq 0 (nchildren t)))) /\
  (b_target_cumul B b = box_target_counts_nonchild P b +
     nsum (map (fun m => if box_child t m b =? 0 then 0 else b_target_cumul B (box_child t m b)) (seq 0 (nchildren t)))) /\
  (forall m, m < nchildren t -> box_child t m b <> 0 -> 0 < b_source_cumul B (box_child t m b) ->
     box_source_starts P (box_child t m b) = box_source_starts P b + box_source_counts_nonchild P b +
       nsum (map (fun m => if box_child t m b =? 0 then 0 else b_source_cumul B (box_child t m b)) (seq 0 m))) /\
  (forall m, m < nchildren t -> box_child t m b <> 0 -> 0 < b_target_cumul B (box_child t m b) ->
     box_target_starts P (box_child t m b) = box_target_starts P b + box_target_counts_nonchild P b +
       nsum (map (fun m => if box_child t m b =? 0 then 0 else b_target_cumul B (box_child t m b)) (seq 0 m))).
Proof.
  intros inp B V NR H. destruct (built_fin inp B V H) as [st [pth [_ [F ->]]]]. intros t P b Hb.
  assert (PE := pe inp NR). split; [apply (finish_source_counts inp V st pth F PE); auto|].
  split; [apply (finish_target_counts inp V st pth F PE); auto|].
  split; intros m Hm C C0; [apply (finish_source_child_start inp V st pth F PE)|apply (finish_target_child_start inp V st pth F PE)]; auto.
Qed.

(** ** C20: leaves hold at most the allowed refine weight; in an adaptive tree only boxes that
    hold more are split. *)
Theorem C20_leaves_are_light : forall inp B b,
  valid_input inp -> (max_weight inp < INT_MAX)%Z -> ext inp = None -> build_tree inp = inl B ->
  b < nboxes (b_tree B) -> leaf_box (b_tree B) b -> (box_weight inp B b <= max_weight inp)%Z.
Proof.
  intros inp B b V M NE H. destruct (built_fin inp B V H) as [st [pth [_ [F ->]]]]. intros.
  apply (finish_leaf_light inp V st pth F); auto. apply no_ext; auto.
Qed.
Theorem C20_split_boxes_are_heavy : forall inp B b,
  valid_input inp -> ext inp = None -> build_kind inp = Adaptive -> build_tree inp = inl B ->
  b < nboxes (b_tree B) -> ~ leaf_box (b_tree B) b -> (max_weight inp < box_weight inp B b)%Z.
Proof.
  intros inp B b V NE K H. destruct (built_fin inp B V H) as [st [pth [_ [F ->]]]]. intros.
  apply (finish_split_heavy inp V st pth F); auto. apply no_ext; auto.
Qed.
(** With extents the bound is on the particles that would fit into a child box. *)
Theorem C20_leaves_are_light_with_extents : forall inp B b,
  valid_input inp -> (max_weight inp < INT_MAX)%Z -> not_restricted_with_extents inp -> build_tree inp = inl B ->
  b < nboxes (b_tree B) -> has_source_child (b_tree B) b = false ->
  (box_weight_of inp B (fun u => negb (stop_descent inp u (box_level (b_tree B) b))) b <= max_weight inp)%Z.
Proof.
  intros inp B b V M NR H. destruct (built_fin inp B V H) as [st [pth [_ [F ->]]]]. intros Hb L.
  destruct (finish_flags inp V st pth F (pe inp NR) b Hb) as [_ [_ [E _]]]. rewrite E in L.
  apply (finish_weight_bound inp V st pth F b M Hb L).
Qed.

Lemma ids_same inp st :
  (forall k, user_source_ids (b_particles (finish inp st)) k = user_source_ids (b_particles (finish (with_skip_prune true inp) st)) k) /\
  (forall j, sorted_target_ids (b_particles (finish inp st)) j = sorted_target_ids (b_particles (finish (with_skip_prune true inp) st)) j).
Proof.
  split; intros k; cbn [b_particles user_source_ids sorted_target_ids finish]; change (same (with_skip_prune true inp)) with (same inp);
    destruct (same inp); reflexivity.
Qed.
(** ** C21: the pruned tree consists of the boxes of the unpruned tree (the one built with
    skip_prune) that hold particles, in the same order, with ids renumbered. *)
Theorem C21_pruning : forall inp B,
  valid_input inp -> not_restricted_with_extents inp -> skip_prune inp = false -> build_tree inp = inl B ->
  exists B0 pos,
    build_tree (with_skip_prune true inp) = inl B0 /\
    let t := b_tree B in let t0 := b_tree B0 in let P := b_particles B in let P0 := b_particles B0 in
    (forall b, b < nboxes t -> pos b < nboxes t0) /\
    (forall b c, b < c -> c < nboxes t -> pos b < pos c) /\
    (forall x, x < nboxes t0 -> (0 < b_source_cumul B0 x \/ 0 < b_target_cumul B0 x <-> exists b, b < nboxes t /\ pos b = x)) /\
    (forall b, b < nboxes t ->
      box_level t b = box_level t0 (pos b) /\
      (forall a, box_center t b a = box_center t0 (pos b) a) /\
      box_flags t b = box_flags t0 (pos b) /\
      pos (box_parent t b) = box_parent t0 (pos b) /\
      (forall m, m < nchildren t ->
        if box_child t m b =? 0
        then box_child t0 m (pos b) = 0 \/ ~ exists c, c < nboxes t /\ pos c = box_child t0 m (pos b)
        else box_child t0 m (pos b) = pos (box_child t m b)) /\
      box_source_starts P b = box_source_starts P0 (pos b) /\ box_source_counts_nonchild P b = box_source_counts_nonchild P0 (pos b) /\
      b_source_cumul B b = b_source_cumul B0 (pos b) /\
      box_target_starts P b = box_target_starts P0 (pos b) /\ box_target_counts_nonchild P b = box_target_counts_nonchild P0 (pos b) /\
      b_target_cumul B b = b_target_cumul B0 (pos b)) /\
    (forall k, user_source_ids P k = user_source_ids P0 k) /\ (forall j, sorted_target_ids P j = sorted_target_ids P0 j).
Proof.
  intros inp B V NR SK H. destruct (built_fin inp B V H) as [st [pth [D [F ->]]]].
  assert (D0 : level_loop (with_skip_prune true inp) = Done st) by (rewrite level_loop_skip; auto).
  assert (V' := V0 inp V). destruct (done_fin _ V' st D0) as [pth0 F0].
  exists (finish (with_skip_prune true inp) st), (position inp st).
  split; [unfold build_tree; rewrite D0; auto|]. cbv zeta.
  assert (IMG : forall x, x < p_nboxes (prune (with_skip_prune true inp) st) -> (0 < p_cumul (prune (with_skip_prune true inp) st) x <-> exists b, b < p_nboxes (prune inp st) /\ position inp st b = x))
    by (intros x Hx; apply (position_image inp V SK st pth pth0 F F0 x Hx)).
  assert (SUM : forall x, x < p_nboxes (prune (with_skip_prune true inp) st) ->
     (0 < b_source_cumul (finish (with_skip_prune true inp) st) x \/ 0 < b_target_cumul (finish (with_skip_prune true inp) st) x <->
      0 < p_cumul (prune (with_skip_prune true inp) st) x)).
  { intros x Hx. set (inp0 := with_skip_prune true inp) in *.
    assert (P0 := PI inp0 V' st pth0 F0).
    change (0 < sp_source_cumul (the_split inp0 (prune inp0 st)) x \/ 0 < sp_target_cumul (the_split inp0 (prune inp0 st)) x <-> 0 < p_cumul (prune inp0 st) x).
    rewrite (fin_source_cumul inp0 _ _ _ P0 (v_nsrc _ V') (v_same _ V') x Hx), (fin_target_cumul inp0 _ _ _ P0 (v_nsrc _ V') (v_same _ V') x Hx).
    destruct (same inp0) eqn:S.
    - unfold BuildFinish.src_pos, tgt_pos. rewrite S. cbn [orb]. rewrite !cntr_true. lia.
    - assert (X := src_tgt_sum inp0 (prune inp0 st) (p_start (prune inp0 st) x) (p_start (prune inp0 st) x + p_cumul (prune inp0 st) x) S). lia. }
  split; [intros b Hb; apply (position_lt inp V st pth0 F0 b)|]; auto.
  split; [intros b c Hbc Hc; apply (position_mono inp V st pth pth0 F F0); auto|].
  split; [intros x Hx; rewrite (SUM x Hx); apply (IMG x Hx)|].
  split; [|apply ids_same].
  intros b Hb. assert (OP := old_position inp V st pth pth0 F F0 b Hb).
  assert (PL : position inp st b < p_nboxes (prune (with_skip_prune true inp) st)) by (apply (position_lt inp V st pth0 F0 b); auto).
  destruct (position_ranges inp V SK st pth pth0 F F0 b Hb) as [R1 [R2 [R3 R4]]].
  destruct (position_own inp V st pth pth0 F F0 (pe inp NR) b Hb) as [O1 [O2 O3]].
  assert (PA : forall A (ary : nat -> A) z, pruned (src_boxes (with_skip_prune true inp) st) ary z (position inp st b) = ary (old inp st b)).
  { intros A ary z. rewrite (pruned0_at inp st ary z _ PL), OP. reflexivity. }
  split; [cbn [finish b_tree box_level prune p_blevel]; rewrite PA; apply (pruned_at inp st); auto|].
  split; [intros a; cbn [finish b_tree box_center prune p_center]; rewrite PA, (pruned_at inp st) by auto; auto|].
  split; [symmetry; exact O3|].
  split; [apply (position_parent inp V st pth pth0 F F0 b Hb)|]. split.
  { intros m Hm. destruct (position_child inp V SK st pth pth0 F F0 b m Hb Hm) as [[C E]|[C E]].
    - change (box_child (b_tree (finish inp st)) m b) with (p_child (prune inp st) m b). rewrite C. cbn [Nat.eqb].
      destruct E as [E|E]; [left; exact E|right]. intros X.
      assert (LT : p_child (prune (with_skip_prune true inp) st) m (position inp st b) < p_nboxes (prune (with_skip_prune true inp) st)).
      { destruct X as [c [Hc X]]. change (position inp st c = p_child (prune (with_skip_prune true inp) st) m (position inp st b)) in X. rewrite <- X. apply (position_lt inp V st pth0 F0 c); auto. }
      assert (Y := proj2 (IMG _ LT) X). lia.
    - change (box_child (b_tree (finish inp st)) m b) with (p_child (prune inp st) m b).
      destruct (Nat.eqb_spec (p_child (prune inp st) m b) 0); [contradiction|]. exact E. }
  repeat split; symmetry; assumption.
Qed.

(** level starts of the returned tree, pruned or not *)
Theorem C21_level_starts : forall inp B,
  valid_input inp -> levels_stay_populated inp -> build_tree inp = inl B ->
  let t := b_tree B in let starts l := nth l (b_level_starts B) 0 in
  length (b_level_starts B) = S (nlevels t) /\ starts 0 = 0 /\ starts (nlevels t) = nboxes t /\
  (forall l, l < nlevels t -> starts l < starts (S l)) /\
  (forall l b, l < nlevels t -> b < nboxes t -> (starts l <= b < starts (S l) <-> box_level t b = l)).
Proof.
  intros inp B V L H. destruct (built_levels inp B V L H) as [st [pth [_ [F [-> FULL]]]]]. cbv zeta.
  destruct (finish_levels inp V st pth F FULL) as [H1 [H2 [H3 [H4 [H5 _]]]]]. repeat split; auto; intros; apply H4; auto.
Qed.

(** ** C22: box flags. *)
Theorem C22_box_flags : forall inp B b,
  valid_input inp -> not_restricted_with_extents inp -> build_tree inp = inl B -> b < nboxes (b_tree B) ->
  let t := b_tree B in let P := b_particles B in
  (is_source t b = true <-> exists k, own_sources B b k) /\
  (is_target t b = true <-> exists k, own_targets B b k) /\
  (box_source_counts_nonchild P b < b_source_cumul B b -> has_source_child t b = true) /\
  (box_target_counts_nonchild P b < b_target_cumul B b -> has_target_child t b = true) /\
  (* exact when sources are targets *)
  (same inp = true -> skip_prune inp = false ->
     (has_source_child t b = true <-> box_source_counts_nonchild P b < b_source_cumul B b) /\
     (has_target_child t b = true <-> box_target_counts_nonchild P b < b_target_cumul B b)).
Proof.
  intros inp B b V NR H. destruct (built_fin inp B V H) as [st [pth [_ [F ->]]]]. intros Hb t P. assert (PE := pe inp NR).
  destruct (finish_flags inp V st pth F PE b Hb) as [E1 [E2 [E3 E4]]]. fold t in E1, E2, E3, E4. fold P in E1, E2.
  assert (S1 := finish_source_counts inp V st pth F PE b Hb). assert (S2 := finish_target_counts inp V st pth F PE b Hb).
  fold t P in S1, S2.
  assert (LF : psp inp st b = false -> forall m, m < nchildren t -> box_child t m b = 0).
  { intros L m Hm. apply (pi_leaf _ _ _ _ (PI inp V st pth F)); auto. }
  assert (Z : forall (f : nat -> nat) l, (forall m, In m l -> f m = 0) -> nsum (map f l) = 0).
  { intros f l. induction l as [|m l IH]; intros X; cbn [map]; auto. unfold nsum in *. cbn [fold_right]. rewrite IH; [rewrite X; [auto|left; auto]|intros; apply X; right; auto]. }
  assert (Z1 : forall f : nat -> nat, psp inp st b = false -> nsum (map (fun m => if box_child t m b =? 0 then 0 else f m) (seq 0 (nchildren t))) = 0).
  { intros f L. apply Z. intros m Hm. apply in_seq in Hm. rewrite LF by (auto; lia). auto. }
  split; [|split; [|split; [|split]]].
  - rewrite E1. unfold own_sources. fold P. destruct (Nat.eqb_spec (box_source_counts_nonchild P b) 0) as [C|C]; cbn [negb]; split; intros X; try discriminate; auto.
    + destruct X as [k X]. lia.
    + exists (box_source_starts P b). lia.
  - rewrite E2. unfold own_targets. fold P. destruct (Nat.eqb_spec (box_target_counts_nonchild P b) 0) as [C|C]; cbn [negb]; split; intros X; try discriminate; auto.
    + destruct X as [k X]. lia.
    + exists (box_target_starts P b). lia.
  - intros X. rewrite E3. destruct (psp inp st b) eqn:L; auto. rewrite (Z1 (fun m => b_source_cumul (finish inp st) (box_child t m b)) eq_refl) in S1. lia.
  - intros X. rewrite E4. destruct (psp inp st b) eqn:L; auto. rewrite (Z1 (fun m => b_target_cumul (finish inp st) (box_child t m b)) eq_refl) in S2. lia.
  - intros SA SK.
    assert (NE : have_extent inp = false) by (destruct (have_extent inp) eqn:HE; auto; rewrite (v_ext _ V HE) in SA; discriminate).
    assert (CU : 0 < p_cumul (prune inp st) b) by (apply (prune_nonempty inp st pth F (v_npart _ V) SK b Hb)).
    assert (N1 := snc_eq inp _ _ _ (PI inp V st pth F) (PEND inp V st pth F PE) (v_nsrc _ V) (v_same _ V) b Hb).
    assert (N2 := tnc_eq inp _ _ _ (PI inp V st pth F) (PEND inp V st pth F PE) (v_nsrc _ V) (v_same _ V) b Hb).
    assert (CS : psp inp st b = true -> BuildSplit.own inp (pq inp st pth) (psp inp st) b = 0).
    { intros L. apply own_sp_no_extent; auto. }
    assert (K1 : b_source_cumul (finish inp st) b = p_cumul (prune inp st) b).
    { change (sp_source_cumul (the_split inp (prune inp st)) b = p_cumul (prune inp st) b). unfold the_split. rewrite SA. auto. }
    assert (K2 : b_target_cumul (finish inp st) b = p_cumul (prune inp st) b).
    { change (sp_target_cumul (the_split inp (prune inp st)) b = p_cumul (prune inp st) b). unfold the_split. rewrite SA. auto. }
    rewrite E3, E4. destruct (psp inp st b) eqn:L.
    + specialize (CS eq_refl). rewrite CS, Nat.add_0_r in N1, N2. unfold ArrayFacts.cntr in N1, N2. rewrite Nat.sub_diag in N1, N2. cbn in N1, N2.
      change (box_source_counts_nonchild P b = 0) in N1. change (box_target_counts_nonchild P b = 0) in N2. split; split; auto; intros _; lia.
    + rewrite (Z1 (fun m => b_source_cumul (finish inp st) (box_child t m b)) eq_refl) in S1.
      rewrite (Z1 (fun m => b_target_cumul (finish inp st) (box_child t m b)) eq_refl) in S2. split; split; intros X; try discriminate; lia.
Qed.

(** ** C23: bounding boxes.  The entries are attained bounds over the particles of the box and
    its descendants (with their radii) and the centers of those boxes. *)
Theorem C23_source_bounding_boxes : forall inp B b a,
  valid_input inp -> not_restricted_with_extents inp -> levels_stay_populated inp -> build_tree inp = inl B ->
  b < nboxes (b_tree B) -> a < dim (b_tree B) ->
  let t := b_tree B in
  let lo k := (b_sources B k a - b_source_radii B k)%Z in let hi k := (b_sources B k a + b_source_radii B k)%Z in
  (forall k, all_sources B b k -> (b_source_bbox_min B b a <= lo k)%Z /\ (hi k <= b_source_bbox_max B b a)%Z) /\
  (forall c, below t b c -> (b_source_bbox_min B b a <= box_center t c a <= b_source_bbox_max B b a)%Z) /\
  ((exists k, all_sources B b k /\ b_source_bbox_min B b a = lo k) \/ (exists c, below t b c /\ b_source_bbox_min B b a = box_center t c a)) /\
  ((exists k, all_sources B b k /\ b_source_bbox_max B b a = hi k) \/ (exists c, below t b c /\ b_source_bbox_max B b a = box_center t c a)).
Proof.
  intros inp B b a V NR L H. destruct (built_levels inp B V L H) as [st [pth [_ [F [-> FULL]]]]]. intros Hb Ha t lo hi.
  set (val1 := fun i a => (b_sources (finish inp st) i a - b_source_radii (finish inp st) i)%Z).
  set (val2 := fun i a => (b_sources (finish inp st) i a + b_source_radii (finish inp st) i)%Z).
  destruct (source_bounds inp V st pth F (pe inp NR) FULL Z.min (fun x y => (x <= y)%Z) val1 b a) as [A1 [A2 A3]];
    [intros; lia|intros; lia|intros; lia|intros; lia|intros; lia|exact Hb|exact Ha|].
  destruct (source_bounds inp V st pth F (pe inp NR) FULL Z.max (fun x y => (y <= x)%Z) val2 b a) as [B1 [B2 B3]];
    [intros; lia|intros; lia|intros; lia|intros; lia|intros; lia|exact Hb|exact Ha|].
  split; [intros k Hk; split; [apply (A1 k Hk)|apply (B1 k Hk)]|].
  split; [intros c Hc; split; [apply (A2 c Hc)|apply (B2 c Hc)]|]. split; [exact A3|exact B3].
Qed.
Theorem C23_target_bounding_boxes : forall inp B b a,
  valid_input inp -> not_restricted_with_extents inp -> levels_stay_populated inp -> build_tree inp = inl B ->
  b < nboxes (b_tree B) -> a < dim (b_tree B) ->
  let t := b_tree B in
  let lo k := (b_targets B k a - b_target_radii B k)%Z in let hi k := (b_targets B k a + b_target_radii B k)%Z in
  (forall k, all_targets B b k -> (b_target_bbox_min B b a <= lo k)%Z /\ (hi k <= b_target_bbox_max B b a)%Z) /\
  (forall c, below t b c -> (b_target_bbox_min B b a <= box_center t c a <= b_target_bbox_max B b a)%Z) /\
  ((exists k, all_targets B b k /\ b_target_bbox_min B b a = lo k) \/ (exists c, below t b c /\ b_target_bbox_min B b a = box_center t c a)) /\
  ((exists k, all_targets B b k /\ b_target_bbox_max B b a = hi k) \/ (exists c, below t b c /\ b_target_bbox_max B b a = box_center t c a)).
Proof.
  intros inp B b a V NR L H. destruct (built_levels inp B V L H) as [st [pth [_ [F [-> FULL]]]]]. intros Hb Ha t lo hi.
  set (val1 := fun i a => (b_targets (finish inp st) i a - b_target_radii (finish inp st) i)%Z).
  set (val2 := fun i a => (b_targets (finish inp st) i a + b_target_radii (finish inp st) i)%Z).
  destruct (target_bounds inp V st pth F (pe inp NR) FULL Z.min (fun x y => (x <= y)%Z) val1 b a) as [A1 [A2 A3]];
    [intros; lia|intros; lia|intros; lia|intros; lia|intros; lia|exact Hb|exact Ha|].
  destruct (target_bounds inp V st pth F (pe inp NR) FULL Z.max (fun x y => (y <= x)%Z) val2 b a) as [B1 [B2 B3]];
    [intros; lia|intros; lia|intros; lia|intros; lia|intros; lia|exact Hb|exact Ha|].
  split; [intros k Hk; split; [apply (A1 k Hk)|apply (B1 k Hk)]|].
  split; [intros c Hc; split; [apply (A2 c Hc)|apply (B2 c Hc)]|]. split; [exact A3|exact B3].
Qed.
(** A box without particles and children collapses to its center. *)
Theorem C23_empty_leaves_collapse : forall inp B b a,
  valid_input inp -> not_restricted_with_extents inp -> levels_stay_populated inp -> build_tree inp = inl B ->
  b < nboxes (b_tree B) -> a < dim (b_tree B) -> leaf_box (b_tree B) b ->
  (b_source_cumul B b = 0 -> b_source_bbox_min B b a = box_center (b_tree B) b a /\ b_source_bbox_max B b a = box_center (b_tree B) b a) /\
  (b_target_cumul B b = 0 -> b_target_bbox_min B b a = box_center (b_tree B) b a /\ b_target_bbox_max B b a = box_center (b_tree B) b a).
Proof.
  intros inp B b a V NR L H Hb Ha LF.
  assert (BL : forall c, below (b_tree B) b c -> c = b).
  { intros c X. induction X; auto. subst c. exfalso. apply H1. apply LF; auto. }
  split; intros E.
  - destruct (C23_source_bounding_boxes inp B b a V NR L H Hb Ha) as [_ [_ [[[k [X _]]|[c [X Y]]] [[k' [X' _]]|[c' [X' Y']]]]]];
      try (unfold all_sources in *; lia). rewrite (BL _ X) in Y. rewrite (BL _ X') in Y'. auto.
  - destruct (C23_target_bounding_boxes inp B b a V NR L H Hb Ha) as [_ [_ [[[k [X _]]|[c [X Y]]] [[k' [X' _]]|[c' [X' Y']]]]]];
      try (unfold all_targets in *; lia). rewrite (BL _ X) in Y. rewrite (BL _ X') in Y'. auto.
Qed.

(** ** C24: level restriction. *)
Theorem C24_touching_leaves : forall inp B b c,
  valid_input inp -> valid_geometry inp -> build_kind inp = LevelRestricted -> ext inp = None ->
  build_tree inp = inl B -> nlevels (b_tree B) <= 30 ->
  b < nboxes (b_tree B) -> c < nboxes (b_tree B) -> leaf_box (b_tree B) b -> leaf_box (b_tree B) c ->
  boxes_touch (b_tree B) b c -> box_level (b_tree B) b <= box_level (b_tree B) c + 1.
Proof.
  intros inp B b c V G K NE H D Hb Hc Lb Lc TT. destruct (built_done inp B H) as [st [DN ->]].
  assert (LRT : level_restrict inp = true) by (unfold level_restrict; rewrite K; auto).
  destruct (level_loop_fin inp st (V_WT inp V) (V_MW inp V) (v_npart _ V) (v_guess _ V) DN) as [[pth F] [E|[st0 [pth0 [pth1 [R [EN F1]]]]]]].
  - apply (finish_balanced inp V st pth F G b c); auto; [apply no_ext; auto|left; rewrite E; reflexivity].
  - apply (finish_balanced inp V st pth1 F1 G b c); auto; [apply no_ext; auto|right].
    apply (ends_balanced inp (V_WT inp V) (V_MW inp V) (v_npart _ V) (v_guess _ V) (v_pos _ G) (v_unit _ G) LRT st0 pth0 st pth1 R EN (no_ext inp NE)).
    apply (nlev30 inp st pth1 F1 D).
Qed.

(** ** C25: up to 30 levels the boxes are where their level and Morton number say. *)
Theorem C25_geometry_up_to_30_levels : forall inp B,
  valid_input inp -> valid_geometry inp -> build_tree inp = inl B -> nlevels (b_tree B) <= 30 ->
  let t := b_tree B in
  (forall a, a < dim t -> box_center t 0 a = (bbox_min inp a + root_extent t / 2)%Z) /\
  (forall m b, b < nboxes t -> m < nchildren t -> box_child t m b <> 0 ->
     box_level t (box_child t m b) = S (box_level t b) /\
     box_rad t b = (2 * box_rad t (box_child t m b))%Z /\
     forall a, a < dim t -> box_center t (box_child t m b) a = (box_center t b a + morton_sign (dim t) m a * box_rad t (box_child t m b))%Z).
Proof.
  intros inp B V G H D. destruct (built_fin inp B V H) as [st [pth [_ [F ->]]]]. cbv zeta.
  assert (W := finish_wf_tree inp V st pth F G D). split.
  - intros a Ha. assert (N0 : 0 < p_nboxes (prune inp st)) by apply (wf_nboxes _ W).
    rewrite (T_center inp V st pth F 0 a N0 Ha), (pi_root _ _ _ _ (PI inp V st pth F)).
    unfold path_center. cbn [center_down]. rewrite (G_cube inp G a Ha). reflexivity.
  - intros m b Hb Hm C. destruct (wf_child _ W m b Hb Hm C) as [_ [E1 E2]]. split; [auto|]. split; [|auto].
    assert (LT := wf_level_lt _ W _ (wf_child_lt _ W m b Hb Hm)). destruct (wf_extent_div _ W) as [q Q].
    unfold box_rad, level_to_rad. rewrite E1. rewrite E1 in LT.
    set (l := box_level _ b) in *. set (N := nlevels _) in *. rewrite Q.
    replace (Z.of_nat N) with (Z.of_nat (N - (S l + 1)) + Z.of_nat (S l + 1))%Z by lia.
    rewrite Z.pow_add_r, Z.mul_assoc, Z.div_mul by lia. replace (Z.of_nat (S l + 1)) with (1 + Z.of_nat (l + 1))%Z by lia.
    rewrite (Z.pow_add_r 2 1) by lia. rewrite Z.mul_assoc, Z.div_mul by lia. lia.
Qed.

(** ** C50: building a tree from particles, then the traversal, then the FMM drive sums the
    weights of all sources at every target, given an additive translation. *)
Theorem C50_build_traverse_evaluate : forall inp B P tr weights j,
  valid_input inp -> valid_geometry inp -> not_restricted_with_extents inp -> levels_stay_populated inp ->
  build_tree inp = inl B -> nlevels (b_tree B) <= 30 ->
  1 <= well_sep_is_n_away P -> sources_are_targets P = same inp ->
  (forall b, source_boxes_mask P b = true) -> (forall b, source_parent_boxes_mask P b = true) ->
  (targets_have_extent (Traversal.extents P) = true -> wf_extent (Traversal.extents P)) ->
  (forall l, level_start_box_nrs P l = nth l (b_level_starts B) 0) ->
  (build_traversal (b_tree B) P = Some tr \/
   exists tr0, build_traversal (b_tree B) P = Some tr0 /\ merge_close_lists tr0 = Some tr) ->
  j < num_targets inp ->
  drive_fmm (b_tree B) (b_particles B) tr weights j = zsum (map weights (seq 0 (nsrc inp))).
Proof.
  intros inp B P tr w j V G NR L H D WS ST M1 M2 WE LV TR Hj.
  destruct (built_levels inp B V L H) as [st [pth [_ [F [-> FULL]]]]].
  assert (PE := pe inp NR).
  change (nsrc inp) with (nsources (b_particles (finish inp st))).
  apply (C03_fmm_sums_all_weights _ P); auto.
  - apply (finish_wf_tree inp V st pth F G D).
  - apply (finish_wf_flags inp V st pth F PE).
  - split; auto. intros S b Hb. rewrite M1, andb_true_r. apply (finish_same_flags inp V st pth F PE); auto. congruence.
  - destruct (finish_levels inp V st pth F FULL) as [_ [_ [_ [_ [_ X]]]]].
    unfold level_sorted in *. intros. rewrite !LV. auto.
  - apply (finish_wf_particles inp V st pth F PE).
Qed.
(** ... and that traversal can be built. *)
Theorem C50_traversal_succeeds : forall inp B P,
  valid_input inp -> valid_geometry inp -> build_tree inp = inl B -> nlevels (b_tree B) <= 30 ->
  1 <= well_sep_is_n_away P -> exists tr, build_traversal (b_tree B) P = Some tr.
Proof.
  intros inp B P V G H D WS. destruct (built_fin inp B V H) as [st [pth [_ [F ->]]]].
  apply C09_build_traversal_succeeds; auto. apply (finish_wf_tree inp V st pth F G D).
Qed.

(** ** C51: the build ends: it returns a tree or reports that there are too many levels. *)
Theorem C51_build_terminates : forall inp,
  valid_input inp -> (max_weight inp < INT_MAX)%Z \/ ext inp <> None ->
  (exists B, build_tree inp = inl B) \/ build_tree inp = inr MaxLevelsExceeded.
Proof.
  intros inp V M.
  assert (M' : (max_weight inp < INT_MAX)%Z \/ have_extent inp = true).
  { destruct M as [M|M]; auto. right. unfold have_extent. destruct (ext inp); auto. }
  assert (X := level_loop_result inp (V_WT inp V) (V_MW inp V) (v_npart _ V) (v_guess _ V) M').
  unfold build_tree. destruct (level_loop inp) as [s|s|e]; [contradiction|left; eauto|right; congruence].
Qed.

(** ** C52: particles with extents: a particle is only pushed down into boxes that contain it,
    its radius included, up to the stick-out factor, and stays above octants that do not. *)
Theorem C52_stick_out_bound : forall inp B e,
  valid_input inp -> valid_geometry inp -> ext inp = Some e -> build_tree inp = inl B -> nlevels (b_tree B) <= 30 ->
  let t := b_tree B in
  (forall b k, b < nboxes t -> b <> 0 -> all_sources B b k ->
     fits e (dim t) (box_center t b) (box_rad t b) (b_sources B k) (b_source_radii B k)) /\
  (forall b k, b < nboxes t -> b <> 0 -> all_targets B b k ->
     fits e (dim t) (box_center t b) (box_rad t b) (b_targets B k) (b_target_radii B k)).
Proof.
  intros inp B e V G EE H D. destruct (built_fin inp B V H) as [st [pth [_ [F ->]]]]. cbv zeta.
  assert (RD : forall u, rad_of inp u = radius e u) by (intros u; unfold rad_of; rewrite EE; auto).
  split; intros b k Hb B0 A.
  - assert (Hk := all_sources_lt inp V st pth F b k Hb A). apply (all_sources_reach inp V st pth F b k Hb Hk) in A.
    assert (X := reach_fits inp V G st pth F D e EE (sp_source_ids (the_split inp (prune inp st)) k) b).
    cbn [b_sources b_source_radii finish]. rewrite RD. apply X; auto.
    assert (Y := source_id_lt inp V st pth F k Hk). assert (Z := v_nsrc _ V). lia.
  - assert (Hk := all_targets_lt inp V st pth F b k Hb A). apply (all_targets_reach inp V st pth F b k Hb Hk) in A.
    assert (X := reach_fits inp V G st pth F D e EE (sp_target_ids (the_split inp (prune inp st)) k) b).
    cbn [b_targets b_target_radii finish]. rewrite RD. apply X; auto.
    assert (Y := target_ids_range inp (prune inp st) _ _ (PI inp V st pth F) (v_nsrc _ V) (v_same _ V) k Hk).
    unfold tgt_base, ntgt in Y. destruct (same inp); lia.
Qed.
Theorem C52_particles_stay_for_a_reason : forall inp B e,
  valid_input inp -> valid_geometry inp -> ext inp = Some e -> not_restricted_with_extents inp ->
  build_tree inp = inl B -> nlevels (b_tree B) <= 30 ->
  let t := b_tree B in
  let in_octant b m (x : nat -> Z) := forall a, a < dim t -> (octant_center t b m a - box_rad t b / 2 <= x a < octant_center t b m a + box_rad t b / 2)%Z in
  (forall b m k, b < nboxes t -> m < nchildren t -> box_level t b < 29 -> has_source_child t b = true ->
     own_sources B b k -> in_octant b m (b_sources B k) ->
     ~ fits e (dim t) (octant_center t b m) (box_rad t b / 2)%Z (b_sources B k) (b_source_radii B k)) /\
  (forall b m k, b < nboxes t -> m < nchildren t -> box_level t b < 29 -> has_target_child t b = true ->
     own_targets B b k -> in_octant b m (b_targets B k) ->
     ~ fits e (dim t) (octant_center t b m) (box_rad t b / 2)%Z (b_targets B k) (b_target_radii B k)).
Proof.
  intros inp B e V G EE NR H D. destruct (built_fin inp B V H) as [st [pth [_ [F ->]]]]. cbv zeta.
  assert (RD : forall u, rad_of inp u = radius e u) by (intros u; unfold rad_of; rewrite EE; auto).
  assert (PE := pe inp NR). assert (P := PI inp V st pth F). assert (PD := PEND inp V st pth F PE).
  split; intros b m k Hb Hm HL HC O OC.
  - destruct (source_own inp _ _ _ P PD (v_nsrc _ V) (v_same _ V) b k Hb O) as [i [Hi [E1 [E2 E3]]]].
    assert (RR : reach inp (p_user (prune inp st) i) (pq inp st pth b) = true) by (rewrite <- E3; apply (pi_box _ _ _ _ P i Hi)).
    destruct (finish_flags inp V st pth F PE b Hb) as [_ [_ [Q _]]]. rewrite Q in HC.
    assert (K := proj1 (split_own inp _ _ _ P b i Hb HC Hi RR) E3).
    assert (X := stays_unfit inp V G st pth F D e EE (p_user (prune inp st) i) b m (user_lt inp _ _ _ P i Hi) Hb Hm HL RR K).
    rewrite <- E2 in X. cbn [b_source_radii finish]. rewrite RD. apply X. exact OC.
  - destruct (target_own inp _ _ _ P PD (v_nsrc _ V) (v_same _ V) b k Hb O) as [i [Hi [E1 [E2 E3]]]].
    assert (RR : reach inp (p_user (prune inp st) i) (pq inp st pth b) = true) by (rewrite <- E3; apply (pi_box _ _ _ _ P i Hi)).
    destruct (finish_flags inp V st pth F PE b Hb) as [_ [_ [_ Q]]]. rewrite Q in HC.
    assert (K := proj1 (split_own inp _ _ _ P b i Hb HC Hi RR) E3).
    assert (X := stays_unfit inp V G st pth F D e EE (p_user (prune inp st) i) b m (user_lt inp _ _ _ P i Hi) Hb Hm HL RR K).
    rewrite <- E2 in X. cbn [b_target_radii finish]. rewrite RD. apply X. exact OC.
Qed.

(** ** C53: the returned arrays describe a tree with box 0 as root, numbered level by level,
    whatever the arguments and however deep. *)
Theorem C53_tree_structure : forall inp B,
  valid_input inp -> build_tree inp = inl B ->
  let t := b_tree B in
  0 < nboxes t /\ box_level t 0 = 0 /\ box_parent t 0 = 0 /\
  (forall b, b < nboxes t -> box_level t b < nlevels t) /\
  (forall m b, b < nboxes t -> m < nchildren t -> box_child t m b < nboxes t) /\
  (forall m b, b < nboxes t -> m < nchildren t -> box_child t m b <> 0 ->
     box_parent t (box_child t m b) = b /\ box_level t (box_child t m b) = S (box_level t b)) /\
  (forall b, 0 < b -> b < nboxes t -> box_parent t b < nboxes t /\ exists m, m < nchildren t /\ box_child t m (box_parent t b) = b) /\
  (forall m m' b, b < nboxes t -> m < nchildren t -> m' < nchildren t ->
     box_child t m b <> 0 -> box_child t m b = box_child t m' b -> m = m') /\
  (forall b c, b <= c -> c < nboxes t -> box_level t b <= box_level t c).
Proof.
  intros inp B V H. destruct (built_fin inp B V H) as [st [pth [_ [F ->]]]]. apply (finish_tree_structure inp V st pth F).
Qed.

(** * Concrete cases meeting the hypotheses *)
Definition deep_ok (inp : input) (check : built -> bool) : bool := holds inp (fun B => (nlevels (b_tree B) <=? 30) && check B).
Lemma deep_spec inp check : deep_ok inp check = true -> exists B, build_tree inp = inl B /\ (nlevels (b_tree B) <=? 30) && check B = true.
Proof. unfold deep_ok. apply holds_spec. Qed.
Definition leafb (t : tree) (b : nat) : bool := forallb (fun m => box_child t m b =? 0) (seq 0 (nchildren t)).
Lemma leafb_spec t b : leafb t b = true <-> leaf_box t b.
Proof.
  unfold leafb, leaf_box. rewrite forallb_forall. split; intros H m Hm.
  - apply Nat.eqb_eq, H, in_seq. lia.
  - apply Nat.eqb_eq, H. apply in_seq in Hm. lia.
Qed.
Definition touchb (t : tree) (b c : nat) : bool :=
  forallb (fun a => Z.abs (box_center t b a - box_center t c a) <=? box_rad t b + box_rad t c)%Z (seq 0 (dim t)).

(** C17-C21, C23, C25, C50, C51, C53: pruned and not, shared and separate particles *)
Ltac example_ok := repeat match goal with |- _ /\ _ => split end;
  match goal with
  | |- valid_input _ => apply example_valid; reflexivity
  | |- valid_geometry _ => apply example_geometry; reflexivity
  | |- not_restricted_with_extents _ => intros K; reflexivity || discriminate K
  | |- levels_stay_populated _ => right; left; discriminate
  | |- _ <> _ => discriminate
  | |- _ => vm_compute; reflexivity
  end.
Example shared_input_ok : valid_input shared_input /\ valid_geometry shared_input /\ not_restricted_with_extents shared_input /\
  levels_stay_populated shared_input /\ (max_weight shared_input < INT_MAX)%Z /\
  deep_ok shared_input (fun B => (4 <=? nlevels (b_tree B)) && (nboxes (b_tree B) =? 9)) = true.
Proof.
  example_ok.
Qed.
Example separate_input_ok : valid_input separate_input /\ valid_geometry separate_input /\ not_restricted_with_extents separate_input /\
  levels_stay_populated separate_input /\ skip_prune separate_input = false /\ ext separate_input = None /\
  deep_ok separate_input (fun B => (4 <=? nlevels (b_tree B)) && (nboxes (b_tree B) =? 9) && negb (leafb (b_tree B) 5) && leafb (b_tree B) 6) = true /\
  deep_ok separate_unpruned (fun B => 9 <? nboxes (b_tree B)) = true.
Proof.
  example_ok.
Qed.
(** C24: touching leaves on different levels *)
Example restricted_input_ok : valid_input restricted_input /\ valid_geometry restricted_input /\ build_kind restricted_input = LevelRestricted /\
  ext restricted_input = None /\
  deep_ok restricted_input (fun B => let t := b_tree B in existsb (fun b => existsb (fun c =>
    leafb t b && leafb t c && touchb t b c && (box_level t b =? S (box_level t c))) (seq 0 (nboxes t))) (seq 0 (nboxes t))) = true.
Proof. example_ok. Qed.
(** C20, C22, C52 with extents: the root box keeps a target that sticks out and has children *)
Example extent_input_ok : valid_input extent_input /\ valid_geometry extent_input /\ not_restricted_with_extents extent_input /\
  ext extent_input <> None /\
  deep_ok extent_input (fun B => has_target_child (b_tree B) 0 && (box_target_counts_nonchild (b_particles B) 0 =? 1) &&
     negb (has_source_child (b_tree B) 1) && (b_target_cumul B 2 =? 1)) = true.
Proof.
  example_ok.
Qed.

(** * What does not hold *)
(** ** C18, C22 with level restriction and extents: a particle that is in no box.  Radii in half ticks. *)
Definition half_radii (r : list Z) : TreeBuild.extents :=
  {| radius := fun u => (tick / 2 * nth u r 0)%Z; sof_num := 1; sof_den := 4; extent_norm := Linf |}.
Definition lost_input := example_input [[7;7];[7;7];[9;3]]%Z 2 false (Some (half_radii [1;1;0]%Z)) [] 1 LevelRestricted false.
Lemma C18_level_restricted_extents_refuted_case : deep_ok lost_input (fun B => (0 <? ntargets (b_particles B)) && forallb (fun b =>
     negb (in_range (box_target_starts (b_particles B) b) (box_target_counts_nonchild (b_particles B) b) 0)) (seq 0 (nboxes (b_tree B)))) = true.
Proof. vm_cast_no_check (eq_refl true). Qed.
Theorem C18_level_restricted_extents_refuted : exists inp B,
  valid_input inp /\ valid_geometry inp /\ build_tree inp = inl B /\ nlevels (b_tree B) <= 30 /\
  exists k, k < ntargets (b_particles B) /\ forall b, b < nboxes (b_tree B) -> ~ own_targets B b k.
Proof.
  assert (H := C18_level_restricted_extents_refuted_case).
  destruct (deep_spec _ _ H) as [B [E C]]. clear H. rewrite !andb_true_iff, Nat.leb_le, Nat.ltb_lt, forallb_forall in C. destruct C as [C1 [C2 C3]].
  exists lost_input, B. split; [apply example_valid; reflexivity|]. split; [apply example_geometry; reflexivity|]. split; auto. split; auto.
  exists 0. split; auto. intros b Hb O. specialize (C3 b ltac:(apply in_seq; lia)). apply negb_true_iff in C3.
  apply in_range_spec in O. congruence.
Qed.
(** ... and the box holding it says it has target children, although it has no children. *)
Lemma C22_level_restricted_extents_refuted_case : deep_ok lost_input (fun B => (2 <? nboxes (b_tree B)) && leafb (b_tree B) 2 && has_target_child (b_tree B) 2 &&
     (0 <? b_target_cumul B 2) && negb (is_target (b_tree B) 2)) = true.
Proof. vm_cast_no_check (eq_refl true). Qed.
Theorem C22_level_restricted_extents_refuted : exists inp B b,
  valid_input inp /\ valid_geometry inp /\ build_tree inp = inl B /\ nlevels (b_tree B) <= 30 /\ b < nboxes (b_tree B) /\
  leaf_box (b_tree B) b /\ has_target_child (b_tree B) b = true /\ 0 < b_target_cumul B b /\ is_target (b_tree B) b = false.
Proof.
  assert (H := C22_level_restricted_extents_refuted_case).
  destruct (deep_spec _ _ H) as [B [E C]]. clear H. rewrite !andb_true_iff, Nat.leb_le, !Nat.ltb_lt, leafb_spec, negb_true_iff in C.
  destruct C as [C1 [[[[C2 C3] C4] C5] C6]].
  exists lost_input, B, 2. repeat match goal with |- _ /\ _ => split end; auto; [apply example_valid|apply example_geometry]; reflexivity.
Qed.
(** ** C22: a split box whose subtree holds no targets still has HAS_TARGET_CHILD_BOXES. *)
Definition sources_only_input := example_input [[1;1];[2;2];[1;5];[2;6];[14;14]]%Z 4 false None [] 2 Adaptive false.
Lemma C22_has_child_flags_refuted_case : deep_ok sources_only_input (fun B => (1 <? nboxes (b_tree B)) && has_target_child (b_tree B) 1 &&
     (b_target_cumul B 1 =? 0)) = true.
Proof. vm_cast_no_check (eq_refl true). Qed.
Theorem C22_has_child_flags_refuted : exists inp B b,
  valid_input inp /\ valid_geometry inp /\ ext inp = None /\ build_tree inp = inl B /\ nlevels (b_tree B) <= 30 /\ b < nboxes (b_tree B) /\
  has_target_child (b_tree B) b = true /\ b_target_cumul B b = 0.
Proof.
  assert (H := C22_has_child_flags_refuted_case).
  destruct (deep_spec _ _ H) as [B [E C]]. clear H. rewrite !andb_true_iff, Nat.leb_le, !Nat.ltb_lt, Nat.eqb_eq in C.
  destruct C as [C1 [[C2 C3] C4]].
  exists sources_only_input, B, 1. repeat match goal with |- _ /\ _ => split end; auto; [apply example_valid|apply example_geometry]; reflexivity.
Qed.
(** ** C23: bounding boxes are not tight. *)
Lemma C23_tight_refuted_case : deep_ok shared_input (fun B => (3 <? nboxes (b_tree B)) && (0 <? dim (b_tree B)) && (0 <? b_source_cumul B 3) &&
     forallb (fun k => negb (b_source_bbox_max B 3 0 =? b_sources B k 0)%Z) (seq (box_source_starts (b_particles B) 3) (b_source_cumul B 3))) = true.
Proof. vm_cast_no_check (eq_refl true). Qed.
Theorem C23_tight_refuted : exists inp B b a,
  valid_input inp /\ valid_geometry inp /\ ext inp = None /\ build_tree inp = inl B /\ nlevels (b_tree B) <= 30 /\
  b < nboxes (b_tree B) /\ a < dim (b_tree B) /\ 0 < b_source_cumul B b /\
  forall k, all_sources B b k -> b_source_bbox_max B b a <> b_sources B k a.
Proof.
  assert (H := C23_tight_refuted_case).
  destruct (deep_spec _ _ H) as [B [E C]]. clear H. rewrite !andb_true_iff, Nat.leb_le, !Nat.ltb_lt, forallb_forall in C.
  destruct C as [C1 [[[C2 C3] C4] C5]].
  exists shared_input, B, 3, 0. repeat match goal with |- _ /\ _ => split end; auto; [apply example_valid; reflexivity|apply example_geometry; reflexivity|].
  intros k Hk Q. specialize (C5 k ltac:(apply in_seq; unfold all_sources in Hk; lia)). apply negb_true_iff, Z.eqb_neq in C5. auto.
Qed.
(** ** C21: level starts of a pruned non-adaptive tree with extents. *)
Definition uneven_input := example_input [[7;7];[7;7];[7;7]]%Z 2 false (Some (half_radii [1;1;1]%Z)) [] 1 NonAdaptive false.
Lemma C21_level_starts_refuted_case : deep_ok uneven_input (fun B => negb (nth (nlevels (b_tree B)) (b_level_starts B) 0 =? nboxes (b_tree B))) = true.
Proof. vm_cast_no_check (eq_refl true). Qed.
Theorem C21_level_starts_refuted : exists inp B,
  valid_input inp /\ valid_geometry inp /\ build_tree inp = inl B /\ nlevels (b_tree B) <= 30 /\
  nth (nlevels (b_tree B)) (b_level_starts B) 0 <> nboxes (b_tree B).
Proof.
  assert (H := C21_level_starts_refuted_case).
  destruct (deep_spec _ _ H) as [B [E C]]. clear H. rewrite !andb_true_iff, Nat.leb_le, negb_true_iff, Nat.eqb_neq in C. destruct C as [C1 C2].
  exists uneven_input, B. repeat match goal with |- _ /\ _ => split end; auto; [apply example_valid|apply example_geometry]; reflexivity.
Qed.
(** ** C26: a particle on the upper boundary of a user-supplied bounding box. *)
Definition boundary_points : list (list Z) := [[1;1];[9;9];[16;16];[1;2]]%Z.
Definition boundary_input := example_input boundary_points 4 true None [] 1 Adaptive false.
Lemma C26_closed_bounding_box_refuted_case : deep_ok boundary_input (fun B => let t := b_tree B in (0 <? dim t) && existsb (fun b => existsb (fun k =>
      in_range (box_source_starts (b_particles B) b) (box_source_counts_nonchild (b_particles B) b) k &&
      (box_rad t b <? Z.abs (b_sources B k 0 - box_center t b 0))%Z) (seq 0 4)) (seq 0 (nboxes t))) = true.
Proof. vm_cast_no_check (eq_refl true). Qed.
Theorem C26_closed_bounding_box_refuted : exists inp B,
  valid_input inp /\
  (forall u a, u < npart inp -> a < idim inp -> (bbox_min inp a <= coord inp u a <= bbox_max inp a)%Z) /\
  build_tree inp = inl B /\ nlevels (b_tree B) <= 30 /\
  exists b k a, b < nboxes (b_tree B) /\ own_sources B b k /\ a < dim (b_tree B) /\
    (box_rad (b_tree B) b < Z.abs (b_sources B k a - box_center (b_tree B) b a))%Z.
Proof.
  assert (H := C26_closed_bounding_box_refuted_case).
  destruct (deep_spec _ _ H) as [B [E C]]. clear H. cbv zeta in C. rewrite !andb_true_iff, Nat.leb_le, Nat.ltb_lt, existsb_exists in C.
  destruct C as [C1 [C2 [b [Hb C3]]]]. rewrite existsb_exists in C3. destruct C3 as [k [_ C3]]. rewrite andb_true_iff, in_range_spec, Z.ltb_lt in C3.
  exists boundary_input, B. split; [apply example_valid; reflexivity|]. split.
  { intros u a Hu Ha. cbn [npart boundary_input example_input boundary_points length idim] in Hu, Ha.
    do 4 (destruct u as [|u]; [destruct a as [|[|a]]; [vm_compute; split; discriminate..|lia]|]). lia. }
  split; auto. split; auto. exists b, k, 0. apply in_seq in Hb. split; [lia|]. split; [apply C3|]. split; [auto|apply C3].
Qed.
(** ** C25: a tree with 31 levels, well below nlevels_max: misplaced boxes and particles. *)
Definition deep_coord (u : nat) : Z := if u =? 0 then 0%Z else 1024%Z.
Definition deep_input : input :=
  {| idim := 1; npart := 2; nsrc := 2; same := true; coord := fun u _ => deep_coord u; ext := None;
     weight := fun _ => 1%Z; max_weight := 1; bbox_min := fun _ => 0%Z; bbox_max := fun _ => 1099511627776%Z;
     build_kind := Adaptive; nlevels_max := 106; skip_prune := false; nboxes_guess := 20; lr_lookbehind := 1 |}.
Lemma deep_valid : valid_input deep_input.
Proof. constructor; cbn [npart nsrc same weight max_weight nboxes_guess deep_input]; try discriminate; try lia; unfold INT_MAX; intros; lia. Qed.
Lemma deep_geometry : valid_geometry deep_input.
Proof.
  constructor; cbn [idim bbox_min bbox_max npart coord deep_input]; [lia|reflexivity|reflexivity|exists 1024%Z; reflexivity|].
  intros u a Hu _. unfold deep_coord. destruct (u =? 0); lia.
Qed.
Lemma C25_deep_trees_refuted_case : holds deep_input (fun B => let t := b_tree B in (nlevels t =? 31) && existsb (fun b => existsb (fun k =>
      in_range (box_source_starts (b_particles B) b) (box_source_counts_nonchild (b_particles B) b) k &&
      (box_rad t b <? Z.abs (b_sources B k 0 - box_center t b 0))%Z) (seq 0 2)) (seq 0 (nboxes t))) = true.
Proof. vm_cast_no_check (eq_refl true). Qed.
Theorem C25_deep_trees_refuted : exists inp B,
  valid_input inp /\ valid_geometry inp /\ build_tree inp = inl B /\ nlevels (b_tree B) = 31 /\ nlevels_max inp = 106 /\
  exists b k, b < nboxes (b_tree B) /\ own_sources B b k /\
    (box_rad (b_tree B) b < Z.abs (b_sources B k 0 - box_center (b_tree B) b 0))%Z.
Proof.
  assert (H := C25_deep_trees_refuted_case).
  destruct (holds_spec _ _ H) as [B [E C]]. clear H. cbv zeta in C. rewrite andb_true_iff, Nat.eqb_eq, existsb_exists in C.
  destruct C as [C1 [b [Hb C3]]]. rewrite existsb_exists in C3. destruct C3 as [k [_ C3]]. rewrite andb_true_iff, in_range_spec, Z.ltb_lt in C3.
  exists deep_input, B. split; [exact deep_valid|]. split; [exact deep_geometry|].
  split; auto. split; auto. split; [reflexivity|]. exists b, k. apply in_seq in Hb. split; [lia|]. exact C3.
Qed.
(** ** C51: with the largest possible bound on the refine weight the builder trips an assertion. *)
Definition saturated_input := example_input [[1;1];[9;9]]%Z 2 true None [INT_MAX; INT_MAX] INT_MAX Adaptive false.
Theorem C51_saturated_bound_refuted : exists inp,
  valid_input inp /\ valid_geometry inp /\ build_tree inp = inr AssertionFailed.
Proof.
  exists saturated_input. split; [apply example_valid; reflexivity|]. split; [apply example_geometry; reflexivity|]. vm_compute. reflexivity.
Qed.

Print Assumptions C17_particles_are_permuted.
Print Assumptions C18_particles_in_their_boxes.
Print Assumptions C18_cumulative_ranges_are_cells.
Print Assumptions C18_level_restricted_extents_refuted.
Print Assumptions C19_ranges_partition.
Print Assumptions C20_leaves_are_light.
Print Assumptions C20_split_boxes_are_heavy.
Print Assumptions C20_leaves_are_light_with_extents.
Print Assumptions C21_pruning.
Print Assumptions C21_level_starts.
Print Assumptions C21_level_starts_refuted.
Print Assumptions C22_box_flags.
Print Assumptions C22_has_child_flags_refuted.
Print Assumptions C22_level_restricted_extents_refuted.
Print Assumptions C23_source_bounding_boxes.
Print Assumptions C23_target_bounding_boxes.
Print Assumptions C23_empty_leaves_collapse.
Print Assumptions C23_tight_refuted.
Print Assumptions C24_touching_leaves.
Print Assumptions C25_geometry_up_to_30_levels.
Print Assumptions C25_deep_trees_refuted.
Print Assumptions C26_closed_bounding_box_refuted.
Print Assumptions C50_build_traverse_evaluate.
Print Assumptions C50_traversal_succeeds.
Print Assumptions C51_build_terminates.
Print Assumptions C51_saturated_bound_refuted.
Print Assumptions C52_stick_out_bound.
Print Assumptions C52_particles_stay_for_a_reason.
Print Assumptions C53_tree_structure.
