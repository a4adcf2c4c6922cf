(** * C90: from particles to interaction lists on the device *)
From Coq Require Import List Arith ZArith NArith Lia Bool.
From Verif Require Import Base Tree Fmm SpecFmm Traversal SpecTraversal LevelStarts TreeBuild Kernel Device DeviceRuns ListBuilder TravDevice BuildDevice BuildDeviceEnd
  SpecBuild SpecDevice SpecDeviceEnd SpecDeviceTrav SpecDeviceChain BuildThm BuildFull ExampleBuild PropsTraversal PropsBuild PropsDevice PropsDeviceEnd PropsDeviceTrav.
Import ListNotations.

Lemma passed_starts d x e y n f : same_array d x e y -> SpecDeviceEnd.holds_first e y n f -> starts_with d x n f.
Proof. intros [A B] [C D]. split; [rewrite A; auto|]. intros k Hk. rewrite B. auto. Qed.
Lemma passed_whole d x e y n f : same_array d x e y -> SpecDeviceEnd.holds e y n f -> starts_with d x n f.
Proof. intros [A B] [C D]. split; [rewrite A, C; lia|]. intros k Hk. rewrite B. auto. Qed.
Lemma passed_rows d x e y rows n f : same_array d x e y -> SpecDeviceEnd.holds_rows e y rows n f -> has_rows d x rows n f.
Proof. intros [A B] [C D]. split; [rewrite A, C; lia|]. intros r k Hr Hk. rewrite B. auto. Qed.

(** the tree built is one to traverse *)
Lemma built_for_traversal inp B P : valid_input inp -> valid_geometry inp -> not_restricted_with_extents inp -> levels_stay_populated inp ->
  build_tree inp = inl B -> nlevels (b_tree B) <= 30 -> parameters_of inp B P ->
  wf_tree (b_tree B) /\ wf_flags (b_tree B) /\ wf_params (b_tree B) P /\ level_sorted (b_tree B) (level_start_box_nrs P) /\
  length (b_level_starts B) = S (nlevels (b_tree B)) /\ dim (b_tree B) = idim inp.
Proof.
  intros V G NR L H D [WS ST M1 M2 LV _ _ _]. destruct (built_levels inp B V L H) as [st [pth [_ [F [-> FULL]]]]]. assert (PE := pe inp NR).
  destruct (finish_levels inp V st pth F FULL) as [LN [_ [_ [_ [_ X]]]]].
  split; [apply (finish_wf_tree inp V st pth F G D)|]. split; [apply (finish_wf_flags inp V st pth F PE)|]. split; [|split; [|split; auto]].
  - split; auto. intros S b Hb. rewrite M1, andb_true_r. apply (finish_same_flags inp V st pth F PE); auto. congruence.
  - unfold level_sorted in *. intros. rewrite !LV. auto.
Qed.
Lemma passed_arguments inp B P e d : device_has_tree inp B e -> passed_on inp (b_level_starts B) e d -> parameters_of inp B P ->
  length (b_level_starts B) = S (nlevels (b_tree B)) -> dim (b_tree B) = idim inp -> device_has_arguments (b_tree B) P false false d.
Proof.
  intros T [P1 P2 P3 P4 P5 P6 P7 P8 P9] [WS ST M1 M2 LV QC QR QN] LN DM. constructor.
  - rewrite DM. apply (passed_rows d _ e _ _ _ _ P1). apply T.
  - rewrite DM. apply (passed_rows d _ e _ _ _ _ P2). apply T.
  - apply (passed_starts d _ e _ _ _ P3). apply T.
  - apply (passed_starts d _ e _ _ _ P4). apply T.
  - apply (passed_whole d _ e _ _ _ P5). apply T.
  - destruct P9 as [A B']. split; [lia|]. intros k Hk. rewrite B' by lia. rewrite LV. auto.
  - auto.
  - auto.
  - intros _ _. exists (b_target_bbox_min B), (b_target_bbox_max B). rewrite DM.
    split; [apply (passed_rows d _ e _ _ _ _ P6); apply T|]. split; [apply (passed_rows d _ e _ _ _ _ P7); apply T|]. auto.
  - intros _. assert (X := passed_starts d _ e _ _ _ P8 (t_source_cumul inp B e T)). destruct X as [X Y]. split; auto. intros k Hk. rewrite QN. auto.
Qed.

(** ** Whatever the order of the accesses in the kernels of both builders: no access is out of
    bounds, and the lists on the device are those of a traversal that leads every source box to
    every target box exactly once, and with which the FMM sums up all weights. *)
Theorem C90_from_particles_to_lists inp d0 n ls e P d :
  valid_input inp -> 2 <= nlevels_max inp -> valid_geometry inp -> not_restricted_with_extents inp -> levels_stay_populated inp -> device_has_input inp d0 ->
  built_on inp d0 (inl (n, ls, e)) -> passed_on inp ls e d ->
  (forall B, build_tree inp = inl B -> nlevels (b_tree B) <= 30 /\ parameters_of inp B P) ->
  (targets_have_extent (extents P) = true -> wf_extent (extents P)) ->
  exists B, build_tree inp = inl B /\
    let S := scalar_arguments (b_tree B) P false false in
    safe varr varr_eq (traversal_program S) d /\
    forall r d', completes varr varr_eq (traversal_program S) d r d' ->
      exists tr, build_traversal (b_tree B) P = Some tr /\ r = starts_of tr /\ device_has_traversal P tr d' /\
        (forall T s, In T (target_boxes tr) -> s < nboxes (b_tree B) -> is_source (b_tree B) s = true -> coverage (b_tree B) tr T s = 1) /\
        (forall weights j, j < num_targets inp -> drive_fmm (b_tree B) (b_particles B) tr weights j = zsum (map weights (seq 0 (nsrc inp)))).
Proof.
  intros V NL G NR L D0 BO PO PP WE.
  assert (SR := C87_device_computes_the_tree inp d0 _ V NL L D0 BO). unfold same_result in SR.
  destruct (build_tree inp) as [B|er] eqn:EB; [|destruct SR]. destruct SR as [-> [-> T]]. destruct (PP B eq_refl) as [DP PA].
  destruct (built_for_traversal inp B P V G NR L EB DP PA) as [W [F [WP [LS [LN DM]]]]].
  assert (A := passed_arguments inp B P e d T PO PA LN DM).
  exists B. split; auto. cbv zeta. split; [apply C88_traversal_in_bounds; auto|]. intros r d' C.
  destruct (C89_device_computes_the_traversal _ _ _ _ _ _ _ W WP LS A C) as [tr [E [ER TR]]]. exists tr. split; auto. split; auto. split; auto. split.
  - intros T' s HT Hs Ss. destruct (targets_have_extent (extents P)) eqn:EX.
    + apply (C02_coverage_exactly_once_extents (b_tree B) P tr T' s); auto.
    + apply (C01_coverage_exactly_once (b_tree B) P tr T' s); auto.
  - intros w j Hj. destruct PA as [WS ST M1 M2 LV QC QR QN].
    apply (C50_build_traverse_evaluate inp B P tr w j V G NR L EB DP WS ST M1 M2 WE LV (or_introl E) Hj).
Qed.

(** ** A case meeting the hypotheses: sources and targets with extents *)
Definition pass_on (inp : input) (ls : list nat) (e : device parray) : device varr :=
  mkDevice (fun a k => match a with
    | Base BoxCenters => cells e CenterTable k | Base BoxChildren => cells e ChildTable k | Base BoxLevels => cells e (Kept Levels) k
    | Base BoxParents => cells e (Kept Parents) k | Base BoxFlags => cells e Flags k | Base TravDevice.TargetMin => cells e (target_min inp) k
    | Base TravDevice.TargetMax => cells e (target_max inp) k | Base TravDevice.SourceCounts => cells e (source_counts inp) k
    | Base LevelStartBoxNrs => z (nth (Z.to_nat k) ls 0) | _ => 0%Z end)
  (fun a => match a with
    | Base BoxCenters => size e CenterTable | Base BoxChildren => size e ChildTable | Base BoxLevels => size e (Kept Levels)
    | Base BoxParents => size e (Kept Parents) | Base BoxFlags => size e Flags | Base TravDevice.TargetMin => size e (target_min inp)
    | Base TravDevice.TargetMax => size e (target_max inp) | Base TravDevice.SourceCounts => size e (source_counts inp)
    | Base LevelStartBoxNrs => z (length ls) | _ => 0%Z end).
Lemma pass_on_ok inp ls e : passed_on inp ls e (pass_on inp ls e).
Proof. constructor; try (split; [reflexivity|intros k; reflexivity]). split; [reflexivity|]. intros k Hk. cbn [pass_on cells]. rewrite Nat2Z.id. auto. Qed.
Definition params_of (inp : input) (B : built) (n : nat) (have : bool) (crit : sep_crit) : trav_params := {|
  well_sep_is_n_away := n;
  extents := {| targets_have_extent := have; stick_out_num := 1; stick_out_den := 4; eps_num := 1; eps_den := 2^52; from_sep_smaller_crit := crit;
     tgt_ext_center2 := fun b a => (b_target_bbox_min B b a + b_target_bbox_max B b a)%Z;
     tgt_ext_radius2 := fun b a => (b_target_bbox_max B b a - b_target_bbox_min B b a)%Z;
     box_source_counts_cumul := b_source_cumul B; from_sep_smaller_min_nsources_cumul := 0 |};
  sources_are_targets := same inp; source_boxes_mask := fun _ => true; source_parent_boxes_mask := fun _ => true;
  level_start_box_nrs := fun l => nth l (b_level_starts B) 0 |}.
Example C90_case : exists n ls e B P d,
  valid_input extent_input /\ 2 <= nlevels_max extent_input /\ valid_geometry extent_input /\ not_restricted_with_extents extent_input /\
  levels_stay_populated extent_input /\ device_has_input extent_input (some_device extent_input) /\
  built_on extent_input (some_device extent_input) (inl (n, ls, e)) /\ passed_on extent_input ls e d /\
  build_tree extent_input = inl B /\ (nlevels (b_tree B) <= 30 /\ parameters_of extent_input B P) /\ wf_extent (extents P) /\
  targets_have_extent (extents P) = true /\ from_sep_smaller_crit (extents P) = precise_linf /\ 5 <= nboxes (b_tree B).
Proof.
  destruct C86_extents as [V [NL [NR [L [D [B [EB [NB _]]]]]]]].
  destruct (C86_build_ends _ _ V NL L D) as [r BO]. assert (SR := C87_device_computes_the_tree _ _ _ V NL L D BO). unfold same_result in SR. rewrite EB in SR.
  destruct r as [[[n ls] e]|er]; [|destruct SR]. exists n, ls, e, B, (params_of extent_input B 1 true precise_linf), (pass_on extent_input ls e).
  split; [auto|]. split; [auto|]. split; [apply extent_input_ok|]. split; [auto|]. split; [auto|]. split; [auto|]. split; [auto|]. split; [apply pass_on_ok|].
  split; [auto|]. split.
  - split.
    + revert EB. clear. intros EB. assert (X : match build_tree extent_input with inl B' => nlevels (b_tree B') <=? 30 | inr _ => false end = true) by (vm_compute; reflexivity).
      rewrite EB in X. apply Nat.leb_le. exact X.
    + constructor; auto.
  - split; [vm_compute; repeat split; discriminate|]. split; [reflexivity|]. split; [reflexivity|exact NB].
Qed.

Print Assumptions C90_from_particles_to_lists.
