(** * C86, C87: a whole tree build on the device *)
From Coq Require Import List Arith ZArith NArith Lia Bool.
From Verif Require Import Base Tree Fmm SpecFmm TreeBuild Kernel Device DeviceRuns DeviceSeq BuildDevice BuildDeviceEnd BuildView DevTrip SpecBuild
  SpecDevice SpecDeviceEnd BuildDone BuildFull BuildThm ExampleBuild PropsBuild PropsDevice DevFinish.
Import ListNotations.

Lemma loop_not_continue inp st : level_loop inp <> Continue st.
Proof.
  unfold level_loop. destruct (_ =? 0); [discriminate|]. generalize (initial_state inp).
  induction (3 * nlevels_max inp + 3) as [|f IH]; intros s; cbn [loop]; [discriminate|]. destruct (step inp s); [apply IH|discriminate|discriminate].
Qed.
Lemma end_on_device inp d h d1 : valid_input inp -> 2 <= nlevels_max inp -> levels_stay_populated inp ->
  device_has_input inp d -> completes array array_eq (level_loop_program inp) d (Left h) d1 ->
  exists st, level_loop inp = Done st /\ safe parray parray_eq (finish_program inp h) (carry d1) /\
    forall r d2, completes parray parray_eq (finish_program inp h) (carry d1) r d2 ->
      r = (nboxes (b_tree (finish inp st)), b_level_starts (finish inp st)) /\ device_has_tree inp (finish inp st) d2.
Proof.
  intros V NL LF D C. assert (M := proj2 (loop_on_device inp d V NL D) _ d1 C).
  destruct (level_loop inp) as [st|st|e] eqn:E; cbn [as_modelled] in M; [destruct (loop_not_continue inp st E)| |discriminate].
  destruct M as [EH [A FT]]. injection EH as ->. exists st. split; [auto|].
  assert (G : exists pth, fin inp st pth /\ (skip_prune inp = true \/ populated inp st pth)).
  { destruct LF as [LF|LF].
    - destruct (done_fin inp V st E) as [pth F]. exists pth. auto.
    - destruct (populated_done inp (V_WT inp V) (V_MW inp V) (v_npart _ V) (v_guess _ V) (kind_ok inp LF) st E) as [pth [F P]]. exists pth. auto. }
  destruct G as [pth [F P]].
  exact (finish_refines inp V st pth F FT P (carried inp st) (carried_facts inp st) (carry d1) (carry_agrees inp st d1 A)).
Qed.

(** ** C86: no kernel of the build accesses an array outside of its bounds, and the build comes
    to an end *)
Theorem C86_build_in_bounds inp d : valid_input inp -> 2 <= nlevels_max inp -> levels_stay_populated inp ->
  device_has_input inp d -> safe_build inp d.
Proof.
  intros V NL LF D. split; [apply C84_accesses_in_bounds; auto|]. intros h d1 C.
  destruct (end_on_device inp d h d1 V NL LF D C) as [st [_ [S _]]]. exact S.
Qed.
Theorem C86_build_ends inp d : valid_input inp -> 2 <= nlevels_max inp -> levels_stay_populated inp ->
  device_has_input inp d -> exists r, built_on inp d r.
Proof.
  intros V NL LF D. destruct (C84_loop_ends inp d V NL D) as [r [d1 C]].
  destruct (C85_computes_the_tree inp d r d1 V NL D C) as [[st [h [_ [-> _]]]]|[e [_ ->]]].
  - destruct (end_on_device inp d h d1 V NL LF D C) as [_ [_ [S _]]]. destruct (safe_completes _ _ _ _ S) as [[n ls] [d2 C2]].
    eexists. eapply built_tree; eauto.
  - eexists. eapply built_error; eauto.
Qed.

(** ** C87: whatever the order of the accesses, the device ends up with the tree of TreeBuild.v,
    or the error is raised that TreeBuild.v raises *)
Definition same_result (inp : input) (r : (nat * list nat * device parray) + error) : Prop :=
  match r, build_tree inp with
  | inl (n, lstart, d), inl B => n = nboxes (b_tree B) /\ lstart = b_level_starts B /\ device_has_tree inp B d
  | inr e, inr e' => e = e'
  | _, _ => False
  end.
Theorem C87_device_computes_the_tree inp d r : valid_input inp -> 2 <= nlevels_max inp -> levels_stay_populated inp ->
  device_has_input inp d -> built_on inp d r -> same_result inp r.
Proof.
  intros V NL LF D H. unfold same_result, build_tree. destruct H as [h d1 n ls d2 C1 C2|e d1 C1].
  - destruct (end_on_device inp d h d1 V NL LF D C1) as [st [-> [_ Q]]]. destruct (Q _ _ C2) as [E T]. injection E as -> ->. auto.
  - destruct (C85_computes_the_tree inp d _ d1 V NL D C1) as [[st [h [_ [X _]]]]|[e' [-> X]]]; [discriminate|]. injection X as ->. auto.
Qed.
(** in particular two runs agree on every cell of the tree *)
Theorem C87_order_independent inp d d' n ls d1 r : valid_input inp -> 2 <= nlevels_max inp -> levels_stay_populated inp ->
  device_has_input inp d -> device_has_input inp d' -> built_on inp d (inl (n, ls, d1)) -> built_on inp d' r ->
  exists B d1', build_tree inp = inl B /\ r = inl (n, ls, d1') /\ device_has_tree inp B d1 /\ device_has_tree inp B d1'.
Proof.
  intros V NL LF D D' H H'. apply C87_device_computes_the_tree in H; auto. apply C87_device_computes_the_tree in H'; auto.
  unfold same_result in H, H'. destruct (build_tree inp) as [B|e]; [|destruct H]. destruct H as [-> [-> T]].
  destruct r as [[[n' ls'] d1']|e']; [|destruct H']. destruct H' as [-> [-> T']]. exists B, d1'. auto.
Qed.

(** ** C86 without the condition: pruning a non-adaptive tree whose particles have extents; the
    kernel that finds the box extents reads behind the ends of the arrays *)
Definition loop_then_end (inp : input) : option bool :=
  match seq_run array array_eq (level_loop_program inp) (some_device inp) with
  | Some (Left h, d1) => match seq_run parray parray_eq (finish_program inp h) (carry d1) with None => Some false | Some _ => Some true end
  | _ => None
  end.
Lemma C86_uneven_case : loop_then_end uneven_input = Some false.
Proof. vm_cast_no_check (eq_refl (Some false)). Qed.
Theorem C86_uneven_levels_refuted : exists inp d,
  valid_input inp /\ 2 <= nlevels_max inp /\ not_restricted_with_extents inp /\ device_has_input inp d /\
  (exists B, build_tree inp = inl B) /\ ~ safe_build inp d.
Proof.
  exists uneven_input, (some_device uneven_input).
  split; [apply example_valid; reflexivity|]. split; [cbn; lia|]. split; [discriminate|]. split; [apply some_device_ok|]. split.
  - destruct (deep_spec _ _ C21_level_starts_refuted_case) as [B [E _]]. exists B. exact E.
  - intros [_ S]. assert (C := C86_uneven_case). unfold loop_then_end in C.
    destruct (seq_run array array_eq (level_loop_program uneven_input) (some_device uneven_input)) as [[r d1]|] eqn:E1; [|discriminate].
    destruct r as [h|h|e]; [discriminate| |discriminate].
    destruct (seq_run parray parray_eq (finish_program uneven_input h) (carry d1)) as [p|] eqn:E2; [discriminate|].
    apply (seq_none_unsafe _ _ _ _ E2). apply (S h d1). apply seq_completes. exact E1.
Qed.

(** ** Cases meeting the hypotheses: sources and targets with extents, shared particles, a
    tree with empty leaves, a level-restricted tree of particles with extents *)
Example C86_extents : valid_input extent_input /\ 2 <= nlevels_max extent_input /\ not_restricted_with_extents extent_input /\
  levels_stay_populated extent_input /\ device_has_input extent_input (some_device extent_input) /\
  exists B, build_tree extent_input = inl B /\ 5 <= nboxes (b_tree B) /\ 0 < box_target_counts_nonchild (b_particles B) 0.
Proof.
  split; [apply example_valid; vm_compute; reflexivity|]. split; [cbn; lia|]. split; [discriminate|]. split; [right; left; discriminate|].
  split; [apply some_device_ok|]. eexists. split; [vm_compute; reflexivity|]. split; vm_compute; lia.
Qed.
Example C86_shared : valid_input shared_input /\ 2 <= nlevels_max shared_input  /\
  levels_stay_populated shared_input /\ device_has_input shared_input (some_device shared_input) /\ same shared_input = true.
Proof.
  split; [apply example_valid; vm_compute; reflexivity|]. split; [cbn; lia|]. split; [right; left; discriminate|].
  split; [apply some_device_ok|reflexivity].
Qed.
Example C86_unpruned : valid_input separate_unpruned /\ 2 <= nlevels_max separate_unpruned /\
  levels_stay_populated separate_unpruned /\ device_has_input separate_unpruned (some_device separate_unpruned).
Proof.
  split; [apply example_valid; vm_compute; reflexivity|]. split; [cbn; lia|]. split; [left; reflexivity|].
  apply some_device_ok.
Qed.
Example C86_restricted_extents : valid_input lost_input /\ 2 <= nlevels_max lost_input /\ levels_stay_populated lost_input /\
  device_has_input lost_input (some_device lost_input) /\ level_restrict lost_input = true /\ have_extent lost_input = true.
Proof.
  split; [apply example_valid; vm_compute; reflexivity|]. split; [cbn; lia|]. split; [right; left; discriminate|].
  split; [apply some_device_ok|]. split; reflexivity.
Qed.

Print Assumptions C86_build_in_bounds.
Print Assumptions C86_build_ends.
Print Assumptions C86_uneven_levels_refuted.
Print Assumptions C87_device_computes_the_tree.
Print Assumptions C87_order_independent.
