(** * C84, C85: the level loop of the tree builder on the device *)
From Coq Require Import List Arith ZArith Lia Bool.
From Verif Require Import Base TreeBuild Kernel Device DeviceRuns BuildDevice BuildView DevTrip SpecBuild SpecDevice ExampleBuild.
Import ListNotations.

Lemma input_given inp d : device_has_input inp d -> agrees (given inp) d.
Proof.
  intros [C R W]. split.
  - intros x m. cbn [given len]. destruct x; try discriminate.
    + destruct (Nat.ltb_spec a (idim inp)); [|discriminate]. intros [= <-]. apply C. auto.
    + unfold have_extent. destruct (ext inp) as [e|] eqn:E; [|discriminate]. intros [= <-]. apply (R e eq_refl).
    + intros [= <-]. apply W.
  - intros x m k v. cbn [given len val]. destruct x; try discriminate.
    + destruct (Nat.ltb_spec a (idim inp)); [|discriminate]. intros [= <-] Hk [= <-]. apply C; auto. lia.
    + unfold have_extent, radius_of. destruct (ext inp) as [e|] eqn:E; [|discriminate]. intros [= <-] Hk [= <-]. apply (R e eq_refl). lia.
    + intros [= <-] Hk [= <-]. apply W. lia.
Qed.
Lemma view_state inp st d : agrees (view inp st nothing) d -> device_has_state inp st d.
Proof.
  intros [A1 A2].
  assert (H : forall x n f, lenv inp st x = Some (z n) -> (forall k, cellv inp st nothing x k = Some (f k)) -> holds_array d x n f).
  { intros x n f L V. split; [apply A1; exact L|]. intros k Hk. apply (A2 x (z n) k (f k) L); [lia|apply V]. }
  constructor; try (apply H; reflexivity).
  - intros E. apply H; [cbn [lenv field_in]; rewrite E|]; reflexivity.
  - intros m Hm. apply H; [cbn [lenv]|reflexivity]. apply Nat.ltb_lt in Hm. rewrite Hm. reflexivity.
  - intros a Ha. apply H; [cbn [lenv]|reflexivity]. apply Nat.ltb_lt in Ha. rewrite Ha. reflexivity.
Qed.
Lemma loop_on_device inp d : valid_input inp -> 2 <= nlevels_max inp -> device_has_input inp d ->
  safe array array_eq (level_loop_program inp) d /\
  forall r d', completes array array_eq (level_loop_program inp) d r d' -> as_modelled inp (level_loop inp) r d'.
Proof.
  intros V NL D. apply (level_loop_refines inp) with (d := d); auto using input_given.
  - intros u Hu. assert (A := v_weight inp V u Hu). assert (B := v_max inp V). lia.
  - assert (B := v_max inp V). lia.
  - apply (v_npart inp V).
  - apply (v_guess inp V).
Qed.

(** ** C84: whatever the order in which the accesses of the work items are carried out, every
    kernel of the level loop accesses its arrays inside their bounds and comes to an end *)
Theorem C84_accesses_in_bounds inp d : valid_input inp -> 2 <= nlevels_max inp -> device_has_input inp d ->
  safe array array_eq (level_loop_program inp) d.
Proof. intros. apply loop_on_device; auto. Qed.
Theorem C84_loop_ends inp d : valid_input inp -> 2 <= nlevels_max inp -> device_has_input inp d ->
  exists r d', completes array array_eq (level_loop_program inp) d r d'.
Proof. intros. apply safe_completes, C84_accesses_in_bounds; auto. Qed.

(** ** C85: every order gives the result of the level loop of TreeBuild.v *)
Theorem C85_computes_the_tree inp d r d' : valid_input inp -> 2 <= nlevels_max inp -> device_has_input inp d ->
  completes array array_eq (level_loop_program inp) d r d' ->
  (exists st h, level_loop inp = Done st /\ r = Left h /\ host_has_state st h /\ device_has_state inp st d') \/
  (exists e, level_loop inp = Failed e /\ r = Raised e).
Proof.
  intros V NL D C. assert (M := proj2 (loop_on_device inp d V NL D) r d' C).
  destruct (level_loop inp) as [st|st|e] eqn:E; cbn [as_modelled] in M.
  - exfalso. revert E. unfold level_loop. destruct (_ =? 0); [discriminate|]. generalize (initial_state inp). 
    induction (3 * nlevels_max inp + 3) as [|f IH]; intros s; cbn [loop]; [discriminate|]. destruct (step inp s); [apply IH|discriminate|discriminate].
  - destruct M as [-> [A _]]. left. exists st, (host_of st). split; [auto|]. split; [auto|]. split; [constructor; reflexivity|apply view_state; auto].
  - right. exists e. auto.
Qed.
Theorem C85_order_independent inp d1 d2 r1 r2 d1' d2' :
  valid_input inp -> 2 <= nlevels_max inp -> device_has_input inp d1 -> device_has_input inp d2 ->
  completes array array_eq (level_loop_program inp) d1 r1 d1' -> completes array array_eq (level_loop_program inp) d2 r2 d2' ->
  (exists st h1 h2, r1 = Left h1 /\ r2 = Left h2 /\ host_has_state st h1 /\ host_has_state st h2 /\
     device_has_state inp st d1' /\ device_has_state inp st d2') \/
  (exists e, r1 = Raised e /\ r2 = Raised e).
Proof.
  intros V NL D1 D2 C1 C2.
  destruct (C85_computes_the_tree inp d1 r1 d1' V NL D1 C1) as [[st [h [E1 [R1 [H1 S1]]]]]|[e [E1 R1]]];
    destruct (C85_computes_the_tree inp d2 r2 d2' V NL D2 C2) as [[st' [h' [E2 [R2 [H2 S2]]]]]|[e' [E2 R2]]]; rewrite E1 in E2; try discriminate.
  - injection E2 as <-. left. exists st, h, h'. auto 10.
  - injection E2 as <-. right. exists e. auto.
Qed.

(** ** Cases meeting the hypotheses: level restriction, and targets with extents; the loop
    reallocates and renumbers *)
Definition some_device (inp : input) : device array := {|
  cells := fun x k => match x with
    | Coords a => coord inp (Z.to_nat k) a
    | Radii => radius_of inp (Z.to_nat k)
    | RefineWeights => weight inp (Z.to_nat k)
    | _ => 7%Z end;
  size := fun _ => z (npart inp) |}.
Lemma some_device_ok inp : device_has_input inp (some_device inp).
Proof.
  constructor.
  - intros a _. split; [reflexivity|]. intros k _. cbn [some_device cells]. rewrite Nat2Z.id. reflexivity.
  - intros e E. split; [reflexivity|]. intros k _. cbn [some_device cells]. rewrite Nat2Z.id. unfold radius_of. rewrite E. reflexivity.
  - split; [reflexivity|]. intros k _. cbn [some_device cells]. rewrite Nat2Z.id. reflexivity.
Qed.
Definition outgrown (inp : input) : bool :=
  match level_loop inp with Done st => (nboxes_guess inp <? s_guess st) && (3 <=? length (s_used st)) | _ => false end.
Example C84_restricted : valid_input restricted_input /\ 2 <= nlevels_max restricted_input /\
  device_has_input restricted_input (some_device restricted_input) /\ build_kind restricted_input = LevelRestricted /\
  outgrown restricted_input = true.
Proof.
  split; [apply example_valid; vm_compute; reflexivity|]. split; [cbn; lia|]. split; [apply some_device_ok|]. split; [reflexivity|].
  vm_compute. reflexivity.
Qed.
Example C84_extents : valid_input extent_input /\ 2 <= nlevels_max extent_input /\
  device_has_input extent_input (some_device extent_input) /\ ext extent_input <> None.
Proof.
  split; [apply example_valid; vm_compute; reflexivity|]. split; [cbn; lia|]. split; [apply some_device_ok|discriminate].
Qed.

Print Assumptions C84_accesses_in_bounds.
Print Assumptions C84_loop_ends.
Print Assumptions C85_computes_the_tree.
Print Assumptions C85_order_independent.
