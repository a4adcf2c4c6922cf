(** * C103: translation and rotation classes of list 2, found on the device *)
From Coq Require Import List Arith ZArith NArith Lia Bool.
From Verif Require Import Base Tree Spec TreeFacts Traversal SpecTraversal FmmThm TraversalLists Coverage Classes SpecClasses ClassThm Kernel Device DeviceRuns DeviceSeq ClassDevice SpecClassDevice
  DevDist DevDistMasks DevDistLocal DevClass ExampleTree PropsTraversal PropsClasses.
Import ListNotations.

(** ** C103: the classes can be searched for in any list 2 without access outside of an array, and
    the search ends; it fails exactly if some entry of the list has no class. *)
Theorem C103_search_in_bounds t tr n aligned per_level d :
  list2_fits t tr -> device_has_list2 t tr aligned d -> safe carr carr_eq (translation_program (class_arguments t n tr aligned) per_level) d.
Proof. intros F H. apply (translation_on_device t tr n aligned F per_level d H). Qed.
Theorem C103_search_ends t tr n aligned per_level d :
  list2_fits t tr -> device_has_list2 t tr aligned d -> exists r d', completes carr carr_eq (translation_program (class_arguments t n tr aligned) per_level) d r d'.
Proof. intros. eapply safe_completes, C103_search_in_bounds; eauto. Qed.
Theorem C103_error_is_raised t tr n aligned per_level d r d' :
  list2_fits t tr -> device_has_list2 t tr aligned d -> completes carr carr_eq (translation_program (class_arguments t n tr aligned) per_level) d r d' ->
  (r = None <-> exists k A B, list2_pair tr k A B /\ no_class t n A B).
Proof.
  intros F H C. rewrite <- (compute_fails t tr n per_level F). assert (X := proj2 (translation_on_device t tr n aligned F per_level d H) r d' C).
  unfold translation_classes in X. destruct (compute_translation_classes t n per_level tr) as [[us cls]|]; [|split; auto].
  destruct X as [-> _]. split; discriminate.
Qed.

(** ** List 2 of a traversal: whatever the order of the accesses, every pair has its class *)
Theorem C103_built_lists_fit t P tr : wf_tree t -> wf_params t P -> build_traversal t P = Some tr -> list2_fits t tr.
Proof.
  intros W WP H. assert (F := traversal_fits t P tr W WP ltac:(exists tr; auto)). constructor.
  - exists (rows t P tr). split; [apply (c_rows t W P WP tr H)|apply rows_length].
  - apply (lf_entries _ _ _ (tf_siblings _ _ F)).
  - apply (lf_boxes _ _ _ (tf_siblings _ _ F)).
  - intros b Hb. apply wf_level_lt; auto.
Qed.
Theorem C103_translation_classes_on_device t P tr aligned d r d' :
  wf_tree t -> wf_params t P -> build_traversal t P = Some tr -> device_has_list2 t tr aligned d ->
  completes carr carr_eq (translation_program (class_arguments t (well_sep_is_n_away P) tr aligned) true) d r d' ->
  exists dist starts nused, r = Some (dist, starts) /\ starts (nlevels t) = Some nused /\
    size d' DenseClasses = Z.of_nat (length (lists (from_sep_siblings tr))) /\
    (forall k A B, list2_pair tr k A B -> exists c v s e,
       cells d' DenseClasses (Z.of_nat k) = Z.of_nat c /\ c < nused /\
       dist c = Some v /\ (forall i, i < dim t -> v i = translation t A B i) /\
       starts (box_level t A) = Some s /\ starts (S (box_level t A)) = Some e /\ s <= c < e) /\
    (forall k A B k' A' B', list2_pair tr k A B -> list2_pair tr k' A' B' ->
       (cells d' DenseClasses (Z.of_nat k) = cells d' DenseClasses (Z.of_nat k') <->
        box_level t A = box_level t A' /\ forall i, i < dim t -> translation t A B i = translation t A' B' i)) /\
    (forall c, c < nused -> exists k A B, list2_pair tr k A B /\ cells d' DenseClasses (Z.of_nat k) = Z.of_nat c).
Proof.
  intros W WP H HD C. assert (F := C103_built_lists_fit t P tr W WP H).
  destruct (C32_translation_classes t P tr W WP H) as [ci [nused [E [LE [SN [PR [EQ UP]]]]]]].
  assert (X := proj2 (translation_on_device t tr _ aligned F true d HD) r d' C). rewrite E in X. destruct X as [-> [[SZ EL] _]].
  exists (ci_dist ci), (ci_starts ci), nused. split; auto. split; auto. split; auto.
  assert (CE : forall k A B, list2_pair tr k A B -> exists c, nth k (ci_classes ci) None = Some c /\ cells d' DenseClasses (Z.of_nat k) = Z.of_nat c).
  { intros k A B X. destruct (PR k A B X) as [c [v [s [e [Y _]]]]]. exists c. split; auto. rewrite EL by (eapply (pair_lt t W P WP tr H); eauto). rewrite Y. reflexivity. }
  split; [|split].
  - intros k A B X. destruct (PR k A B X) as [c [v [s [e [Y Z]]]]]. exists c, v, s, e. destruct (CE k A B X) as [c' [Y' Q]]. rewrite Y in Y'. injection Y' as <-. auto.
  - intros k A B k' A' B' X X'. rewrite <- (EQ k A B k' A' B' X X'). destruct (CE k A B X) as [c [-> ->]]. destruct (CE k' A' B' X') as [c' [-> ->]].
    split; [intros Q; f_equal; lia|congruence].
  - intros c Hc. destruct (UP c Hc) as [k [A [B [X Y]]]]. exists k, A, B. split; auto. destruct (CE k A B X) as [c' [Y' Q]]. rewrite Y in Y'. injection Y' as <-. auto.
Qed.
Theorem C103_rotation_in_bounds (angle : Type) (angle_eqb : angle -> angle -> bool) (angle_of : Z -> Z -> angle) t tr n aligned d :
  list2_fits t tr -> device_has_list2 t tr aligned d -> safe carr carr_eq (rotation_program angle angle_eqb angle_of (class_arguments t n tr aligned)) d.
Proof. intros F H. apply (rotation_on_device t tr n aligned F angle angle_eqb angle_of d H). Qed.
Theorem C103_rotation_classes_on_device (angle : Type) (angle_eqb : angle -> angle -> bool) (angle_of : Z -> Z -> angle) t P tr aligned d r d' :
  (forall a b, angle_eqb a b = true <-> a = b) ->
  wf_tree t -> wf_params t P -> build_traversal t P = Some tr -> 1 <= dim t <= 3 -> device_has_list2 t tr aligned d ->
  completes carr carr_eq (rotation_program angle angle_eqb angle_of (class_arguments t (well_sep_is_n_away P) tr aligned)) d r d' ->
  exists angles, r = Some angles /\ NoDup angles /\
    size d' DenseClasses = Z.of_nat (length (lists (from_sep_siblings tr))) /\
    (forall k A B, list2_pair tr k A B -> exists c w,
       cells d' DenseClasses (Z.of_nat k) = Z.of_nat c /\ direction (dim t) (translation t A B) w /\
       nth_error angles c = Some (angle_of (w (dim t - 1)) (squared_norm (dim t) w))) /\
    (forall c, c < length angles -> exists k A B, list2_pair tr k A B /\ cells d' DenseClasses (Z.of_nat k) = Z.of_nat c).
Proof.
  intros EQB W WP H D3 HD C. assert (F := C103_built_lists_fit t P tr W WP H).
  destruct (C33_rotation_classes angle angle_eqb angle_of t P tr EQB W WP H D3) as [classes [angles [E [LE [ND [_ [PR UP]]]]]]].
  assert (X := proj2 (rotation_on_device t tr _ aligned F angle angle_eqb angle_of d HD) r d' C). rewrite E in X. destruct X as [-> [[SZ EL] _]].
  exists angles. split; auto. split; auto. split; auto. split.
  - intros k A B X. destruct (PR k A B X) as [c [w [Y Z]]]. exists c, w. split; auto. rewrite EL by (eapply (pair_lt t W P WP tr H); eauto). rewrite Y. reflexivity.
  - intros c Hc. destruct (UP c Hc) as [k [A [B [X Y]]]]. exists k, A, B. split; auto. rewrite EL by (eapply (pair_lt t W P WP tr H); eauto). rewrite Y. reflexivity.
Qed.
(** Two runs on devices that agree on nothing but the arguments end with the same classes. *)
Theorem C103_order_independent t tr n aligned per_level d1 d2 r1 r2 d1' d2' :
  list2_fits t tr -> device_has_list2 t tr aligned d1 -> device_has_list2 t tr aligned d2 ->
  completes carr carr_eq (translation_program (class_arguments t n tr aligned) per_level) d1 r1 d1' ->
  completes carr carr_eq (translation_program (class_arguments t n tr aligned) per_level) d2 r2 d2' ->
  r1 = r2 /\ (r1 <> None -> forall k, k < length (lists (from_sep_siblings tr)) -> cells d1' DenseClasses (Z.of_nat k) = cells d2' DenseClasses (Z.of_nat k)).
Proof.
  intros F H1 H2 C1 C2. assert (X1 := proj2 (translation_on_device t tr n aligned F per_level d1 H1) r1 d1' C1).
  assert (X2 := proj2 (translation_on_device t tr n aligned F per_level d2 H2) r2 d2' C2).
  destruct (translation_classes t n per_level tr) as [ci|].
  - destruct X1 as [-> [[_ E1] _]], X2 as [-> [[_ E2] _]]. split; auto. intros _ k Hk. rewrite E1, E2; auto.
  - subst. split; auto. intros N. contradiction.
Qed.

(** ** A case meeting the hypotheses *)
Definition class_device (t : tree) (tr : traversal) (aligned : nat) : device carr :=
  let of_list (l : list nat) := (fun k => Z.of_nat (nth (Z.to_nat k) l 0), Z.of_nat (length l)) in
  let contents (a : carr) : (Z -> Z) * Z := match a with
    | SibLists => of_list (lists (from_sep_siblings tr)) | SibStarts => of_list (starts (from_sep_siblings tr))
    | SibTargets => of_list (target_or_target_parent_boxes tr)
    | BoxLevels => (fun k => Z.of_nat (box_level t (Z.to_nat k)), Z.of_nat (nboxes t))
    | BoxCenters => (fun k => box_center t (Z.to_nat k mod aligned) (Z.to_nat k / aligned), Z.of_nat (dim t * aligned))
    | _ => (fun _ => 0%Z, 0%Z) end in
  mkDevice (fun a => fst (contents a)) (fun a => snd (contents a)).
Lemma class_device_ok t tr aligned : nboxes t <= aligned -> device_has_list2 t tr aligned (class_device t tr aligned).
Proof.
  intros HA. constructor; unfold numbers, elements; cbn [class_device cells size fst snd]; auto; split; auto; try lia; intros; rewrite Nat2Z.id; auto.
  rewrite Nat.add_comm, Nat.mod_add, Nat.div_add by lia. rewrite Nat.mod_small, Nat.div_small by lia. reflexivity.
Qed.
Definition ex_class_params : trav_params := ex_params 1 (ex_extent false static_linf 0).
Example C103_case : exists tr, build_traversal ex_tree ex_class_params = Some tr /\ wf_tree ex_tree /\ wf_params ex_tree ex_class_params /\ list2_fits ex_tree tr /\
  device_has_list2 ex_tree tr 32 (class_device ex_tree tr 32) /\ 1 <= dim ex_tree <= 3.
Proof.
  assert (X : exists tr, build_traversal ex_tree ex_class_params = Some tr).
  { assert (Y : match build_traversal ex_tree ex_class_params with Some _ => true | None => false end = true) by (vm_cast_no_check (eq_refl true)).
    generalize dependent (build_traversal ex_tree ex_class_params). intros [tr|] Y; [eauto|discriminate]. }
  destruct X as [tr E]. exists tr. destruct (ex_params_wf 1 false static_linf 0 (le_n 1)) as [WP _]. destruct ex_tree_wf as [W _].
  split; auto. split; auto. split; auto. split; [exact (C103_built_lists_fit _ _ _ W WP E)|]. split; [|cbn; lia]. apply class_device_ok. vm_compute. lia.
Qed.
(** the programs run work item by work item: number of classes and the first ones, as in
    ex_translation_classes and ex_rotation_classes; and the failure for well_sep_is_n_away = 0 *)
Definition class_run (t : tree) (n : nat) (tr : traversal) : option (option nat * list Z * option (list Z)) :=
  match seq_run carr carr_eq (translation_program (class_arguments t n tr 32) true) (class_device t tr 32) with
  | Some (Some (dist, st), d) => Some (st (nlevels t), map (fun k => cells d DenseClasses (Z.of_nat k)) (seq 0 6), option_map (fun v => [v 0; v 1]) (dist 0))
  | _ => None
  end.
Definition angle_run (t : tree) (n : nat) (tr : traversal) : option (nat * list Z) :=
  match seq_run carr carr_eq (rotation_program (Z * Z) (fun a b => (fst a =? fst b) && (snd a =? snd b))%Z exact_angle (class_arguments t n tr 32)) (class_device t tr 32) with
  | Some (Some angles, d) => Some (length angles, map (fun k => cells d DenseClasses (Z.of_nat k)) (seq 0 6))
  | _ => None
  end.
Definition on_trav {A} (f : traversal -> A) (o : option traversal) : option A := option_map f o.
Example C103_run : on_trav (fun tr => (class_run ex_tree 1 tr, angle_run ex_tree 1 tr, class_run ex_tree 0 tr)) (build_traversal ex_tree ex_class_params) =
  Some (Some (Some 39%nat, [9; 8; 22; 18; 21; 17], Some [-16; -24]), Some (17%nat, [2; 5; 10; 8; 9; 8]), None)%Z.
Proof. vm_cast_no_check (eq_refl (Some (Some (Some 39%nat, [9; 8; 22; 18; 21; 17], Some [-16; -24]), Some (17%nat, [2; 5; 10; 8; 9; 8]), @None (option nat * list Z * option (list Z))))%Z). Qed.

Print Assumptions C103_search_in_bounds.
Print Assumptions C103_search_ends.
Print Assumptions C103_error_is_raised.
Print Assumptions C103_built_lists_fit.
Print Assumptions C103_translation_classes_on_device.
Print Assumptions C103_rotation_in_bounds.
Print Assumptions C103_rotation_classes_on_device.
Print Assumptions C103_order_independent.
