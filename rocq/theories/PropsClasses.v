(** Properties C32, C33, C61, C62: translation and rotation classes of list 2. *)
From Coq Require Import List Arith ZArith Lia Bool.
From Verif Require Import Base Tree Spec TreeFacts Traversal SpecTraversal Classes SpecClasses ClassFacts ClassThm RotThm ExampleTree PropsTraversal.
Import ListNotations.

(** C32.  The classes can be computed for every list-2 pair.  Every pair has a class among
    [nused] classes, each of which is used; the vector recorded for the class is the translation
    from the source box to the target box; the classes of a level are the ones from the start of
    the level to the start of the next level; and two pairs have the same class exactly if their
    boxes are on the same level and their translations agree. *)
Theorem C32_translation_classes t P tr :
  wf_tree t -> wf_params t P -> build_traversal t P = Some tr ->
  exists ci nused, translation_classes t (well_sep_is_n_away P) true tr = Some ci /\
    length (ci_classes ci) = length (lists (from_sep_siblings tr)) /\
    ci_starts ci (nlevels t) = Some nused /\
    (forall k A B, list2_pair tr k A B -> exists c v s e,
       nth k (ci_classes ci) None = Some c /\ c < nused /\
       ci_dist ci c = Some v /\ (forall i, i < dim t -> v i = translation t A B i) /\
       ci_starts ci (box_level t A) = Some s /\ ci_starts ci (S (box_level t A)) = Some e /\ s <= c < e) /\
    (forall k A B k' A' B', list2_pair tr k A B -> list2_pair tr k' A' B' ->
       (nth k (ci_classes ci) None = nth k' (ci_classes ci) None <->
        box_level t A = box_level t A' /\ forall i, i < dim t -> translation t A B i = translation t A' B' i)) /\
    (forall c, c < nused -> exists k A B, list2_pair tr k A B /\ nth k (ci_classes ci) None = Some c).
Proof.
  intros W WP H. destruct (classes_ok t W P WP tr H true) as [ci [used [E [LU [LC [SH [SN [ST [PR UP]]]]]]]]].
  assert (NP := N_pos t (well_sep_is_n_away P)). set (N := nclasses_per_level _ _) in *.
  exists ci, (rank used (length used)). split; auto. split; auto. split; auto. split; [|split].
  - intros k A B X. destruct (PR k A B X) as [U1 [U2 [U3 [v [U4 U5]]]]].
    destruct (pair_geometry t W P WP tr H k A B X) as [LA [LB [LV _]]].
    destruct (full_class_mod t W P WP tr H true k A B X) as [_ DV]. fold N in DV. set (i := full_class t P true A B) in *.
    assert (LL := wf_level_lt t W A LA). rewrite <- LV in DV.
    assert (I1 := Nat.div_mod i N ltac:(lia)). assert (I2 := Nat.mod_upper_bound i N ltac:(lia)). rewrite DV in I1.
    exists (rank used i), v, (rank used (box_level t A * N)), (rank used (S (box_level t A) * N)).
    split; auto. split; [apply rank_lt; auto|]. split; auto. split.
    { intros a Ha. rewrite (U5 a Ha). unfold level_factor. ring. }
    assert (SE : forall l, l <= nlevels t -> ci_starts ci l = Some (rank used (l * N))).
    { intros l Hl. destruct (Nat.eq_dec l (nlevels t)) as [->|D].
      - rewrite SN, LU. do 2 f_equal. lia.
      - rewrite ST by lia. destruct (Nat.ltb_spec (l * N) (length used)) as [C|C]; auto. rewrite LU in C. nia. }
    rewrite !SE by lia. split; auto. split; auto. split; [apply rank_mono; lia|]. apply rank_lt; auto. lia.
  - intros k A B k' A' B' X X'. destruct (PR k A B X) as [U1 [U2 [U3 _]]]. destruct (PR k' A' B' X') as [V1 [V2 [V3 _]]].
    rewrite U3, V3, <- (full_class_inj t W P WP tr H k A B k' A' B' X X'). split; [|intros ->; auto].
    intros Q. injection Q as Q. apply (rank_inj used); auto.
  - intros c Hc. destruct (rank_onto used _ _ Hc) as [i [I1 [I2 I3]]]. destruct (UP i I1 I2) as [k [A [B [X Y]]]].
    exists k, A, B. split; auto. destruct (PR k A B X) as [_ [_ [U3 _]]]. rewrite U3, Y, I3. auto.
Qed.

(** C33.  For any function that computes angles (in floating point) from the last component and
    the squared length of a vector: no assertion fails, the angles are distinct and no more than
    asserted, the class of every list-2 pair has the angle computed for the shortest integer
    vector in the direction of its translation, and every class is used. *)
Theorem C33_rotation_classes (angle : Type) (angle_eqb : angle -> angle -> bool) (angle_of : Z -> Z -> angle) t P tr :
  (forall a b, angle_eqb a b = true <-> a = b) ->
  wf_tree t -> wf_params t P -> build_traversal t P = Some tr -> 1 <= dim t <= 3 ->
  exists classes angles, rotation_classes angle angle_eqb angle_of t (well_sep_is_n_away P) tr = Some (classes, angles) /\
    length classes = length (lists (from_sep_siblings tr)) /\ NoDup angles /\
    length angles <= 2 ^ (dim t - 1) * (2 * well_sep_is_n_away P + 1) ^ dim t /\
    (forall k A B, list2_pair tr k A B -> exists r w,
       nth k classes None = Some r /\ direction (dim t) (translation t A B) w /\
       nth_error angles r = Some (angle_of (w (dim t - 1)) (squared_norm (dim t) w))) /\
    (forall r, r < length angles -> exists k A B, list2_pair tr k A B /\ nth k classes None = Some r).
Proof.
  intros EQB W WP H D3. destruct (rotation_ok angle angle_eqb angle_of EQB t W P WP tr H D3) as [classes [angles [E [L [ND [BD [PR UP]]]]]]].
  exists classes, angles. split; auto. split; auto. split; auto. split; auto. split; auto.
  intros k A B X. destruct (PR k A B X) as [r [R1 R2]]. exists r, (prim (dim t) (unit_vec t A B)). split; auto. split; auto.
  eapply pair_direction; eauto.
Qed.
(** Translations that are positive multiples of each other have the same class. *)
Theorem C33_same_direction (angle : Type) (angle_eqb : angle -> angle -> bool) (angle_of : Z -> Z -> angle) t P tr classes angles :
  (forall a b, angle_eqb a b = true <-> a = b) ->
  wf_tree t -> wf_params t P -> build_traversal t P = Some tr -> 1 <= dim t <= 3 ->
  rotation_classes angle angle_eqb angle_of t (well_sep_is_n_away P) tr = Some (classes, angles) ->
  forall k A B k' A' B' (p q : Z), list2_pair tr k A B -> list2_pair tr k' A' B' -> (0 < p)%Z -> (0 < q)%Z ->
    (forall i, i < dim t -> (p * translation t A B i = q * translation t A' B' i)%Z) ->
    nth k classes None = nth k' classes None.
Proof.
  intros EQB W WP H D3 R k A B k' A' B' p q X X' Hp Hq PQ.
  destruct (C33_rotation_classes angle angle_eqb angle_of t P tr EQB W WP H D3) as [cl [an [E [L [ND [BD [PR UP]]]]]]].
  rewrite R in E. injection E as <- <-. destruct (PR k A B X) as [r [w [R1 [R2 R3]]]]. destruct (PR k' A' B' X') as [r' [w' [S1 [S2 S3]]]].
  assert (WW := direction_unique _ _ _ w w' p q Hp Hq PQ R2 S2). rewrite R1, S1. f_equal.
  apply (proj1 (NoDup_nth_error _) ND); [apply nth_error_Some; congruence|]. rewrite R3, S3, WW by lia. do 2 f_equal. apply norm2_ext. auto.
Qed.
(** If the computed angles tell different angles apart then so do the classes: pairs with the same
    class make the same angle with the last axis.  If moreover equal angles are computed as equal,
    then the classes are exactly the angles. *)
Definition tells_angles_apart {angle : Type} (angle_of : Z -> Z -> angle) : Prop :=
  forall c s c' s', (0 < s)%Z -> (0 < s')%Z -> angle_of c s = angle_of c' s' -> (c * Z.abs c * s' = c' * Z.abs c' * s)%Z.
Definition respects_angles {angle : Type} (angle_of : Z -> Z -> angle) : Prop :=
  forall c s c' s', (0 < s)%Z -> (0 < s')%Z -> (c * Z.abs c * s' = c' * Z.abs c' * s)%Z -> angle_of c s = angle_of c' s'.

Theorem C33_classes_are_angles (angle : Type) (angle_eqb : angle -> angle -> bool) (angle_of : Z -> Z -> angle) t P tr classes angles :
  (forall a b, angle_eqb a b = true <-> a = b) -> tells_angles_apart angle_of ->
  wf_tree t -> wf_params t P -> build_traversal t P = Some tr -> 1 <= dim t <= 3 ->
  rotation_classes angle angle_eqb angle_of t (well_sep_is_n_away P) tr = Some (classes, angles) ->
  forall k A B k' A' B', list2_pair tr k A B -> list2_pair tr k' A' B' ->
    (nth k classes None = nth k' classes None -> same_angle_with_last_axis (dim t) (translation t A B) (translation t A' B')) /\
    (respects_angles angle_of ->
     same_angle_with_last_axis (dim t) (translation t A B) (translation t A' B') -> nth k classes None = nth k' classes None).
Proof.
  intros EQB TA W WP H D3 R k A B k' A' B' X X'.
  destruct (C33_rotation_classes angle angle_eqb angle_of t P tr EQB W WP H D3) as [cl [an [E [L [ND [BD [PR UP]]]]]]].
  rewrite R in E. injection E as <- <-. destruct (PR k A B X) as [r [w [R1 [R2 R3]]]]. destruct (PR k' A' B' X') as [r' [w' [S1 [S2 S3]]]].
  assert (SA := direction_same_angle (dim t) _ _ _ _ (proj1 D3) R2 S2).
  assert (NW := direction_norm_pos _ _ _ R2). assert (NW' := direction_norm_pos _ _ _ S2). rewrite SA. unfold same_angle_with_last_axis. split.
  - intros Q. apply TA; auto. congruence.
  - intros RA Q. rewrite R1, S1. f_equal. apply (proj1 (NoDup_nth_error _) ND); [apply nth_error_Some; congruence|]. rewrite R3, S3. f_equal. apply RA; auto.
Qed.

(** C61.  The documented number of classes is the length of the array of vectors; that array is
    two-dimensional with the axes as rows, so the reported number is the dimension of space. *)
Theorem C61_reported_class_count t P tr ci :
  wf_tree t -> wf_params t P -> build_traversal t P = Some tr ->
  translation_classes t (well_sep_is_n_away P) true tr = Some ci -> ci_nclasses ci = dim t.
Proof.
  intros W WP H E. destruct (classes_ok t W P WP tr H true) as [ci' [used [E' [_ [_ [SH _]]]]]].
  rewrite E in E'. injection E' as <-. unfold ci_nclasses. rewrite SH. auto.
Qed.
Theorem C61_class_count_refuted : ~ forall t P tr ci,
  wf_tree t -> wf_params t P -> build_traversal t P = Some tr ->
  translation_classes t (well_sep_is_n_away P) true tr = Some ci -> ci_starts ci (nlevels t) = Some (ci_nclasses ci).
Proof.
  intros Q. set (P := ex_params 1 (ex_extent false static_linf 0)). destruct (build_traversal ex_tree P) as [tr|] eqn:B.
  2:{ vm_compute in B. discriminate. }
  destruct (ex_params_wf 1 false static_linf 0 (le_n 1)) as [WP _]. destruct ex_tree_wf as [W _].
  destruct (translation_classes ex_tree 1 true tr) as [ci|] eqn:C.
  - specialize (Q ex_tree P tr ci W WP B C). rewrite (C61_reported_class_count ex_tree P tr ci W WP B C) in Q.
    assert (X : match build_traversal ex_tree P with
                | Some tr => match translation_classes ex_tree 1 true tr with Some ci => ci_starts ci 5 | None => None end | None => None end = Some 39)
      by (vm_compute; reflexivity).
    rewrite B, C in X. change (nlevels ex_tree) with 5 in Q. rewrite X in Q. discriminate.
  - destruct (C32_translation_classes ex_tree P tr W WP B) as [ci [nu [X _]]]. change (well_sep_is_n_away P) with 1 in X. congruence.
Qed.

(** C62.  With is_translation_per_level = False, the classes are by vectors in box widths; the
    vector recorded for a class is the translation scaled by two to the power of the level, and the
    starts of all levels but the first are never written. *)
Theorem C62_classes_for_all_levels t P tr :
  wf_tree t -> wf_params t P -> build_traversal t P = Some tr ->
  exists ci, translation_classes t (well_sep_is_n_away P) false tr = Some ci /\
    (forall k A B, list2_pair tr k A B -> exists c v, nth k (ci_classes ci) None = Some c /\ ci_dist ci c = Some v /\
       forall i, i < dim t -> v i = (2 ^ Z.of_nat (box_level t A) * translation t A B i)%Z) /\
    (forall l, 0 < l < nlevels t -> ci_starts ci l = None).
Proof.
  intros W WP H. destruct (classes_ok t W P WP tr H false) as [ci [used [E [LU [LC [SH [SN [ST [PR UP]]]]]]]]].
  assert (NP := N_pos t (well_sep_is_n_away P)). exists ci. split; auto. split.
  - intros k A B X. destruct (PR k A B X) as [_ [_ [U3 [v [U4 U5]]]]]. destruct (pair_geometry t W P WP tr H k A B X) as [_ [_ [LV _]]].
    exists (rank used (full_class t P false A B)), v. split; auto. split; auto. intros i Hi. rewrite (U5 i Hi), LV. auto.
  - intros l Hl. rewrite ST by lia. destruct (Nat.ltb_spec (l * nclasses_per_level (well_sep_is_n_away P) (dim t)) (length used)) as [C|C]; auto. nia.
Qed.
Theorem C62_recorded_vectors_refuted : ~ forall t P tr ci,
  wf_tree t -> wf_params t P -> build_traversal t P = Some tr ->
  translation_classes t (well_sep_is_n_away P) false tr = Some ci ->
  forall k A B, list2_pair tr k A B -> exists c v, nth k (ci_classes ci) None = Some c /\ ci_dist ci c = Some v /\
    forall i, i < dim t -> v i = translation t A B i.
Proof.
  intros Q. set (P := ex_params 1 (ex_extent false static_linf 0)). destruct (build_traversal ex_tree P) as [tr|] eqn:B.
  2:{ vm_compute in B. discriminate. }
  destruct (ex_params_wf 1 false static_linf 0 (le_n 1)) as [WP _]. destruct ex_tree_wf as [W _].
  destruct (C62_classes_for_all_levels ex_tree P tr W WP B) as [ci [E [H _]]].
  assert (NE : 0 < length (lists (from_sep_siblings tr))).
  { assert (X : match build_traversal ex_tree P with Some tr => 0 <? length (lists (from_sep_siblings tr)) | None => false end = true) by (vm_compute; reflexivity).
    rewrite B in X. apply Nat.ltb_lt. auto. }
  destruct (pair_exists ex_tree W P WP tr B 0 NE) as [A [C X]]. destruct (H 0 A C X) as [c [v [H1 [H2 H3]]]].
  destruct (Q ex_tree P tr ci W WP B E 0 A C X) as [c' [v' [Q1 [Q2 Q3]]]]. rewrite H1 in Q1. injection Q1 as <-. rewrite H2 in Q2. injection Q2 as <-.
  destruct (pair_geometry ex_tree W P WP tr B 0 A C X) as [LA [LC [LV [_ [U [i [Hi Y]]]]]]].
  specialize (H3 i Hi). rewrite (Q3 i Hi) in H3.
  assert (RP := box_rad_pos ex_tree W C LC). specialize (U i Hi).
  assert (LP : box_level ex_tree A <> 0).
  { intros Z0. destruct (pair_list2 ex_tree W P WP tr B 0 A C X) as [HA HC]. destruct (ListFacts.list2_spec ex_tree W P WP tr B A HA) as [_ I].
    apply I in HC. destruct HC as [_ [A0 _]]. apply A0. apply (level_0 ex_tree W A LA Z0). }
  assert (2 <= 2 ^ Z.of_nat (box_level ex_tree A))%Z.
  { replace 2%Z with (2 ^ 1)%Z at 1 by reflexivity. apply Z.pow_le_mono_r; lia. }
  nia.
Qed.

(** ** Non-vacuity: the 29-box tree has 117 list-2 pairs in 39 translation classes and 17 rotation classes, and
    there is an exact way to compute angles. *)
Example ex_translation_classes :
  match ex_trav 1 (ex_extent false static_linf 0) with
  | Some tr => match translation_classes ex_tree 1 true tr with
    | Some ci => (length (ci_classes ci), firstn 6 (ci_classes ci), map (ci_starts ci) (seq 0 6), option_map (fun v => (v 0, v 1)) (ci_dist ci 0))
    | None => (0, [], [], None) end
  | None => (0, [], [], None)
  end = (117, [Some 9; Some 8; Some 22; Some 18; Some 21; Some 17], [Some 0; Some 0; Some 0; Some 39; Some 39; Some 39], Some (-16, -24)%Z).
Proof. vm_compute. reflexivity. Qed.
(** the square of the cosine, with its sign, as a reduced fraction *)
Definition exact_angle (c s : Z) : Z * Z := let x := (c * Z.abs c)%Z in let g := Z.gcd x s in (x / g, s / g)%Z.
Example exact_angle_exact : tells_angles_apart exact_angle /\ respects_angles exact_angle.
Proof. split; [exact reduced_fraction_inj|exact reduced_fraction_eq]. Qed.
Example ex_rotation_classes :
  match ex_trav 1 (ex_extent false static_linf 0) with
  | Some tr => option_map (fun ca => (length (fst ca), firstn 6 (fst ca), snd ca))
      (rotation_classes (Z * Z) (fun a b => (fst a =? fst b) && (snd a =? snd b))%Z exact_angle ex_tree 1 tr)
  | None => None
  end = Some (117, [Some 2; Some 5; Some 10; Some 8; Some 9; Some 8],
            [(-9, 13); (-9, 10); (-1, 1); (-1, 2); (-4, 13); (-4, 5); (-1, 10); (-1, 5); (0, 1); (1, 10); (1, 5); (4, 13); (1, 2); (4, 5); (1, 1); (9, 13); (9, 10)]%Z).
Proof. vm_compute. reflexivity. Qed.

Print Assumptions C32_translation_classes.
Print Assumptions C33_rotation_classes.
Print Assumptions C33_same_direction.
Print Assumptions C33_classes_are_angles.
Print Assumptions C61_reported_class_count.
Print Assumptions C61_class_count_refuted.
Print Assumptions C62_classes_for_all_levels.
Print Assumptions C62_recorded_vectors_refuted.
