(** C104: translation and rotation classes in floating-point arithmetic.  The class of a list-2 pair is
    found by rounding a difference of box centers that carry rounding errors (ClassFloat.v).  If the
    precision resolves the smallest boxes (SpecRounding.v) every pair gets the class of its exact
    translation. *)
From Coq Require Import List Arith ZArith NArith Bool Reals Lra Lia SpecFloat.
From Flocq Require Import Core.
From Verif Require Import Base Tree Spec TreeFacts Traversal GeomFacts SpecTraversal Coverage TravRounded Floats TravFloat SpecRounding
  TravFloatFacts TravFloatThm Tools Classes SpecClasses ClassFacts ClassThm ClassFloat ClassFloatFacts CheckTree ExampleTree PropsTraversal PropsRounding PropsClasses.
Import ListNotations.

(** For two boxes of a level the computed vector is their displacement in box widths. *)
Theorem C104_vector_with_rounding : forall prec t G n a b i, (24 <= prec)%Z ->
  wf_tree t -> geometry_ok prec G -> 1 <= n -> precise_enough prec t n G ->
  a < nboxes t -> b < nboxes t -> box_level t a = box_level t b -> i < dim t ->
  (box_center t a i - box_center t b i = f_vector (rounded_trav prec) ZnearestE t G b a i * (2 * box_rad t b))%Z.
Proof.
  intros prec t G n a b i Hp W [F [Pp _]] Hn [K [H1 [H2 H3]]] Ha Hb LV Hi.
  destruct (grid t W a Ha i Hi) as [g1 E1]. destruct (grid t W b Hb i Hi) as [g2 E2].
  assert (R : box_rad t a = box_rad t b) by (unfold box_rad; rewrite LV; auto). rewrite R in E1.
  assert (X : (box_center t a i - box_center t b i = (g1 - g2) * (2 * box_rad t b))%Z) by (rewrite E1, E2; ring).
  rewrite (vector_exact prec Hp t W G F Pp n Hn K H2 H1 H3 a b i Ha Hb Hi _ X). exact X.
Qed.

(** The classes of the traversal that is built in floating-point arithmetic, with or without extents:
    no error is raised; every list-2 pair has a class among [nused] classes, each of which is used; the
    vector recorded for the class is within one rounding error of the exact translation and within
    2 nlevels + 1 rounding errors of the difference of the computed centers; the classes of a level are
    those from the start of the level to the start of the next level; and two pairs have the same
    class exactly if their boxes are on the same level and their exact translations agree. *)
Theorem C104_translation_classes_with_rounding : forall prec t G P tr K, (24 <= prec)%Z ->
  wf_tree t -> geometry_ok prec G -> wf_params t P ->
  (2 * f_extent G <= K)%R -> (forall i, (i < dim t)%nat -> Rabs (f_root_center G i) + 2 * f_extent G <= K)%R ->
  ((4 * INR (nlevels t) + 4 * INR (well_sep_is_n_away P) + 20) * (bpow radix2 (- prec) * K) < f_extent G * bpow radix2 (- Z.of_nat (nlevels t)))%R ->
  build_traversal_in (rounded_trav prec) G t P = Some tr ->
  exists fi nused, f_translation_classes (rounded_trav prec) ZnearestE t G (well_sep_is_n_away P) true tr = Some fi /\
    length (fi_classes fi) = length (lists (from_sep_siblings tr)) /\
    fi_starts fi (nlevels t) = Some nused /\
    (forall k a b, list2_pair tr k a b -> exists c v s e,
       nth k (fi_classes fi) None = Some c /\ c < nused /\ fi_dist fi c = Some v /\
       (forall i, (i < dim t)%nat ->
          Rabs (v i - f_extent G * IZR (translation t a b i) / IZR (root_extent t)) <= bpow radix2 (- prec) * K /\
          Rabs (v i - (f_center (rounded_trav prec) t G a i - f_center (rounded_trav prec) t G b i))
            <= (2 * INR (nlevels t) + 1) * (bpow radix2 (- prec) * K))%R /\
       fi_starts fi (box_level t a) = Some s /\ fi_starts fi (S (box_level t a)) = Some e /\ s <= c < e) /\
    (forall k a b k' a' b', list2_pair tr k a b -> list2_pair tr k' a' b' ->
       (nth k (fi_classes fi) None = nth k' (fi_classes fi) None <->
        box_level t a = box_level t a' /\ forall i, i < dim t -> translation t a b i = translation t a' b' i)) /\
    (forall c, c < nused -> exists k a b, list2_pair tr k a b /\ nth k (fi_classes fi) None = Some c).
Proof.
  intros prec t G P tr K Hp W GO WP H1 H2 H3 B.
  assert (PE : precise_enough prec t (well_sep_is_n_away P) G) by (exists K; auto).
  assert (B0 := build_traversal_eq t W P (proj1 WP)). set (tr0 := the_traversal t P) in B0.
  destruct (f_classes_ok prec Hp t W G GO P WP PE tr tr0 B B0 true) as [fi [ci [E [E0 [EC [ES PD]]]]]].
  destruct (C32_translation_classes t P tr0 W WP B0) as [ci' [nused [X [L [SN [PR [SM US]]]]]]]. rewrite E0 in X. injection X as <-.
  destruct (same_lists prec Hp t W G GO P WP PE tr tr0 B B0) as [SL _].
  assert (PS := pairs_same prec Hp t W G GO P WP PE tr tr0 B B0).
  exists fi, nused. rewrite EC, ES, SL. split; [exact E|]. split; [exact L|]. split; [exact SN|]. split; [|split].
  - intros k a b Q. destruct (PR k a b (proj1 (PS k a b) Q)) as [c [v [s [e [R1 [R2 [_ [_ R5]]]]]]]].
    destruct (PD k a b Q) as [c' [S1 S2]]. rewrite EC, R1 in S1. injection S1 as <-.
    eexists c, _, s, e. split; [exact R1|]. split; [exact R2|]. split; [exact S2|]. split; [|exact R5].
    intros i Hi. apply (f_distance_ok prec Hp t W G GO P WP PE tr tr0 B B0 k a b i K Q Hi H1 H2 H3).
  - intros k a b k' a' b' Q Q'. apply SM; apply PS; auto.
  - intros c Hc. destruct (US c Hc) as [k [a [b [Q R]]]]. exists k, a, b. split; [apply PS; auto|exact R].
Qed.

(** Rotation classes: as C33, for the exact directions. *)
Theorem C104_rotation_classes_with_rounding : forall (angle : Type) (angle_eqb : angle -> angle -> bool) (angle_of : Z -> Z -> angle) prec t G P tr,
  (forall a b, angle_eqb a b = true <-> a = b) -> (24 <= prec)%Z ->
  wf_tree t -> geometry_ok prec G -> wf_params t P -> precise_enough prec t (well_sep_is_n_away P) G ->
  build_traversal_in (rounded_trav prec) G t P = Some tr -> 1 <= dim t <= 3 ->
  exists classes angles,
    f_rotation_classes (rounded_trav prec) ZnearestE t G angle angle_eqb angle_of (well_sep_is_n_away P) tr = Some (classes, angles) /\
    length classes = length (lists (from_sep_siblings tr)) /\ NoDup angles /\
    length angles <= 2 ^ (dim t - 1) * (2 * well_sep_is_n_away P + 1) ^ dim t /\
    (forall k a b, list2_pair tr k a b -> exists r w,
       nth k classes None = Some r /\ direction (dim t) (translation t a b) w /\
       nth_error angles r = Some (angle_of (w (dim t - 1)) (squared_norm (dim t) w))) /\
    (forall r, r < length angles -> exists k a b, list2_pair tr k a b /\ nth k classes None = Some r).
Proof.
  intros angle angle_eqb angle_of prec t G P tr EQB Hp W GO WP PE B D3.
  assert (B0 := build_traversal_eq t W P (proj1 WP)). set (tr0 := the_traversal t P) in B0.
  assert (PS := pairs_same prec Hp t W G GO P WP PE tr tr0 B B0). destruct (same_lists prec Hp t W G GO P WP PE tr tr0 B B0) as [SL _].
  destruct (C33_rotation_classes angle angle_eqb angle_of t P tr0 EQB W WP B0 D3) as [classes [angles [E [L [ND [BD [PR UP]]]]]]].
  exists classes, angles. rewrite SL. split.
  { rewrite <- E. unfold f_rotation_classes, rotation_classes. rewrite (compute_same prec Hp t W G GO P WP PE tr tr0 B B0 false). reflexivity. }
  split; [exact L|]. split; [exact ND|]. split; [exact BD|]. split.
  - intros k a b Q. apply PR. apply PS. exact Q.
  - intros r Hr. destruct (UP r Hr) as [k [a [b [Q R]]]]. exists k, a, b. split; [apply PS; auto|exact R].
Qed.

(** ** Without the condition the claim is false.
    A tree in single precision: root box of size 1 around (100, 0), refined 17 times.  Two sibling boxes
    of size 2^-16 have one child each, three box widths apart; near 100 the distance of neighboring
    numbers is 2^-17.  The computed centers of the children are four box widths apart: the traversal
    has them in list 2, and the classes cannot be computed (ValueError). *)
Definition stem_center (b : nat) : Z :=
  let r l := (2 ^ (18 - 1 - Z.of_nat l))%Z in
  let c := fold_left (fun c l => c - r l)%Z (seq 1 (Nat.min b 15)) 0%Z in
  if b <? 16 then c else if b =? 16 then (c - r 16%nat)%Z else if b =? 17 then (c + r 16%nat)%Z
  else if b =? 18 then (c - r 16%nat - r 17%nat)%Z else (c + r 16%nat + r 17%nat)%Z.
Definition stem_level (b : nat) : nat := if b <? 16 then b else if b <? 18 then 16 else 17.
Definition stem_tree : tree := {|
  dim := 2; nlevels := 18; nboxes := 20; root_extent := 2 ^ 18;
  box_center := fun b i => if i =? 0 then stem_center b
    else fold_left (fun c l => c - 2 ^ (18 - 1 - Z.of_nat l))%Z (seq 1 (stem_level b)) 0%Z;
  box_level := stem_level;
  box_parent := fun b => if b <? 17 then b - 1 else if b =? 17 then 15 else b - 2;
  box_child := fun m b =>
    if b <? 15 then (if m =? 0 then S b else 0)
    else if b =? 15 then (if m =? 0 then 16 else if m =? 2 then 17 else 0)
    else if b =? 16 then (if m =? 0 then 18 else 0)
    else if b =? 17 then (if m =? 2 then 19 else 0) else 0;
  box_flags := fun b => if b <? 18 then 12%N else 3%N
|}.
Definition stem_params : trav_params := {|
  well_sep_is_n_away := 1; extents := extents chain_params;
  sources_are_targets := true; source_boxes_mask := fun _ => true; source_parent_boxes_mask := fun _ => true;
  level_start_box_nrs := fun l => if l <? 17 then l else if l =? 17 then 18 else 20 |}.
Definition stem_classes (prec emax : Z) (G : float_geometry (num (ieee_trav prec emax))) (tr : traversal) : list nat * option (list (option nat)) :=
  (lists (from_sep_siblings tr), option_map fi_classes (f_translation_classes (ieee_trav prec emax) sf_nearest stem_tree G 1 true tr)).
Theorem C104_refuted_single : exists t P (G : float_geometry (num (ieee_trav 24 128))) tr,
  wf_tree t /\ wf_flags t /\ wf_params t P /\ targets_have_extent (extents P) = false /\
  f_extent G = single 1 /\ f_root_center G 0 = single 100 /\ f_root_center G 1 = single 0 /\ dim t = 2 /\
  build_traversal_in (ieee_trav 24 128) G t P = Some tr /\
  lists (from_sep_siblings tr) = [19; 18] /\ box_level t 18 = box_level t 19 /\
  translation t 19 18 0 = (3 * (2 * box_rad t 18))%Z /\ translation t 19 18 1 = 0%Z /\
  f_translation_classes (ieee_trav 24 128) sf_nearest t G (well_sep_is_n_away P) true tr = None.
Proof.
  assert (W : wf_tree stem_tree) by (apply check_wf_ok; vm_compute; reflexivity).
  exists stem_tree, stem_params, chain_geometry.
  destruct (build_traversal_in (ieee_trav 24 128) chain_geometry stem_tree stem_params) as [tr|] eqn:B.
  2:{ exfalso. assert (X : match build_traversal_in (ieee_trav 24 128) chain_geometry stem_tree stem_params with Some _ => true | None => false end = true)
        by (vm_compute; reflexivity). rewrite B in X. discriminate X. }
  exists tr. 
  assert (X : match build_traversal_in (ieee_trav 24 128) chain_geometry stem_tree stem_params with Some tr => stem_classes 24 128 chain_geometry tr | None => ([], None) end = ([19; 18], None))
    by (vm_compute; reflexivity). rewrite B in X. clear B.
  assert (X1 := f_equal fst X). assert (X2 := f_equal snd X). cbn [fst snd stem_classes] in X1, X2.
  split; [exact W|]. split; [apply check_flags_ok; vm_compute; reflexivity|].
  split. { split; [simpl; lia|]. intros _ b Hb. do 20 (destruct b as [|b]; [reflexivity|]). simpl in Hb. lia. }
  do 5 (split; [reflexivity|]). split; [reflexivity|]. split; [exact X1|]. do 3 (split; [vm_compute; reflexivity|]).
  change (well_sep_is_n_away stem_params) with 1.
  destruct (f_translation_classes (ieee_trav 24 128) sf_nearest stem_tree chain_geometry 1 true tr); [discriminate X2|reflexivity].
Qed.
(** In double precision the same tree has the two classes (-3, 0) and (3, 0), with these vectors. *)
Definition double (z : Z) : spec_float := binary_normalize 53 1024 z 0 false.
Definition stem_geometry : float_geometry spec_float :=
  {| f_extent := double 1; f_root_center := fun i => if i =? 0 then double 100 else double 0;
     f_stick_out := double 0; f_bb_min := fun _ _ => double 0; f_bb_max := fun _ _ => double 0 |}.
Definition stem_vectors (tr : traversal) : option (list (option spec_float)) :=
  option_map (fun fi => map (fun c => option_map (fun v => v 0) (fi_dist fi c)) [0; 1])
    (f_translation_classes (ieee_trav 53 1024) sf_nearest stem_tree stem_geometry 1 true tr).
Example double_suffices :
  option_map (fun tr => (stem_classes 53 1024 stem_geometry tr, stem_vectors tr)) (build_traversal_in (ieee_trav 53 1024) stem_geometry stem_tree stem_params) =
  Some (([19; 18], Some [Some 0; Some 1]),
        Some [Some (SFdiv 53 1024 (double (-3)) (double (2 ^ 17))); Some (SFdiv 53 1024 (double 3) (double (2 ^ 17)))]).
Proof. vm_compute. reflexivity. Qed.

(** ** The hypotheses are met: the example tree with extents in single precision *)
Example class_rounding_example : wf_tree ex_tree /\ geometry_ok 24 ex_geometry /\
  wf_params ex_tree (ex_params 1 (ex_extent true static_l2 5)) /\
  (2 * f_extent ex_geometry <= 5 / 2)%R /\ (forall i, (i < dim ex_tree)%nat -> Rabs (f_root_center ex_geometry i) + 2 * f_extent ex_geometry <= 5 / 2)%R /\
  ((4 * INR (nlevels ex_tree) + 4 * INR 1 + 20) * (bpow radix2 (- 24) * (5 / 2)) < f_extent ex_geometry * bpow radix2 (- Z.of_nat (nlevels ex_tree)))%R /\
  exists tr k a b, build_traversal_in (rounded_trav 24) ex_geometry ex_tree (ex_params 1 (ex_extent true static_l2 5)) = Some tr /\
    list2_pair tr k a b.
Proof.
  destruct ex_tree_wf as [W [F _]]. destruct (ex_params_wf 1 true static_l2 5 ltac:(lia)) as [WP _].
  assert (GO : geometry_ok 24 ex_geometry).
  { split; [|simpl; lra]. simpl. change 1%R with (bpow radix2 0). apply generic_format_bpow. unfold FLX_exp. lia. }
  assert (H1 : (2 * f_extent ex_geometry <= 5 / 2)%R) by (cbn [f_extent ex_geometry]; lra).
  assert (H2 : forall i, (i < dim ex_tree)%nat -> (Rabs (f_root_center ex_geometry i) + 2 * f_extent ex_geometry <= 5 / 2)%R).
  { cbn [f_extent f_root_center ex_geometry]. intros i _; rewrite Rabs_pos_eq; lra. }
  assert (H3 : ((4 * INR (nlevels ex_tree) + 4 * INR 1 + 20) * (bpow radix2 (- 24) * (5 / 2)) < f_extent ex_geometry * bpow radix2 (- Z.of_nat (nlevels ex_tree)))%R)
    by (cbn [f_extent ex_geometry]; simpl; lra).
  assert (PE : precise_enough 24 ex_tree 1 ex_geometry) by (exists (5 / 2)%R; auto).
  split; [exact W|]. split; [exact GO|]. split; [exact WP|]. split; [exact H1|]. split; [exact H2|]. split; [exact H3|].
  assert (B := build_in_eq 24 ltac:(lia) ex_tree W ex_geometry GO _ WP PE).
  assert (B0 := build_traversal_eq ex_tree W _ (proj1 WP)). eexists. 
  assert (X : match build_traversal ex_tree (ex_params 1 (ex_extent true static_l2 5)) with Some tr => negb (length (lists (from_sep_siblings tr)) =? 0) | None => false end = true)
    by (vm_compute; reflexivity). rewrite B0 in X.
  apply negb_true_iff, Nat.eqb_neq in X.
  destruct (pair_exists ex_tree W _ WP _ B0 0 ltac:(lia)) as [a [b Q]].
  exists 0, a, b. split; [exact B|].
  apply (pairs_same 24 ltac:(lia) ex_tree W ex_geometry GO _ WP PE _ _ B B0). exact Q.
Qed.

Print Assumptions C104_vector_with_rounding.
Print Assumptions C104_translation_classes_with_rounding.
Print Assumptions C104_rotation_classes_with_rounding.
Print Assumptions C104_refuted_single.
