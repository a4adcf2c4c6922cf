(** The entry of TreeBuilder: C44 (bounding box reduction), C71 (accepted arguments make a valid
    build; C17 and C18 end to end), C72 (given bounding boxes), C73 (acceptance), C74 (size of
    the automatic root box). *)
From Coq Require Import List Arith ZArith Lia Bool Permutation.
From Verif Require Import Base Tree Fmm SpecFmm TreeBuild SpecBuild BuildFront SpecFront FrontFacts ExampleBuild PropsBuild.
Import ListNotations.
Local Open Scope Z_scope.

(** ** C44: whatever the bracketing, the reduction returns the componentwise extremes. *)
Theorem C44_bounding_box : forall huge x radii r n, reduces r n -> (0 < n)%nat ->
  (forall i a, (i < n)%nat -> - huge <= x i a + radii i /\ x i a - radii i <= huge) ->
  forall a, let lo := fst (find_bbox huge x radii r) a in let hi := snd (find_bbox huge x radii r) a in
  (forall i, (i < n)%nat -> lo <= x i a - radii i) /\ (exists i, (i < n)%nat /\ lo = x i a - radii i) /\
  (forall i, (i < n)%nat -> x i a + radii i <= hi) /\ (exists i, (i < n)%nat /\ hi = x i a + radii i).
Proof. intros huge x radii r n R Hn H a. apply bbox_exact; auto. Qed.
Theorem C44_bracketing_irrelevant : forall huge x radii r r' n, reduces r n -> reduces r' n -> (0 < n)%nat ->
  (forall i a, (i < n)%nat -> - huge <= x i a + radii i /\ x i a - radii i <= huge) ->
  forall a, fst (find_bbox huge x radii r) a = fst (find_bbox huge x radii r') a /\
            snd (find_bbox huge x radii r) a = snd (find_bbox huge x radii r') a.
Proof.
  intros huge x radii r r' n R R' Hn H a.
  destruct (C44_bounding_box huge x radii r n R Hn H a) as [L1 [[i [Hi L2]] [U1 [j [Hj U2]]]]].
  destruct (C44_bounding_box huge x radii r' n R' Hn H a) as [L1' [[i' [Hi' L2']] [U1' [j' [Hj' U2']]]]].
  cbv zeta in *. specialize (L1 _ Hi'). specialize (L1' _ Hi). specialize (U1 _ Hj'). specialize (U1' _ Hj). lia.
Qed.

(** ** C71: what TreeBuilder builds from arguments it accepts *)
Theorem C71_accepted_arguments : forall a r inp, front a r = inl inp ->
  valid_input inp /\ npart inp = user_count a /\ nsrc inp = a_nsources a /\ idim inp = a_dim a /\
  (same inp = true <-> a_targets a = None) /\
  (forall u p, user_point a u p -> forall ax, coord inp u ax = p ax) /\
  (forall u rho, user_radius a u rho -> rad_of inp u = rho) /\
  (forall m, a_max_particles a = Some m -> max_weight inp = m /\ forall u, weight inp u = 1) /\
  (forall w m, a_max_particles a = None -> a_weights a = Some w -> a_max_weight a = Some m -> max_weight inp = m /\ weight inp = w).
Proof.
  intros a r inp H. destruct (front_facts a r inp H) as [w [maxw [lo [hi [HS [LIM [RB [M0 [M1 [N0 [W [G [SO E]]]]]]]]]]]]].
  assert (RU : forall u, rad_of inp u = srcntgt_radii a u).
  { intros u. rewrite <- radii_used. rewrite E. unfold rad_of. cbn [ext]. destruct (have_radii a); auto.
    destruct (SO eq_refl) as [[sn sd] ->]. auto. }
  split; [|split; [rewrite E; auto|split; [rewrite E; auto|split; [rewrite E; auto|]]]].
  - rewrite E. constructor; cbn [npart nsrc same weight max_weight nboxes_guess]; auto.
    + unfold nsrcntgts. lia.
    + unfold shared, nsrcntgts, ntargets_arg. destruct (a_targets a) as [[n tg]|]; [discriminate|]. intros _. lia.
    + unfold have_extent. cbn [ext]. destruct (have_radii a); [|discriminate]. cbn [andb] in HS. auto.
  - split; [|split; [|split; [|split]]].
    + rewrite E. cbn [same]. unfold shared. destruct (a_targets a); split; auto; discriminate.
    + intros u p P ax. apply point_eq in P. destruct P as [-> _]. rewrite E. reflexivity.
    + intros u rho P. rewrite RU. symmetry. apply radius_eq; auto.
    + intros m Em. unfold limits in LIM. rewrite Em in LIM. rewrite E. cbn [max_weight weight].
      destruct (a_weights a), (a_max_weight a); try discriminate LIM; injection LIM as <- <-; auto.
    + intros w' m Em Ew Ex. unfold limits in LIM. rewrite Em, Ew, Ex in LIM. injection LIM as <- <-. rewrite E. auto.
Qed.

(** The automatic root box is a cube that holds all particles, with their radii, strictly below
    its upper faces. *)
Theorem C71_automatic_root_box : forall a r inp,
  a_bbox a = None -> (0 < a_dim a)%nat -> reduces r (user_count a) -> user_floats a -> spread a -> front a r = inl inp ->
  valid_geometry inp /\
  (forall u p rho ax, user_point a u p -> user_radius a u rho -> (ax < a_dim a)%nat ->
     bbox_min inp ax <= p ax - rho /\ p ax + rho < bbox_max inp ax).
Proof.
  intros a r inp NB D R UF SP H. destruct (front_facts a r inp H) as [w [maxw [lo [hi [HS [LIM [RB [M0 [M1 [N0 [W [G [SO E]]]]]]]]]]]]].
  unfold root_box in RB. rewrite NB in RB. injection RB as <- <-.
  assert (EX := auto_exact a r R UF N0). destruct (max_extent_spec a r N0 D) as [ME _].
  destruct (stretched_spec a r R UF N0 D) as [k [K1 K2]].
  assert (KP : 0 < k).
  { destruct SP as [u [p [rho [u' [p' [rho' [ax [P [Q [P' [Q' [Hax LT]]]]]]]]]]]].
    apply point_eq in P. destruct P as [-> Hu]. apply radius_eq in Q. apply point_eq in P'. destruct P' as [-> Hu']. apply radius_eq in Q'. subst rho rho'.
    destruct (EX ax) as [E1 [_ [E3 _]]]. specialize (E1 _ Hu). specialize (E3 _ Hu'). specialize (ME _ Hax). rewrite K1 in ME.
    unfold unit_length in ME. assert (0 < k * (10000 * 2 ^ 30)) by lia. assert (X : 0 < 10000 * 2 ^ 30) by lia. nia. }
  assert (LT : max_extent a r < stretched_extent a r).
  { rewrite K1, K2. unfold unit_length. assert (X : 0 < 2 ^ 30) by lia. nia. }
  assert (IN : forall u ax, (u < nsrcntgts a)%nat -> (ax < a_dim a)%nat ->
     bbox_min inp ax <= srcntgts a u ax - srcntgt_radii a u /\ srcntgts a u ax + srcntgt_radii a u < bbox_max inp ax).
  { intros u ax Hu Hax. rewrite E. cbn [bbox_min bbox_max]. destruct (EX ax) as [E1 [_ [E3 _]]].
    specialize (E1 _ Hu). specialize (E3 _ Hu). specialize (ME _ Hax). lia. }
  split.
  - assert (RE : the_root_extent inp = stretched_extent a r).
    { rewrite E. unfold the_root_extent, extent_along. cbn [bbox_min bbox_max]. lia. }
    constructor.
    + rewrite E. exact D.
    + intros ax Hax. rewrite RE, E. cbn [bbox_min bbox_max]. lia.
    + rewrite RE, K2. assert (X : 0 < 2 ^ 30) by lia. nia.
    + rewrite RE, K2. exists (k * 10001). ring.
    + intros u ax Hu Hax. assert (Hu' : (u < nsrcntgts a)%nat) by (rewrite E in Hu; exact Hu).
      assert (Hax' : (ax < a_dim a)%nat) by (rewrite E in Hax; exact Hax). specialize (IN u ax Hu' Hax').
      destruct (uf_radius a UF u _ (radius_of a u Hu')) as [_ RP]. replace (coord inp u ax) with (srcntgts a u ax) by (rewrite E; reflexivity). lia.
  - intros u p rho ax P Q Hax. apply point_eq in P. destruct P as [-> Hu]. apply radius_eq in Q. subst rho. apply IN; auto.
Qed.

(** End to end: with the automatic root box, the returned tree numbers the user's sources and
    targets by permutations, and each lies in the half-open cell of the box that owns it. *)
Theorem C71_end_to_end : forall a r B,
  a_bbox a = None -> (0 < a_dim a)%nat -> reduces r (user_count a) -> user_floats a -> spread a ->
  (a_kind a = LevelRestricted -> a_source_radii a = None /\ a_target_radii a = None) ->
  tree_builder a r = inl B -> (nlevels (b_tree B) <= 30)%nat ->
  let t := b_tree B in let P := b_particles B in
  nsources P = a_nsources a /\
  ntargets P = match a_targets a with Some (n, _) => n | None => a_nsources a end /\
  Permutation (map (user_source_ids P) (seq 0 (nsources P))) (seq 0 (nsources P)) /\
  Permutation (map (sorted_target_ids P) (seq 0 (ntargets P))) (seq 0 (ntargets P)) /\
  owned_once t (box_source_starts P) (box_source_counts_nonchild P) (nsources P) /\
  owned_once t (box_target_starts P) (box_target_counts_nonchild P) (ntargets P) /\
  (forall b k, (b < nboxes t)%nat -> own_sources B b k -> in_cell t b (a_particles a (user_source_ids P k))) /\
  (forall b j, (b < nboxes t)%nat -> (j < ntargets P)%nat -> own_targets B b (sorted_target_ids P j) ->
     in_cell t b (match a_targets a with Some (_, tg) => tg j | None => a_particles a j end)).
Proof.
  intros a r B NB D R UF SP KR H DEEP t P. unfold tree_builder in H. destruct (front a r) as [inp|e] eqn:FR; [|discriminate].
  destruct (build_tree inp) as [B'|e] eqn:BT; [|discriminate]. injection H as ->.
  destruct (C71_accepted_arguments a r inp FR) as [V [NP [NS [ID [SA [CO [RA _]]]]]]].
  destruct (C71_automatic_root_box a r inp NB D R UF SP FR) as [G _].
  assert (KI : build_kind inp = a_kind a).
  { destruct (front_facts a r inp FR) as [w [maxw [lo [hi [_ [_ [_ [_ [_ [_ [_ [_ [_ E]]]]]]]]]]]]]. rewrite E. reflexivity. }
  assert (NR : not_restricted_with_extents inp).
  { intros K. rewrite KI in K. destruct (KR K) as [K1 K2].
    destruct (front_facts a r inp FR) as [w [maxw [lo [hi [_ [_ [_ [_ [_ [_ [_ [_ [_ E]]]]]]]]]]]]]. rewrite E. cbn [ext].
    unfold have_radii. rewrite K1, K2. reflexivity. }
  destruct (C17_particles_are_permuted inp B V BT) as [Q1 [Q2 [Q3 [Q4 [_ [Q6 [Q7 _]]]]]]].
  destruct (C18_particles_in_their_boxes inp B V G NR BT DEEP) as [O1 [O2 [O3 O4]]].
  assert (NT : ntargets P = match a_targets a with Some (n, _) => n | None => a_nsources a end).
  { unfold P. rewrite Q2. unfold num_targets. rewrite NP, NS. unfold user_count. destruct (a_targets a) as [[n tg]|].
    - destruct (same inp) eqn:S; [|lia]. destruct SA as [SA _]. discriminate (SA eq_refl).
    - rewrite (proj2 SA eq_refl). lia. }
  split; [unfold P; congruence|]. split; [exact NT|]. split; [exact Q3|]. split; [exact Q6|]. split; [exact O1|]. split; [exact O2|].
  assert (DI : dim t = a_dim a).
  { rewrite <- ID. destruct (built_fin inp B V BT) as [st [pth [_ [_ ->]]]]. reflexivity. }
  split.
  - intros b k Hb O ax Hax. assert (Hk : (k < nsources P)%nat).
    { assert (X : In k (seq 0 (nsources P))).
      { apply (Permutation_in _ O1). apply in_concat. eexists. split; [apply in_map; apply in_seq; split; [lia|exact Hb]|]. apply in_seq. exact O. }
      apply in_seq in X. lia. }
    specialize (O3 b k Hb O ax Hax). rewrite Q4 in O3 by auto.
    rewrite (CO (user_source_ids P k) (a_particles a (user_source_ids P k))) in O3; auto.
    left. split; auto. assert (X : In (user_source_ids P k) (seq 0 (nsources P))).
    { apply (Permutation_in _ Q3). apply in_map. apply in_seq. split; [lia|exact Hk]. }
    apply in_seq in X. destruct X as [_ X]. unfold P in X at 2. rewrite Q1, NS in X. exact X.
  - intros b j Hb Hj O ax Hax. specialize (O4 b _ Hb O ax Hax). rewrite Q7 in O4 by auto. unfold first_target in O4.
    destruct (a_targets a) as [[n tg]|] eqn:TA.
    + destruct (same inp) eqn:S; [destruct SA as [SA _]; discriminate (SA eq_refl)|].
      rewrite (CO (nsrc inp + j)%nat (tg j)) in O4; auto. right. exists n, tg. rewrite TA, NS. repeat split; auto; try lia.
      replace (a_nsources a + j - a_nsources a)%nat with j by lia. reflexivity.
    + rewrite (proj2 SA eq_refl) in O4. rewrite (CO (0 + j)%nat (a_particles a j)) in O4; auto. left. split; auto. lia.
Qed.

(** ** C72: a given bounding box.  If it is a cube and all particles lie strictly below its upper
    faces, the geometry is as with the automatic box. *)
Theorem C72_given_root_box : forall a r inp b s,
  a_bbox a = Some b -> (0 < a_dim a)%nat -> front a r = inl inp ->
  (forall ax, (ax < a_dim a)%nat -> snd (b ax) - fst (b ax) = s) -> (2 ^ 30 | s) ->
  (forall u p ax, user_point a u p -> (ax < a_dim a)%nat -> fst (b ax) <= p ax < snd (b ax)) ->
  valid_geometry inp.
Proof.
  intros a r inp b s NB D H SQ U IN. destruct (front_facts a r inp H) as [w [maxw [lo [hi [HS [LIM [RB [M0 [M1 [N0 [W [G [SO E]]]]]]]]]]]]].
  unfold root_box in RB. rewrite NB in RB.
  destruct (negb (forallb (fun ax => fst (b ax) <? snd (b ax)) (seq 0 (a_dim a)))) eqn:C1; [discriminate|].
  destruct (negb (forallb (fun ax => (fst (b ax) <=? fst (bbox_auto a r) ax) && (snd (bbox_auto a r) ax <=? snd (b ax))) (seq 0 (a_dim a)))) eqn:C2; [discriminate|].
  destruct (negb (forallb (fun ax => 10 ^ 15 * Z.abs (snd (b ax) - fst (b ax) - (snd (b 0%nat) - fst (b 0%nat))) <? a_one a) (seq 0 (a_dim a)))) eqn:C3; [discriminate|].
  injection RB as <- <-. apply negb_false_iff in C1. rewrite forallb_forall in C1.
  assert (RE : the_root_extent inp = s).
  { rewrite E. unfold the_root_extent, extent_along. cbn [bbox_min bbox_max]. apply SQ. auto. }
  constructor.
  - rewrite E. exact D.
  - intros ax Hax. rewrite RE, E. cbn [bbox_min bbox_max]. apply SQ. rewrite E in Hax. exact Hax.
  - rewrite RE. specialize (C1 0%nat ltac:(apply in_seq; lia)). apply Z.ltb_lt in C1. specialize (SQ 0%nat D). lia.
  - rewrite RE. auto.
  - intros u ax Hu Hax. rewrite E in Hu, Hax |- *. cbn [npart idim coord bbox_min bbox_max] in *. apply (IN u); auto. apply point_of; auto.
Qed.

(** example arguments *)
Definition call (pts : list (list Z)) (bbox : option (nat -> Z * Z)) (mp : option Z) (w : option (nat -> Z)) (mw : option Z) (one : Z) : args :=
  {| a_dim := 2; a_nsources := length pts; a_particles := fun u ax => unit_length * nth ax (nth u pts []) 0; a_targets := None; a_source_radii := None; a_target_radii := None;
     a_stick_out := None; a_norm := None; a_max_particles := mp; a_weights := w; a_max_weight := mw; a_bbox := bbox; a_kind := Adaptive;
     a_skip_prune := false; a_nboxes_guess := None; a_lookbehind := 1; a_nlevels_max := 48; a_huge := 2 ^ 200; a_one := one |}.
Definition one_by_one (n : nat) : reduction := fold_right (fun i r => Combine (Element i) r) Neutral (seq 0 n).
Lemma one_by_one_reduces n : reduces (one_by_one n) n.
Proof.
  intros i. unfold one_by_one. assert (X : forall l, elements (fold_right (fun i r => Combine (Element i) r) Neutral l) = l).
  { induction l as [|x l IH]; cbn [fold_right elements]; auto. rewrite IH. auto. }
  rewrite X, in_seq. lia.
Qed.

(** The documentation only asks for particles in the closure of a square bounding box.  A particle
    on an upper face is put into the lowest box, far away from it. *)
Definition cube : nat -> Z * Z := fun _ => (0, 16 * unit_length).
Definition in_closed_cell (t : tree) (b : nat) (x : nat -> Z) : Prop :=
  forall a, (a < dim t)%nat -> box_center t b a - box_rad t b <= x a <= box_center t b a + box_rad t b.
Theorem C72_refuted_upper_boundary : exists a r bb B b k,
  reduces r (user_count a) /\ user_floats a /\ a_bbox a = Some bb /\
  (forall ax, (ax < a_dim a)%nat -> snd (bb ax) - fst (bb ax) = snd (bb 0%nat) - fst (bb 0%nat)) /\
  (forall u p ax, user_point a u p -> (ax < a_dim a)%nat -> fst (bb ax) <= p ax <= snd (bb ax)) /\
  tree_builder a r = inl B /\ (b < nboxes (b_tree B))%nat /\ own_sources B b k /\
  ~ in_closed_cell (b_tree B) b (a_particles a (user_source_ids (b_particles B) k)).
Proof.
  set (a := call [[1;1];[16;16];[9;9]] (Some cube) (Some 2) None None 1).
  assert (PT : forall u p, user_point a u p -> p = a_particles a u /\ (u < 3)%nat).
  { intros u p [[Hu ->]|[n [tg [E _]]]]; [split; auto|discriminate E]. }
  exists a, (one_by_one 3), cube.
  assert (OK : match tree_builder a (one_by_one 3) with inl _ => true | inr _ => false end = true) by (vm_compute; reflexivity).
  destruct (tree_builder a (one_by_one 3)) as [B|e] eqn:E; [clear OK|discriminate OK].
  assert (X : match tree_builder a (one_by_one 3) with
    | inl B => (nboxes (b_tree B), dim (b_tree B), (box_source_starts (b_particles B) 1%nat, box_source_counts_nonchild (b_particles B) 1%nat, user_source_ids (b_particles B) 1%nat),
        (box_center (b_tree B) 1%nat 0%nat + box_rad (b_tree B) 1%nat <? a_particles a 1%nat 0%nat))
    | inr _ => (0%nat, 0%nat, (0%nat, 0%nat, 0%nat), false) end = (3%nat, 2%nat, (0%nat, 2%nat, 1%nat), true)) by (vm_compute; reflexivity).
  rewrite E in X. apply pair_equal_spec in X. destruct X as [X XC]. apply pair_equal_spec in X. destruct X as [X XB]. apply pair_equal_spec in X. destruct X as [XN XD].
  apply pair_equal_spec in XB. destruct XB as [XB XU]. apply pair_equal_spec in XB. destruct XB as [XS XK].
  exists B, 1%nat, 1%nat. split; [apply one_by_one_reduces|]. split; [|split; [reflexivity|split; [intros; reflexivity|split; [|split; [auto|split; [rewrite XN; lia|split]]]]]].
  - constructor.
    + intros u p ax P. apply PT in P. destruct P as [-> _]. cbn [a_particles a call]. apply Z.divide_factor_l.
    + intros u rho [[_ ->]|[n [tg [F _]]]]; [|discriminate F]. cbn. split; [apply Z.divide_0_r|lia].
    + intros u p rho ax P [[_ ->]|[n [tg [F _]]]]; [|discriminate F]. apply PT in P. destruct P as [-> Hu].
      cbn [a_particles a call a_huge a_source_radii]. unfold unit_length.
      do 3 (destruct u as [|u]; [do 2 (destruct ax as [|ax]; [cbn; lia|]); cbn [nth]; destruct ax; cbn; lia|]). lia.
  - intros u p ax P Hax. apply PT in P. destruct P as [-> Hu]. cbn [a_dim a call] in Hax. cbn [a_particles a call]. unfold cube. cbn [fst snd].
    unfold unit_length.
    do 3 (destruct u as [|u]; [do 2 (destruct ax as [|ax]; [cbn; lia|]); lia|]). lia.
  - unfold own_sources. rewrite XS, XK. lia.
  - intros C. specialize (C 0%nat ltac:(rewrite XD; lia)). rewrite XU in C. apply Z.ltb_lt in XC. lia.
Qed.
(** The squareness test compares side lengths to within 1e-15 whatever their size, so a tiny
    bounding box need not be square; particles inside it then lie outside their boxes. *)
Definition tiny_rectangle : nat -> Z * Z := fun ax => (0, match ax with 0%nat => 4 * unit_length | _ => 16 * unit_length end).
Theorem C72_refuted_tiny_boxes : exists a r bb B b k,
  reduces r (user_count a) /\ a_bbox a = Some bb /\
  (forall u p ax, user_point a u p -> (ax < a_dim a)%nat -> fst (bb ax) < p ax < snd (bb ax)) /\
  tree_builder a r = inl B /\ (b < nboxes (b_tree B))%nat /\ own_sources B b k /\
  ~ in_closed_cell (b_tree B) b (a_particles a (user_source_ids (b_particles B) k)).
Proof.
  set (a := call [[1;1];[3;9]] (Some tiny_rectangle) (Some 2) None None (10 ^ 17 * unit_length)).
  exists a, (one_by_one 2), tiny_rectangle.
  assert (OK : match tree_builder a (one_by_one 2) with inl _ => true | inr _ => false end = true) by (vm_compute; reflexivity).
  destruct (tree_builder a (one_by_one 2)) as [B|e] eqn:E; [clear OK|discriminate OK].
  assert (X : match tree_builder a (one_by_one 2) with
    | inl B => (nboxes (b_tree B), dim (b_tree B), (box_source_starts (b_particles B) 0%nat, box_source_counts_nonchild (b_particles B) 0%nat, user_source_ids (b_particles B) 0%nat),
        (a_particles a 0%nat 1%nat <? box_center (b_tree B) 0%nat 1%nat - box_rad (b_tree B) 0%nat))
    | inr _ => (0%nat, 0%nat, (0%nat, 0%nat, 0%nat), false) end = (1%nat, 2%nat, (0%nat, 2%nat, 0%nat), true)) by (vm_compute; reflexivity).
  rewrite E in X. apply pair_equal_spec in X. destruct X as [X XC]. apply pair_equal_spec in X. destruct X as [X XB]. apply pair_equal_spec in X. destruct X as [XN XD].
  apply pair_equal_spec in XB. destruct XB as [XB XU]. apply pair_equal_spec in XB. destruct XB as [XS XK].
  exists B, 0%nat, 0%nat. split; [apply one_by_one_reduces|]. split; [reflexivity|]. split; [|split; [auto|split; [rewrite XN; lia|split]]].
  - intros u p ax [[Hu ->]|[n [tg [F _]]]] Hax; [|discriminate F]. cbn [a_dim a call] in Hax. cbn [a_nsources a call length] in Hu. cbn [a_particles a call].
    unfold tiny_rectangle, unit_length. cbn [fst snd].
    do 2 (destruct u as [|u]; [do 2 (destruct ax as [|ax]; [cbn; lia|]); lia|]). lia.
  - unfold own_sources. rewrite XS, XK. lia.
  - intros C. specialize (C 1%nat ltac:(rewrite XD; lia)). rewrite XU in C. apply Z.ltb_lt in XC. lia.
Qed.

(** ** C73: which arguments are accepted *)
(** Points without radii, with an automatic root box and either limit. *)
Theorem C73_accepted : forall a r w m,
  a_bbox a = None -> a_source_radii a = None -> a_target_radii a = None -> a_nboxes_guess a = None ->
  (0 < user_count a)%nat -> 0 < m <= INT_MAX ->
  (a_max_particles a = Some m /\ a_max_weight a = None /\ w = (fun _ => 1) \/
   a_max_particles a = None /\ a_weights a = Some w /\ a_max_weight a = Some m) ->
  (forall u, (u < user_count a)%nat -> 0 <= w u <= m) ->
  (exists u, (u < user_count a)%nat /\ 0 < w u) ->
  exists inp, front a r = inl inp.
Proof.
  intros a r w m NB SR TR NG N0 M L W [u0 [Hu0 P0]]. unfold front.
  assert (HR : have_radii a = false) by (unfold have_radii; rewrite SR, TR; auto). rewrite HR, SR, TR. cbn [andb shape_ok negb].
  assert (LI : exists w', limits a = inl (w', m) /\ forall u, w' u = w u).
  { unfold limits. destruct L as [[-> [L2 ->]]|[-> [-> ->]]]; [rewrite L2; exists (fun _ => 1); destruct (a_weights a); auto|eauto]. }
  destruct LI as [w' [-> EW]]. change (nsrcntgts a) with (user_count a).
  rewrite (proj2 (Z.ltb_lt 0 m)) by lia. cbn [negb]. destruct (Nat.eqb_spec (user_count a) 0); [lia|].
  assert (F1 : forallb (fun u => w' u <=? m) (seq 0 (user_count a)) = true).
  { apply forallb_forall. intros u Hu. apply in_seq in Hu. rewrite EW. apply Z.leb_le. apply W. lia. }
  assert (F2 : forallb (fun u => 0 <=? w' u) (seq 0 (user_count a)) = true).
  { apply forallb_forall. intros u Hu. apply in_seq in Hu. rewrite EW. apply Z.leb_le. apply W. lia. }
  rewrite F1, F2. cbn [negb]. unfold root_box. rewrite NB.
  assert (T : 0 < zsum (map w' (seq 0 (user_count a)))).
  { rewrite (map_ext _ _ EW).
    assert (X : forall l, (forall u, In u l -> 0 <= w u) -> 0 <= zsum (map w l) /\ (In u0 l -> 0 < zsum (map w l))).
    { induction l as [|x l IH]; intros Hl; [split; [cbn; lia|intros []]|]. destruct (IH (fun u Hu => Hl u (or_intror Hu))) as [I1 I2].
      assert (HX := Hl x (or_introl eq_refl)). change (zsum (map w (x :: l))) with (w x + zsum (map w l)). split; [lia|].
      intros [->|Hx]; [lia|]. specialize (I2 Hx). lia. }
    apply X; [|apply in_seq; lia]. intros u Hu. apply in_seq in Hu. apply W. lia. }
  assert (G : (0 < first_guess a m (zsum (map w' (seq 0 (user_count a)))))%nat).
  { unfold first_guess. rewrite NG. assert (1 <= (m + zsum (map w' (seq 0 (user_count a))) - 1) / m).
    { apply Z.div_le_lower_bound; lia. }
    assert (0 < 2 ^ Z.of_nat (a_dim a)) by (apply Z.pow_pos_nonneg; lia). assert (Y : 0 < 2 ^ Z.of_nat (a_dim a) * ((m + zsum (map w' (seq 0 (user_count a))) - 1) / m)) by (apply Z.mul_pos_pos; lia).
    revert Y. generalize (2 ^ Z.of_nat (a_dim a) * ((m + zsum (map w' (seq 0 (user_count a))) - 1) / m)). clear. lia. }
  cbv zeta. rewrite (proj2 (Nat.ltb_lt _ _) G). rewrite (proj2 (Z.leb_le m INT_MAX)) by lia. cbn [negb]. eauto.
Qed.

(** ** Which error is raised *)
Theorem C73_reasons : forall a r,
  (a_targets a = None -> (a_source_radii a <> None \/ a_target_radii a <> None) -> tree_builder a r = inr (inl RadiiWithoutTargets)) /\
  (a_source_radii a = None -> a_target_radii a = None ->
    (a_max_particles a <> None -> a_weights a <> None -> a_max_weight a <> None -> tree_builder a r = inr (inl TwoLimits)) /\
    (a_max_particles a = None -> (a_weights a = None \/ a_max_weight a = None) -> tree_builder a r = inr (inl NoLimit)) /\
    (forall m, a_max_particles a = Some m -> a_weights a = None -> (m <= 0)%Z -> tree_builder a r = inr (inl LimitNotPositive)) /\
    (forall w m, a_max_particles a = None -> a_weights a = Some w -> a_max_weight a = Some m -> (m <= 0)%Z ->
       tree_builder a r = inr (inl LimitNotPositive))).
Proof.
  intros a r. split.
  - intros T H. unfold tree_builder, front, shared, have_radii. rewrite T.
    destruct (a_source_radii a), (a_target_radii a); try reflexivity. destruct H; congruence.
  - intros S1 S2.
    assert (X : forall e, limits a = inr e -> tree_builder a r = inr (inl e)).
    { intros e E. unfold tree_builder, front, have_radii, shape_ok. rewrite S1, S2, E. reflexivity. }
    assert (Y : forall w m, limits a = inl (w, m) -> (m <= 0)%Z -> tree_builder a r = inr (inl LimitNotPositive)).
    { intros w m E L. unfold tree_builder, front, have_radii, shape_ok. rewrite S1, S2, E. cbn [andb negb].
      destruct (Z.ltb_spec 0 m); [lia|reflexivity]. }
    split; [|split; [|split]].
    + intros A1 A2 A3. apply X. unfold limits. destruct (a_max_particles a), (a_weights a), (a_max_weight a); congruence.
    + intros A1 A2. apply X. unfold limits. rewrite A1. destruct A2 as [-> | ->]; [|destruct (a_weights a)]; reflexivity.
    + intros m A1 A2 L. apply (Y (fun _ => 1%Z) m); auto. unfold limits. rewrite A1, A2. reflexivity.
    + intros w m A1 A2 A3 L. apply (Y w m); auto. unfold limits. rewrite A1, A2, A3. reflexivity.
Qed.

(** Weights that are all zero are nonnegative and below the limit, and yet not accepted. *)
Theorem C73_refuted_zero_weights : forall a r m,
  a_bbox a = None -> a_source_radii a = None -> a_target_radii a = None -> a_nboxes_guess a = None ->
  (0 < user_count a)%nat -> 0 < m -> a_max_particles a = None -> a_weights a = Some (fun _ => 0) -> a_max_weight a = Some m ->
  front a r = inr NoBoxes.
Proof.
  intros a r m NB SR TR NG N0 M L1 L2 L3. unfold front.
  assert (HR : have_radii a = false) by (unfold have_radii; rewrite SR, TR; auto). rewrite HR, SR, TR. cbn [andb shape_ok negb].
  unfold limits. rewrite L1, L2, L3. change (nsrcntgts a) with (user_count a).
  rewrite (proj2 (Z.ltb_lt 0 m)) by lia. cbn [negb]. destruct (Nat.eqb_spec (user_count a) 0); [lia|].
  assert (F1 : forallb (fun u : nat => 0 <=? m) (seq 0 (user_count a)) = true) by (apply forallb_forall; intros u _; apply Z.leb_le; lia).
  assert (F2 : forallb (fun u : nat => 0 <=? 0) (seq 0 (user_count a)) = true) by (apply forallb_forall; intros u _; reflexivity).
  rewrite F1, F2. cbn [negb]. unfold root_box. rewrite NB.
  assert (T : zsum (map (fun _ : nat => 0) (seq 0 (user_count a))) = 0) by (apply zsum_map_0; auto).
  cbv zeta. unfold first_guess. rewrite NG, T. replace ((m + 0 - 1) / m) with 0 by (symmetry; apply Z.div_small; lia). rewrite Z.mul_0_r. reflexivity.
Qed.

(** ** C74: the automatic root box has positive size.  Refuted: coinciding particles (for
    instance a single one) are accepted and give a root box of size zero. *)
Theorem C74_refuted_coinciding_particles : exists a r B,
  reduces r (user_count a) /\ user_floats a /\ (0 < user_count a)%nat /\ tree_builder a r = inl B /\ root_extent (b_tree B) = 0.
Proof.
  set (a := call [[5;7]] None (Some 3) None None 1).
  exists a, (one_by_one 1). assert (OK : match tree_builder a (one_by_one 1) with inl _ => true | inr _ => false end = true) by (vm_compute; reflexivity).
  destruct (tree_builder a (one_by_one 1)) as [B|e] eqn:E; [clear OK|discriminate OK].
  exists B. split; [apply one_by_one_reduces|]. split; [|split; [cbn; lia|split; auto]].
  - constructor.
    + intros u p ax [[_ ->]|[n [tg [F _]]]]; [|discriminate F]. cbn [a_particles a call]. apply Z.divide_factor_l.
    + intros u rho [[_ ->]|[n [tg [F _]]]]; [|discriminate F]. cbn. split; [apply Z.divide_0_r|lia].
    + intros u p rho ax [[Hu ->]|[n [tg [F _]]]] [[_ ->]|[n' [tg' [F' _]]]]; try discriminate F; try discriminate F'.
      cbn [a_nsources a call length] in Hu. destruct u; [|lia]. cbn [a_particles a call a_huge a_source_radii]. unfold unit_length.
      do 2 (destruct ax as [|ax]; [cbn; lia|]). cbn [nth]. destruct ax; cbn; lia.
  - assert (X : match tree_builder a (one_by_one 1) with inl B => root_extent (b_tree B) | inr _ => 1 end = 0) by (vm_compute; reflexivity).
    rewrite E in X. exact X.
Qed.

(** ** The hypotheses of C71 hold for concrete arguments *)
Definition ex_target : nat -> nat -> Z := fun u ax => unit_length * nth ax (nth u [[2;9];[14;14]] []) 0.
Definition ex_args : args :=
  {| a_dim := 2; a_nsources := 3; a_particles := fun u ax => unit_length * nth ax (nth u [[1;1];[12;3];[5;5]] []) 0;
     a_targets := Some (2%nat, ex_target);
     a_source_radii := None; a_target_radii := Some (2%nat, fun u => unit_length * Z.of_nat u);
     a_stick_out := Some (1, 4); a_norm := None; a_max_particles := Some 2; a_weights := None; a_max_weight := None; a_bbox := None; a_kind := Adaptive;
     a_skip_prune := false; a_nboxes_guess := None; a_lookbehind := 1; a_nlevels_max := 48; a_huge := 2 ^ 200; a_one := 1 |}.
Example ex_front : exists B, reduces (Combine (one_by_one 4) (Combine (Element 4) Neutral)) (user_count ex_args) /\
  spread ex_args /\ tree_builder ex_args (Combine (one_by_one 4) (Combine (Element 4) Neutral)) = inl B /\ (nlevels (b_tree B) <= 30)%nat.
Proof.
  assert (OK : match tree_builder ex_args (Combine (one_by_one 4) (Combine (Element 4) Neutral)) with inl _ => true | inr _ => false end = true) by (vm_compute; reflexivity).
  destruct (tree_builder ex_args (Combine (one_by_one 4) (Combine (Element 4) Neutral))) as [B|e] eqn:E; [clear OK|discriminate OK].
  exists B. split; [|split; [|split; auto]].
  - intros i. change (elements (Combine (one_by_one 4) (Combine (Element 4) Neutral))) with [0; 1; 2; 3; 4]%nat. cbn. lia.
  - exists 0%nat, (a_particles ex_args 0), 0, 1%nat, (a_particles ex_args 1), 0, 0%nat.
    split; [left; cbn; auto with arith|]. split; [left; cbn; auto with arith|]. split; [left; cbn; auto with arith|]. split; [left; cbn; auto with arith|].
    split; [cbn; auto|]. cbn. unfold unit_length. lia.
  - assert (X : match tree_builder ex_args (Combine (one_by_one 4) (Combine (Element 4) Neutral)) with inl B => (nlevels (b_tree B) <=? 30)%nat | inr _ => false end = true) by (vm_compute; reflexivity).
    rewrite E in X. apply Nat.leb_le in X. exact X.
Qed.
Example ex_front_floats : user_floats ex_args.
Proof.
  assert (P5 : forall u p, user_point ex_args u p -> (u < 5)%nat).
  { intros u p [[Hu _]|[n [tg [F [Hu _]]]]]; cbn in *; [lia|]. injection F as <- _. lia. }
  constructor.
  - intros u p ax [[_ ->]|[n [tg [F [_ ->]]]]]; [apply Z.divide_factor_l|].
    assert (T : tg = ex_target) by (cbn [ex_args a_targets] in F; congruence). rewrite T. unfold ex_target. apply Z.divide_factor_l.
  - intros u rho [[_ ->]|[n [tg [F [_ ->]]]]]; cbn [ex_args a_source_radii a_target_radii]; [split; [apply Z.divide_0_r|lia]|].
    split; [apply Z.divide_factor_l|unfold unit_length; nia].
  - intros u p rho ax P Q. assert (U := P5 u p P). apply point_eq in P. destruct P as [-> _]. apply radius_eq in Q. subst rho.
    do 5 (destruct u as [|u]; [do 2 (destruct ax as [|ax]; [cbn; lia|]); destruct ax; cbn; lia|]). lia.
Qed.

Print Assumptions C44_bounding_box.
Print Assumptions C44_bracketing_irrelevant.
Print Assumptions C71_accepted_arguments.
Print Assumptions C71_automatic_root_box.
Print Assumptions C71_end_to_end.
Print Assumptions C72_given_root_box.
Print Assumptions C72_refuted_upper_boundary.
Print Assumptions C72_refuted_tiny_boxes.
Print Assumptions C73_accepted.
Print Assumptions C73_reasons.
Print Assumptions C73_refuted_zero_weights.
Print Assumptions C74_refuted_coinciding_particles.
