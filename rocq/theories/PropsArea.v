(** Properties C27-C30, C59, C60: area queries, peer lists and space invader queries. *)
From Coq Require Import List Arith ZArith NArith Lia Bool Permutation.
From Verif Require Import Base Tree Spec SpecArea CheckTree ExampleTree Traversal GeomFacts TraversalLists AreaQuery AreaFacts AreaMore.
From Verif Require Import TreeBuild SpecBuild BuildDone AreaBuilt ExampleBuild PropsBuild.
From Verif Require BuildThm.
Import ListNotations.

(** ** C28: peer lists contain exactly the peers, each once. *)
Theorem C28_peer_lists : forall t, wf_tree t -> flags_tell_leaves t ->
  exists peers, find_peers t = Some peers /\
  forall b, b < nboxes t -> NoDup (csr_get peers b) /\
    forall p, In p (csr_get peers b) <-> p < nboxes t /\ peer t b p.
Proof.
  intros t W F. exists (all_peers t). split; [apply find_peers_ok; auto|]. intros b Hb. rewrite all_peers_get by auto.
  split; [apply peer_NoDup; auto|]. intros p. rewrite (peer_list_in t W F b p Hb).
  split; intros [Hp P]; split; auto; [apply is_peer_spec|apply is_peer_spec in P]; auto.
Qed.

(** ** C27: an area query returns for each ball exactly the leaves that meet it, each once. *)
Theorem C27_area_query_exact : forall t bmin balls,
  wf_tree t -> flags_tell_leaves t -> lower_corner t bmin ->
  (forall b, b < nboxes t -> leaf t b -> meets_unstretched t b) ->
  (forall j, j < length balls -> (0 <= snd (nth j balls no_ball))%Z) ->
  exists aq, area_query t bmin balls = Some aq /\
  forall j, j < length balls -> NoDup (csr_get aq j) /\
    forall b, In b (csr_get aq j) <->
      b < nboxes t /\ leaf t b /\ ball_meets_box t (fst (nth j balls no_ball)) (snd (nth j balls no_ball)) b.
Proof.
  intros t bmin balls W F BM U R. destruct (area_query_rows t W bmin BM balls) as [ll [L [E N]]].
  exists (csr_of ll). split; auto. intros j Hj. rewrite csr_get_of by lia.
  destruct (leaves_exact t W F bmin BM (fst (nth j balls no_ball)) _ (R j Hj) U) as [l [E' [ND I]]]. rewrite (N j Hj) in E'. injection E' as <-. auto.
Qed.
(** ... the premise about leaves always holds for trees of at most 14 levels *)
Theorem C27_shallow_trees : forall t b, wf_tree t -> nlevels t <= 14 -> b < nboxes t -> meets_unstretched t b.
Proof. intros t b W N Hb. apply shallow_meets; auto. assert (X := wf_level_lt t W b Hb). lia. Qed.
(** ... and the premises hold for the trees the particle tree builder returns: pruned, with the
    particles in the bounding box before it was stretched, or with at most 14 levels *)
Theorem C27_area_query_of_built_tree : forall inp B balls,
  valid_input inp -> valid_geometry inp -> not_restricted_with_extents inp -> levels_stay_populated inp ->
  build_tree inp = inl B -> nlevels (b_tree B) <= 30 ->
  nlevels (b_tree B) <= 14 \/
  skip_prune inp = false /\ (forall u a, u < npart inp -> a < idim inp ->
     (10001 * (coord inp u a - bbox_min inp a) <= 10000 * the_root_extent inp)%Z) ->
  (forall j, j < length balls -> (0 <= snd (nth j balls no_ball))%Z) ->
  let t := b_tree B in
  exists aq, area_query t (bbox_min inp) balls = Some aq /\
  forall j, j < length balls -> NoDup (csr_get aq j) /\
    forall b, In b (csr_get aq j) <->
      b < nboxes t /\ leaf_box t b /\ ball_meets_box t (fst (nth j balls no_ball)) (snd (nth j balls no_ball)) b.
Proof.
  intros inp B balls V G NR LP H D U R. destruct (built_fin inp B V H) as [st [pth [_ [F ->]]]]. cbv zeta.
  assert (W := BuildThm.finish_wf_tree inp V st pth F G D).
  apply C27_area_query_exact; auto.
  - apply (built_flags_tell_leaves inp V st pth F NR LP).
  - apply (built_lower_corner inp V st pth F G D).
  - intros b Hb _. destruct U as [U|[U1 U2]]; [apply C27_shallow_trees; auto|]. apply (built_meets inp V st pth F G D b U1 U2 Hb).
Qed.

(** ** C29: the leaves-to-balls lookup is the transpose of the area query, with multiplicity. *)
Theorem C29_transpose : forall t bmin balls, wf_tree t -> lower_corner t bmin ->
  exists aq lbl, area_query t bmin balls = Some aq /\ leaves_to_balls t bmin balls = Some lbl /\
  forall b j, b < nboxes t ->
    count j (csr_get lbl b) = if j <? length balls then count b (csr_get aq j) else 0.
Proof. intros t bmin balls W BM. exact (transpose_ok t W bmin BM balls). Qed.

(** ** C30: space invader distances, for every order of the atomic updates.
    Casting a distance to the 32-bit pattern of a float is monotone on nonnegative distances. *)
Lemma linf_distance_is t c b : 0 < dim t -> linf_distance (dim t) c (box_center t b) (linf_dist (dim t) c (box_center t b)).
Proof.
  intros P. split; [intros i Hi; apply linf_ge; auto|].
  destruct (Exists_dec (fun i => Z.abs (c i - box_center t b i) = linf_dist (dim t) c (box_center t b)) (seq 0 (dim t))) as [E|N].
  { intros i. apply Z.eq_dec. }
  - apply Exists_exists in E. destruct E as [i [Hi E]]. exists i. apply in_seq in Hi. split; auto. lia.
  - exfalso. set (d := linf_dist (dim t) c (box_center t b)) in *.
    assert (K : forall i, i < dim t -> (Z.abs (c i - box_center t b i) <= d - 1)%Z).
    { intros i Hi. assert (X := linf_ge (dim t) c (box_center t b) i Hi). fold d in X.
      assert (Z.abs (c i - box_center t b i) <> d); [|lia]. intros Q. apply N. apply Exists_exists. exists i. split; auto. apply in_seq. lia. }
    assert (X := K 0 P). assert (d <= d - 1)%Z; [|lia]. apply linf_le. split; [lia|]. exact K.
Qed.
Lemma linf_distance_unique d x y v w : linf_distance d x y v -> linf_distance d x y w -> v = w.
Proof. intros [A [i [Hi Ei]]] [B [j [Hj Ej]]]. specialize (A j Hj). specialize (B i Hi). lia. Qed.

Theorem C30_space_invaders : forall t bmin balls f32,
  wf_tree t -> flags_tell_leaves t -> lower_corner t bmin -> 0 < dim t ->
  (forall b, b < nboxes t -> leaf t b -> meets_unstretched t b) ->
  (forall j, j < length balls -> (0 <= snd (nth j balls no_ball))%Z) ->
  f32 0%Z = 0%Z -> (forall x y, 0 <= x <= y -> f32 x <= f32 y)%Z ->
  exists updates, invader_updates t bmin f32 balls = Some updates /\
  forall schedule b, Permutation schedule updates -> b < nboxes t ->
    (~ leaf t b -> run_updates schedule b = 0%Z) /\
    (leaf t b -> exists v, run_updates schedule b = f32 v /\
       furthest_ball t (length balls) (fun j => fst (nth j balls no_ball)) (fun j => snd (nth j balls no_ball)) b v).
Proof.
  intros t bmin balls f32 W F BM DP U R Z0 M. destruct (invader_rows t W bmin BM balls f32) as [ups [E I]].
  exists ups. split; auto. intros sch b P Hb.
  assert (I' : forall v, In v (map snd (filter (fun u => fst u =? b) sch)) <-> exists j, j < length balls /\ leaf t b /\
      ball_meets_box t (fst (nth j balls no_ball)) (snd (nth j balls no_ball)) b /\ v = f32 (linf_dist (dim t) (fst (nth j balls no_ball)) (box_center t b))).
  { intros v. rewrite in_map_iff. split.
    - intros [u [<- Hu]]. apply filter_In in Hu. destruct Hu as [Hu Eb]. apply Nat.eqb_eq in Eb. subst b.
      apply (Permutation_in _ P) in Hu. apply I in Hu. destruct Hu as [j [l [Hj [El [Il Ev]]]]].
      destruct (leaves_exact t W F bmin BM (fst (nth j balls no_ball)) _ (R j Hj) U) as [l' [E' [_ I1]]]. rewrite El in E'. injection E' as <-.
      apply I1 in Il. exists j. tauto.
    - intros [j [Hj [Lf [Mb ->]]]]. exists (b, f32 (linf_dist (dim t) (fst (nth j balls no_ball)) (box_center t b))). split; auto.
      apply filter_In. split; [|apply Nat.eqb_refl]. apply (Permutation_in _ (Permutation_sym P)), I.
      destruct (leaves_exact t W F bmin BM (fst (nth j balls no_ball)) _ (R j Hj) U) as [l' [E' [_ I1]]]. exists j, l'. cbn [fst snd]. split; [exact Hj|]. split; [exact E'|]. split; [|reflexivity]. apply I1. auto. }
  unfold run_updates. rewrite run_updates_split. set (vs := map snd _) in *. split.
  - intros NL. assert (X : vs = []); [|rewrite X; auto]. destruct vs as [|v vs']; auto. destruct (proj1 (I' v) (or_introl eq_refl)) as [j X]. tauto.
  - intros Lf. assert (CASE : vs = [] \/ exists v0, In v0 vs) by (destruct vs; [left|right; eexists; left]; auto).
    destruct CASE as [EV|[v0 IN0]].
    + rewrite EV in *. exists 0%Z. split; [auto|]. left. split; auto. intros j Hj Mb.
      apply (proj2 (I' (f32 (linf_dist (dim t) (fst (nth j balls no_ball)) (box_center t b))))). exists j. auto.
    + (* the largest distance *)
      set (js := filter (fun j => ball_overlap t (fst (nth j balls no_ball)) (snd (nth j balls no_ball)) b) (seq 0 (length balls))).
      set (D := fun j => linf_dist (dim t) (fst (nth j balls no_ball)) (box_center t b)).
      assert (JS : forall j, In j js <-> j < length balls /\ ball_meets_box t (fst (nth j balls no_ball)) (snd (nth j balls no_ball)) b).
      { intros j. unfold js. rewrite filter_In, in_seq. split; intros [Hj O].
        - split; [lia|]. apply (ov_spec t W (fst (nth j balls no_ball)) _ (R j ltac:(lia)) b Hb). auto.
        - split; [lia|]. apply (ov_spec t W (fst (nth j balls no_ball)) _ (R j ltac:(lia)) b Hb). auto. }
      assert (VS : forall v, In v vs <-> exists j, In j js /\ v = f32 (D j)).
      { intros v. rewrite I'. split; intros [j X]; exists j; specialize (JS j); tauto. }
      assert (MX : forall l, (exists j, In j l) -> exists j, In j l /\ forall k, In k l -> (D k <= D j)%Z).
      { clear. induction l as [|a l IH]; intros [j Hj]; [destruct Hj|]. destruct l as [|c l].
        - exists a. split; [left; auto|]. intros k [<-|[]]. lia.
        - destruct (IH ltac:(exists c; left; auto)) as [m [Hm Q]]. destruct (Z.le_gt_cases (D m) (D a)).
          + exists a. split; [left; auto|]. intros k [<-|Hk]; [lia|]. specialize (Q k Hk). lia.
          + exists m. split; [right; auto|]. intros k [<-|Hk]; [lia|]. apply Q; auto. }
      destruct (proj1 (VS v0) IN0) as [j0 [Hj0 _]].
      destruct (MX js (ex_intro _ j0 Hj0)) as [m [Hm Q]]. exists (D m).
      assert (NN : forall j, (0 <= D j)%Z) by (intros; apply linf_nonneg).
      split.
      * apply Z.le_antisymm.
        -- destruct (fold_zmax_attained vs 0%Z) as [Ea|Ea].
           ++ rewrite Ea. rewrite <- Z0. apply M. specialize (NN m). lia.
           ++ apply VS in Ea. destruct Ea as [k [Hk ->]]. apply M. specialize (NN k). specialize (Q k Hk). lia.
        -- apply fold_zmax_in. apply VS. eauto.
      * right. split.
        -- exists m. apply JS in Hm. destruct Hm as [Hm1 Hm2]. split; [exact Hm1|]. split; [exact Hm2|]. apply linf_distance_is; auto.
        -- intros j w Hj Mb LD. rewrite (linf_distance_unique _ _ _ _ _ LD (linf_distance_is t _ b DP)). apply Q, JS. auto.
Qed.

(** * Non-vacuity *)
Definition flagsb (t : tree) : bool :=
  forallb (fun b => Bool.eqb (negb (has_source_child t b) && negb (has_target_child t b)) (leafb t b)) (seq 0 (nboxes t)).
Lemma flagsb_ok t : flagsb t = true -> flags_tell_leaves t.
Proof.
  unfold flagsb. rewrite forallb_forall. intros H b Hb. specialize (H b ltac:(apply in_seq; lia)). apply eqb_prop in H.
  change (leaf t b) with (leaf_box t b). rewrite <- leafb_spec, <- H, andb_true_iff, !negb_true_iff. tauto.
Qed.
Definition ex_balls : list ball := [(fun _ => 10%Z, 1%Z); (fun i => if i =? 0 then 40%Z else (-3)%Z, 9%Z); (fun _ => 16%Z, 0%Z)].
(** C27-C30: a tree with five levels; a ball around an interior point, one around a point
    outside of the tree, and a point on the boundary of several leaves *)
Example area_example : wf_tree ex_tree /\ flags_tell_leaves ex_tree /\ lower_corner ex_tree (fun _ => 0%Z) /\ 0 < dim ex_tree /\
  (forall b, b < nboxes ex_tree -> leaf ex_tree b -> meets_unstretched ex_tree b) /\
  (forall j, j < length ex_balls -> (0 <= snd (nth j ex_balls no_ball))%Z) /\
  option_map (fun aq => map (csr_get aq) (seq 0 3)) (area_query ex_tree (fun _ => 0%Z) ex_balls) =
    Some [[25; 26; 27; 28]; [15]; [24; 11; 14; 17]] /\
  option_map (fun l => csr_get l 24) (leaves_to_balls ex_tree (fun _ => 0%Z) ex_balls) = Some [2] /\
  option_map (fun l => csr_get l 14) (find_peers ex_tree) = Some [7; 8; 11; 13; 14; 15; 16; 17; 19] /\
  option_map (fun u => run_updates (rev u) 24) (invader_updates ex_tree (fun _ => 0%Z) (fun x => x) ex_balls) = Some 2%Z.
Proof.
  assert (W : wf_tree ex_tree) by (apply check_wf_ok; vm_compute; reflexivity).
  split; [exact W|]. split; [apply flagsb_ok; vm_compute; reflexivity|].
  split. { intros i Hi. cbn in Hi. destruct i as [|[|i]]; [reflexivity..|lia]. }
  split; [cbn; lia|]. split. { intros b Hb _. apply C27_shallow_trees; auto. cbn. lia. }
  split. { intros j Hj. cbn in Hj. destruct j as [|[|[|j]]]; [cbn; lia..|lia]. }
  repeat (split; [vm_compute; reflexivity|]). vm_compute. reflexivity.
Qed.
(** the composition with the tree builder *)
Example built_area_example : valid_input shared_input /\ valid_geometry shared_input /\ not_restricted_with_extents shared_input /\
  levels_stay_populated shared_input /\ skip_prune shared_input = false /\
  (forall u a, u < npart shared_input -> a < idim shared_input ->
     (10001 * (coord shared_input u a - bbox_min shared_input a) <= 10000 * the_root_extent shared_input)%Z) /\
  deep_ok shared_input (fun B => match area_query (b_tree B) (bbox_min shared_input) [(fun _ => (2 * tick)%Z, tick)] with
     | Some aq => length (csr_get aq 0) =? 3 | None => false end) = true.
Proof.
  split; [apply example_valid; reflexivity|]. split; [apply example_geometry; reflexivity|].
  split; [discriminate|]. split; [right; left; discriminate|]. split; [reflexivity|]. split.
  - intros u a Hu Ha. cbn in Hu, Ha. do 7 (destruct u as [|u]; [destruct a as [|[|a]]; [vm_compute; discriminate..|lia]|]). lia.
  - vm_compute. reflexivity.
Qed.

(** * What does not hold *)
(** ** C59: with a user-supplied bounding box a query around a particle can miss the leaf that
    holds it, if the particle is in the upper ten-thousandth of the box. *)
Definition sliver_input : input :=
  {| idim := 1; npart := 3; nsrc := 3; same := true;
     coord := fun u _ => (unit30 - nth u [114688; 81920; 16384] 0)%Z; ext := None;
     weight := fun _ => 1%Z; max_weight := 1; bbox_min := fun _ => 0%Z; bbox_max := fun _ => unit30;
     build_kind := Adaptive; nlevels_max := 53; skip_prune := false; nboxes_guess := 6; lr_lookbehind := 1 |}.
Lemma sliver_valid : valid_input sliver_input /\ valid_geometry sliver_input.
Proof.
  split; constructor; cbn [npart nsrc same weight max_weight nboxes_guess sliver_input idim bbox_min bbox_max coord]; try discriminate; try lia;
    unfold INT_MAX; try (intros; lia); try reflexivity.
  - intros u a Hu _. do 3 (destruct u as [|u]; [cbn [nth]; unfold unit30; lia|]). lia.
Qed.
Definition missed (inp : input) (b u : nat) : bool :=
  deep_ok inp (fun B => (b <? nboxes (b_tree B)) && leafb (b_tree B) b &&
    forallb (fun a => Z.abs (coord inp u a - box_center (b_tree B) b a) <=? box_rad (b_tree B) b)%Z (seq 0 (dim (b_tree B))) &&
    match area_query (b_tree B) (bbox_min inp) [(coord inp u, 0%Z)] with
    | Some aq => match csr_get aq 0 with [] => true | _ => false end
    | None => false
    end).
Lemma missed_spec inp b u : missed inp b u = true -> exists B aq, build_tree inp = inl B /\ nlevels (b_tree B) <= 30 /\
  b < nboxes (b_tree B) /\ leaf_box (b_tree B) b /\ ball_meets_box (b_tree B) (coord inp u) 0 b /\
  area_query (b_tree B) (bbox_min inp) [(coord inp u, 0%Z)] = Some aq /\ csr_get aq 0 = [].
Proof.
  intros H. destruct (deep_spec _ _ H) as [B [E C]]. clear H. rewrite !andb_true_iff, Nat.leb_le, Nat.ltb_lt, leafb_spec, forallb_forall in C.
  destruct C as [C1 [[[C2 C3] C4] C5]]. exists B.
  destruct (area_query (b_tree B) (bbox_min inp) [(coord inp u, 0%Z)]) as [aq|]; [|discriminate]. exists aq.
  repeat match goal with |- _ /\ _ => split end; auto; [|destruct (csr_get aq 0); [auto|discriminate]].
  exists (coord inp u). split; [|intros; lia]. intros i Hi. apply Z.leb_le, C4, in_seq. lia.
Qed.
Lemma C59_case : missed sliver_input 15 2 = true.
Proof. vm_cast_no_check (eq_refl true). Qed.
Theorem C59_upper_sliver_refuted : exists inp B b u aq,
  valid_input inp /\ valid_geometry inp /\ ext inp = None /\ skip_prune inp = false /\ build_kind inp = Adaptive /\
  build_tree inp = inl B /\ nlevels (b_tree B) <= 30 /\
  b < nboxes (b_tree B) /\ leaf_box (b_tree B) b /\ u < npart inp /\ ball_meets_box (b_tree B) (coord inp u) 0 b /\
  area_query (b_tree B) (bbox_min inp) [(coord inp u, 0%Z)] = Some aq /\ csr_get aq 0 = [].
Proof.
  destruct (missed_spec _ _ _ C59_case) as [B [aq [E [C1 [C2 [C3 [C4 [C5 C6]]]]]]]]. exists sliver_input, B, 15, 2, aq.
  repeat match goal with |- _ /\ _ => split end; auto; apply sliver_valid.
Qed.
(** ** C60: a pruned non-adaptive tree with extents can have a childless box that says it has
    children; area queries never report it. *)
Lemma C60_case : missed uneven_input 3 2 = true.
Proof. vm_cast_no_check (eq_refl true). Qed.
Theorem C60_childless_split_box_refuted : exists inp B b u aq,
  valid_input inp /\ valid_geometry inp /\ build_kind inp = NonAdaptive /\
  build_tree inp = inl B /\ nlevels (b_tree B) <= 14 /\
  b < nboxes (b_tree B) /\ leaf_box (b_tree B) b /\ u < npart inp /\ ball_meets_box (b_tree B) (coord inp u) 0 b /\
  area_query (b_tree B) (bbox_min inp) [(coord inp u, 0%Z)] = Some aq /\ csr_get aq 0 = [].
Proof.
  destruct (missed_spec _ _ _ C60_case) as [B [aq [E [C1 [C2 [C3 [C4 [C5 C6]]]]]]]]. exists uneven_input, B, 3, 2, aq.
  assert (N : holds uneven_input (fun B => nlevels (b_tree B) <=? 14) = true) by (vm_cast_no_check (eq_refl true)).
  destruct (holds_spec _ _ N) as [B' [E' N']]. clear N. rewrite E in E'. injection E' as <-. apply Nat.leb_le in N'.
  repeat match goal with |- _ /\ _ => split end; auto; [apply example_valid; reflexivity|apply example_geometry; reflexivity].
Qed.

Print Assumptions C27_area_query_exact.
Print Assumptions C27_shallow_trees.
Print Assumptions C27_area_query_of_built_tree.
Print Assumptions C28_peer_lists.
Print Assumptions C29_transpose.
Print Assumptions C30_space_invaders.
Print Assumptions C59_upper_sliver_refuted.
Print Assumptions C60_childless_split_box_refuted.
