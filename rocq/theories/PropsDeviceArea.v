(** * C91, C92: area queries on the device *)
From Coq Require Import List Arith ZArith NArith Lia Bool.
From Verif Require Import Base Tree Spec SpecArea Traversal AreaQuery AreaMore Kernel Device DeviceRuns DeviceSeq ListBuilder TravDevice SpecDeviceTrav AreaDevice SpecDeviceArea DevArea
  ExampleTree PropsTraversal PropsArea TreeBuild SpecBuild BuildDevice BuildDeviceEnd SpecDevice SpecDeviceEnd SpecDeviceChain BuildThm BuildDone BuildFull AreaBuilt ExampleBuild
  PropsBuild PropsDevice PropsDeviceEnd PropsDeviceTrav PropsDeviceChain.
Import ListNotations.

(** ** C91: no kernel of a peer list query, an area query, or of the expansion of its starts accesses
    an array (or the stack of its tree walk) outside of its bounds, and each comes to an end *)
Theorem C91_peers_in_bounds t d : wf_tree t -> device_has_boxes t d -> safe varr varr_eq (peers_program (query_scalars t) (Ret tt)) d.
Proof. intros. apply peers_on_device; auto. Qed.
Theorem C91_query_in_bounds t bmin balls given d : wf_tree t -> lower_corner t bmin -> device_has_boxes t d -> device_has_balls t balls d -> given_peers t given d ->
  safe varr varr_eq (area_query_program (query_scalars t) bmin given (length balls)) d.
Proof. intros. apply query_on_device; auto. Qed.
Theorem C91_expand_in_bounds t bmin balls given d : wf_tree t -> lower_corner t bmin -> device_has_boxes t d -> device_has_balls t balls d -> given_peers t given d ->
  safe varr varr_eq (expand_program (query_scalars t) bmin given (length balls)) d.
Proof. intros. apply expand_on_device; auto. Qed.
Theorem C91_query_ends t bmin balls given d : wf_tree t -> lower_corner t bmin -> device_has_boxes t d -> device_has_balls t balls d -> given_peers t given d ->
  (exists r d', completes varr varr_eq (peers_program (query_scalars t) (Ret tt)) d r d') /\
  (exists r d', completes varr varr_eq (area_query_program (query_scalars t) bmin given (length balls)) d r d') /\
  (exists r d', completes varr varr_eq (expand_program (query_scalars t) bmin given (length balls)) d r d').
Proof.
  intros W L D B G. split; [|split]; apply safe_completes; [apply C91_peers_in_bounds|apply C91_query_in_bounds|apply C91_expand_in_bounds]; auto.
Qed.

(** ** C92: whatever the order of the accesses, the device ends up with the lists of AreaQuery.v *)
Theorem C92_device_computes_the_peers t d r d' : wf_tree t -> device_has_boxes t d ->
  completes varr varr_eq (peers_program (query_scalars t) (Ret tt)) d r d' -> exists peers, find_peers t = Some peers /\ lists_are d' Peers peers.
Proof. intros W D. apply (peers_on_device t d W D). Qed.
Theorem C92_device_computes_the_query t bmin balls given d r d' : wf_tree t -> lower_corner t bmin -> device_has_boxes t d -> device_has_balls t balls d -> given_peers t given d ->
  completes varr varr_eq (area_query_program (query_scalars t) bmin given (length balls)) d r d' ->
  exists aq, area_query t bmin balls = Some aq /\ r = length (lists aq) /\ lists_are d' Leaves aq.
Proof. intros W L D B G. apply (query_on_device t bmin balls given d W L D B G). Qed.

Theorem C92_device_expands_the_starts t bmin balls given d r d' : wf_tree t -> lower_corner t bmin -> device_has_boxes t d -> device_has_balls t balls d -> given_peers t given d ->
  completes varr varr_eq (expand_program (query_scalars t) bmin given (length balls)) d r d' ->
  exists aq es, area_query t bmin balls = Some aq /\ expand_starts aq = Some es /\ r = length (lists aq) /\ lists_are d' Leaves aq /\ array_is d' (Base ExpandedStarts) es.
Proof. intros W L D B G. apply (expand_on_device t bmin balls given d W L D B G). Qed.
(** in particular the entries of the lists on the device are the peers of each box ... *)
Theorem C92_peers_on_device t d r d' : wf_tree t -> flags_tell_leaves t -> device_has_boxes t d ->
  completes varr varr_eq (peers_program (query_scalars t) (Ret tt)) d r d' ->
  forall b, b < nboxes t -> NoDup (entries_of d' Peers b) /\ forall p, In p (entries_of d' Peers b) <-> p < nboxes t /\ peer t b p.
Proof.
  intros W F D C b Hb. destruct (C92_device_computes_the_peers t d r d' W D C) as [peers [E L]]. rewrite (peer_entries t peers d' W E L b Hb).
  destruct (C28_peer_lists t W F) as [peers' [E' X]]. rewrite E in E'. injection E' as <-. apply X. auto.
Qed.
(** ... and the leaves meeting each ball *)
Theorem C92_query_on_device t bmin balls given d r d' :
  wf_tree t -> flags_tell_leaves t -> lower_corner t bmin -> (forall b, b < nboxes t -> leaf t b -> meets_unstretched t b) ->
  (forall j, j < length balls -> (0 <= snd (nth j balls no_ball))%Z) -> device_has_boxes t d -> device_has_balls t balls d -> given_peers t given d ->
  completes varr varr_eq (area_query_program (query_scalars t) bmin given (length balls)) d r d' ->
  forall j, j < length balls -> NoDup (entries_of d' Leaves j) /\
    forall b, In b (entries_of d' Leaves j) <-> b < nboxes t /\ leaf t b /\ ball_meets_box t (fst (nth j balls no_ball)) (snd (nth j balls no_ball)) b.
Proof.
  intros W F BM U R D DB G C j Hj. destruct (C92_device_computes_the_query t bmin balls given d r d' W BM D DB G C) as [aq [E [_ L]]].
  rewrite (query_entries t bmin balls aq d' W BM E L j Hj).
  destruct (C27_area_query_exact t bmin balls W F BM U R) as [aq' [E' X]]. rewrite E in E'. injection E' as <-. apply X. auto.
Qed.
(** Peer lists may be computed once and handed to any number of queries. *)
Theorem C92_peers_can_be_passed_on t d r d' : wf_tree t -> device_has_boxes t d ->
  completes varr varr_eq (peers_program (query_scalars t) (Ret tt)) d r d' -> given_peers t true d'.
Proof. intros W D C _. exact (C92_device_computes_the_peers t d r d' W D C). Qed.
(** Two queries on devices that agree on nothing but the tree and the balls, one of them with
    peer lists given, agree on every entry of the lists. *)
Theorem C92_order_independent t bmin balls given1 given2 d1 d2 r1 r2 d1' d2' :
  wf_tree t -> lower_corner t bmin ->
  device_has_boxes t d1 -> device_has_balls t balls d1 -> given_peers t given1 d1 -> device_has_boxes t d2 -> device_has_balls t balls d2 -> given_peers t given2 d2 ->
  completes varr varr_eq (area_query_program (query_scalars t) bmin given1 (length balls)) d1 r1 d1' ->
  completes varr varr_eq (area_query_program (query_scalars t) bmin given2 (length balls)) d2 r2 d2' ->
  r1 = r2 /\ size d1' (Lists Leaves) = size d2' (Lists Leaves) /\ forall j, j < length balls -> entries_of d1' Leaves j = entries_of d2' Leaves j.
Proof.
  intros W BM D1 B1 G1 D2 B2 G2 C1 C2. destruct (C92_device_computes_the_query t bmin balls given1 d1 r1 d1' W BM D1 B1 G1 C1) as [aq [E [-> L1]]].
  destruct (C92_device_computes_the_query t bmin balls given2 d2 r2 d2' W BM D2 B2 G2 C2) as [aq2 [E2 [-> L2]]]. rewrite E in E2. injection E2 as <-.
  split; auto. split; [rewrite (proj1 (proj2 L1)), (proj1 (proj2 L2)); auto|].
  intros j Hj. rewrite (query_entries t bmin balls aq d1'), (query_entries t bmin balls aq d2'); auto.
Qed.

(** ** From particles to the leaves near each ball, on the device, whatever the order of the
    accesses in the kernels of both builders *)
Lemma passed_boxes inp B e d : device_has_tree inp B e -> passed_on inp (b_level_starts B) e d -> dim (b_tree B) = idim inp -> device_has_boxes (b_tree B) d.
Proof.
  intros T [P1 P2 P3 P4 P5 P6 P7 P8 P9] DM. constructor.
  - rewrite DM. apply (passed_rows d _ e _ _ _ _ P1). apply T.
  - rewrite DM. apply (passed_rows d _ e _ _ _ _ P2). apply T.
  - apply (passed_starts d _ e _ _ _ P3). apply T.
  - apply (passed_whole d _ e _ _ _ P5). apply T.
Qed.
Theorem C92_from_particles_to_leaves inp d0 n ls e balls d :
  valid_input inp -> 2 <= nlevels_max inp -> valid_geometry inp -> not_restricted_with_extents inp -> levels_stay_populated inp -> device_has_input inp d0 ->
  built_on inp d0 (inl (n, ls, e)) -> passed_on inp ls e d ->
  (forall B, build_tree inp = inl B -> nlevels (b_tree B) <= 30 /\ device_has_balls (b_tree B) balls d /\
    (nlevels (b_tree B) <= 14 \/ skip_prune inp = false /\ forall u a, u < npart inp -> a < idim inp -> (10001 * (coord inp u a - bbox_min inp a) <= 10000 * the_root_extent inp)%Z)) ->
  (forall j, j < length balls -> (0 <= snd (nth j balls no_ball))%Z) ->
  exists B, build_tree inp = inl B /\
    let t := b_tree B in let q := area_query_program (query_scalars t) (bbox_min inp) false (length balls) in
    safe varr varr_eq q d /\
    forall r d', completes varr varr_eq q d r d' -> forall j, j < length balls -> NoDup (entries_of d' Leaves j) /\
      forall b, In b (entries_of d' Leaves j) <-> b < nboxes t /\ leaf t b /\ ball_meets_box t (fst (nth j balls no_ball)) (snd (nth j balls no_ball)) b.
Proof.
  intros V NL G NR L D0 BO PO PP R.
  assert (SR := C87_device_computes_the_tree inp d0 _ V NL L D0 BO). unfold same_result in SR.
  destruct (build_tree inp) as [B|er] eqn:EB; [|destruct SR]. destruct SR as [-> [-> T]]. destruct (PP B eq_refl) as [DP [DB U]].
  assert (C27 := C27_area_query_of_built_tree inp B balls V G NR L EB DP U R). cbv zeta in C27.
  destruct (built_fin inp B V EB) as [st [pth [_ [F EQ]]]].
  assert (W : wf_tree (b_tree B)) by (rewrite EQ; apply (BuildThm.finish_wf_tree inp V st pth F G); rewrite EQ in DP; exact DP).
  assert (BM : lower_corner (b_tree B) (bbox_min inp)) by (rewrite EQ; apply (built_lower_corner inp V st pth F G); rewrite EQ in DP; exact DP).
  assert (DM : dim (b_tree B) = idim inp) by (rewrite EQ; reflexivity).
  assert (HB := passed_boxes inp B e d T PO DM). assert (GP : given_peers (b_tree B) false d) by (intros X; discriminate X).
  exists B. split; auto. cbv zeta. split; [apply C91_query_in_bounds; auto|]. intros r d' C j Hj.
  destruct (C92_device_computes_the_query _ _ _ _ _ _ _ W BM HB DB GP C) as [aq [E [_ LA]]]. rewrite (query_entries _ _ balls aq d' W BM E LA j Hj).
  destruct C27 as [aq' [E' X]]. rewrite E in E'. injection E' as <-. exact (X j Hj).
Qed.

(** ** Cases meeting the hypotheses *)
(** a device [d] with the balls added *)
Definition with_balls (balls : list ball) (d : device varr) : device varr :=
  mkDevice (fun a k => match a with
    | Base (BallCoord i) => fst (nth (Z.to_nat k) balls no_ball) i | Base BallRadii => snd (nth (Z.to_nat k) balls no_ball) | _ => cells d a k end)
  (fun a => match a with Base (BallCoord _) | Base BallRadii => z (length balls) | _ => size d a end).
Lemma with_balls_ok t balls d : device_has_balls t balls (with_balls balls d).
Proof. split; [intros a Ha|]; (split; [cbn [with_balls size]; lia|]); intros k Hk; cbn [with_balls cells]; rewrite Nat2Z.id; auto. Qed.
Lemma with_balls_boxes t P balls lo hi : device_has_boxes t (with_balls balls (arguments t P lo hi)).
Proof.
  constructor; unfold has_rows, starts_with; cbv zeta; cbn [with_balls arguments cells size];
    try (split; [lia|]; intros r k Hr Hk; destruct (stride_index (nboxes t) r k Hk) as [-> ->]; auto);
    try (split; [lia|]; intros k Hk; rewrite ?Nat2Z.id; auto).
Qed.
(** the 29-box tree of ExampleTree.v and three balls, one of them outside of the tree *)
Definition query_device : device varr := with_balls ex_balls (ex_device (ex_params 1 (ex_extent false static_linf 0))).
Example C91_case : wf_tree ex_tree /\ flags_tell_leaves ex_tree /\ lower_corner ex_tree (fun _ => 0%Z) /\
  (forall b, b < nboxes ex_tree -> leaf ex_tree b -> meets_unstretched ex_tree b) /\ (forall j, j < length ex_balls -> (0 <= snd (nth j ex_balls no_ball))%Z) /\
  device_has_boxes ex_tree query_device /\ device_has_balls ex_tree ex_balls query_device /\ given_peers ex_tree false query_device.
Proof.
  destruct area_example as [W [F [L [_ [U [R _]]]]]]. repeat (split; [assumption|]). split; [apply with_balls_boxes|]. split; [apply with_balls_ok|]. intros X; discriminate X.
Qed.
(** the program run on that device, work item by work item *)
Example C92_case :
  option_map (fun rd => (fst rd, map (entries_of (snd rd) Leaves) (seq 0 3), map (fun k => cells (snd rd) (Base ExpandedStarts) (z k)) (seq 0 (fst rd))))
    (seq_run varr varr_eq (expand_program (query_scalars ex_tree) (fun _ => 0%Z) false 3) query_device)
  = Some (9, [[25; 26; 27; 28]; [15]; [24; 11; 14; 17]], [0; 0; 0; 0; 1; 2; 2; 2; 2]%Z).
Proof. vm_cast_no_check (eq_refl (Some (9, [[25; 26; 27; 28]; [15]; [24; 11; 14; 17]], [0; 0; 0; 0; 1; 2; 2; 2; 2]%Z))). Qed.
(** a tree built on the device *)
Example C92_chain_case : exists n ls e B d,
  valid_input extent_input /\ 2 <= nlevels_max extent_input /\ valid_geometry extent_input /\ not_restricted_with_extents extent_input /\
  levels_stay_populated extent_input /\ device_has_input extent_input (some_device extent_input) /\
  built_on extent_input (some_device extent_input) (inl (n, ls, e)) /\ passed_on extent_input ls e d /\
  build_tree extent_input = inl B /\ nlevels (b_tree B) <= 14 /\ device_has_balls (b_tree B) ex_balls d /\ 5 <= nboxes (b_tree B).
Proof.
  destruct C86_extents as [V [NL [NR [L [D [B [EB [NB _]]]]]]]].
  destruct (C86_build_ends _ _ V NL L D) as [r BO]. assert (SR := C87_device_computes_the_tree _ _ _ V NL L D BO). unfold same_result in SR. rewrite EB in SR.
  destruct r as [[[n ls] e]|er]; [|destruct SR]. exists n, ls, e, B, (with_balls ex_balls (pass_on extent_input ls e)).
  split; [auto|]. split; [auto|]. split; [apply extent_input_ok|]. split; [auto|]. split; [auto|]. split; [auto|]. split; [auto|]. split.
  { destruct (pass_on_ok extent_input ls e) as [P1 P2 P3 P4 P5 P6 P7 P8 P9]. constructor; assumption. }
  split; [auto|]. split; [|split; [apply with_balls_ok|exact NB]].
  revert EB. clear. intros EB. assert (X : match build_tree extent_input with inl B' => nlevels (b_tree B') <=? 14 | inr _ => false end = true) by (vm_compute; reflexivity).
  rewrite EB in X. apply Nat.leb_le. exact X.
Qed.

Print Assumptions C91_peers_in_bounds.
Print Assumptions C91_query_in_bounds.
Print Assumptions C91_expand_in_bounds.
Print Assumptions C91_query_ends.
Print Assumptions C92_device_computes_the_peers.
Print Assumptions C92_device_computes_the_query.
Print Assumptions C92_device_expands_the_starts.
Print Assumptions C92_peers_on_device.
Print Assumptions C92_query_on_device.
Print Assumptions C92_peers_can_be_passed_on.
Print Assumptions C92_order_independent.
Print Assumptions C92_from_particles_to_leaves.
