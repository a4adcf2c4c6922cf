(** Property C76: the FMM driver with an arbitrary expansion wrangler. *)
From Coq Require Import List Arith ZArith Lia Bool Permutation.
From Verif Require Import Base Tree Spec TreeFacts Traversal SpecTraversal LevelStarts Fmm SpecFmm FmmFacts FmmThm
  FmmGen SpecFmmGen FmmGenFacts FmmGenThm QuadKernel CheckTree ExampleTree PropsTraversal PropsFmm.
Import ListNotations.

(** What is assumed about tree, traversal and particles. *)
Record fmm_input (t : tree) (P : trav_params) (p : particles) (tr : traversal) : Prop := {
  in_tree : wf_tree t; in_flags : wf_flags t; in_params : wf_params t P;
  in_levels : level_sorted t (level_start_box_nrs P);
  in_extent : targets_have_extent (extents P) = true -> wf_extent (extents P);
  in_source_mask : forall b, source_boxes_mask P b = true;
  in_source_parent_mask : forall b, source_parent_boxes_mask P b = true;
  in_particles : wf_particles t p;
  in_traversal : build_traversal t P = Some tr \/
    exists tr0, build_traversal t P = Some tr0 /\ merge_close_lists tr0 = Some tr }.

Lemma input_bom t P p tr : fmm_input t P p tr -> built_or_merged t P tr.
Proof. intros H. destruct (in_traversal _ _ _ _ H) as [B|[tr0 [B M]]]; [exists tr|exists tr0]; auto. Qed.
Lemma input_target_box t P p tr T : fmm_input t P p tr -> T < nboxes t -> is_target t T = true -> In T (target_boxes tr).
Proof.
  intros H HT FT. pose proof (input_bom _ _ _ _ H) as B. destruct H as [W F WP LS WE M1 M2 HP _].
  destruct (bm_boxes t W P WP tr B) as [-> _]. unfold find_target_boxes, find_source_boxes.
  destruct (sources_are_targets P) eqn:SAT; apply filter_In; split; try (apply in_seq; lia); auto.
  rewrite <- (proj2 WP) by auto. auto.
Qed.

(** From every source box to every target box the interaction lists offer exactly one route. *)
Theorem C76_exactly_one_route : forall t P p tr T S, fmm_input t P p tr ->
  T < nboxes t -> is_target t T = true -> S < nboxes t -> is_source t S = true ->
  exists! r, listed t tr T S r.
Proof.
  intros t P p tr T S H HT FT HS FS. pose proof (input_target_box _ _ _ _ T H HT FT) as HTb.
  pose proof (input_bom _ _ _ _ H) as B. destruct H as [W F WP LS WE M1 M2 HP _].
  destruct (one_route t W F P WP tr B WE T S HTb HS FS) as [r Er].
  exists r. split; [apply routes_in; rewrite Er; left; auto|].
  intros r' Hr'. apply routes_in in Hr'. rewrite Er in Hr'. destruct Hr' as [->|[]]. auto.
Qed.

(** Target j receives, for every source, what the wrangler's routines produce along that one
    route -- for any linear routines.  T is the box owning target j; [source_box k] is the box
    owning source k and [route_of k] its route. *)
Theorem C76_fmm_is_sum_over_routes : forall (Wt : Type) (M L V : cmonoid) (R : routines Wt M L V)
    t P p tr (weights : nat -> Wt) j T source_box route_of,
  linear R -> fmm_input t P p tr -> j < ntargets p ->
  T < nboxes t -> In (sorted_target_ids p j) (seq (box_target_starts p T) (box_target_counts_nonchild p T)) ->
  (forall k, k < nsources p -> source_box k < nboxes t /\
     In k (seq (box_source_starts p (source_box k)) (box_source_counts_nonchild p (source_box k))) /\
     listed t tr T (source_box k) (route_of k)) ->
  drive_fmm_gen _ _ _ _ R t p (level_start_box_nrs P) tr weights j =
  finalize R (msum (map (fun k => contribution R t T (sorted_target_ids p j) (source_box k) k
                                    (weights (user_source_ids p k)) (route_of k)) (seq 0 (nsources p)))).
Proof.
  intros Wt M L V R t P p tr w j T sb ro LIN H Hj HT HTi Hk.
  pose proof (input_bom _ _ _ _ H) as B.
  assert (HTb : In T (target_boxes tr)).
  { eapply input_target_box; eauto. apply (wf_target_flag _ _ (in_particles _ _ _ _ H)); auto.
    destruct (box_target_counts_nonchild p T); [destruct HTi|lia]. }
  destruct H as [W F WP LS WE M1 M2 HP _]. destruct HP as [U1 U2 U3 U4 U5 U6].
  unfold drive_fmm_gen. f_equal.
  apply (fmm_gen_total t W F P WP LS tr B WE M1 M2 R LIN p _ sb ro _ T); auto.
  - intros b Hb. destruct (owner_exists t _ _ _ (sorted_target_ids p j) U4 (U2 _ Hj)) as [T' [HT' [_ HO]]].
    rewrite (HO b Hb). assert (E : T = T'); [|rewrite E; tauto].
    apply (HO T HT). apply covers_in. auto.
  - intros k K. destruct (Hk k K) as [A1 [A2 _]]. auto.
  - intros k K. apply (Hk k K).
Qed.

(** Such owners and routes always exist. *)
Theorem C76_owners_and_routes_exist : forall t P p tr j, fmm_input t P p tr -> j < ntargets p ->
  exists T source_box route_of,
  T < nboxes t /\ In (sorted_target_ids p j) (seq (box_target_starts p T) (box_target_counts_nonchild p T)) /\
  (forall k, k < nsources p -> source_box k < nboxes t /\
     In k (seq (box_source_starts p (source_box k)) (box_source_counts_nonchild p (source_box k))) /\
     listed t tr T (source_box k) (route_of k)).
Proof.
  intros t P p tr j H Hj. pose proof H as H'. destruct H as [W F WP LS WE M1 M2 HP _]. destruct HP as [U1 U2 U3 U4 U5 U6].
  destruct (owner_exists t _ _ _ (sorted_target_ids p j) U4 (U2 _ Hj)) as [T [HT [HTc HO]]].
  assert (Q : forall n, n <= nsources p -> exists (sb : nat -> nat) (ro : nat -> route), forall k, k < n -> sb k < nboxes t /\
     In k (seq (box_source_starts p (sb k)) (box_source_counts_nonchild p (sb k))) /\ listed t tr T (sb k) (ro k)).
  { induction n as [|n IH]; intros Hn; [exists (fun _ => 0), (fun _ => Direct); lia|].
    destruct IH as [sb [ro IH]]; [lia|].
    destruct (owner_exists t _ _ _ n U3 ltac:(lia)) as [S [HS [HSc HSO]]].
    destruct (C76_exactly_one_route t P p tr T S H' HT (U6 T HT HTc) HS (U5 S HS HSc)) as [r [Hr _]].
    exists (fun k => if Nat.eqb k n then S else sb k), (fun k => if Nat.eqb k n then r else ro k).
    intros k Hk. destruct (Nat.eqb_spec k n) as [->|]; [|apply IH; lia].
    split; [auto|split; auto]. apply covers_in, HSO; auto. }
  destruct (Q (nsources p) (le_n _)) as [sb [ro Hk]]. exists T, sb, ro. split; auto. split; auto.
  apply covers_in, HO; auto.
Qed.

(** If along every route the routines reproduce the kernel value [kern k] up to an error
    [err k], the FMM result is the direct sum up to the accumulated errors. *)
Theorem C76_error_bound : forall (Wt : Type) (M L V E : cmonoid) (R : routines Wt M L V)
    (close : E -> V -> V -> Prop) t P p tr (weights : nat -> Wt) j (kern : nat -> V) (err : nat -> E),
  linear R -> accumulates close -> fmm_input t P p tr -> j < ntargets p ->
  (forall T S k r, k < nsources p -> T < nboxes t -> S < nboxes t -> listed t tr T S r ->
     In (sorted_target_ids p j) (seq (box_target_starts p T) (box_target_counts_nonchild p T)) ->
     In k (seq (box_source_starts p S) (box_source_counts_nonchild p S)) ->
     close (err k) (contribution R t T (sorted_target_ids p j) S k (weights (user_source_ids p k)) r) (kern k)) ->
  exists v, drive_fmm_gen _ _ _ _ R t p (level_start_box_nrs P) tr weights j = finalize R v /\
    close (msum (map err (seq 0 (nsources p)))) v (msum (map kern (seq 0 (nsources p)))).
Proof.
  intros Wt M L V E R close t P p tr w j kern err LIN AC H Hj HC.
  destruct (C76_owners_and_routes_exist t P p tr j H Hj) as [T [sb [ro [HT [HTi Hk]]]]].
  eexists. split; [apply (C76_fmm_is_sum_over_routes Wt M L V R t P p tr w j T sb ro); auto|].
  assert (G : forall ks, (forall k, In k ks -> k < nsources p) ->
    close (msum (map err ks))
      (msum (map (fun k => contribution R t T (sorted_target_ids p j) (sb k) k (w (user_source_ids p k)) (ro k)) ks))
      (msum (map kern ks))).
  { induction ks as [|k ks IH]; intros Q; cbn [map msum fold_right]; [apply AC|].
    apply (close_op _ AC); [|apply IH; intros; apply Q; right; auto].
    assert (K : k < nsources p) by (apply Q; left; auto). destruct (Hk k K) as [A1 [A2 A3]]. apply HC; auto. }
  apply G. intros k Hk'. apply in_seq in Hk'. lia.
Qed.

(** If the routines are exact along every route, the FMM computes the direct sum. *)
Theorem C76_exact_routines_give_direct_sum : forall (Wt : Type) (M L V : cmonoid) (R : routines Wt M L V)
    t P p tr (weights : nat -> Wt) j,
  linear R -> fmm_input t P p tr -> j < ntargets p ->
  (forall T S i k w r, T < nboxes t -> S < nboxes t -> listed t tr T S r ->
     In i (seq (box_target_starts p T) (box_target_counts_nonchild p T)) ->
     In k (seq (box_source_starts p S) (box_source_counts_nonchild p S)) ->
     contribution R t T i S k w r = p2p R i k w) ->
  drive_fmm_gen _ _ _ _ R t p (level_start_box_nrs P) tr weights j =
  finalize R (msum (map (fun k => p2p R (sorted_target_ids p j) k (weights (user_source_ids p k))) (seq 0 (nsources p)))).
Proof.
  intros Wt M L V R t P p tr w j LIN H Hj HC.
  destruct (C76_error_bound Wt M L V V R (fun _ x y => x = y) t P p tr w j
    (fun k => p2p R (sorted_target_ids p j) k (w (user_source_ids p k))) (fun _ => e0) LIN) as [v [Ev ->]]; auto.
  split; intros; congruence.
Qed.

(** ** Non-vacuity *)
(** A wrangler with position-dependent expansions: the kernel |x - y|^2.  On every tree and
    for all positions and weights the FMM equals the direct sum over the user's sources. *)
Theorem C76_quadratic_kernel_exact : forall t P p tr (src_x src_y tgt_x tgt_y : nat -> Z) (weights : nat -> Z) j,
  fmm_input t P p tr -> j < ntargets p ->
  let R := quad_routines (fun b => box_center t b 0) (fun b => box_center t b 1)
             (fun k => src_x (user_source_ids p k)) (fun k => src_y (user_source_ids p k)) tgt_x tgt_y in
  let i := sorted_target_ids p j in
  drive_fmm_gen _ _ _ _ R t p (level_start_box_nrs P) tr weights j =
  zsum (map (fun u => weights u * ((tgt_x i - src_x u) * (tgt_x i - src_x u) + (tgt_y i - src_y u) * (tgt_y i - src_y u)))%Z
         (seq 0 (nsources p))).
Proof.
  intros t P p tr sx sy tx ty w j H Hj R i. unfold R.
  rewrite C76_exact_routines_give_direct_sum; auto.
  - cbn [finalize quad_routines p2p].
    etransitivity; [|apply zsum_perm, Permutation_map, (wf_user_source_ids _ _ (in_particles _ _ _ _ H))].
    rewrite map_map. unfold zsum, msum, sq. reflexivity.
  - apply quad_linear.
  - intros T S i' k w' r HT HS Hr _ _. cbn [p2p quad_routines].
    eapply (fun a b c d e f => quad_exact a b c d e f t (in_tree _ _ _ _ H) tr T i' S k w' r HT HS Hr).
Qed.

(** The example tree and particles meet [fmm_input], with and without target extents. *)
Example ex_fmm_input : forall tr, ex_trav 1 (ex_extent true static_l2 2) = Some tr ->
  fmm_input ex_tree (ex_params 1 (ex_extent true static_l2 2)) ex_particles tr.
Proof.
  intros tr E. destruct (ex_fmm_hyps 1 true static_l2 2 (le_n 1)) as [A [B [C [D [F [G H]]]]]].
  split; auto. apply ex_particles_wf.
Qed.
(** Running the model on it: all four kinds of routes occur, and the results for two targets
    are the direct sums. *)
Definition ex_pos (k i : nat) : Z := Z.of_nat ((i * i * 7 + k * i) mod 31).
Example ex_fmm_gen_run :
  match ex_trav 1 (ex_extent true static_l2 2) with
  | Some tr =>
    let R := quad_routines (fun b => box_center ex_tree b 0) (fun b => box_center ex_tree b 1)
               (fun k => ex_pos 1 (user_source_ids ex_particles k)) (fun k => ex_pos 2 (user_source_ids ex_particles k))
               (ex_pos 3) (ex_pos 4) in
    map (drive_fmm_gen _ _ _ _ R ex_tree ex_particles
           (level_start_box_nrs (ex_params 1 (ex_extent true static_l2 2))) tr (fun i => Z.of_nat (i * i + 1))) [0; 20] =
    map (fun j => let i := sorted_target_ids ex_particles j in
       zsum (map (fun u => Z.of_nat (u * u + 1) * ((ex_pos 3 i - ex_pos 1 u) * (ex_pos 3 i - ex_pos 1 u) + (ex_pos 4 i - ex_pos 2 u) * (ex_pos 4 i - ex_pos 2 u)))%Z
         (seq 0 ex_ns))) [0; 20]
  | None => False end.
Proof. vm_compute. reflexivity. Qed.
Example ex_routes_all_kinds :
  match ex_trav 1 (ex_extent true static_l2 2) with
  | Some tr =>
    let bs := seq 0 (nboxes ex_tree) in
    let found f := existsb (fun T => existsb (fun S => existsb f (routes ex_tree tr T S)) bs) bs in
    (found (fun r => match r with Direct => true | _ => false end),
     found (fun r => match r with ViaM2L _ _ => true | _ => false end),
     found (fun r => match r with ViaM2P _ => true | _ => false end),
     found (fun r => match r with ViaP2L _ => true | _ => false end)) = (true, true, true, true)
  | None => False end.
Proof. vm_compute. reflexivity. Qed.

Print Assumptions C76_exactly_one_route.
Print Assumptions C76_fmm_is_sum_over_routes.
Print Assumptions C76_owners_and_routes_exist.
Print Assumptions C76_error_bound.
Print Assumptions C76_exact_routines_give_direct_sum.
Print Assumptions C76_quadratic_kernel_exact.
