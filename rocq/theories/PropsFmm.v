(** Property C03: the FMM driver with the constant-one wrangler. *)
From Coq Require Import List Arith ZArith NArith Lia Bool Permutation.
From Verif Require Import Base Tree Spec Traversal SpecTraversal LevelStarts Fmm SpecFmm FmmFacts FmmThm
  CheckTree ExampleTree PropsTraversal.
Import ListNotations.

(** Every target receives the sum of all source weights, for any weights; without or with
    target extents; close lists separate or merged. *)
Theorem C03_fmm_sums_all_weights : forall t P p tr weights j,
  wf_tree t -> wf_flags t -> wf_params t P -> level_sorted t (level_start_box_nrs P) ->
  (targets_have_extent (extents P) = true -> wf_extent (extents P)) ->
  (forall b, source_boxes_mask P b = true) -> (forall b, source_parent_boxes_mask P b = true) ->
  wf_particles t p ->
  (build_traversal t P = Some tr \/
   exists tr0, build_traversal t P = Some tr0 /\ merge_close_lists tr0 = Some tr) ->
  j < ntargets p ->
  drive_fmm t p tr weights j = zsum (map weights (seq 0 (nsources p))).
Proof.
  intros t P p tr w j W F WP LS WE M1 M2 HP B Hj. apply (fmm_total t P); auto.
  destruct B as [B|[tr0 [B M]]]; [exists tr|exists tr0]; auto.
Qed.

(** ** Non-vacuity: particles in the example tree: box b owns b mod 3 + 1 sources if it is a
    source box and b mod 2 + 1 targets if it is a target box; user order reversed. *)
Definition ex_sc b := if is_source ex_tree b then b mod 3 + 1 else 0.
Definition ex_tc b := if is_target ex_tree b then b mod 2 + 1 else 0.
Definition ex_ns := nsum (map ex_sc (seq 0 (nboxes ex_tree))).
Definition ex_nt := nsum (map ex_tc (seq 0 (nboxes ex_tree))).
Definition ex_particles : particles := {|
  nsources := ex_ns; ntargets := ex_nt;
  box_source_starts b := nsum (map ex_sc (seq 0 b)); box_source_counts_nonchild := ex_sc;
  box_target_starts b := nsum (map ex_tc (seq 0 b)); box_target_counts_nonchild := ex_tc;
  user_source_ids i := ex_ns - 1 - i; sorted_target_ids i := ex_nt - 1 - i |}.
Example ex_particles_wf : wf_particles ex_tree ex_particles /\ 20 < ex_ns /\ 20 < ex_nt.
Proof.
  split; [|split; apply Nat.ltb_lt; vm_compute; reflexivity]. split.
  - assert (E : map (user_source_ids ex_particles) (seq 0 (nsources ex_particles)) = rev (seq 0 ex_ns))
      by (vm_compute; reflexivity).
    rewrite E. symmetry. apply Permutation_rev.
  - intros j. change (ntargets ex_particles) with ex_nt. cbn [sorted_target_ids ex_particles]. lia.
  - unfold owned_once. replace (concat _) with (seq 0 (nsources ex_particles)); [auto|vm_compute; reflexivity].
  - unfold owned_once. replace (concat _) with (seq 0 (ntargets ex_particles)); [auto|vm_compute; reflexivity].
  - intros b _. cbn [box_source_counts_nonchild ex_particles]. unfold ex_sc. destruct (is_source ex_tree b); auto. lia.
  - intros b _. cbn [box_target_counts_nonchild ex_particles]. unfold ex_tc. destruct (is_target ex_tree b); auto. lia.
Qed.
(** the theorem's other hypotheses hold as well, and running the model gives the total *)
Example ex_fmm_hyps : forall n have crit k, 1 <= n ->
  let P := ex_params n (ex_extent have crit k) in
  wf_tree ex_tree /\ wf_flags ex_tree /\ wf_params ex_tree P /\
  level_sorted ex_tree (level_start_box_nrs P) /\ wf_extent (extents P) /\
  (forall b, source_boxes_mask P b = true) /\ (forall b, source_parent_boxes_mask P b = true).
Proof.
  intros. destruct ex_tree_wf as [W1 [W2 W3]]. destruct (ex_params_wf n have crit k H).
  repeat (split; auto).
Qed.
Example ex_fmm_run :
  match ex_trav 1 (ex_extent true static_l2 2) with
  | Some tr => map (drive_fmm ex_tree ex_particles tr (fun i => Z.of_nat (i * i + 1))) [0; 7; 20] =
               let s := zsum (map (fun i => Z.of_nat (i * i + 1)) (seq 0 ex_ns)) in [s; s; s]
  | None => False end.
Proof. vm_compute. reflexivity. Qed.

Print Assumptions C03_fmm_sums_all_weights.
