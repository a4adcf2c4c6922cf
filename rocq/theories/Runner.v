(** Model of DistributedFMMRunner (boxtree/distributed/__init__.py:154-310): the cost model decides
    which rank gets which boxes, then every rank makes its wrangler and the FMM is run. *)
From Coq Require Import List Arith ZArith Lia Bool QArith Qcanon.
From Verif Require Import Base Tree Traversal Fmm Partition LocalTree Distributed Monoid Cost Layout FmmLib DistributedLib SpecDistLib.
Import ListNotations.
Local Open Scope nat_scope.

(** ** partition_work with the costs of the cost model *)
Definition qltb (x y : Qc) : bool := if Qclt_le_dec x y then true else false.
(** partition.py:95-116 as in [segment_loop] (Partition.v), with rational costs as the cost model
    (Cost.v) computes them, and the comparison of line 110 as it is written. *)
Fixpoint segment_loop_q (nboxes size : nat) (total : Qc) (costs : list Qc)
         (i start segment_idx : nat) (workload : Qc) : list (nat * nat) :=
  match costs with
  | [] => []
  | c :: costs' =>
    if segment_idx + 1 =? size then [(start, nboxes)]
    else
      let workload := (workload + c)%Qc in
      if qltb (of_Z (Z.of_nat (segment_idx + 1)) * total / of_Z (Z.of_nat size))%Qc workload || (i =? nboxes - 1)
      then (start, i + 1) :: segment_loop_q nboxes size total costs' (i + 1) (i + 1) (segment_idx + 1) workload
      else segment_loop_q nboxes size total costs' (i + 1) start segment_idx workload
  end.
(** partition.py:60-121 *)
Definition partition_work_q (t : tree) (cost : qarray) (size rank : nat) : partition_result :=
  if nboxes t <? size then TooFewBoxes
  else match get_box_ids_dfs_order t with
  | None => IndexOutOfRange
  | Some dfs_order =>
    let total := qsum (map cost (seq 0 (nboxes t))) in
    let segments := segment_loop_q (nboxes t) size total (map cost dfs_order) 0 0 0 0%Qc in
    match nth_error segments rank with
    | None => Uninitialised
    | Some (s, e) => Responsible (py_slice dfs_order s e)
    end
  end.

(** __init__.py:209-230 on the root rank: the costs, from the orders of a wrangler for the whole
    tree.  FMMCostModel() has the translation costs of make_pde_aware_translation_cost_model
    (cost.py:226-234). *)
Definition runner_costs {ang D} (t : tree) (p : particles) (tr : traversal) (global_wrangler : wrangler ang D)
    (calibration_params : option calibration) : qarray :=
  let calibration_params := match calibration_params with Some c => c | None => unit_calibration end in
  cost_per_box t p tr (box_target_counts_nonchild p)
    (factors_from_model (pde_aware_model (dim t) (fun l => nth l (wr_level_orders global_wrangler) 0)) calibration_params).

Section Run.
Context {pt Wt D ang rmat : Type} {M L V : cmonoid}.
Variable lib : library pt (strength Wt D) ang rmat M L V.
Variable complex_dipole : Wt -> D -> Wt.
Variable times : factor -> V -> V.
Variable real_part : V -> V.
Variable t : tree.
Variable p : particles.
Variables source_cumul target_cumul : nat -> nat.
Variable P : trav_params.
Variable tr : traversal.
Variable size : nat.
Variables box_centers sources targets : nat -> pt.
(** The argument wrangler_factory makes a DistributedFMMLibExpansionWrangler from these arguments.
    The rotation data belong to the traversal the wrangler is made for; the dipoles are those of the
    sources of its tree, in the order of its tree (C111). *)
Variables (k : kernel) (root_extent : Qc) (helmholtz_k : option Qc) (level_to_order : option (nat -> nat)) (order : option nat)
  (dipoles : option (nat -> D)) (cutoff : nat) (rot_of : traversal -> option (rotation_data ang)).
Variable calibration_params : option calibration.

(** wrangler_factory(global_trav, global_trav), line 224 *)
Definition global_factory : dist_ctor_error + wrangler ang D :=
  make_distributed_wrangler k (dim t) (dim t) (nlevels t) (nsources p) root_extent helmholtz_k level_to_order order
    (tree_dipoles t p dipoles) true cutoff (rot_of tr).
(** lines 209-233: the boxes of a rank; the left case: the wrangler could not be made *)
Definition runner_boxes (rank : nat) : dist_ctor_error + partition_result :=
  match global_factory with
  | inl e => inl e
  | inr gw => inr (partition_work_q t (runner_costs t p tr gw calibration_params) size rank)
  end.

(** The runner is constructed (lines 275-299 and 156-266) and drive_dfmm is called (301-310).  All
    ranks have the tree and build the same traversal [tr] (186-203); every rank gets boxes, makes its
    local tree and traversal and its wrangler; then drive_fmm runs on all ranks.  [result] is what
    the root rank returns. *)
Definition runner_execution (rendezvous : bool) (weights : nat -> Wt) (result : nat -> option V) : Prop :=
  exists boxes loc trl wr,
    (forall r, r < size -> runner_boxes r = inr (Responsible (boxes r))) /\
    wranglers_made t size loc wr k root_extent helmholtz_k level_to_order order (fun r => rank_dipoles t p (loc r) dipoles) true cutoff
      (fun r => rot_of (trl r)) /\
    distributed_execution_lib lib complex_dipole times real_part t p source_cumul target_cumul P tr size boxes false box_centers sources targets
      loc trl wr rendezvous weights result.
End Run.
