(** Model of a distributed FMM evaluation with pyfmmlib: DistributedFMMLibExpansionWrangler
    (boxtree/distributed/calculation.py:419-453) on all ranks of a communicator, with the
    arguments that are really passed to pyfmmlib (FmmLib.v). *)
From Coq Require Import List Arith ZArith NArith Lia Bool QArith Qcanon.
From Verif Require Import Base Tree Traversal Fmm Partition LocalTree Distributed Monoid FmmGen DistributedGen Layout FmmLib.
From Verif Require TreeBuild Comm.
Import ListNotations.
Local Open Scope nat_scope.

(** ** The constructor, calculation.py:422-435 *)
(** CommMissing: the attribute comm does not exist yet *)
Inductive dist_ctor_error := InBaseClass (e : ctor_error) | CommMissing.
(** The constructor of FMMLibExpansionWrangler runs first (428-430), with the tree of the rank's
    own traversal.  If it is given dipoles that are not in the order of that tree it calls
    reorder_sources (pyfmmlib_integration.py:380-381), which is the method of 437-441 and reads
    is_mpi_root, hence self.comm (calculation.py:73-83); but self.comm is assigned only afterwards
    (432).  The order of the local tree, [local_order], is never used: see
    [C111_dipoles_in_callers_order_refused]. *)
Definition make_distributed_wrangler {ang D} (k : kernel) (indep_dim t_dim t_nlevels t_nsources : nat) (root_extent : Qc)
    (helmholtz_k : option Qc) (fmm_level_to_order : option (nat -> nat)) (order : option nat)
    (dipole_vec : option (nat * nat * (nat -> D))) (dipoles_already_reordered : bool) (cutoff : nat)
    (rot : option (rotation_data ang)) : dist_ctor_error + wrangler ang D :=
  let local_order := fun i : nat => i in
  match make_wrangler k indep_dim t_dim t_nlevels t_nsources root_extent local_order helmholtz_k fmm_level_to_order order
          dipole_vec dipoles_already_reordered cutoff rot with
  | inl e => inl (InBaseClass e)
  | inr wr => match dipole_vec with
              | Some _ => if dipoles_already_reordered then inr wr else inl CommMissing
              | None => inr wr
              end
  end.

Section Rank.
Variables (pt Wt D ang rmat : Type) (M L V : cmonoid).
Variable lib : library pt (strength Wt D) ang rmat M L V.
Variable complex_dipole : Wt -> D -> Wt.
Variable times : factor -> V -> V.
Variable real_part : V -> V.
(** columns of box_centers, sources and targets of the global tree *)
Variables box_centers sources targets : nat -> pt.
Variable starts : nat -> nat.

(** The particles of a rank: local_tree.py:351-359, see [fetch_local].  The boxes are those of the
    global tree. *)
Definition rank_sources (l : local_tree) : nat -> pt := fun k => sources (nth k (lt_src_idx l) 0).
Definition rank_targets (l : local_tree) : nat -> pt := fun k => targets (nth k (lt_tgt_idx l) 0).

(** fmm.py:412-425 on one rank: form and coarsen multipole expansions; [w]: the weights in the order
    of the global tree *)
Definition rank_multipoles_lib (wr : wrangler ang D) (l : local_tree) (trl : traversal) (w : nat -> Wt) : storage M :=
  coarsen_multipoles_lib lib wr (lt_tree l) starts box_centers
    (level_start_source_parent_box_nrs trl) (source_parent_boxes trl)
    (form_multipoles_lib lib wr complex_dipole (lt_tree l) (lt_particles l) starts box_centers (rank_sources l)
       (level_start_source_box_nrs trl) (source_boxes trl) (local_weights (lt_src_idx l) w)).

(** fmm.py:427-520 with given multipole expansions.  [None]: as in FmmLib.v. *)
Definition potentials_given_lib (wr : wrangler ang D) (t : tree) (p : particles) (srcs tgts : nat -> pt) (tr : traversal)
    (mpoles : storage M) (w : nat -> Wt) : option (nat -> V) :=
  let direct c := eval_direct_lib lib wr complex_dipole p srcs tgts (target_boxes tr) c w in
  let pot := direct (neighbor_source_boxes tr) in
  match multipole_to_local_lib lib wr t starts box_centers (level_start_target_or_target_parent_box_nrs tr)
          (target_or_target_parent_boxes tr) (from_sep_siblings tr) mpoles with
  | None => None
  | Some loc =>
    let pot := out_plus V pot (eval_multipoles_lib lib wr p starts box_centers tgts (from_sep_smaller_by_level tr) mpoles) in
    let pot := match from_sep_close_smaller tr with Some c => out_plus V pot (direct c) | None => pot end in
    match form_locals_lib lib wr complex_dipole t p starts box_centers srcs (level_start_target_or_target_parent_box_nrs tr)
            (target_or_target_parent_boxes tr) (from_sep_bigger tr) w with
    | None => None
    | Some local_result =>
      let loc := storage_plus L loc local_result in
      let pot := match from_sep_close_bigger tr with Some c => out_plus V pot (direct c) | None => pot end in
      let loc := refine_locals_lib lib wr t starts box_centers (level_start_target_or_target_parent_box_nrs tr)
                   (target_or_target_parent_boxes tr) loc in
      Some (out_plus V pot (eval_locals_lib lib wr t p starts box_centers tgts (level_start_target_box_nrs tr) (target_boxes tr) loc))
    end
  end.
(** on one rank, after communicate_mpoles *)
Definition rank_potentials_lib (wr : wrangler ang D) (l : local_tree) (trl : traversal) (mpoles : storage M) (w : nat -> Wt)
  : option (nat -> V) :=
  potentials_given_lib wr (lt_tree l) (lt_particles l) (rank_sources l) (rank_targets l) trl mpoles (local_weights (lt_src_idx l) w).
End Rank.
Arguments rank_sources {_}. Arguments rank_targets {_}. Arguments rank_multipoles_lib {_ _ _ _ _ _ _ _}.
Arguments potentials_given_lib {_ _ _ _ _ _ _ _}. Arguments rank_potentials_lib {_ _ _ _ _ _ _ _}.

Section Run.
Context {pt Wt D ang rmat : Type} {M L V : cmonoid}.
Variable lib : library pt (strength Wt D) ang rmat M L V.
Variable complex_dipole : Wt -> D -> Wt.
Variable times : factor -> V -> V.
Variable real_part : V -> V.
Variable t : tree.
Variable p : particles.
Variables source_cumul target_cumul : nat -> nat.
Variable P : trav_params.
Variable tr : traversal.
Variable size : nat.
Variable boxes : nat -> list nat.
Variable merge : bool.
Variables box_centers sources targets : nat -> pt.
Let starts := level_start_box_nrs P.

(** The local trees, the local traversals and the wranglers of the ranks. *)
Variable loc : nat -> local_tree.
Variable trl : nat -> traversal.
Variable wr : nat -> wrangler ang D.

(** All ranks make their wrangler with the same arguments, except for the rotation data, which
    belong to the traversal of the rank, and the dipoles, of which every rank has those of its own
    sources.  [dipole_vec r] is the argument passed on rank r. *)
Definition wranglers_made (k : kernel) (root_extent : Qc) (helmholtz_k : option Qc) (fmm_level_to_order : option (nat -> nat))
    (order : option nat) (dipole_vec : nat -> option (nat * nat * (nat -> D))) (already : bool) (cutoff : nat)
    (rot : nat -> option (rotation_data ang)) : Prop :=
  forall r, r < size ->
    make_distributed_wrangler k (dim t) (dim (lt_tree (loc r))) (nlevels (lt_tree (loc r))) (nsources (lt_particles (loc r))) root_extent
      helmholtz_k fmm_level_to_order order (dipole_vec r) already cutoff (rot r) = inr (wr r).

(** fmm.py:522-532 with calculation.py:109-145, 443-453: the result on the root rank, if [mpoles r]
    are the expansions of rank r after the exchange; [None]: a rank has stopped with an error. *)
Definition gathered_result_lib (mpoles : nat -> nat -> M) (old : nat -> V) (weights : nat -> Wt) (j : nat) : option V :=
  let w := fun k => weights (user_source_ids p k) in
  match run_all (fun r => rank_potentials_lib lib complex_dipole box_centers sources targets starts (wr r) (loc r) (trl r)
                            (to_storage starts (mpoles r)) w) (seq 0 size) with
  | None => None
  | Some pots =>
    let pot := gather_potentials size (fun r => lt_tgt_idx (loc r)) (fun r => nth r pots (fun _ => e0)) old in
    finalize_potentials (wr 0) times real_part (pot (sorted_target_ids p j))
  end.
(** what the ranks start the exchange with *)
Definition initial_multipoles_lib (weights : nat -> Wt) (r : nat) : nat -> M :=
  of_box t starts (rank_multipoles_lib lib complex_dipole box_centers sources starts (wr r) (loc r) (trl r)
                     (fun k => weights (user_source_ids p k))).

(** A complete execution with the exchange of calculation.py:271-416 (Comm.v): any interleaving of
    the ranks. *)
Definition distributed_execution_lib (rendezvous : bool) (weights : nat -> Wt) (result : nat -> option V) : Prop :=
  local_setup t p source_cumul target_cumul P tr size boxes merge loc trl /\
  exists st n old,
    Comm.reachable size (nboxes t) (nlevels t) starts
      (box_to_user_ranks (nboxes t) size (fun r => bm_multipole_src (lt_masks (loc r)))) rendezvous
      (Comm.start size (initial_multipoles_lib weights) (fun r => contributing_boxes (loc r))) st n /\
    Comm.all_done size st /\
    result = gathered_result_lib (fun r => Comm.pr_mpoles (Comm.procs st r)) old weights.
(** The same with communicate_mpoles_via_allreduce, calculation.py:288-294 *)
Definition allreduce_execution_lib (weights : nat -> Wt) (result : nat -> option V) : Prop :=
  local_setup t p source_cumul target_cumul P tr size boxes merge loc trl /\
  exists old,
    result = gathered_result_lib (fun _ b => msum (map (fun r => initial_multipoles_lib weights r b) (seq 0 size))) old weights.
End Run.
