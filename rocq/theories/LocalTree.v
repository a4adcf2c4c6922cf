(** Model of boxtree/distributed/local_tree.py and local_traversal.py: the tree and the traversal
    that one rank works on. *)
From Coq Require Import List Arith ZArith NArith Lia Bool.
From Verif Require Import Base Tree Traversal Fmm Tools Partition.
From Verif Require TreeBuild.
Import ListNotations.

(** ** local_tree.py:69-91 particle_mask_kernel; all writes store 1, so their order does not matter *)
Definition particle_mask (nboxes : nat) (box_mask : mask) (starts counts : nat -> nat) : mask :=
  fold_left (fun pm i => if box_mask i then fold_left mark (seq (starts i) (counts i)) pm else pm)
    (seq 0 nboxes) no_boxes.
(** local_tree.py:93-107 and 224-228: scan[0] = 0, scan[i+1] = mask[0] + ... + mask[i] *)
Definition mask_scan (pm : mask) (i : nat) : nat := nsum (map (fun j => if pm j then 1 else 0) (seq 0 i)).
(** local_tree.py:124-151 fetch_local_particles; [order]: the order in which the work items run;
    [old] is the content of the output array *)
Definition fetch_local {A} (pm : mask) (order : list nat) (particles old : nat -> A) : nat -> A :=
  TreeBuild.scatter (map (fun i => (mask_scan pm i, particles i)) (filter pm order)) old.

(** ** local_tree.py:198-284 construct_local_particles_and_lists, without the particles themselves *)
Record local_lists := mkLists {
  ll_starts : nat -> nat;
  ll_counts : nat -> nat;          (* box_particle_counts_nonchild *)
  ll_cumul : nat -> nat;           (* box_particle_counts_cumul *)
  ll_idx : list nat                (* particle_idx *)
}.
Definition local_particle_lists (nboxes n : nat) (box_mask : mask) (starts counts cumul : nat -> nat) : local_lists :=
  let pm := particle_mask nboxes box_mask starts counts in
  {| ll_starts := fun b => mask_scan pm (starts b);
     ll_counts := fun b => if box_mask b then counts b else 0;
     ll_cumul := fun b => mask_scan pm (starts b + cumul b) - mask_scan pm (starts b);
     ll_idx := filter pm (seq 0 n) |}.

(** ** local_tree.py:158-185 modify_target_flags_kernel; [f & ~m] is [N.ldiff f m] *)
Definition modify_target_flags (counts_nonchild counts_cumul : nat -> nat) (flags : nat -> N) : nat -> N :=
  fun i =>
    let f := N.ldiff (flags i) IS_TARGET_BOX in
    let f := N.ldiff f HAS_TARGET_CHILD_BOXES in
    let f := if counts_nonchild i =? 0 then f else N.lor f IS_TARGET_BOX in
    if counts_nonchild i <? counts_cumul i then N.lor f HAS_TARGET_CHILD_BOXES else f.

(** ** local_tree.py:316-495 generate_local_tree on one rank.  Not in the model: the particle
    coordinates (see [fetch_local]), bounding boxes and data types, which are copied.  For sources
    with extents the code reads the attribute [sources_radii], which does not exist (line 357):
    the model is for sources without extents. *)
Record local_tree := mkLocal {
  lt_masks : box_masks;
  lt_tree : tree;
  lt_particles : particles;
  lt_source_cumul : nat -> nat;
  lt_src_idx : list nat;
  lt_tgt_idx : list nat
}.
Definition generate_local_tree (t : tree) (p : particles) (source_cumul target_cumul : nat -> nat)
    (have_extent : bool) (tr : traversal) (responsible : list nat) : option local_tree :=
  match get_box_masks t tr have_extent responsible with
  | None => None
  | Some bm =>
    let s := local_particle_lists (nboxes t) (nsources p) (bm_point_src bm)
               (box_source_starts p) (box_source_counts_nonchild p) source_cumul in
    let g := local_particle_lists (nboxes t) (ntargets p) (bm_responsible bm)
               (box_target_starts p) (box_target_counts_nonchild p) target_cumul in
    Some {| lt_masks := bm;
            lt_tree := {| dim := dim t; nlevels := nlevels t; nboxes := nboxes t; root_extent := root_extent t;
                          box_center := box_center t; box_level := box_level t; box_parent := box_parent t;
                          box_child := box_child t;
                          box_flags := modify_target_flags (ll_counts g) (ll_cumul g) (box_flags t) |};
            (* user_source_ids and sorted_target_ids are None (lines 471-472) and not used *)
            lt_particles := {| nsources := length (ll_idx s); ntargets := length (ll_idx g);
                               box_source_starts := ll_starts s; box_source_counts_nonchild := ll_counts s;
                               box_target_starts := ll_starts g; box_target_counts_nonchild := ll_counts g;
                               user_source_ids := fun i => i; sorted_target_ids := fun i => i |};
            lt_source_cumul := ll_cumul s;
            lt_src_idx := ll_idx s;
            lt_tgt_idx := ll_idx g |}
  end.

(** local_tree.py:374-406: who uses the multipole expansion of each box.  The gathered array has
    one row per rank; it is transposed and compressed with 32-bit entries (MaskCompressorKernel,
    Tools.v).  [masks r] is multipole_src_boxes of rank [r]; result: the ranks of box [b]. *)
Definition box_to_user_ranks (nboxes size : nat) (masks : nat -> mask) (b : nat) : list nat :=
  let data := fun i => if masks (i / nboxes) (i mod nboxes) then 1%Z else 0%Z in
  let '(starts, lists) := compress_matrix 32 nboxes size 1 nboxes data in
  map Z.to_nat (firstn (nth (S b) starts 0 - nth b starts 0) (skipn (nth b starts 0) lists)).

(** ** local_traversal.py:34-62 generate_local_travs: what the traversal builder is called with.
    The builder reads box_source_counts_cumul from the local tree. *)
Definition local_params (P : trav_params) (l : local_tree) : trav_params :=
  let ex := extents P in
  {| well_sep_is_n_away := well_sep_is_n_away P;
     extents := {| targets_have_extent := targets_have_extent ex;
                   stick_out_num := stick_out_num ex; stick_out_den := stick_out_den ex;
                   eps_num := eps_num ex; eps_den := eps_den ex;
                   from_sep_smaller_crit := from_sep_smaller_crit ex;
                   tgt_ext_center2 := tgt_ext_center2 ex; tgt_ext_radius2 := tgt_ext_radius2 ex;
                   box_source_counts_cumul := lt_source_cumul l;
                   from_sep_smaller_min_nsources_cumul := from_sep_smaller_min_nsources_cumul ex |};
     sources_are_targets := sources_are_targets P;
     source_boxes_mask := bm_responsible (lt_masks l);
     source_parent_boxes_mask := bm_ancestor (lt_masks l);
     level_start_box_nrs := level_start_box_nrs P |}.
Definition generate_local_travs (P : trav_params) (l : local_tree) (merge : bool) : option traversal :=
  match build_traversal (lt_tree l) (local_params P l) with
  | None => None
  | Some tr => if merge && targets_have_extent (extents P) then merge_close_lists tr else Some tr
  end.
