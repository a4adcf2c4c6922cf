(** Model of the shared-memory FMM driver (boxtree/fmm.py) with the constant-one
    expansion wrangler (boxtree/constant_one.py). *)
From Coq Require Import List Arith ZArith Lia Bool.
From Verif Require Import Base Tree Traversal.
Import ListNotations.
Local Open Scope Z_scope.

(** ** Particle data of a tree: boxtree/tree.py:371-480 (attributes box_source_starts,
    box_source_counts_nonchild, box_target_starts, box_target_counts_nonchild,
    user_source_ids, sorted_target_ids, nsources, ntargets). Arrays are functions. *)
Record particles := mkParticles {
  nsources : nat;
  ntargets : nat;
  box_source_starts : nat -> nat;
  box_source_counts_nonchild : nat -> nat;
  box_target_starts : nat -> nat;
  box_target_counts_nonchild : nat -> nat;
  user_source_ids : nat -> nat;
  sorted_target_ids : nat -> nat
}.

(** numpy arrays of floats are functions to Z (exact arithmetic); [a[i] = v], [a[i] += v] *)
Definition array := nat -> Z.
Definition set_at (a : array) (i : nat) (v : Z) : array := fun j => if (j =? i)%nat then v else a j.
Definition add_at (a : array) (i : nat) (v : Z) : array := set_at a i (a i + v).
Definition zeros : array := fun _ => 0.

(** np.sum(a[start:start+cnt]), a[start:start+cnt] = v, a[start:start+cnt] += v *)
Definition slice_sum (a : array) (start cnt : nat) : Z := zsum (map a (seq start cnt)).
Definition slice_set (a : array) (start cnt : nat) (v : Z) : array :=
  fold_left (fun a j => set_at a j v) (seq start cnt) a.
Definition slice_add (a : array) (start cnt : nat) (v : Z) : array :=
  fold_left (fun a j => add_at a j v) (seq start cnt) a.

Section Wrangler.
Variable t : tree.
Variable p : particles.

(** constant_one.py:74-75 / 77-78 *)
Definition reorder_sources (w : array) : array := fun i => w (user_source_ids p i).
Definition reorder_potentials (pot : array) : array := fun i => pot (sorted_target_ids p i).

(** np.sum(src_weights[self._get_source_slice(ibox)]), constant_one.py:56-59 *)
Definition source_slice_sum (w : array) (b : nat) : Z :=
  slice_sum w (box_source_starts p b) (box_source_counts_nonchild p b).

(** constant_one.py:88-99 *)
Definition form_multipoles (source_boxes : list nat) (w : array) : array :=
  fold_left (fun mpoles ibox => add_at mpoles ibox (source_slice_sum w ibox)) source_boxes zeros.

(** l[start:stop] *)
Definition slice {A} (l : list A) (start stop : nat) : list A := firstn (stop - start) (skipn start l).

(** constant_one.py:117-120 *)
Definition coarsen_box (mpoles : array) (ibox : nat) : array :=
  fold_left (fun mpoles m => let child := box_child t m ibox in
               if (child =? 0)%nat then mpoles else add_at mpoles ibox (mpoles child))
            (seq 0 (nchildren t)) mpoles.
(** constant_one.py:101-122; range(nlevels-1, 2, -1) *)
Definition coarsen_multipoles (level_starts source_parent_boxes : list nat) (mpoles : array) : array :=
  fold_left (fun mpoles source_level =>
      let target_level := (source_level - 1)%nat in
      fold_left coarsen_box
        (slice source_parent_boxes (nth target_level level_starts 0%nat)
                                   (nth (target_level + 1) level_starts 0%nat)) mpoles)
    (rev (seq 3 (nlevels t - 3))) mpoles.

(** constant_one.py:124-145 *)
Definition eval_direct (target_boxes : list nat) (neighbors : csr) (w : array) : array :=
  fold_left (fun pot itgt =>
      let b := nth itgt target_boxes 0%nat in
      slice_set pot (box_target_starts p b) (box_target_counts_nonchild p b)
        (zsum (map (source_slice_sum w) (csr_get neighbors itgt))))
    (seq 0 (length target_boxes)) zeros.

(** constant_one.py:147-164 *)
Definition multipole_to_local (ttpb : list nat) (c : csr) (mpoles : array) : array :=
  fold_left (fun loc i => add_at loc (nth i ttpb 0%nat) (zsum (map mpoles (csr_get c i))))
    (seq 0 (length ttpb)) zeros.

(** constant_one.py:166-186 *)
Definition eval_multipoles (by_level : list (list nat * csr)) (mpoles : array) : array :=
  fold_left (fun pot lc =>
    fold_left (fun pot i =>
        let b := nth i (fst lc) 0%nat in
        slice_add pot (box_target_starts p b) (box_target_counts_nonchild p b)
          (zsum (map mpoles (csr_get (snd lc) i))))
      (seq 0 (length (fst lc))) pot)
    by_level zeros.

(** constant_one.py:188-210 *)
Definition form_locals (ttpb : list nat) (c : csr) (w : array) : array :=
  fold_left (fun loc i => add_at loc (nth i ttpb 0%nat) (zsum (map (source_slice_sum w) (csr_get c i))))
    (seq 0 (length ttpb)) zeros.

(** constant_one.py:212-222 *)
Definition refine_locals (level_starts ttpb : list nat) (loc : array) : array :=
  fold_left (fun loc target_lev =>
      fold_left (fun loc ibox => add_at loc ibox (loc (box_parent t ibox)))
        (slice ttpb (nth target_lev level_starts 0%nat) (nth (target_lev + 1) level_starts 0%nat)) loc)
    (seq 1 (nlevels t - 1)) loc.

(** constant_one.py:224-234 *)
Definition eval_locals (target_boxes : list nat) (loc : array) : array :=
  fold_left (fun pot b => slice_add pot (box_target_starts p b) (box_target_counts_nonchild p b) (loc b))
    target_boxes zeros.

Definition arr_add (a b : array) : array := fun i => a i + b i.

(** fmm.py:342-532 drive_fmm between the reorderings, given the traversal, the source
    weights in tree order, and the effect [communicate] of communicate_mpoles (the
    identity for a shared-memory wrangler).  Result in tree order. *)
Definition fmm_potentials (tr : traversal) (communicate : array -> array) (w : array) : array :=
  let mpoles := form_multipoles (source_boxes tr) w in
  let mpoles := coarsen_multipoles (level_start_source_parent_box_nrs tr) (source_parent_boxes tr) mpoles in
  let mpoles := communicate mpoles in
  let pot := eval_direct (target_boxes tr) (neighbor_source_boxes tr) w in
  let loc := multipole_to_local (target_or_target_parent_boxes tr) (from_sep_siblings tr) mpoles in
  let pot := arr_add pot (eval_multipoles (from_sep_smaller_by_level tr) mpoles) in
  let pot := match from_sep_close_smaller tr with
             | Some c => arr_add pot (eval_direct (target_boxes tr) c w) | None => pot end in
  let loc := arr_add loc (form_locals (target_or_target_parent_boxes tr) (from_sep_bigger tr) w) in
  let pot := match from_sep_close_bigger tr with
             | Some c => arr_add pot (eval_direct (target_boxes tr) c w) | None => pot end in
  let loc := refine_locals (level_start_target_or_target_parent_box_nrs tr)
                           (target_or_target_parent_boxes tr) loc in
  arr_add pot (eval_locals (target_boxes tr) loc).

(** fmm.py:342-532; distribute_source_weights, gather_potential_results and
    finalize_potentials are the identity for a shared-memory wrangler (fmm.py:283-330). *)
Definition drive_fmm (tr : traversal) (weights : array) : array :=
  reorder_potentials (fmm_potentials tr (fun m => m) (reorder_sources weights)).
End Wrangler.
