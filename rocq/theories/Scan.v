(** The parallel prefix sums (scans) of the code, without fixing the order of evaluation.

    pyopencl's GenericScanKernel combines the results of adjacent index ranges in an order that
    depends on the device and the size of the data.  What it guarantees is that item [i] is the
    result of SOME bracketing of the inputs 0 .. i (possibly padded with neutral elements), where
    the scan expression is told whether there is a segment start in the right one of the two
    ranges being combined ([across_seg_boundary]).  This is the model of a scan here; pyopencl
    itself is not modelled. *)
From Coq Require Import List Arith ZArith Lia Bool.
From Verif Require Import Base Tree Walk Traversal Fmm TreeBuild.
Import ListNotations.

Inductive bracket := One (i : nat) | Padding | Join (l r : bracket).
(** the indices combined, from left to right *)
Fixpoint range_of (br : bracket) : list nat :=
  match br with One i => [i] | Padding => [] | Join l r => range_of l ++ range_of r end.

Section Scan.
Context {A : Type}.
(** scan_expr with a, b, across_seg_boundary; neutral; is_segment_start_expr; input_expr *)
Variable scan_expr : A -> A -> bool -> A.
Variable neutral : A.
Variable is_segment_start : nat -> bool.
Variable input_expr : nat -> A.
Fixpoint run (br : bracket) : bool * A :=
  match br with
  | One i => (is_segment_start i, input_expr i)
  | Padding => (false, neutral)
  | Join l r => let '(fl, a) := run l in let '(fr, b) := run r in (fl || fr, scan_expr a b fr)
  end.
(** [v] is a possible value of [item] at index [i] *)
Definition item_at (i : nat) (v : A) : Prop := exists br, range_of br = seq 0 (S i) /\ v = snd (run br).
(** [v] is a possible value of [prev_item] at index [i]; without segments *)
Definition prev_item_at (i : nat) (v : A) : Prop := exists br, range_of br = seq 0 i /\ v = snd (run br).
End Scan.

(** tree_build_kernels.py:632, 1734, 1904: [across_seg_boundary ? b : a + b] *)
Definition seg_add (a b : nat) (across_seg_boundary : bool) : nat := if across_seg_boundary then b else a + b.
(** tree_build_kernels.py:1709, 1780, 1887, 1965, distributed/local_tree.py:105: [a + b] *)
Definition plain_add (a b : nat) (_ : bool) : nat := a + b.
Definition no_segments (_ : nat) : bool := false.

(** ** The Morton scan *)
(** morton_counts_t, tree_build_kernels.py:1500-1540: nonchild_srcntgts, pcnt*, pwt* *)
Record scan_t := mkScan { nonchild_srcntgts : nat; pcnt : nat -> nat; pwt : nat -> Z }.
(** tree_build_kernels.py:249-265 *)
Definition scan_t_neutral : scan_t := {| nonchild_srcntgts := 0; pcnt := fun _ => 0; pwt := fun _ => 0%Z |}.
(** tree_build_kernels.py:277-302 *)
Definition scan_t_add (a b : scan_t) (across_seg_boundary : bool) : scan_t :=
  if negb across_seg_boundary then
    {| nonchild_srcntgts := nonchild_srcntgts b + nonchild_srcntgts a;
       pcnt := fun m => pcnt a m + pcnt b m;
       pwt := fun m => add_sat (pwt a m) (pwt b m) |}
  else b.
(** tree_build_kernels.py:452-466: the last part of scan_t_from_particle for the particle with user
    id [u] and octant [o] ([None] is -1: the particle stays in its box) *)
Definition scan_t_from_particle (inp : input) (u : nat) (o : option nat) : scan_t :=
  let is_none := match o with None => true | _ => false end in
  let is_some m := match o with Some m' => m' =? m | None => false end in
  {| nonchild_srcntgts := if is_none then 1 else 0;
     pcnt := fun m => if is_some m then 1 else 0;
     pwt := fun m => if is_some m then weight inp u else 0%Z |}.

(** ** The output statements that store items *)
(** tree_build_kernels.py:1710-1717 find_prune_indices: [item i] is the item of work item [i], [order]
    the order of the work items; dst_box_id and src_box_id *)
Definition prune_dst (cumul : nat -> nat) (item : nat -> nat) (order : list nat) : nat -> nat :=
  scatter (map (fun i => (i, item i - 1)) (filter (fun i => negb (cumul i =? 0)) order)) (fun _ => 0).
Definition prune_src (cumul : nat -> nat) (item : nat -> nat) (order : list nat) (old : nat -> nat) : nat -> nat :=
  scatter (map (fun i => (item i - 1, i)) (filter (fun i => negb (cumul i =? 0)) order)) old.
(** nboxes_post_prune *)
Definition prune_count (item : nat -> nat) (n : nat) : nat := item (n - 1).
