(** Post-processing of particle trees: linked point sources (boxtree/tree.py:772-949), target
    filtering (boxtree/tree.py:1057-1239) and the index lookups of Tree (boxtree/tree.py:639-684).
    The device kernels are in boxtree/tree_build_kernels.py:1870-2021.

    Conventions of TreeBuild.v: arrays are functions, scatters run in an arbitrary [order] of the
    work items, and a read beyond the end of an array yields an arbitrary value ([junk]). *)
From Coq Require Import List Arith ZArith Lia Bool.
From Verif Require Import Base Tree Walk Traversal Fmm TreeBuild.
Import ListNotations.

(** ** Index lookups *)
(** boxtree/tree.py:639-645 _reverse_index_lookup: [None] is -1; [result[ary] = arange] stores in
    increasing index order *)
Definition reverse_index_lookup (ary : nat -> nat) (n : nat) : nat -> option nat :=
  scatter (map (fun i => (ary i, Some i)) (seq 0 n)) (fun _ => None).
(** boxtree/tree.py:647-655 *)
Definition indices_to_tree_source_order (p : particles) (user_indices : list nat) : list (option nat) :=
  map (reverse_index_lookup (user_source_ids p) (nsources p)) user_indices.
(** boxtree/tree.py:657-662 *)
Definition indices_to_tree_target_order (p : particles) (user_indices : list nat) : list nat :=
  map (sorted_target_ids p) user_indices.

(** boxtree/tree.py:664-684: [int(np.where(crit)[0])] is defined iff exactly one box meets the
    criterion *)
Definition boxes_meeting (nb : nat) (starts counts : nat -> nat) (i : nat) : list nat :=
  filter (fun b => (starts b <=? i) && (i <? starts b + counts b)) (seq 0 nb).
Definition find_box_nr (nb : nat) (starts counts : nat -> nat) (i : nat) : option nat :=
  match boxes_meeting nb starts counts i with [b] => Some b | _ => None end.
Definition find_box_nr_for_target (t : tree) (p : particles) : nat -> option nat :=
  find_box_nr (nboxes t) (box_target_starts p) (box_target_counts_nonchild p).
Definition find_box_nr_for_source (t : tree) (p : particles) : nat -> option nat :=
  find_box_nr (nboxes t) (box_source_starts p) (box_source_counts_nonchild p).

(** an array of [n] entries read at [i] *)
Definition read {A} (n : nat) (a : nat -> A) (junk : A) (i : nat) : A := if i <? n then a i else junk.

(** ** Target filtering *)
Section Filter.
Variable t : tree.
Variable p : particles.
(** flags in user target order; nonzero is [true] *)
Variable flags : nat -> bool.
Variable order : list nat.
Variable junk : nat.

(** boxtree/tree.py:1126-1129 *)
Definition user_target_ids : nat -> nat :=
  scatter (map (fun j => (sorted_target_ids p j, j)) order) (fun _ => 0).
(** boxtree/tree.py:1084-1098: the list of box [b] *)
Definition user_order_list (b : nat) : list nat :=
  flat_map (fun j => if flags (user_target_ids j) then [user_target_ids j] else [])
    (seq (box_target_starts p b) (box_target_counts_nonchild p b)).
(** boxtree/tree.py:1107-1146 filter_target_lists_in_user_order: lists and nfiltered_targets *)
Definition filter_in_user_order : csr * nat :=
  let ll := csr_of (map user_order_list (seq 0 (nboxes t))) in (ll, length (lists ll)).

(** boxtree/tree.py:1184-1185 *)
Definition tree_order_flags : nat -> bool :=
  scatter (map (fun j => (sorted_target_ids p j, flags j)) order) (fun _ => false).
(** tree_build_kernels.py:1954-1978, the scan: [prev_item] of work item [i] *)
Definition prev_item (i : nat) : nat := nsum (map (fun k => if tree_order_flags k then 1 else 0) (seq 0 i)).
Definition filtered_from_unfiltered (i : nat) : nat := read (ntargets p) prev_item junk i.
Definition unfiltered_from_filtered : nat -> nat :=
  scatter (flat_map (fun i => if prev_item (S i) =? prev_item i then [] else [(prev_item i, i)]) order) (fun _ => 0).
Definition nfiltered : nat := match ntargets p with 0 => 0 | S n => prev_item (S n) end.
(** tree_build_kernels.py:1980-2019, the index kernel *)
Definition filtered_starts (b : nat) : nat := filtered_from_unfiltered (box_target_starts p b).
Definition filtered_counts (b : nat) : nat :=
  let start := box_target_starts p b in let cnt := box_target_counts_nonchild p b in
  if 0 <? cnt then
    (if start + cnt <? ntargets p then filtered_from_unfiltered (start + cnt) else nfiltered) - filtered_starts b
  else 0.
(** the indices at which the index kernel reads filtered_from_unfiltered_target_index, an array
    of [ntargets] entries *)
Definition filter_index_reads (b : nat) : list nat :=
  let start := box_target_starts p b in let cnt := box_target_counts_nonchild p b in
  start :: (if (0 <? cnt) && (start + cnt <? ntargets p) then [start + cnt] else []).
(** boxtree/tree.py:1206-1209; [targets] of the tree, as point -> axis -> coordinate *)
Definition filtered_targets {A} (targets : nat -> nat -> A) (k a : nat) : A := targets (unfiltered_from_filtered k) a.
End Filter.

(** boxtree/tree.py:1009-1055, 1174-1237 filter_target_lists_in_tree_order *)
Record filtered_lists := mkFiltered {
  f_nfiltered : nat;
  f_box_starts : nat -> nat;
  f_box_counts : nat -> nat;
  f_unfiltered : nat -> nat;
  f_targets : nat -> nat -> Z
}.
Definition filter_in_tree_order (p : particles) (targets : nat -> nat -> Z) (flags : nat -> bool) (order : list nat) (junk : nat) : filtered_lists :=
  {| f_nfiltered := nfiltered p flags order;
     f_box_starts := filtered_starts p flags order junk;
     f_box_counts := filtered_counts p flags order junk;
     f_unfiltered := unfiltered_from_filtered p flags order;
     f_targets := filtered_targets p flags order targets |}.

(** ** Linked point sources *)
Section Link.
Variable p : particles.
(** point_source_starts: nsources + 1 entries, assumed nondecreasing where it matters *)
Variable pss : nat -> nat.
Variable order : list nat.
Variable junk : nat.

(** tree_build_kernels.py:1873-1899, source scan *)
Definition ps_input (i : nat) : nat := pss (S (user_source_ids p i)) - pss (user_source_ids p i).
Definition ps_starts (i : nat) : nat := nsum (map ps_input (seq 0 i)).
Definition ps_counts (i : nat) : nat := ps_starts (S i) - ps_starts i.
Definition npoint_sources : nat := match nsources p with 0 => 0 | S n => ps_starts (S n) end.
(** boxtree/tree.py:838-850: filled with 1, then multi_put *)
Definition ps_seed : nat -> nat :=
  scatter (map (fun i => (ps_starts i, pss (user_source_ids p i))) order) (fun _ => 1).
(** boxtree/tree.py:857-866 *)
Definition source_boundaries : nat -> bool :=
  scatter (map (fun i => (ps_starts i, true)) order) (fun _ => false).
(** the indices of these arrays of [npoint_sources] entries that multi_put writes *)
Definition ps_put_indices : list nat := map ps_starts order.
(** tree_build_kernels.py:1901-1910 *)
Definition user_point_source_ids : nat -> nat := seg_scan source_boundaries Nat.add ps_seed.
(** boxtree/tree.py:891-894; user point source -> axis -> coordinate *)
Definition linked_point_sources {A} (point_sources : nat -> nat -> A) (k a : nat) : A :=
  point_sources (user_point_source_ids k) a.
(** tree_build_kernels.py:1912-1946; [starts]/[counts] are box_source_starts and one of
    box_source_counts_nonchild, box_source_counts_cumul *)
Definition box_ps_starts (starts : nat -> nat) (b : nat) : nat := read (nsources p) ps_starts junk (starts b).
Definition box_ps_counts (starts counts : nat -> nat) (b : nat) : nat :=
  if counts b =? 0 then 0 else
  let last := starts b + counts b - 1 in
  read (nsources p) ps_starts junk last + read (nsources p) ps_counts junk last - box_ps_starts starts b.
(** the indices at which it reads arrays of [nsources] entries *)
Definition box_ps_reads (starts counts : nat -> nat) (b : nat) : list nat :=
  starts b :: (if counts b =? 0 then [] else [starts b + counts b - 1]).
End Link.

(** boxtree/tree.py:690-770, 772-949 link_point_sources; [None]: ValueError *)
Record linked := mkLinked {
  l_npoint_sources : nat;
  l_starts : nat -> nat;
  l_counts : nat -> nat;
  l_user_ids : nat -> nat;
  l_point_sources : nat -> nat -> Z;
  l_box_starts : nat -> nat;
  l_box_counts_nonchild : nat -> nat;
  l_box_counts_cumul : nat -> nat
}.
Definition link_point_sources (sources_have_extent : bool) (p : particles) (cumul : nat -> nat) (pss : nat -> nat)
  (point_sources : nat -> nat -> Z) (order : list nat) (junk : nat) : option linked :=
  if sources_have_extent then
    Some {| l_npoint_sources := npoint_sources p pss;
            l_starts := ps_starts p pss;
            l_counts := ps_counts p pss;
            l_user_ids := user_point_source_ids p pss order;
            l_point_sources := linked_point_sources p pss order point_sources;
            l_box_starts := box_ps_starts p pss junk (box_source_starts p);
            l_box_counts_nonchild := box_ps_counts p pss junk (box_source_starts p) (box_source_counts_nonchild p);
            l_box_counts_cumul := box_ps_counts p pss junk (box_source_starts p) cumul |}
  else None.
