(** Model of boxtree/tools.py: binary search, mask compression, index reversal and the
    all-reduce communication pattern.  Array indices and ranks are natural numbers; reads out
    of range do not occur under the hypotheses of the theorems. *)
From Coq Require Import List Arith ZArith Lia Bool.
From Verif Require Import Base Traversal TreeBuild.
Import ListNotations.

(** ** tools.py:594-630 bsearch.  The loop is given fuel; [None] is exhausted fuel.  The result
    [Some None] is (size_t) -1.  size_t does not wrap for lengths below 2^64. *)
Fixpoint bsearch_loop (fuel : nat) (arr : nat -> Z) (len : nat) (val : Z) (l r : nat) : option (option nat) :=
  match fuel with
  | 0 => None
  | S fuel =>
    let i := l + (r - l) / 2 in
    if (arr i <=? val)%Z && ((i =? len - 1) || (val <? arr (i + 1)%nat)%Z) then Some (Some i)
    else if (arr i <=? val)%Z then bsearch_loop fuel arr len val i r
    else bsearch_loop fuel arr len val l i
  end.
Definition bsearch (arr : nat -> Z) (len : nat) (val : Z) : option (option nat) :=
  if (val <? arr 0%nat)%Z then Some None else bsearch_loop (S len) arr len val 0 len.

(** ** tools.py:81-109 reverse_index_array; [fill] is result_fill_value (0 if it is None).
    multi_put is a parallel scatter: [order] is the order in which the writes happen. *)
Definition reverse_index_array (indices : list nat) (fill : nat) (order : list nat) : nat -> nat :=
  scatter (map (fun i => (nth i indices 0, i)) order) (fun _ => fill).

(** ** tools.py:636-749 MaskCompressorKernel
    pyopencl's ListOfListsBuilder (assumed) concatenates the per-work-item lists and returns
    the starts as an exclusive prefix sum of their lengths. *)
(** [list_dtype]: storing an index in a signed integer type of [bits] bits wraps around *)
Definition cast_int (bits : nat) (x : Z) : Z :=
  ((x + 2 ^ (Z.of_nat bits - 1)) mod 2 ^ Z.of_nat bits - 2 ^ (Z.of_nat bits - 1))%Z.
(** tools.py:636-643, 724-727: one dimension; [data] is the buffer behind the mask, whose element
    [i] is [data (stride * i)].  The kernel reads the buffer at [i]. *)
Definition compress_list (bits n stride : nat) (data : nat -> Z) : list Z :=
  concat (map (fun i => if (data i =? 0)%Z then [] else [cast_int bits (Z.of_nat i)]) (seq 0 n)).
(** tools.py:646-657, 728-738: two dimensions; strides are in elements.  Result: starts and lists *)
Definition compress_matrix (bits nrows ncols outer inner : nat) (data : nat -> Z) : list nat * list Z :=
  let rows := map (fun i => concat (map (fun j => if (data (outer * i + j * inner)%nat =? 0)%Z then [] else [cast_int bits (Z.of_nat j)]) (seq 0 ncols)))
                  (seq 0 nrows) in
  (prefix_from 0 (map (@length Z) rows), concat rows).

(** ** tools.py:756-855 AllReduceCommPattern *)
Record pattern := mkPattern { pat_rank : nat; pat_left : nat; pat_right : nat; pat_mid : nat }.
(** tools.py:781-790 *)
Definition pat_init (rank size : nat) : pattern :=
  {| pat_rank := rank; pat_left := 0; pat_right := size; pat_mid := size / 2 |}.
(** tools.py:792-814.  Comparisons with [midpoint - 1] and [right - 2] are written additively. *)
Definition pat_sources (p : pattern) : list nat :=
  if pat_rank p <? pat_mid p then
    let partner := pat_mid p + (pat_rank p - pat_left p) in
    if (pat_rank p + 1 =? pat_mid p) && (partner =? pat_right p) then []
    else if (pat_rank p + 1 =? pat_mid p) && (partner + 2 =? pat_right p) then [partner; partner + 1]
    else [partner]
  else
    let partner := pat_left p + (pat_rank p - pat_mid p) in
    if (pat_rank p + 1 =? pat_right p) && (partner =? pat_mid p) then []
    else if (pat_rank p + 1 =? pat_right p) && (partner + 2 =? pat_mid p) then [partner; partner + 1]
    else [partner].
(** tools.py:816-829.  The rank of [partner - 1] is below 0 only for a rank that is done
    (then the model says 0 instead). *)
Definition pat_sinks (p : pattern) : list nat :=
  if pat_rank p <? pat_mid p then
    let partner := pat_mid p + (pat_rank p - pat_left p) in
    [if partner =? pat_right p then partner - 1 else partner]
  else
    let partner := pat_left p + (pat_rank p - pat_mid p) in
    [if partner =? pat_mid p then partner - 1 else partner].
(** tools.py:831-839 *)
Definition pat_messages (p : pattern) : nat * nat :=
  if pat_rank p <? pat_mid p then (pat_mid p, pat_right p) else (pat_left p, pat_mid p).
(** tools.py:853-855 *)
Definition pat_done (p : pattern) : bool := pat_left p + 1 =? pat_right p.
(** tools.py:841-851; [None] is the RuntimeError *)
Definition pat_advance (p : pattern) : option pattern :=
  if pat_done p then None
  else Some (if pat_rank p <? pat_mid p
             then {| pat_rank := pat_rank p; pat_left := pat_left p; pat_right := pat_mid p; pat_mid := (pat_mid p + pat_left p) / 2 |}
             else {| pat_rank := pat_rank p; pat_left := pat_mid p; pat_right := pat_right p; pat_mid := (pat_mid p + pat_right p) / 2 |}).
(** the pattern of a rank after [s] calls of advance; [None] if one of them raised *)
Fixpoint pat_at (rank size s : nat) : option pattern :=
  match s with
  | 0 => Some (pat_init rank size)
  | S s => match pat_at rank size s with Some p => pat_advance p | None => None end
  end.
