(** Model of partition_work (boxtree/distributed/partition.py:60-121) for an arbitrary arithmetic of
    costs, with IEEE 754 numbers as an instance. *)
From Coq Require Import List Arith ZArith Lia Bool Permutation SpecFloat QArith Qcanon.
From Verif Require Import Base Tree Partition Cost Runner.
Import ListNotations.
Local Open Scope nat_scope.

Record cost_arith := mkCostArith {
  cnum : Type;
  czero : cnum;
  cplus : cnum -> cnum -> cnum;
  csum : list cnum -> cnum;                                (* np.sum: adds in an order of its own *)
  (* workload_count > (segment_idx + 1) * total_workload / mpi_size *)
  exceeds : nat -> nat -> cnum -> cnum -> bool             (* segment_idx, mpi_size, total_workload, workload_count *)
}.

(** partition.py:95-116, see [segment_loop] *)
Fixpoint segment_loop_in (A : cost_arith) (nboxes size : nat) (total : cnum A) (costs : list (cnum A))
         (i start segment_idx : nat) (workload : cnum A) : list (nat * nat) :=
  match costs with
  | [] => []
  | c :: costs' =>
    if segment_idx + 1 =? size then [(start, nboxes)]
    else
      let workload := cplus A workload c in
      if exceeds A segment_idx size total workload || (i =? nboxes - 1)
      then (start, i + 1) :: segment_loop_in A nboxes size total costs' (i + 1) (i + 1) (segment_idx + 1) workload
      else segment_loop_in A nboxes size total costs' (i + 1) start segment_idx workload
  end.
(** partition.py:60-121 *)
Definition partition_work_in (A : cost_arith) (t : tree) (cost : nat -> cnum A) (size rank : nat) : partition_result :=
  if nboxes t <? size then TooFewBoxes
  else match get_box_ids_dfs_order t with
  | None => IndexOutOfRange
  | Some dfs_order =>
    let total := csum A (map cost (seq 0 (nboxes t))) in
    let segments := segment_loop_in A (nboxes t) size total (map cost dfs_order) 0 0 0 (czero A) in
    match nth_error segments rank with
    | None => Uninitialised
    | Some (s, e) => Responsible (py_slice dfs_order s e)
    end
  end.

(** exact rational numbers *)
Definition exact_costs : cost_arith := {|
  cnum := Qc; czero := 0%Qc; cplus := Qcplus; csum := qsum;
  exceeds := fun s size total w => qltb (of_Z (Z.of_nat (s + 1)) * total / of_Z (Z.of_nat size))%Qc w |}.
(** double precision, with the order in which np.sum adds left open *)
Definition double_of (n : nat) : spec_float := binary_normalize 53 1024 (Z.of_nat n) 0 false.
Definition double_costs (sum : list spec_float -> spec_float) : cost_arith := {|
  cnum := spec_float; czero := S754_zero false; cplus := SFadd 53 1024; csum := sum;
  exceeds := fun s size total w => SFltb (SFdiv 53 1024 (SFmul 53 1024 (double_of (s + 1)) total) (double_of size)) w |}.
(** the number a finite double stands for *)
Definition exact_value (x : spec_float) : Qc :=
  match x with
  | S754_finite s m e => Q2Qc ((if s then -1 else 1) * inject_Z (Z.pos m) * Qpower 2 e)
  | _ => 0%Qc
  end.
(** [x] is what adding up [l] in double precision gives, in some order and with some grouping (np.sum adds pairwise) *)
Inductive added_up : list spec_float -> spec_float -> Prop :=
| added_one x : added_up [x] x
| added_two l1 l2 x1 x2 : added_up l1 x1 -> added_up l2 x2 -> added_up (l1 ++ l2) (SFadd 53 1024 x1 x2)
| added_order l l' x : Permutation l l' -> added_up l x -> added_up l' x.
