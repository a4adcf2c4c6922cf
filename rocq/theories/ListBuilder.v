(** pyopencl's ListOfListsBuilder, as it is used by boxtree/traversal.py:1889-1959 and
    boxtree/area_query.py.

    pyopencl is not part of /repo.  Its list builder is modelled by the algorithm of
    pyopencl/algorithm.py: the "generate" function of the user is run twice by every work item,
    once to count the entries it appends to each list and once to write them; in between,
    the counts are scanned to find out where the entries of a work item start.  Lists that were
    asked to be compressed (eliminate_empty_output_lists) drop the work items without entries. *)
From Coq Require Import List Arith ZArith Bool.
From Verif Require Import Kernel Device.
Import ListNotations.

Section Builder.
Variable base : Type.                                   (* arrays other than lists *)
Variable name : Type.                                   (* lists *)
Variable base_eq : forall a b : base, {a = b} + {a <> b}.
Variable name_eq : forall a b : name, {a = b} + {a <> b}.

Inductive larr :=
| Base (b : base)
| Starts (l : name)                                     (* result[l].starts *)
| Lists (l : name)                                      (* result[l].lists *)
| Nonempty (l : name)                                   (* result[l].nonempty_indices *)
| Counts (l : name) | Compressed (l : name) | CompressedCounts (l : name)
| ScanIn | ScanFlag | ScanOut.                          (* buffers of the scans *)
Definition larr_eq : forall a b : larr, {a = b} + {a <> b}.
Proof. decide equality. Defined.

(** A "generate" function: loads, and APPEND_l(v) *)
Inductive gen :=
| GEnd
| GLoad (a : larr) (k : Z) (next : Z -> gen)
| GPut (l : name) (v : Z) (next : gen).

(** the counting pass: APPEND_l only increments a counter *)
Fixpoint count_gen (g : gen) (c : name -> Z) (last : (name -> Z) -> item larr) : item larr :=
  match g with
  | GEnd => last c
  | GLoad a k next => Load a k (fun v => count_gen (next v) c last)
  | GPut l _ next => count_gen next (fun x => if name_eq x l then (c x + 1)%Z else c x) last
  end.
Definition count_item (outs : list (name * bool)) (g : gen) (i : nat) : item larr :=
  count_gen g (fun _ => 0%Z) (fun c => for_each outs (fun o => Store (Counts (fst o)) (Z.of_nat i) (c (fst o))) Finish).
(** the writing pass: APPEND_l stores the entry and advances; entries of lists that were not
    asked for (omit_lists) are dropped *)
Fixpoint write_gen (outs : list (name * bool)) (g : gen) (p : name -> Z) : item larr :=
  match g with
  | GEnd => Finish
  | GLoad a k next => Load a k (fun v => write_gen outs (next v) p)
  | GPut l v next =>
      if existsb (fun o => if name_eq (fst o) l then true else false) outs
      then Store (Lists l) (p l) v (write_gen outs next (fun x => if name_eq x l then (p x + 1)%Z else p x))
      else write_gen outs next p
  end.
Fixpoint load_starts (outs : list (name * bool)) (i : nat) (p : name -> Z) (k : (name -> Z) -> item larr) : item larr :=
  match outs with
  | [] => k p
  | (l, compress) :: r =>
      let found s := load_starts r i (fun x => if name_eq x l then s else p x) k in
      if compress then Load (Compressed l) (Z.of_nat i) (fun j => Load (Starts l) j found)
      else Load (Starts l) (Z.of_nat i) found
  end.
Definition write_item (outs : list (name * bool)) (g : gen) (i : nat) : item larr :=
  load_starts outs i (fun _ => 0%Z) (write_gen outs g).

(** inclusive scan of [f (counts[i])] over [n] work items, followed by [out i item] *)
Definition sum_scan {R} (cnt : larr) (f : Z -> Z) (n : nat) (next : host larr R) : host larr R :=
  Alloc ScanIn (Z.of_nat n) (Alloc ScanFlag (Z.of_nat n) (Alloc ScanOut (Z.of_nat n)
    (Launch n (fun i => Load cnt (Z.of_nat i) (fun c => Store ScanIn (Z.of_nat i) (f c) Finish))
    (Scan (mkScan ScanFlag [(ScanIn, ScanOut, Z.add)]) next)))).
(** starts[i+1] = item; starts[0] = 0 *)
Definition make_starts {R} (l : name) (cnt : larr) (n : nat) (next : host larr R) : host larr R :=
  sum_scan cnt (fun c => c) n
    (Alloc (Starts l) (Z.of_nat n + 1)
    (Launch n (fun i => Load ScanOut (Z.of_nat i) (fun s => Store (Starts l) (Z.of_nat i + 1) s Finish))
    (Assign (Starts l) 0 [0%Z] next))).
(** the compression of the counts: nonempty_indices, compressed_counts and, for every work
    item, the number of lists before its own that are not empty *)
Definition compress_item (l : name) (n i : nat) : item larr :=
  let emit item prev :=
    let tail := if (prev =? item)%Z then Finish
                else Store (Nonempty l) (item - 1) (Z.of_nat i)
                       (Load (Counts l) (Z.of_nat i) (fun c => Store (CompressedCounts l) (item - 1) c Finish)) in
    if S i <? n then Store (Compressed l) (Z.of_nat i + 1) item tail else tail in
  Load ScanOut (Z.of_nat i) (fun item =>
    match i with 0 => emit item 0%Z | S i' => Load ScanOut (Z.of_nat i') (fun prev => emit item prev) end).
Definition compress_counts {R} (l : name) (n : nat) (next : nat -> host larr R) : host larr R :=
  sum_scan (Counts l) (fun c => if (c =? 0)%Z then 0%Z else 1%Z) n
    (Alloc (Nonempty l) (Z.of_nat n) (Alloc (Compressed l) (Z.of_nat n) (Alloc (CompressedCounts l) (Z.of_nat n)
    (Launch n (compress_item l n)
    (match n with
     | 0 => next 0
     | S n' => Peek ScanOut (Z.of_nat n') (fun m => next (Z.to_nat m))
     end))))).

(** number of lists and number of entries *)
Record built_list := mkBuilt { num_lists : nat; num_entries : nat }.
Fixpoint scan_counts {R} (outs : list (name * bool)) (n : nat) (acc : name -> built_list)
         (next : (name -> built_list) -> host larr R) : host larr R :=
  match outs with
  | [] => next acc
  | (l, compress) :: r =>
      let finish m :=
        Peek (Starts l) (Z.of_nat m) (fun total => Alloc (Lists l) total
          (scan_counts r n (fun x => if name_eq x l then mkBuilt m (Z.to_nat total) else acc x) next)) in
      if compress then compress_counts l n (fun m => make_starts l (CompressedCounts l) m (finish m))
      else make_starts l (Counts l) n (finish n)
  end.
(** ListOfListsBuilder.__call__: [outs] are the lists that are not omitted, each with its entry
    in eliminate_empty_output_lists; [n] = n_objects *)
Definition build_lists {R} (outs : list (name * bool)) (n : nat) (g : nat -> gen)
           (next : (name -> built_list) -> host larr R) : host larr R :=
  each outs (fun o nx => Alloc (Counts (fst o)) (Z.of_nat n) nx)
    (Launch n (fun i => count_item outs (g i) i)
    (scan_counts outs n (fun _ => mkBuilt 0 0) (fun b =>
     Launch n (fun i => write_item outs (g i) i) (next b)))).
End Builder.
Arguments Base {base name}.
Arguments Starts {base name}.
Arguments Lists {base name}.
Arguments Nonempty {base name}.
Arguments Counts {base name}.
Arguments Compressed {base name}.
Arguments CompressedCounts {base name}.
Arguments ScanIn {base name}.
Arguments ScanFlag {base name}.
Arguments ScanOut {base name}.
Arguments GEnd {base name}.
Arguments GLoad {base name}.
Arguments GPut {base name}.
Arguments count_gen {base name}.
Arguments count_item {base name}.
Arguments write_gen {base name}.
Arguments load_starts {base name}.
Arguments write_item {base name}.
Arguments sum_scan {base name R}.
Arguments make_starts {base name R}.
Arguments compress_item {base name}.
Arguments compress_counts {base name R}.
Arguments scan_counts {base name} name_eq {R}.
Arguments build_lists {base name} name_eq {R}.
