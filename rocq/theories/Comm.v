(** Model of the exchange of multipole expansions between ranks,
    boxtree/distributed/calculation.py:147-416.

    The expansions of a box are values of a commutative monoid [X] (a coefficient vector, with
    exact addition; where it is stored in the flat array: Layout.v).  MPI is modelled by one first-in-first-out channel per ordered pair of ranks;
    the two messages of a stage (tags REDUCE_POTENTIALS and REDUCE_INDICES) travel together. *)
From Coq Require Import List Arith ZArith Lia Bool.
From Verif Require Import Base Tools Monoid.
Import ListNotations.

(** ** calculation.py:147-172 _slice_mpoles; np.searchsorted(.., side="left") on a sorted array *)
Definition searchsorted (l : list nat) (v : nat) : nat := length (filter (fun x => x <? v) l).
Definition slice {A} (l : list A) (start stop : nat) : list A := firstn (stop - start) (skipn start l).
Definition slice_mpoles {X : cmonoid} (nlevels : nat) (level_starts : nat -> nat) (mpoles : nat -> X) (idx : list nat) : list X :=
  concat (map (fun l => map mpoles (slice idx (searchsorted idx (level_starts l)) (searchsorted idx (level_starts (S l))))) (seq 0 nlevels)).

(** calculation.py:174-202 _update_mpoles: [+=] on an indexed view adds to each indexed entry
    (once, also for repeated indices) *)
Definition add_at {X : cmonoid} (mpoles : nat -> X) (idx : list nat) (vals : list X) : nat -> X :=
  fun b => match find (fun iv => fst iv =? b) (combine idx vals) with Some (_, v) => op (mpoles b) v | None => mpoles b end.
Definition update_mpoles {X : cmonoid} (nlevels : nat) (level_starts : nat -> nat) (mpoles : nat -> X) (updates : list X) (idx : list nat) : nat -> X :=
  fst (fold_left (fun (acc : (nat -> X) * nat) l =>
         let '(mp, pos) := acc in
         let part := slice idx (searchsorted idx (level_starts l)) (searchsorted idx (level_starts (S l))) in
         (add_at mp part (slice updates pos (pos + length part)), pos + length part))
       (seq 0 nlevels) (mpoles, 0)).

(** calculation.py:204-269 find_boxes_used_by_subrange; [users b] is the slice of
    box_to_user_rank_lists that belongs to box [b] *)
Definition used_by_subrange (users : nat -> list nat) (range : nat * nat) (b : nat) : bool :=
  existsb (fun u => (fst range <=? u) && (u <? snd range)) (users b).

Definition message (X : cmonoid) : Type := list nat * list X.
(** ** One rank: calculation.py:302-413.  [pr_pending = None]: about to send;
    [Some l]: still to receive from the ranks [l] in this stage. *)
Record proc (X : cmonoid) := mkProc {
  pr_pat : pattern;
  pr_mpoles : nat -> X;
  pr_contrib : nat -> bool;
  pr_pending : option (list nat)
}.
Arguments pr_pat {_}. Arguments pr_mpoles {_}. Arguments pr_contrib {_}. Arguments pr_pending {_}.
Record net (X : cmonoid) := mkNet { procs : nat -> proc X; chan : nat -> nat -> list (message X) }.
Arguments procs {_}. Arguments chan {_}.
Definition upd {A} (f : nat -> A) (i : nat) (v : A) : nat -> A := fun j => if j =? i then v else f j.
Definition upd2 {A} (f : nat -> nat -> A) (i j : nat) (v : A) : nat -> nat -> A :=
  fun a b => if (a =? i) && (b =? j) then v else f a b.

Section Exchange.
Context {X : cmonoid}.
Variable size : nat.                       (* mpi_size *)
Variable nboxes nlevels : nat.
Variable level_starts : nat -> nat.
Variable users : nat -> list nat.          (* box_to_user_rank_starts/lists *)
(** do sends complete only when received? (MPI leaves that open) *)
Variable rendezvous : bool.

(** calculation.py:338-378 *)
Definition outgoing (p : proc X) : message X :=
  let contributing := filter (pr_contrib p) (seq 0 nboxes) in
  let relevant := filter (used_by_subrange users (pat_messages (pr_pat p))) contributing in
  (relevant, slice_mpoles nlevels level_starts (pr_mpoles p) relevant).
(** calculation.py:391-406 *)
Definition incorporate (p : proc X) (m : message X) : proc X :=
  {| pr_pat := pr_pat p; pr_mpoles := update_mpoles nlevels level_starts (pr_mpoles p) (snd m) (fst m);
     pr_contrib := fun b => pr_contrib p b || existsb (Nat.eqb b) (fst m); pr_pending := pr_pending p |}.
Definition set_pending (p : proc X) (l : option (list nat)) : proc X :=
  {| pr_pat := pr_pat p; pr_mpoles := pr_mpoles p; pr_contrib := pr_contrib p; pr_pending := l |}.
Definition set_pattern (p : proc X) (q : pattern) : proc X :=
  {| pr_pat := q; pr_mpoles := pr_mpoles p; pr_contrib := pr_contrib p; pr_pending := None |}.

(** Any rank may take the next step; ranks in [sources()] are received from in any order. *)
Inductive step : net X -> net X -> Prop :=
| step_send st r : r < size -> pr_pending (procs st r) = None -> pat_done (pr_pat (procs st r)) = false ->
    step st {| procs := upd (procs st) r (set_pending (procs st r) (Some (pat_sources (pr_pat (procs st r)))));
               chan := fold_left (fun c q => upd2 c r q (c r q ++ [outgoing (procs st r)])) (pat_sinks (pr_pat (procs st r))) (chan st) |}
| step_receive st r l1 q l2 m rest : r < size -> pr_pending (procs st r) = Some (l1 ++ q :: l2) -> chan st q r = m :: rest ->
    step st {| procs := upd (procs st) r (set_pending (incorporate (procs st r) m) (Some (l1 ++ l2)));
               chan := upd2 (chan st) q r rest |}
| step_advance st r p' : r < size -> pr_pending (procs st r) = Some [] ->
    (rendezvous = true -> forall q, In q (pat_sinks (pr_pat (procs st r))) -> chan st r q = []) ->
    pat_advance (pr_pat (procs st r)) = Some p' ->
    step st {| procs := upd (procs st) r (set_pattern (procs st r) p'); chan := chan st |}.

(** calculation.py:302-327: start; [mpoles r] is what the upward pass of rank [r] computed and
    [mask r] its responsible boxes and their ancestors *)
Definition start (mpoles : nat -> nat -> X) (mask : nat -> nat -> bool) : net X :=
  {| procs := fun r => {| pr_pat := pat_init r size; pr_mpoles := mpoles r; pr_contrib := mask r; pr_pending := None |};
     chan := fun _ _ => [] |}.
Inductive reachable (st0 : net X) : net X -> nat -> Prop :=
| reach_start : reachable st0 st0 0
| reach_step st st' n : reachable st0 st n -> step st st' -> reachable st0 st' (S n).
Definition all_done (st : net X) : Prop := forall r, r < size -> pat_done (pr_pat (procs st r)) = true /\ pr_pending (procs st r) = None.
End Exchange.
