(** Model of the messages of a distributed evaluation: boxtree/fmm.py:342-532 on every rank, with
    boxtree/distributed/calculation.py:85-145 (distribution of weights, gathering of potentials) and
    271-416 (exchange of multipole expansions, Comm.v), repeated for several weight vectors
    (boxtree/distributed/__init__.py:60-65).

    MPI: one first-in-first-out channel per ordered pair of ranks and tag.  All that a rank computes
    itself between two communications is one step; what it computes is a parameter here (and
    instantiated with the driver of FmmGen.v in PropsDistRun.v). *)
From Coq Require Import List Arith ZArith Lia Bool.
From Verif Require Import Base Tools Monoid Comm.
Import ListNotations.

(** ** One rank's part of the exchange: the steps of Comm.v, by rank (calculation.py:302-413) *)
Section Rank.
Context {X : cmonoid}.
Variable nboxes nlevels : nat.
Variable level_starts : nat -> nat.
Variable users : nat -> list nat.
Variable rendezvous : bool.
Inductive rank_step (r : nat) : proc X -> (nat -> nat -> list (message X)) -> proc X -> (nat -> nat -> list (message X)) -> Prop :=
| rs_send p c : pr_pending p = None -> pat_done (pr_pat p) = false ->
    rank_step r p c (set_pending p (Some (pat_sources (pr_pat p))))
      (fold_left (fun c q => upd2 c r q (c r q ++ [outgoing nboxes nlevels level_starts users p])) (pat_sinks (pr_pat p)) c)
| rs_receive p c l1 q l2 m rest : pr_pending p = Some (l1 ++ q :: l2) -> c q r = m :: rest ->
    rank_step r p c (set_pending (incorporate nlevels level_starts p m) (Some (l1 ++ l2))) (upd2 c q r rest)
| rs_advance p c p' : pr_pending p = Some [] ->
    (rendezvous = true -> forall q, In q (pat_sinks (pr_pat p)) -> c r q = []) ->
    pat_advance (pr_pat p) = Some p' ->
    rank_step r p c (set_pattern p p') c.
End Rank.

Section Program.
Context {X : cmonoid}.
Context {W V : Type}.                        (* what is sent to a rank, what a rank sends back *)
Variable size : nat.
Variable nboxes nlevels : nat.
Variable level_starts : nat -> nat.
Variable users : nat -> list nat.
Variable rendezvous : bool.
Variable contributing : nat -> nat -> bool.
Variable nevals : nat.                       (* number of evaluations *)
(** calculation.py:92-94: what the root rank cuts out for rank [r] in evaluation [k] *)
Variable weights_for : nat -> nat -> W.
(** fmm.py:397-419: the multipole expansions rank [r] forms *)
Variable upward : nat -> W -> nat -> X.
(** fmm.py:423-518: the potentials rank [r] computes, given its expansions after the exchange *)
Variable evaluate : nat -> W -> (nat -> X) -> V.

Inductive phase :=
| Idle                                                       (* before distribute_source_weights, or at the end *)
| Sending_weights (w : W)                                    (* root: Waitall, calculation.py:102 *)
| Exchanging (w : W)                                         (* in communicate_mpoles *)
| Gathering (pending : list nat) (got : nat -> option V)     (* root: Waitall, calculation.py:131 *)
| Sending_potentials.                                        (* worker: Send, calculation.py:142 *)
Record state := mkState {
  phases : nat -> phase;
  count : nat -> nat;                        (* evaluations a rank has handed in *)
  xprocs : nat -> proc X;
  xchan : nat -> nat -> list (message X);    (* tags REDUCE_POTENTIALS and REDUCE_INDICES *)
  wchan : nat -> list W;                     (* from the root rank, tag DIST_WEIGHT *)
  pchan : nat -> list V;                     (* to the root rank, tag GATHER_POTENTIALS *)
  results : list (nat -> option V)           (* potentials_all_ranks on the root rank; None: np.empty *)
}.
(** calculation.py:302-327 *)
Definition enter_exchange (r : nat) (w : W) : proc X :=
  {| pr_pat := pat_init r size; pr_mpoles := upward r w; pr_contrib := contributing r; pr_pending := None |}.
Definition exchange_over (p : proc X) : Prop := pat_done (pr_pat p) = true /\ pr_pending p = None.

Inductive run_step : state -> state -> Prop :=
(* calculation.py:87-100: isend to the workers *)
| root_sends_weights st : phases st 0 = Idle -> count st 0 < nevals ->
    run_step st {| phases := upd (phases st) 0 (Sending_weights (weights_for (count st 0) 0)); count := count st;
      xprocs := xprocs st; xchan := xchan st;
      wchan := fun r => if (1 <=? r) && (r <? size) then wchan st r ++ [weights_for (count st 0) r] else wchan st r;
      pchan := pchan st; results := results st |}
(* calculation.py:102-103, fmm.py:397-421 *)
| root_starts st w : phases st 0 = Sending_weights w ->
    (rendezvous = true -> forall r, 1 <= r < size -> wchan st r = []) ->
    run_step st {| phases := upd (phases st) 0 (Exchanging w); count := count st;
      xprocs := upd (xprocs st) 0 (enter_exchange 0 w); xchan := xchan st; wchan := wchan st; pchan := pchan st; results := results st |}
(* calculation.py:105, fmm.py:397-421 *)
| worker_starts st r w rest : 1 <= r < size -> phases st r = Idle -> count st r < nevals -> wchan st r = w :: rest ->
    run_step st {| phases := upd (phases st) r (Exchanging w); count := count st;
      xprocs := upd (xprocs st) r (enter_exchange r w); xchan := xchan st;
      wchan := upd (wchan st) r rest; pchan := pchan st; results := results st |}
(* calculation.py:329-410 *)
| exchange_step st r w p' c' : r < size -> phases st r = Exchanging w ->
    rank_step nboxes nlevels level_starts users rendezvous r (xprocs st r) (xchan st) p' c' ->
    run_step st {| phases := phases st; count := count st; xprocs := upd (xprocs st) r p'; xchan := c';
      wchan := wchan st; pchan := pchan st; results := results st |}
(* fmm.py:423-518, calculation.py:114-129 *)
| root_evaluates st w : phases st 0 = Exchanging w -> exchange_over (xprocs st 0) ->
    run_step st {| phases := upd (phases st) 0
        (Gathering (seq 1 (size - 1)) (upd (fun _ => None) 0 (Some (evaluate 0 w (pr_mpoles (xprocs st 0))))));
      count := count st; xprocs := xprocs st; xchan := xchan st; wchan := wchan st; pchan := pchan st; results := results st |}
(* fmm.py:423-518, calculation.py:140-143 *)
| worker_evaluates st r w : 1 <= r < size -> phases st r = Exchanging w -> exchange_over (xprocs st r) ->
    run_step st {| phases := upd (phases st) r Sending_potentials; count := upd (count st) r (S (count st r));
      xprocs := xprocs st; xchan := xchan st; wchan := wchan st;
      pchan := upd (pchan st) r (pchan st r ++ [evaluate r w (pr_mpoles (xprocs st r))]); results := results st |}
(* the Send of calculation.py:142 completes *)
| worker_ends st r : 1 <= r < size -> phases st r = Sending_potentials -> (rendezvous = true -> pchan st r = []) ->
    run_step st {| phases := upd (phases st) r Idle; count := count st;
      xprocs := xprocs st; xchan := xchan st; wchan := wchan st; pchan := pchan st; results := results st |}
(* one of the Irecv of calculation.py:126-129 completes *)
| root_receives st l1 r l2 got v rest : phases st 0 = Gathering (l1 ++ r :: l2) got -> pchan st r = v :: rest ->
    run_step st {| phases := upd (phases st) 0 (Gathering (l1 ++ l2) (upd got r (Some v))); count := count st;
      xprocs := xprocs st; xchan := xchan st; wchan := wchan st; pchan := upd (pchan st) r rest; results := results st |}
(* calculation.py:131-138 *)
| root_ends st got : phases st 0 = Gathering [] got ->
    run_step st {| phases := upd (phases st) 0 Idle; count := upd (count st) 0 (S (count st 0));
      xprocs := xprocs st; xchan := xchan st; wchan := wchan st; pchan := pchan st; results := results st ++ [got] |}.

(** all ranks idle, nothing under way; the expansions of earlier evaluations are of no importance *)
Definition run_start (junk : nat -> proc X) : state :=
  {| phases := fun _ => Idle; count := fun _ => 0; xprocs := junk; xchan := fun _ _ => []; wchan := fun _ => []; pchan := fun _ => []; results := [] |}.
Inductive run_reachable (st0 : state) : state -> nat -> Prop :=
| run_reach_start : run_reachable st0 st0 0
| run_reach_step st st' n : run_reachable st0 st n -> run_step st st' -> run_reachable st0 st' (S n).
(** every rank has taken part in all evaluations *)
Definition run_over (st : state) : Prop := forall r, r < size -> phases st r = Idle /\ count st r = nevals.
End Program.
