(** Model of the exchange of multipole expansions as the code stores and sends them: one flat
    array of coefficients per rank, with a number of coefficients per box that depends on the
    level, messages that are flat arrays too, a reused receive buffer, and two separately tagged
    messages per transfer (boxtree/distributed/calculation.py:147-202, 271-416).  Comm.v is the
    same exchange with one value per box. *)
From Coq Require Import List Arith ZArith Lia Bool.
From Verif Require Import Base Tools Monoid Comm Layout.
Import ListNotations.

Section Flat.
Context {C : cmonoid}.                                  (* coefficients *)
Variables (nboxes nlevels : nat) (level_starts sizes : nat -> nat).

(** One row of multipole_expansions_view(mpoles, lev), for box b (pyfmmlib_integration.py:474-492).
    None: the reshape of the view fails or the row index is out of range.  (numpy would accept some
    negative row indices; that they do not occur is part of what is proved.) *)
Definition row_get (a : list C) (lev b : nat) : option (list C) :=
  if (level_starts lev <=? b) && (b <? level_starts (S lev)) then expansion_get nlevels level_starts sizes a lev b else None.
Definition row_set (a : list C) (lev b : nat) (v : list C) : option (list C) :=
  if (level_starts lev <=? b) && (b <? level_starts (S lev)) then expansion_set nlevels level_starts sizes a lev b v else None.
(** v + w for arrays of the same shape *)
Definition vadd (v w : list C) : list C := map (fun xy => op (fst xy) (snd xy)) (combine v w).

Fixpoint all_some {A B} (f : A -> option B) (l : list A) : option (list B) :=
  match l with
  | [] => Some []
  | x :: l' => match f x, all_some f l' with Some y, Some r => Some (y :: r) | _, _ => None end
  end.
(** level_start_slice_indices[lev], level_start_slice_indices[lev + 1]: 156-157, 183-184 *)
Definition bounds (idx : list nat) (lev : nat) : nat * nat :=
  (searchsorted idx (level_starts lev), searchsorted idx (level_starts (S lev))).

(** _slice_mpoles: 147-172.  None: an exception (also np.concatenate of an empty list) *)
Definition flat_slice (a : list C) (idx : list nat) : option (list C) :=
  match idx with
  | [] => Some []
  | _ =>
    let mpoles_list := fold_left (fun acc lev =>
        match acc with
        | None => None
        | Some l =>
          let '(start, stop) := bounds idx lev in
          if start <? stop then
            match all_some (row_get a lev) (slice idx start stop) with
            | Some rows => Some (l ++ [concat rows])
            | None => None
            end
          else Some l
        end) (seq 0 nlevels) (Some []) in
    match mpoles_list with
    | None | Some [] => None
    | Some l => Some (concat l)
    end
  end.

(** reshape of a flat array to n rows *)
Definition reshape_rows (n size : nat) (l : list C) : list (list C) :=
  map (fun k => slice l (k * size) (k * size + size)) (seq 0 n).
(** view[idx] += rows: the right-hand side is computed from the old array and then assigned row by
    row *)
Definition add_rows (a : list C) (lev : nat) (idx : list nat) (rows : list (list C)) : option (list C) :=
  fold_left (fun acc bv =>
      match acc, row_get a lev (fst bv) with
      | Some a', Some old => row_set a' lev (fst bv) (vadd old (snd bv))
      | _, _ => None
      end) (combine idx rows) (Some a).
(** _update_mpoles: 174-202 *)
Definition flat_update (a updates : list C) (idx : list nat) : option (list C) :=
  match idx with
  | [] => Some a
  | _ =>
    let result := fold_left (fun acc lev =>
        match acc with
        | None => None
        | Some (a', updates_start) =>
          let '(start, stop) := bounds idx lev in
          if start <? stop then
            let n := (stop - start) * sizes lev in                   (* product(mpoles_shape) *)
            let part := slice updates updates_start (updates_start + n) in
            if length part =? n then                                 (* else the reshape fails *)
              match add_rows a' lev (slice idx start stop) (reshape_rows (stop - start) (sizes lev) part) with
              | Some a'' => Some (a'', updates_start + n)
              | None => None
              end
            else None
          else Some (a', updates_start)
        end) (seq 0 nlevels) (Some (a, 0)) in
    match result with Some (a', _) => Some a' | None => None end
  end.

(** ** One rank.  [fp_pending] as in Comm.v; [fp_half = Some q]: the coefficients of rank q have
    been received, the box numbers not yet (between lines 392 and 395). *)
Record fproc := mkFproc {
  fp_pat : pattern;
  fp_array : list C;                        (* mpole_exps *)
  fp_buffer : list C;                       (* mpole_exps_buf *)
  fp_contrib : nat -> bool;                 (* contributing_boxes *)
  fp_pending : option (list nat);
  fp_half : option nat
}.
(** MPI: for every ordered pair of ranks one first-in-first-out channel per tag *)
Record fnet := mkFnet {
  fprocs : nat -> fproc;
  potentials : nat -> nat -> list (list C); (* tag REDUCE_POTENTIALS *)
  indices : nat -> nat -> list (list nat)   (* tag REDUCE_INDICES *)
}.

Variable size : nat.
Variable users : nat -> list nat.
Variable rendezvous : bool.

(** relevant_boxes_list and relevant_mpole_exps, 335-374; nothing is computed without sinks *)
Definition foutgoing (p : fproc) : option (list nat * list C) :=
  match pat_sinks (fp_pat p) with
  | [] => Some ([], [])
  | _ =>
    let contributing := filter (fp_contrib p) (seq 0 nboxes) in
    let relevant := filter (used_by_subrange users (pat_messages (fp_pat p))) contributing in
    match flat_slice (fp_array p) relevant with Some m => Some (relevant, m) | None => None end
  end.
(** comm.Recv into a buffer: the message is stored at the front, the rest keeps its contents; a
    message that does not fit is an error *)
Definition receive_into (buffer m : list C) : option (list C) :=
  if length m <=? length buffer then Some (m ++ skipn (length m) buffer) else None.

Definition post {A} (chan : nat -> nat -> list A) (r : nat) (sinks : list nat) (m : A) : nat -> nat -> list A :=
  fold_left (fun c q => upd2 c r q (c r q ++ [m])) sinks chan.

(** An exception of the code shows as the absence of a step. *)
Inductive fstep : fnet -> fnet -> Prop :=
| fstep_send st r idx m : r < size -> fp_pending (fprocs st r) = None -> pat_done (fp_pat (fprocs st r)) = false ->
    foutgoing (fprocs st r) = Some (idx, m) ->                                               (* 335-386 *)
    let p := fprocs st r in
    fstep st {| fprocs := upd (fprocs st) r {| fp_pat := fp_pat p; fp_array := fp_array p; fp_buffer := fp_buffer p;
                  fp_contrib := fp_contrib p; fp_pending := Some (pat_sources (fp_pat p)); fp_half := None |};
                potentials := post (potentials st) r (pat_sinks (fp_pat p)) m;
                indices := post (indices st) r (pat_sinks (fp_pat p)) idx |}
| fstep_potentials st r l1 q l2 m rest buffer : r < size -> fp_pending (fprocs st r) = Some (l1 ++ q :: l2) -> fp_half (fprocs st r) = None ->
    potentials st q r = m :: rest -> receive_into (fp_buffer (fprocs st r)) m = Some buffer ->  (* 390-391 *)
    let p := fprocs st r in
    fstep st {| fprocs := upd (fprocs st) r {| fp_pat := fp_pat p; fp_array := fp_array p; fp_buffer := buffer;
                  fp_contrib := fp_contrib p; fp_pending := fp_pending p; fp_half := Some q |};
                potentials := upd2 (potentials st) q r rest;
                indices := indices st |}
| fstep_indices st r l1 q l2 idx rest a : r < size -> fp_pending (fprocs st r) = Some (l1 ++ q :: l2) -> fp_half (fprocs st r) = Some q ->
    indices st q r = idx :: rest -> length idx <= nboxes ->                                     (* 393-397 *)
    flat_update (fp_array (fprocs st r)) (fp_buffer (fprocs st r)) idx = Some a ->              (* 400-401 *)
    let p := fprocs st r in
    fstep st {| fprocs := upd (fprocs st) r {| fp_pat := fp_pat p; fp_array := a; fp_buffer := fp_buffer p;
                  fp_contrib := fun b => fp_contrib p b || existsb (Nat.eqb b) idx; fp_pending := Some (l1 ++ l2); fp_half := None |};
                potentials := potentials st;
                indices := upd2 (indices st) q r rest |}
| fstep_advance st r pat : r < size -> fp_pending (fprocs st r) = Some [] ->
    (rendezvous = true -> forall q, In q (pat_sinks (fp_pat (fprocs st r))) -> potentials st r q = [] /\ indices st r q = []) ->
    pat_advance (fp_pat (fprocs st r)) = Some pat ->                                            (* 405-408 *)
    let p := fprocs st r in
    fstep st {| fprocs := upd (fprocs st) r {| fp_pat := pat; fp_array := fp_array p; fp_buffer := fp_buffer p;
                  fp_contrib := fp_contrib p; fp_pending := None; fp_half := None |};
                potentials := potentials st; indices := indices st |}.

(** the buffer is np.empty: any contents, of the size of the array (329) *)
Definition fstart (arrays buffers : nat -> list C) (mask : nat -> nat -> bool) : fnet :=
  {| fprocs := fun r => {| fp_pat := pat_init r size; fp_array := arrays r; fp_buffer := buffers r; fp_contrib := mask r;
       fp_pending := None; fp_half := None |};
     potentials := fun _ _ => []; indices := fun _ _ => [] |}.
Inductive freachable (st0 : fnet) : fnet -> nat -> Prop :=
| freach_start : freachable st0 st0 0
| freach_step st st' n : freachable st0 st n -> fstep st st' -> freachable st0 st' (S n).
Definition fall_done (st : fnet) : Prop :=
  forall r, r < size -> pat_done (fp_pat (fprocs st r)) = true /\ fp_pending (fprocs st r) = None.
End Flat.
Arguments fproc C : clear implicits.
Arguments fnet C : clear implicits.
