(** Specification vocabulary for the cost model: the elementary operations an FMM run
    performs, stage by stage, what they do and what each of them costs. *)
From Coq Require Import List Arith ZArith Lia Bool QArith Qcanon.
From Verif Require Import Base Tree Traversal SpecTraversal Fmm Cost.
Import ListNotations.

(** s: a source (index in tree order); k: the k-th target of a box *)
Inductive op :=
| P2M (s b : nat)            (* source s of box b to the multipole expansion of b *)
| M2M (child b : nat)        (* multipole of child to multipole of b *)
| P2P (B s T k : nat)        (* source s of box B to a target of box T *)
| M2L (B A : nat)            (* multipole of B to local expansion of A *)
| M2P (B T k : nat)          (* multipole of B to a target of T *)
| P2L (B s A : nat)          (* source s of box B to local expansion of A *)
| L2L (parent b : nat)       (* local expansion of parent to local expansion of b *)
| L2P (T k : nat).           (* local expansion of T to a target of T *)

Section Ops.
Variable t : tree.
Variable p : particles.
Variable tr : traversal.
(** number of targets of each box that take part *)
Variable tcounts : nat -> nat.

Definition sources_of b := seq (box_source_starts p b) (box_source_counts_nonchild p b).
Definition targets_of b := seq 0 (tcounts b).
Definition children_of b :=
  filter (fun c => negb (c =? 0)) (map (fun m => box_child t m b) (seq 0 (nchildren t))).
Definition for_each {A B} (l : list A) (f : A -> list B) : list B := concat (map f l).

(** The stages of the run (fmm.py:342-532) with the loops of a point FMM
    (constant_one.py:88-234) *)
Definition ops_form_multipoles : list op :=
  for_each (source_boxes tr) (fun b => map (fun s => P2M s b) (sources_of b)).
(** from the level above the finest one up to level 2 *)
Definition ops_coarsen_multipoles : list op :=
  for_each (rev (seq 2 (nlevels t - 3))) (fun l =>
    for_each (filter (fun b => box_level t b =? l) (source_parent_boxes tr)) (fun b =>
      map (fun c => M2M c b) (children_of b))).
Definition ops_direct (row : nat -> list nat) : list op :=
  for_each (target_boxes tr) (fun T => for_each (row T) (fun S =>
    for_each (sources_of S) (fun s => map (P2P S s T) (targets_of T)))).
Definition ops_eval_direct : list op :=
  ops_direct (list1_of tr) ++ ops_direct (list3_close_of tr) ++ ops_direct (list4_close_of tr).
Definition ops_multipole_to_local : list op :=
  for_each (target_or_target_parent_boxes tr) (fun A => map (fun B => M2L B A) (list2_of tr A)).
Definition ops_eval_multipoles : list op :=
  for_each (target_boxes tr) (fun T => for_each (list3_of tr T) (fun B => map (M2P B T) (targets_of T))).
Definition ops_form_locals : list op :=
  for_each (target_or_target_parent_boxes tr) (fun A => for_each (list4_of tr A) (fun S =>
    map (fun s => P2L S s A) (sources_of S))).
(** from level 1 down to the finest level *)
Definition ops_refine_locals : list op :=
  for_each (seq 1 (nlevels t - 1)) (fun l =>
    map (fun b => L2L (box_parent t b) b)
        (filter (fun b => box_level t b =? l) (target_or_target_parent_boxes tr))).
Definition ops_eval_locals : list op :=
  for_each (target_boxes tr) (fun T => map (L2P T) (targets_of T)).
Definition fmm_ops : list op :=
  ops_form_multipoles ++ ops_coarsen_multipoles ++ ops_eval_direct ++ ops_multipole_to_local ++
  ops_eval_multipoles ++ ops_form_locals ++ ops_refine_locals ++ ops_eval_locals.

(** What the operations do (kernel constant one): multipoles, locals and potentials *)
Record fmm_state := mkFmm { mp : array; loc : array; pot : array }.
Definition do_op (w : array) (st : fmm_state) (o : op) : fmm_state :=
  match o with
  | P2M s b => mkFmm (add_at (mp st) b (w s)) (loc st) (pot st)
  | M2M c b => mkFmm (add_at (mp st) b (mp st c)) (loc st) (pot st)
  | P2P _ s T k => mkFmm (mp st) (loc st) (add_at (pot st) (box_target_starts p T + k) (w s))
  | M2L B A => mkFmm (mp st) (add_at (loc st) A (mp st B)) (pot st)
  | M2P B T k => mkFmm (mp st) (loc st) (add_at (pot st) (box_target_starts p T + k) (mp st B))
  | P2L _ s A => mkFmm (mp st) (add_at (loc st) A (w s)) (pot st)
  | L2L q b => mkFmm (mp st) (add_at (loc st) b (loc st q)) (pot st)
  | L2P T k => mkFmm (mp st) (loc st) (add_at (pot st) (box_target_starts p T + k) (loc st T))
  end.
Definition run_ops (w : array) (ops : list op) : fmm_state :=
  fold_left (do_op w) ops (mkFmm zeros zeros zeros).

(** What an operation costs: the factor of its kind at the level of the expansion; between
    two levels l and l+1, entry l.  [p2l_level S A] is the level charged for forming a local
    expansion of A from sources of S. *)
Definition op_cost (F : cost_factors) (p2l_level : nat -> nat -> nat) (o : op) : Qc :=
  match o with
  | P2M _ b => p2m_cost F (box_level t b)
  | M2M _ b => m2m_cost F (box_level t b)
  | P2P _ _ _ _ => p2p_cost F
  | M2L _ A => m2l_cost F (box_level t A)
  | M2P B _ _ => m2p_cost F (box_level t B)
  | P2L B _ A => p2l_cost F (p2l_level B A)
  | L2L _ b => l2l_cost F (box_level t b - 1)%nat
  | L2P T _ => l2p_cost F (box_level t T)
  end.
(** The box whose cost an operation is part of: the box of the sources for P2M, the target
    box otherwise; upward and downward propagation are not attributed to boxes. *)
Definition charged_to (o : op) : option nat :=
  match o with
  | P2M _ b => Some b
  | M2M _ _ | L2L _ _ => None
  | P2P _ _ T _ | M2P _ T _ | L2P T _ => Some T
  | M2L _ A | P2L _ _ A => Some A
  end.
Definition is_charged_to (b : nat) (o : op) : bool :=
  match charged_to o with Some b' => b' =? b | None => false end.
Definition total_cost (F : cost_factors) (lev : nat -> nat -> nat) (ops : list op) : Qc :=
  qsum (map (op_cost F lev) ops).

(** Counts whose products stay below 2^31 *)
Definition nsources_in (l : list nat) : Z := zsum (map (fun S => Z.of_nat (box_source_counts_nonchild p S)) l).
Definition fits32 : Prop :=
  forall T, In T (target_boxes tr) ->
    let n := nsources_in (list1_of tr T ++ list3_close_of tr T ++ list4_close_of tr T) in
    (n < 2 ^ 31 /\ n * Z.of_nat (tcounts T) < 2 ^ 31 /\
     forall l, Z.of_nat (tcounts T) * Z.of_nat (length (list3_level_of tr l T)) < 2 ^ 31)%Z.
End Ops.

(** calibration data: a case timed exactly proportionally to the model *)
Definition with_stage_costs (sc : stage_costs) : list (stage * Qc) :=
  [(FormMultipoles, form_multipoles_stage sc); (CoarsenMultipoles, coarsen_multipoles_stage sc);
   (EvalDirect, eval_direct_stage sc); (MultipoleToLocal, multipole_to_local_stage sc);
   (EvalMultipoles, eval_multipoles_stage sc); (FormLocals, form_locals_stage sc);
   (RefineLocals, refine_locals_stage sc); (EvalLocals, eval_locals_stage sc)].

(** The operations of each stage *)
Definition stage_ops (t : tree) (p : particles) (tr : traversal) (tcounts : nat -> nat) (s : stage) : list op :=
  match s with
  | FormMultipoles => ops_form_multipoles p tr | CoarsenMultipoles => ops_coarsen_multipoles t tr
  | EvalDirect => ops_eval_direct p tr tcounts | MultipoleToLocal => ops_multipole_to_local tr
  | EvalMultipoles => ops_eval_multipoles tr tcounts | FormLocals => ops_form_locals p tr
  | RefineLocals => ops_refine_locals t tr | EvalLocals => ops_eval_locals tr tcounts
  | OtherStage _ => [] end.

Local Open Scope Qc_scope.
(** the calibration parameter of a stage *)
Definition param_of_stage (s : stage) : option param :=
  match s with
  | FormMultipoles => Some CP2M | CoarsenMultipoles => Some CM2M | EvalDirect => Some CP2P
  | MultipoleToLocal => Some CM2L | EvalMultipoles => Some CM2P | FormLocals => Some CP2L
  | RefineLocals => Some CL2L | EvalLocals => Some CL2P | OtherStage _ => None
  end.
(** the calibration parameter and the cost of a stage *)
Definition cal_of (c : calibration) (s : stage) : Qc :=
  match s with
  | FormMultipoles => c_p2m c | CoarsenMultipoles => c_m2m c | EvalDirect => c_p2p c
  | MultipoleToLocal => c_m2l c | EvalMultipoles => c_m2p c | FormLocals => c_p2l c
  | RefineLocals => c_l2l c | EvalLocals => c_l2p c | OtherStage _ => 0 end.
Definition cost_of (sc : stage_costs) (s : stage) : Qc :=
  match s with
  | FormMultipoles => form_multipoles_stage sc | CoarsenMultipoles => coarsen_multipoles_stage sc
  | EvalDirect => eval_direct_stage sc | MultipoleToLocal => multipole_to_local_stage sc
  | EvalMultipoles => eval_multipoles_stage sc | FormLocals => form_locals_stage sc
  | RefineLocals => refine_locals_stage sc | EvalLocals => eval_locals_stage sc | OtherStage _ => 0 end.

(** sum of the squared deviations of the timings from [k] times the model *)
Definition sq_error (k : Qc) (u a : list Qc) : Qc :=
  qsum (map (fun ua => (snd ua - k * fst ua) * (snd ua - k * fst ua)) (combine u a)).
(** a timing of a run: the timed stages in any order, each once *)
Definition timed_stages (tm : list (stage * Qc)) (f : stage -> Qc) : Prop :=
  NoDup (map fst tm) /\
  (forall s, In s (map fst stage_to_param) -> In (s, f s) tm) /\
  (forall s v, In (s, v) tm -> In s (map fst stage_to_param)).
