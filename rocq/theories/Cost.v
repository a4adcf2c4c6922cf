(** Model of the FMM cost model (boxtree/cost.py).  Floating-point numbers are modelled by
    exact rationals (Qc); the 32-bit integer arithmetic on counts is modelled. *)
From Coq Require Import List Arith ZArith Lia Bool QArith Qcanon.
From Verif Require Import Base Tree Traversal Fmm.
Import ListNotations.
Local Open Scope Qc_scope.

Definition of_Z (z : Z) : Qc := Q2Qc (inject_Z z).
(** np.sum, reduction kernels with reduce_expr a+b (cost.py:1242-1246, 1200-1222) *)
Definition qsum (l : list Qc) : Qc := fold_right Qcplus 0 l.
(** numpy / OpenCL C arithmetic on 32-bit integers (the default particle_id_dtype and
    box_id_dtype): the result modulo 2^32 in [-2^31, 2^31) *)
Definition wrap32 (z : Z) : Z := ((z + 2 ^ 31) mod 2 ^ 32 - 2 ^ 31)%Z.
Definition mul32 (a b : Z) : Z := wrap32 (a * b).
Definition add32 (a b : Z) : Z := wrap32 (a + b).

(** float64 arrays *)
Definition qarray := nat -> Qc.
Definition qzeros : qarray := fun _ => 0.
Definition qset (a : qarray) (i : nat) (v : Qc) : qarray := fun j => if (j =? i)%nat then v else a j.
Definition qadd_at (a : qarray) (i : nat) (v : Qc) : qarray := qset a i (a i + v).
(** a[idx] += vals with an index array: all entries are read, added and then written back *)
Definition fancy_add (a : qarray) (idx : list nat) (vals : list Qc) : qarray :=
  fold_left (fun r iv => qset r (fst iv) (snd iv))
    (combine idx (map (fun iv => a (fst iv) + snd iv) (combine idx vals))) a.

(** ** Symbolic translation costs *)
(** cost.py:626-637 get_unit_calibration_params, 639-648: the parameters c_* *)
Record calibration := mkCal {
  c_l2l : Qc; c_l2p : Qc; c_m2l : Qc; c_m2m : Qc; c_m2p : Qc; c_p2l : Qc; c_p2m : Qc; c_p2p : Qc }.
Definition unit_calibration : calibration := mkCal 1 1 1 1 1 1 1 1.

(** cost.py:87-110 FMMTranslationCostModel; ncoeffs already evaluated *)
Record xlat_model := mkXlat { ncoeffs : nat -> Z; uses_point_and_shoot : bool }.
(** cost.py:134-145; ** (1/2) and ** (3/2) are only used with the square numbers of
    coefficients (p+1)^2 of the 3D model, where they are exact *)
Definition e2e_cost (x : xlat_model) (ns nt : Z) : Z :=
  if uses_point_and_shoot x
  then (Z.sqrt ns ^ 3 + Z.sqrt ns * nt + Z.sqrt nt ^ 3)%Z
  else (ns * nt)%Z.
(** cost.py:152-167, 170-180, evaluated with p_fmm_lev{i} = level_to_order[i] *)
Definition pde_aware_model (dim : nat) (order : nat -> nat) : xlat_model :=
  mkXlat (fun l => (Z.of_nat (order l) + 1) ^ (Z.of_nat dim - 1))%Z (dim =? 3)%nat.
Definition taylor_model (dim : nat) (order : nat -> nat) : xlat_model :=
  mkXlat (fun l => (Z.of_nat (order l) + 1) ^ Z.of_nat dim)%Z false.

(** cost.py:387-432 fmm_cost_factors_for_kernels_from_model *)
Record cost_factors := mkFactors {
  p2m_cost : qarray; m2m_cost : qarray; p2p_cost : Qc; m2l_cost : qarray;
  m2p_cost : qarray; p2l_cost : qarray; l2l_cost : qarray; l2p_cost : qarray }.
Definition factors_from_model (x : xlat_model) (c : calibration) : cost_factors :=
  let e2e l l' := of_Z (e2e_cost x (ncoeffs x l) (ncoeffs x l')) in
  {| p2m_cost l := c_p2m c * of_Z (ncoeffs x l);
     m2m_cost l := c_m2m c * e2e (l + 1)%nat l;
     p2p_cost := c_p2p c;
     m2l_cost l := c_m2l c * e2e l l;
     m2p_cost l := c_m2p c * of_Z (ncoeffs x l);
     p2l_cost l := c_p2l c * of_Z (ncoeffs x l);
     l2l_cost l := c_l2l c * e2e l (l + 1)%nat;
     l2p_cost l := c_l2p c * of_Z (ncoeffs x l) |}.

(** starts[i+1] - starts[i] *)
Definition row_len (c : csr) (i : nat) : Z :=
  (Z.of_nat (nth (S i) (starts c) 0%nat) - Z.of_nat (nth i (starts c) 0%nat))%Z.

Section Process.
Variable t : tree.
Variable p : particles.
Variable tr : traversal.
(** argument box_target_counts_nonchild (the tree's counts by default) *)
Variable tcounts : nat -> nat.
Variable F : cost_factors.

Definition nsrc (b : nat) : Z := Z.of_nat (box_source_counts_nonchild p b).
Definition ntgt (b : nat) : Z := Z.of_nat (tcounts b).
Definition lvl (b : nat) : nat := box_level t b.
Let sb := source_boxes tr.
Let spb := source_parent_boxes tr.
Let tb := target_boxes tr.
Let ttpb := target_or_target_parent_boxes tr.

(** *** OpenCL implementation FMMCostModel *)
(** cost.py:725-775 *)
Definition form_multipoles_cost : list Qc := map (fun b => of_Z (nsrc b) * p2m_cost F (lvl b)) sb.

Definition nchild (b : nat) : nat :=
  length (filter (fun m => negb (box_child t m b =? 0)%nat) (seq 0 (nchildren t))).
(** cost.py:781-849 *)
Definition coarsen_multipoles_cost : Qc :=
  qsum (map (fun b => if (lvl b <=? 1)%nat then 0
                      else of_Z (Z.of_nat (nchild b)) * m2m_cost F (lvl b)) spb).

(** cost.py:868-891: one run of the kernel, adding to the array *)
Definition ndirect_kernel (c : csr) (old : list Z) : list Z :=
  map (fun iv => add32 (snd iv) (fold_left (fun n S => add32 n (nsrc S)) (csr_get c (fst iv)) 0%Z))
      (combine (seq 0 (length old)) old).
Definition ndirect_opt (c : option csr) (old : list Z) : list Z :=
  match c with Some c => ndirect_kernel c old | None => old end.
(** cost.py:893-939 *)
Definition ndirect_sources : list Z :=
  ndirect_opt (from_sep_close_bigger tr) (ndirect_opt (from_sep_close_smaller tr)
    (ndirect_kernel (neighbor_source_boxes tr) (map (fun _ => 0%Z) tb))).
(** cost.py:941-950: a product of two 32-bit integer arrays, then the float factor *)
Definition direct_cost (ndirect : list Z) : list Qc :=
  map (fun nb => of_Z (mul32 (fst nb) (ntgt (snd nb))) * p2p_cost F) (combine ndirect tb).

(** cost.py:957-1008 *)
Definition list2_cost : list Qc :=
  map (fun ib => of_Z (row_len (from_sep_siblings tr) (fst ib)) * m2l_cost F (lvl (snd ib)))
      (combine (seq 0 (length ttpb)) ttpb).

(** cost.py:1026-1043, work items of one launch in order *)
Definition list3_kernel_cost (l : nat) (boxes : list nat) (c : csr) (nm2p : qarray) : qarray :=
  fold_left (fun nm2p ib =>
      qadd_at nm2p (snd ib) (of_Z (mul32 (ntgt (snd ib)) (row_len c (fst ib))) * m2p_cost F l))
    (combine (seq 0 (length boxes)) boxes) nm2p.
(** cost.py:1045-1071 *)
Definition list3_cost : qarray :=
  fold_left (fun nm2p lb => list3_kernel_cost (fst lb) (fst (snd lb)) (snd (snd lb)) nm2p)
    (combine (seq 0 (length (from_sep_smaller_by_level tr))) (from_sep_smaller_by_level tr)) qzeros.

(** cost.py:1078-1135 *)
Definition list4_cost : list Qc :=
  map (fun i => fold_left (fun a S => a + of_Z (nsrc S) * p2l_cost F (lvl S))
                  (csr_get (from_sep_bigger tr) i) 0) (seq 0 (length ttpb)).

(** cost.py:1142-1193 *)
Definition eval_locals_cost : list Qc := map (fun b => of_Z (ntgt b) * l2p_cost F (lvl b)) tb.

(** cost.py:1200-1240, range slice(1, nlevels) *)
Definition refine_locals_cost : Qc :=
  let ls := level_start_target_or_target_parent_box_nrs tr in
  qsum (map (fun i => of_Z (Z.of_nat (nth (i + 1) ls 0%nat) - Z.of_nat (nth i ls 0%nat)) * l2l_cost F (i - 1)%nat)
            (seq 1 (nlevels t - 1))).

(** cost.py:445-525; [ndirect] is the argument ndirect_sources_per_target_box *)
Definition cost_per_box_with (ndirect : list Z) : qarray :=
  let r := fancy_add qzeros sb form_multipoles_cost in
  let r := fancy_add r tb (direct_cost ndirect) in
  let r := fancy_add r ttpb list2_cost in
  let r := fun b => r b + list3_cost b in
  let r := fancy_add r ttpb list4_cost in
  fancy_add r tb eval_locals_cost.
Definition cost_per_box : qarray := cost_per_box_with ndirect_sources.

(** cost.py:527-624 and 639-648: the stages of the FMM *)
Record stage_costs := mkStages {
  form_multipoles_stage : Qc; coarsen_multipoles_stage : Qc; eval_direct_stage : Qc;
  multipole_to_local_stage : Qc; eval_multipoles_stage : Qc; form_locals_stage : Qc;
  refine_locals_stage : Qc; eval_locals_stage : Qc }.
Definition cost_per_stage_with (ndirect : list Z) : stage_costs :=
  {| form_multipoles_stage := qsum form_multipoles_cost;
     coarsen_multipoles_stage := coarsen_multipoles_cost;
     eval_direct_stage := qsum (direct_cost ndirect);
     multipole_to_local_stage := qsum list2_cost;
     eval_multipoles_stage := qsum (map list3_cost (seq 0 (nboxes t)));
     form_locals_stage := qsum list4_cost;
     refine_locals_stage := refine_locals_cost;
     eval_locals_stage := qsum eval_locals_cost |}.
Definition cost_per_stage : stage_costs := cost_per_stage_with ndirect_sources.

(** *** Reference implementation _PythonFMMCostModel *)
(** cost.py:1264-1277: enumerate(boxes[start:stop], start) per level *)
Definition by_levels (ls boxes : list nat) (upd : qarray -> nat -> nat -> nat -> qarray) : qarray :=
  fold_left (fun a l =>
      let start := nth l ls 0%nat in let stop := nth (l + 1) ls 0%nat in
      fold_left (fun a ib => upd a l (fst ib) (snd ib))
        (combine (seq start (stop - start)) (slice boxes start stop)) a)
    (seq 0 (nlevels t)) qzeros.
Definition py_form_multipoles : list Qc :=
  map (by_levels (level_start_source_box_nrs tr) sb
         (fun a l i b => qset a i (of_Z (nsrc b) * p2m_cost F l)))
      (seq 0 (length sb)).
(** cost.py:1279-1314; 32-bit numpy scalars are added, the results stored as floats *)
Definition py_ndirect : list Z :=
  let add n row := fold_left (fun n S => add32 n (nsrc S)) row n in
  map (fun i =>
      let n := add 0%Z (csr_get (neighbor_source_boxes tr) i) in
      let n := match from_sep_close_smaller tr with Some c => add n (csr_get c i) | None => n end in
      match from_sep_close_bigger tr with Some c => add n (csr_get c i) | None => n end)
    (seq 0 (length tb)).
(** cost.py:1316-1325: the counts are floats, no integer product *)
Definition py_direct (ndirect : list Z) : list Qc :=
  map (fun nb => of_Z (ntgt (snd nb)) * of_Z (fst nb) * p2p_cost F) (combine ndirect tb).
(** cost.py:1327-1338 *)
Definition py_list2 : list Qc :=
  map (fun ib => 0 + m2l_cost F (lvl (snd ib)) * of_Z (row_len (from_sep_siblings tr) (fst ib)))
      (combine (seq 0 (length ttpb)) ttpb).
(** cost.py:1340-1356; as the OpenCL implementation, a product of 32-bit numpy scalars *)
Definition py_list3 : qarray := list3_cost.
(** cost.py:1358-1370 *)
Definition py_list4 : list Qc := list4_cost.
(** cost.py:1372-1388 *)
Definition py_eval_locals : list Qc :=
  map (by_levels (level_start_target_box_nrs tr) tb
         (fun a l i b => qadd_at a i (of_Z (ntgt b) * l2p_cost F l)))
      (seq 0 (length tb)).
(** cost.py:1390-1415 *)
Definition py_coarsen_multipoles : Qc :=
  let ls := level_start_source_parent_box_nrs tr in
  fold_left (fun result source_level =>
      let target_level := (source_level - 1)%nat in
      let nmultipoles :=
        fold_left (fun n ibox =>
            fold_left (fun n m => if (box_child t m ibox =? 0)%nat then n else (n + 1)%nat)
              (seq 0 (nchildren t)) n)
          (slice spb (nth target_level ls 0%nat) (nth (target_level + 1) ls 0%nat)) 0%nat in
      result + m2m_cost F target_level * of_Z (Z.of_nat nmultipoles))
    (rev (seq 3 (nlevels t - 3))) 0.
(** cost.py:1417-1427 *)
Definition py_refine_locals : Qc :=
  let ls := level_start_target_or_target_parent_box_nrs tr in
  fold_left (fun result l =>
      result + of_Z (Z.of_nat (nth (l + 1) ls 0%nat) - Z.of_nat (nth l ls 0%nat)) * l2l_cost F (l - 1)%nat)
    (seq 1 (nlevels t - 1)) 0.
(** cost.py:445-624 with the reference implementation *)
Definition py_cost_per_box : qarray :=
  let r := fancy_add qzeros sb py_form_multipoles in
  let r := fancy_add r tb (py_direct py_ndirect) in
  let r := fancy_add r ttpb py_list2 in
  let r := fun b => r b + py_list3 b in
  let r := fancy_add r ttpb py_list4 in
  fancy_add r tb py_eval_locals.
Definition py_cost_per_stage : stage_costs :=
  {| form_multipoles_stage := qsum py_form_multipoles;
     coarsen_multipoles_stage := py_coarsen_multipoles;
     eval_direct_stage := qsum (py_direct py_ndirect);
     multipole_to_local_stage := qsum py_list2;
     eval_multipoles_stage := qsum (map py_list3 (seq 0 (nboxes t)));
     form_locals_stage := qsum py_list4;
     refine_locals_stage := py_refine_locals;
     eval_locals_stage := qsum py_eval_locals |}.
End Process.

(** ** Calibration: cost.py:650-708 *)
(** stage names; [Other k] are stages only known through additional_stage_to_param_names *)
Inductive stage := FormMultipoles | CoarsenMultipoles | EvalDirect | MultipoleToLocal
  | EvalMultipoles | FormLocals | RefineLocals | EvalLocals | OtherStage (k : nat).
Inductive param := CP2M | CM2M | CP2P | CM2L | CM2P | CP2L | CL2L | CL2P | OtherParam (k : nat).
Definition stage_eqb (a b : stage) : bool :=
  match a, b with
  | FormMultipoles, FormMultipoles | CoarsenMultipoles, CoarsenMultipoles | EvalDirect, EvalDirect
  | MultipoleToLocal, MultipoleToLocal | EvalMultipoles, EvalMultipoles | FormLocals, FormLocals
  | RefineLocals, RefineLocals | EvalLocals, EvalLocals => true
  | OtherStage j, OtherStage k => (j =? k)%nat
  | _, _ => false
  end.
Definition param_eqb (a b : param) : bool :=
  match a, b with
  | CP2M, CP2M | CM2M, CM2M | CP2P, CP2P | CM2L, CM2L | CM2P, CM2P | CP2L, CP2L
  | CL2L, CL2L | CL2P, CL2P => true
  | OtherParam j, OtherParam k => (j =? k)%nat
  | _, _ => false
  end.
(** cost.py:639-648 *)
Definition stage_to_param : list (stage * param) :=
  [(FormMultipoles, CP2M); (CoarsenMultipoles, CM2M); (EvalDirect, CP2P); (MultipoleToLocal, CM2L);
   (EvalMultipoles, CM2P); (FormLocals, CP2L); (RefineLocals, CL2L); (EvalLocals, CL2P)].
(** a dict as an association list with unique keys *)
Definition lookup (s : stage) (d : list (stage * Qc)) : option Qc :=
  option_map snd (find (fun e => stage_eqb (fst e) s) d).
Definition lookup_param (s : stage) (d : list (stage * param)) : option param :=
  option_map snd (find (fun e => stage_eqb (fst e) s) d).
(** cost.py:681-685 uncalibrated_times[param][icase]: the last stage with that parameter wins *)
Definition uncalibrated (m : list (stage * param)) (q : param) (model_result : list (stage * Qc)) : Qc :=
  fold_left (fun v sp => if param_eqb (snd sp) q
                         then match lookup (fst sp) model_result with Some x => x | None => v end else v) m 0.
(** cost.py:687-690; [None] = KeyError for a timed stage without a parameter *)
Definition actual (m : list (stage * param)) (q : param) (timing : list (stage * Qc)) : option Qc :=
  fold_left (fun v st => match v, lookup_param (fst st) m with
                         | Some v, Some q' => Some (if param_eqb q' q then snd st else v)
                         | _, _ => None
                         end) timing (Some 0).
Definition qdot (a b : list Qc) : Qc := qsum (map (fun xy => fst xy * snd xy) (combine a b)).
(** np.allclose(u, 0): |u| <= atol = 1e-8 in every entry *)
Definition atol : Qc := Q2Qc (1 # 100000000).
Definition qabs_le (x y : Qc) : bool :=
  if Qclt_le_dec y x then false else if Qclt_le_dec y (- x) then false else true.
Definition all_close_zero (u : list Qc) : bool := forallb (fun x => qabs_le x atol) u.
(** a returned number; 0/0 is NaN *)
Inductive fl := NaN | Fin (x : Qc).
Definition fdiv (x y : Qc) : fl := if Qc_eq_dec y 0 then NaN else Fin (x / y).
(** the result for one parameter *)
Definition fit (u a : list Qc) : fl := if all_close_zero u then Fin 0 else fdiv (qdot a u) (qdot u u).
(** cost.py:650-708 with the stage map [m]; [None] = AssertionError (different numbers of
    results) or KeyError *)
Definition estimate (m : list (stage * param)) (models timings : list (list (stage * Qc))) (q : param)
  : option fl :=
  if (length timings =? length models)%nat then
    match run_all (actual m q) timings with
    | Some a => Some (fit (map (uncalibrated m q) models) a)
    | None => None
    end
  else None.
