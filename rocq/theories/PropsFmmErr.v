(** Property C110: the error codes of pyfmmlib.  With routines that compute correct values wherever
    they report no error, the FMM gives the right potentials or raises RuntimeError. *)
From Coq Require Import List Arith ZArith NArith Lia Bool QArith Qcanon.
From Verif Require Import Base Tree Spec TreeFacts Traversal SpecTraversal LevelStarts Fmm SpecFmm FmmFacts FmmThm FmmGen SpecFmmGen FmmGenFacts FmmGenThm
  Layout FmmLib SpecFmmLib FmmLibFacts FmmLibThm FmmLibCtor ScaledQuad FmmGrad SpecFmmGrad FmmGradFacts FmmErr SpecFmmErr FmmErrFacts CheckTree ExampleTree
  PropsTraversal PropsFmm PropsFmmGen PropsFmmLib PropsFmmGrad.
Import ListNotations.
Local Open Scope nat_scope.

(** C110.  The result is that of the correct routines, or RuntimeError was raised, and then some
    routine does report errors. *)
Theorem C110_right_or_raised : forall (pt Wt D ang rmat : Type) (M L V : cmonoid) (lib : library pt (strength Wt D) ang rmat M L V)
    ier raw exact neg (wr : wrangler ang D) complex_dipole times real_part t p starts box_centers sources targets tr weights,
  wr_dim wr = 2 \/ wr_dim wr = 3 -> correct_unless_reported (wr_dim wr) lib ier raw exact ->
  let result := drive_fmm_err lib ier raw neg false wr complex_dipole times real_part t p starts box_centers sources targets
                  (output_zeros (wr_dim wr) false) tr weights in
  let right := drive_fmm_lib exact wr complex_dipole times real_part t p starts box_centers sources targets tr weights in
  (result = inl RuntimeError /\ reports_an_error (wr_dim wr) ier raw) \/
  match result with
  | inr (Flat a) => forall j, right j = Some (a j)
  | inl e => e = LibraryOutOfBounds /\ forall j, right j = None
  | _ => False
  end.
Proof.
  intros pt Wt D ang rmat M L V lib ier raw exact neg wr cd times rp t p st bc sc tg tr w DIM CU result right.
  destruct (potentials_sim lib ier raw exact neg wr cd t p st bc sc tg DIM CU tr (fun k => w (user_source_ids p k))) as [[E B]|H].
  - left. split; auto. unfold result, drive_fmm_err. change (@output_zeros V (wr_dim wr) false) with (Flat (fun _ => @e0 V)). rewrite E. reflexivity.
  - right. unfold result, right, drive_fmm_err, drive_fmm_lib. change (@output_zeros V (wr_dim wr) false) with (Flat (fun _ => @e0 V)).
    destruct (potentials_err _ _ _ _ _ _ _ _ _ _ _ _ _ _ _ _) as [e|out]; cbn [and_then].
    + destruct H as [-> ->]. auto.
    + destruct H as [a [-> HS]]. unfold shw in HS. destruct out as [b|l|n b]; try contradiction.
      cbn [reorder_potentials and_then]. unfold finalize_pg, finalize_potentials, scale_factor.
      destruct DIM as [-> | ->]; destruct (wr_kernel wr); intros j; rewrite HS; reflexivity.
Qed.

(** C110.  With exact routines: for any built tree and traversal, the direct sum or RuntimeError. *)
Theorem C110_direct_sum_or_raised : forall (pt Wt D ang rmat : Type) (M L V : cmonoid) (lib : library pt (strength Wt D) ang rmat M L V)
    ier raw exact neg
    angle kern multipole local complex_dipole times real_part t P p tr box_centers sources targets user_sources user_targets
    k root_extent helmholtz_k level_to_order order dipole_vec already cutoff rot wr weights dipoles,
  dim t = 2 \/ dim t = 3 -> correct_unless_reported (dim t) lib ier raw exact ->
  linear_library exact -> exact_library exact angle kern multipole local ->
  fmm_input t P p tr -> level_start_box_nrs P (nlevels t) = nboxes t -> 0 < ntargets p ->
  make_wrangler k (dim t) (dim t) (nlevels t) (nsources p) root_extent (user_source_ids p) helmholtz_k level_to_order order dipole_vec already cutoff rot = inr wr ->
  (0 < root_extent)%Qc -> (forall a, helmholtz_k = Some a -> (0 <= a)%Qc) -> describes_dipoles (user_source_ids p) already dipole_vec dipoles ->
  (forall rd, rot = Some rd -> rotation_data_fits tr (fun A B => angle (box_centers A) (box_centers B)) rd) ->
  (forall i, i < nsources p -> sources i = user_sources (user_source_ids p i)) ->
  (forall j, j < ntargets p -> targets (sorted_target_ids p j) = user_targets j) ->
  let result := drive_fmm_err lib ier raw neg false wr complex_dipole times real_part t p (level_start_box_nrs P) box_centers sources targets
                  (output_zeros (dim t) false) tr weights in
  (result = inl RuntimeError /\ reports_an_error (dim t) ier raw) \/
  exists a, result = inr (Flat a) /\
    forall j, j < ntargets p -> Some (a j) = with_factor times real_part k (dim t)
      (msum (map (fun u => kern (user_targets j) (user_sources u) (user_strength k (dim t) complex_dipole weights dipoles u)) (seq 0 (nsources p)))).
Proof.
  intros pt Wt D ang rmat M L V lib ier raw exact neg angle kern mu lo cd times rp t P p tr bc sc tg us ut k re hk f o dip al cu rot wr w dp
    DIM CU LIN EX H LE NT MW RE HA DD ROT US UT result.
  assert (WD : wr_dim wr = dim t).
  { unfold make_wrangler in MW. destruct o as [o|], f as [f|]; try discriminate.
    all: destruct k; destruct hk as [a|]; try destruct (Qc_eq_dec a 0) as [->|NZ]; try discriminate.
    all: destruct (negb (dim t =? dim t)); try discriminate.
    all: try (destruct (Nat.eqb_spec (nlevels t) 0) as [E|]; try discriminate).
    all: destruct dip as [[[rows cols] d]|]; try (destruct ((rows =? dim t) && (cols =? nsources p)); try discriminate).
    all: injection MW as <-; auto. }
  assert (DS : forall j, j < ntargets p -> drive_fmm_lib exact wr cd times rp t p (level_start_box_nrs P) bc sc tg tr w j = with_factor times rp k (dim t)
      (msum (map (fun u => kern (ut j) (us u) (user_strength k (dim t) cd w dp u)) (seq 0 (nsources p))))).
  { intros j Hj. eapply C93_exact_library_gives_direct_sum; eauto. }
  rewrite <- WD in DIM, CU.
  pose proof (C110_right_or_raised pt Wt D ang rmat M L V lib ier raw exact neg wr cd times rp t p (level_start_box_nrs P) bc sc tg tr w DIM CU) as X.
  cbv zeta in X. rewrite WD in X, DIM. fold result in X. destruct X as [X|X]; [left; auto|right].
  destruct result as [e|[a|l|n a]]; try contradiction.
  - exfalso. destruct X as [_ X]. specialize (X 0). rewrite DS in X by auto. unfold with_factor in X. destruct DIM as [E|E]; rewrite E in X; destruct k; discriminate.
  - exists a. split; auto. intros j Hj. rewrite <- X, DS; auto.
Qed.

(** C110.  Nothing is raised as long as no error is reported. *)
Theorem C110_no_spurious_errors : forall (pt Wt D ang rmat : Type) (M L V : cmonoid) (lib : library pt (strength Wt D) ang rmat M L V)
    ier raw exact neg (wr : wrangler ang D) complex_dipole times real_part t p starts box_centers sources targets tr weights,
  wr_dim wr = 2 \/ wr_dim wr = 3 -> correct_unless_reported (wr_dim wr) lib ier raw exact -> ~ reports_an_error (wr_dim wr) ier raw ->
  drive_fmm_err lib ier raw neg false wr complex_dipole times real_part t p starts box_centers sources targets
    (output_zeros (wr_dim wr) false) tr weights <> inl RuntimeError.
Proof.
  intros pt Wt D ang rmat M L V lib ier raw exact neg wr cd times rp t p st bc sc tg tr w DIM CU NR E.
  destruct (C110_right_or_raised pt Wt D ang rmat M L V lib ier raw exact neg wr cd times rp t p st bc sc tg tr w DIM CU) as [[_ B]|X]; auto.
  rewrite E in X. destruct X as [X _]. discriminate.
Qed.

(** C110.  An error in forming a multipole expansion of a box with sources is never ignored. *)
Theorem C110_forming_errors_raise : forall (pt Wt D ang rmat : Type) (M L V : cmonoid) (lib : library pt (strength Wt D) ang rmat M L V)
    ier raw neg ifgrad (wr : wrangler ang D) complex_dipole times real_part t p starts box_centers sources targets zeros tr weights lev b,
  lev < nlevels t -> In b (slice (source_boxes tr) (nth lev (level_start_source_box_nrs tr) 0) (nth (lev + 1) (level_start_source_box_nrs tr) 0)) ->
  box_source_counts_nonchild p b <> 0 ->
  formmp_ier ier (mkFrame (box_centers b) (level_to_rscale wr lev) (nth lev (wr_level_orders wr) 0)) (map sources (source_slice p b))
    (map (source_strength wr complex_dipole (fun k => weights (user_source_ids p k))) (source_slice p b)) <> 0%Z ->
  drive_fmm_err lib ier raw neg ifgrad wr complex_dipole times real_part t p starts box_centers sources targets zeros tr weights = inl RuntimeError.
Proof.
  intros pt Wt D ang rmat M L V lib ier raw neg ifgrad wr cd times rp t p st bc sc tg zeros tr w lev b HL HB HC HE.
  unfold drive_fmm_err, potentials_err. set (w' := fun k => w (user_source_ids p k)) in *.
  replace (form_multipoles_err lib ier wr cd t p st bc sc (level_start_source_box_nrs tr) (source_boxes tr) w') with (inl RuntimeError : py_error + storage M); auto.
  symmetry. unfold form_multipoles_err.
  assert (ONE : forall lev0 (x : storage M) y, (exists b', (if box_source_counts_nonchild p y =? 0 then inr x else
      and_then (checked (formmp_ier ier (mkFrame (bc y) (level_to_rscale wr lev0) (nth lev0 (wr_level_orders wr) 0)) (map sc (source_slice p y)) (map (source_strength wr cd w') (source_slice p y)))
        (formmp lib (mkFrame (bc y) (level_to_rscale wr lev0) (nth lev0 (wr_level_orders wr) 0)) (map sc (source_slice p y)) (map (source_strength wr cd w') (source_slice p y))))
        (fun mpole => inr (view_set st x lev0 y mpole))) = inr b') \/ (if box_source_counts_nonchild p y =? 0 then inr x else
      and_then (checked (formmp_ier ier (mkFrame (bc y) (level_to_rscale wr lev0) (nth lev0 (wr_level_orders wr) 0)) (map sc (source_slice p y)) (map (source_strength wr cd w') (source_slice p y)))
        (formmp lib (mkFrame (bc y) (level_to_rscale wr lev0) (nth lev0 (wr_level_orders wr) 0)) (map sc (source_slice p y)) (map (source_strength wr cd w') (source_slice p y))))
        (fun mpole => inr (view_set st x lev0 y mpole))) = inl RuntimeError).
  { intros lev0 x y. destruct (_ =? 0); eauto. unfold checked. destruct (_ =? 0)%Z; cbn [and_then]; eauto. }
  apply (fold_err_stops _ _ _ lev); [apply in_seq; lia| |].
  - intros x. apply (fold_err_stops _ _ _ b); auto. intros x'. cbv zeta. apply Nat.eqb_neq in HC. rewrite HC. unfold checked. apply Z.eqb_neq in HE. rewrite HE. auto.
  - intros x lev0 _. apply fold_err_only. intros x' y _. apply ONE.
Qed.

(** ** Cases *)
(** Routines that give up on expansions of order [o]: formmp, mpmp, mploc, formta, locloc, mpeval and
    taeval if [s] is 0, ..., 6.  The values are then wrong (three times the right ones). *)
Definition gives_up (d s o s' : nat) (f : frame spt) : bool := (s =? s') && (fr_order f =? o) && ((d =? 3) || (s =? 0) || (s =? 3)).
Definition wrong {X : cmonoid} (fails : bool) (v : X) : X := if fails then op v (op v v) else v.
Definition code_of (fails : bool) : Z := if fails then 4%Z else 0%Z.
Definition ex_bad_lib (d s o : nat) : library spt (strength Qc spt) spt smat SQm SQm SVm :=
  @mkLib spt (strength Qc spt) spt smat SQm SQm SVm
    (fun f xs ws => wrong (gives_up d s o 0 f) (formmp scaled_lib f xs ws))
    (fun r f m f' => wrong (gives_up d s o 1 f) (mpmp scaled_lib r f m f'))
    (fun q r f m f' => wrong (gives_up d s o 2 f) (mploc scaled_lib q r f m f'))
    (mpeval scaled_lib)
    (fun f xs ws => wrong (gives_up d s o 3 f) (formta scaled_lib f xs ws))
    (fun r f l f' => wrong (gives_up d s o 4 f) (locloc scaled_lib r f l f'))
    (taeval scaled_lib) (potall scaled_lib) (rotmat_builder scaled_lib) (negated scaled_lib).
Definition ex_codes (d s o : nat) : codes spt (strength Qc spt) smat SQm SQm :=
  mkCodes (fun f _ _ => code_of (gives_up d s o 0 f)) (fun _ f _ _ => code_of (gives_up d s o 1 f))
    (fun _ _ f _ _ => Z.to_N (code_of (gives_up d s o 2 f))) (fun f _ _ => Z.to_N (code_of (gives_up d s o 3 f)))
    (fun _ f _ _ => code_of (gives_up d s o 4 f)).
Definition ex_bad_raw (d s o : nat) : raw_library spt (strength Qc spt) SQm SQm SVm := {|
  potgrad2 := potgrad2 ex_raw; potfld3 := potfld3 ex_raw; mpeval2 := mpeval2 ex_raw; taeval2 := taeval2 ex_raw;
  mpeval3 := fun b f m y => (wrong (gives_up d s o 5 f) (mpeval scaled_lib f m y), fun _ => Q2Qc 77, code_of (gives_up d s o 5 f));
  taeval3 := fun b f l y => (wrong (gives_up d s o 6 f) (taeval scaled_lib f l y), fun _ => Q2Qc 77, code_of (gives_up d s o 6 f)) |}.
(** they meet the hypothesis of the theorems *)
Example ex_bad_correct : forall d s o, correct_unless_reported d (ex_bad_lib d s o) (ex_codes d s o) (ex_bad_raw d s o) scaled_lib.
Proof.
  intros d s o. assert (X : forall s' f, code_of (gives_up d s o s' f) = 0%Z -> gives_up d s o s' f = false) by (intros s' f; destruct (gives_up d s o s' f); [discriminate|auto]).
  assert (Y : forall s' f, Z.to_N (code_of (gives_up d s o s' f)) = 0%N -> gives_up d s o s' f = false) by (intros s' f; destruct (gives_up d s o s' f); [discriminate|auto]).
  assert (Z : forall s' f, s' <> 0 -> s' <> 3 -> d = 2 -> gives_up d s o s' f = false).
  { intros s' f N0 N3 ->. unfold gives_up. destruct (Nat.eqb_spec s s') as [->|]; auto. destruct s' as [|[|[|[|s']]]]; try lia; cbn; apply Bool.andb_false_r. }
  split; try reflexivity; intros; cbn [ex_bad_lib ex_codes ex_bad_raw formmp mpmp mploc formta locloc formmp_ier mpmp_ier mploc_ier formta_ier locloc_ier mpeval3 taeval3 fst snd] in *.
  - rewrite X; auto.
  - rewrite (match H with or_introl e => Z 1 f ltac:(lia) ltac:(lia) e | or_intror e => X 1 f e end); auto.
  - rewrite (match H with or_introl e => Z 2 f ltac:(lia) ltac:(lia) e | or_intror e => Y 2 f e end); auto.
  - rewrite Y; auto.
  - rewrite (match H with or_introl e => Z 4 f ltac:(lia) ltac:(lia) e | or_intror e => X 4 f e end); auto.
  - rewrite X; auto.
  - rewrite X; auto.
Qed.
Definition ex_drive_err (tr : traversal) (wr : wrangler spt spt) (s o : nat) :=
  drive_fmm_err (ex_bad_lib (wr_dim wr) s o) (ex_codes (wr_dim wr) s o) (ex_bad_raw (wr_dim wr) s o) ex_neg false wr (fun w d => Qcmult w (fst d)) ex_times (fun v => v)
    ex_tree ex_particles ex_level_starts ex_centers
    (fun i => ex_source (user_source_ids ex_particles i)) (fun i => ex_target i) (output_zeros (wr_dim wr) false) tr (fun u => q_of (Z.of_nat (u * u + 1))).
Definition verdict (k : kernel) (d : nat) (r : py_error + output SVm) : option bool :=
  match r with
  | inr (Flat a) => Some (same_number (a 20) (ex_times (match k, d with LAPLACE, 2 => MinusOneOver2Pi | HELMHOLTZ, 2 => One | _, _ => OneOver4Pi end)
       (fold_right Qcplus 0%Qc (map (fun u => potential (ex_target (sorted_target_ids ex_particles 20)) (ex_source u) (ex_strength k d u)) (seq 0 ex_ns)))))
  | inl RuntimeError => None
  | _ => Some false
  end.
Definition ex_verdicts (k : kernel) (d : nat) (o : nat) : list (option bool) :=
  match ex_trav 1 (ex_extent true static_l2 2) with
  | Some tr => match ex_wrangler k d (Some (ex_rotation_data tr)) with
               | inr wr => map (fun s => verdict k d (ex_drive_err tr wr s o)) (seq 0 7)
               | inl _ => [] end
  | None => [] end.
(** In a run of each, the sum is right (Some true) or RuntimeError is raised (None); all seven
    routines can cause it. *)
Example ex_err_run : ex_verdicts HELMHOLTZ 3 1 = [None; None; Some true; None; Some true; None; None] /\
  ex_verdicts HELMHOLTZ 3 3 = [None; Some true; None; Some true; None; Some true; None].
Proof. vm_compute. split; reflexivity. Qed.
(** some routine reports errors; none does *)
Example ex_reports : reports_an_error 3 (ex_codes 3 0 1) (ex_bad_raw 3 0 1) /\ ~ reports_an_error 2 (ex_codes 2 1 1) (ex_bad_raw 2 1 1).
Proof.
  split.
  - left. exists (mkFrame (0, 0)%Qc 1%Qc 1), [], []. cbn. discriminate.
  - unfold reports_an_error. intros [[f [xs [ws N]]]|[[f [xs [ws N]]]|[[N _]|[N _]]]]; try (apply N; reflexivity); discriminate.
Qed.
(** a box with sources for which an error is reported *)
Example ex_forming_error : match ex_trav 1 (ex_extent true static_l2 2) with
  | Some tr => existsb (fun lev => existsb (fun b => negb (box_source_counts_nonchild ex_particles b =? 0) && (5 - lev =? 1))
      (slice (source_boxes tr) (nth lev (level_start_source_box_nrs tr) 0) (nth (lev + 1) (level_start_source_box_nrs tr) 0))) (seq 0 (nlevels ex_tree))
  | None => false end = true.
Proof. vm_compute. reflexivity. Qed.

Print Assumptions C110_right_or_raised.
Print Assumptions C110_direct_sum_or_raised.
Print Assumptions C110_no_spurious_errors.
Print Assumptions C110_forming_errors_raise.
