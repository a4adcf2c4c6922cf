(** Property C108: the routines of pyfmmlib that are called, what is made of their results, and what
    happens if gradients are asked for. *)
From Coq Require Import List Arith ZArith Lia Bool String QArith Qcanon.
From Verif Require Import Base Tree Spec TreeFacts Traversal SpecTraversal LevelStarts Fmm SpecFmm FmmFacts FmmThm FmmGen SpecFmmGen FmmGenFacts FmmGenThm
  Layout FmmLib SpecFmmLib FmmLibFacts FmmLibThm FmmLibCtor ScaledQuad FmmGrad SpecFmmGrad FmmGradFacts CheckTree ExampleTree PropsTraversal PropsFmm PropsFmmGen PropsFmmLib.
Import ListNotations.
Local Open Scope string_scope.
Local Open Scope list_scope.
Local Open Scope nat_scope.

(** C108.  Every stage calls the documented routine. *)
Theorem C108_routine_names : forall (k : kernel) (three_dimensional dipoles : bool) (s : stage),
  stage_routine k (if three_dimensional then 3 else 2) dipoles s = inr (documented_routine k three_dimensional dipoles s).
Proof. intros [] [] [] [| |[]| | | | |]; reflexivity. Qed.
(** Two calls get the same routine only if they agree in all that matters. *)
Theorem C108_routine_names_differ : forall (k k' : kernel) (d d' dp dp' : bool) (s s' : stage),
  documented_routine k d dp s = documented_routine k' d' dp' s' -> k = k' /\ d = d' /\ s = s' /\ (sees_sources s = true -> dp = dp').
Proof.
  intros k k' d d' dp dp' s s' E.
  assert (X : match s, s' with MultipoleToLocal a, MultipoleToLocal b => a = b
     | FormMultipoles, FormMultipoles | CoarsenMultipoles, CoarsenMultipoles | FormLocals, FormLocals | RefineLocals, RefineLocals
     | EvalDirect, EvalDirect | EvalMultipoles, EvalMultipoles | EvalLocals, EvalLocals => True | _, _ => False end /\
     k = k' /\ d = d' /\ (sees_sources s = true -> dp = dp')).
  { revert E. destruct s as [| |[]| | | | |], s' as [| |[]| | | | |]; destruct k, k', d, d', dp, dp'; intros E; cbn in E;
      first [discriminate E | repeat split; try reflexivity; intros H; discriminate H]. }
  destruct X as [X [-> [-> H]]]. split; auto. split; auto. split; auto.
  destruct s as [| |a| | | | |], s' as [| |b| | | | |]; try contradiction; subst; auto.
Qed.
(** In other dimensions evaluation is refused. *)
Theorem C108_other_dimensions : forall (k : kernel) (dim : nat) (dipoles : bool) (s : stage), dim <> 2 -> dim <> 3 -> In s [EvalDirect; EvalMultipoles; EvalLocals] ->
  stage_routine k dim dipoles s = inl ValueError.
Proof.
  intros k dim dp s H2 H3 [<-|[<-|[<-|[]]]]; cbn [stage_routine]; unfold direct_eval_routine_name, expn_eval_routine_name;
    destruct dim as [|[|[|[|d]]]]; auto; congruence.
Qed.

(** C108.  A translation gets the caller's arguments (without level_for_projection), and in three
    dimensions for the Helmholtz kernel a quadrature for the order of the result.  Its value is used
    if and only if no error is reported. *)
Theorem C108_translations : forall (X Y : Type) k dim level_orders rout2 (rout3 : dict X -> Y * list Z) kwargs nterms2,
  dim = 2 \/ dim = 3 -> dict_get kwargs "nterms2" = Some (Nterms nterms2) ->
  exists passed n, quadrature_size nterms2 n /\
    (forall key, dict_get passed key =
       if String.eqb key "level_for_projection" then None
       else if (dim =? 3) && match k with HELMHOLTZ => true | LAPLACE => false end && String.eqb key "xnodes" then Some (Xnodes n)
       else if (dim =? 3) && match k with HELMHOLTZ => true | LAPLACE => false end && String.eqb key "wts" then Some (Wts n)
       else dict_get kwargs key) /\
    (dim = 2 -> translation_wrapper k dim level_orders rout2 rout3 kwargs = inr (rout2 passed)) /\
    (dim = 3 -> (forall z, In z (snd (rout3 passed)) -> z = 0%Z) ->
       translation_wrapper k dim level_orders rout2 rout3 kwargs = inr (fst (rout3 passed))) /\
    (dim = 3 -> (exists z, In z (snd (rout3 passed)) /\ z <> 0%Z) ->
       translation_wrapper k dim level_orders rout2 rout3 kwargs = inl RuntimeError).
Proof.
  intros X Y k dim lo r2 r3 kw n2 DIM HN.
  assert (QS : quadrature_size n2 (Nat.max 6 (5 * n2 / 2))).
  { unfold quadrature_size. destruct (le_lt_dec n2 2) as [C|C].
    - left. split; auto. assert (5 * n2 / 2 <= 5 * 2 / 2) by (apply Nat.div_le_mono; lia). change (5 * 2 / 2) with 5 in H. lia.
    - right. split; auto. assert (5 * 3 / 2 <= 5 * n2 / 2) by (apply Nat.div_le_mono; lia). change (5 * 3 / 2) with 7 in H.
      rewrite Nat.max_r by lia. pose proof (Nat.div_mod (5 * n2) 2 ltac:(lia)). pose proof (Nat.mod_upper_bound (5 * n2) 2 ltac:(lia)). lia. }
  assert (POP : forall key, dict_get (dict_pop kw "level_for_projection") key = if String.eqb key "level_for_projection" then None else dict_get kw key)
    by (intros; apply dict_pop_get).
  exists (match dim, k with
          | 3, HELMHOLTZ => dict_update (dict_pop kw "level_for_projection") [("xnodes", Xnodes (Nat.max 6 (5 * n2 / 2))); ("wts", Wts (Nat.max 6 (5 * n2 / 2)))]
          | _, _ => dict_pop kw "level_for_projection" end), (Nat.max 6 (5 * n2 / 2)).
  split; auto.
  assert (N2 : dict_get (dict_pop kw "level_for_projection") "nterms2" = Some (Nterms n2)) by (rewrite POP; exact HN).
  split.
  - intros key. destruct DIM as [-> | ->]; cbn [Nat.eqb andb]; [apply POP|]. destruct k; cbn [andb]; [apply POP|].
    unfold dict_update, dict_get. cbn [app find fst].
    rewrite (String.eqb_sym "xnodes" key), (String.eqb_sym "wts" key).
    destruct (String.eqb_spec key "xnodes") as [->|]; [reflexivity|]. destruct (String.eqb_spec key "wts") as [->|]; [reflexivity|]. apply POP.
  - unfold translation_wrapper. split; [|split].
    + intros ->. reflexivity.
    + intros -> Z. cbn [Nat.eqb]. cbv zeta. rewrite N2. destruct k; cbn [projection_quad_extra_kwargs]; unfold dict_update in *; cbn [app] in *;
        match goal with |- context [r3 ?d] => destruct (r3 d) as [v ier] end; cbn [fst snd] in *;
        (rewrite (existsb_none_in _ ier); [reflexivity|]); intros z Hz; rewrite (Z z Hz); reflexivity.
    + intros -> [z [Hz Z]]. cbn [Nat.eqb]. cbv zeta. rewrite N2. destruct k; cbn [projection_quad_extra_kwargs]; unfold dict_update in *; cbn [app] in *;
        match goal with |- context [r3 ?d] => destruct (r3 d) as [v ier] end; cbn [fst snd] in *;
        (replace (existsb _ ier) with true; [reflexivity|]); symmetry; apply existsb_exists; exists z; split; auto;
        (destruct (Z.eqb_spec z 0); [contradiction|reflexivity]).
Qed.

(** C108.  Without gradients: the result has one number for each target, and it is what FmmLib.v says
    (C93), whatever the routines return where nothing was asked for. *)
Theorem C108_without_gradients : forall (pt Wt D ang rmat : Type) (M L V : cmonoid) (lib : library pt (strength Wt D) ang rmat M L V)
    raw neg (wr : wrangler ang D) complex_dipole times real_part t p starts box_centers sources targets tr weights dpotall dmpeval dtaeval,
  wr_dim wr = 2 \/ wr_dim wr = 3 -> (forall v, neg (neg v) = v) -> no_errors raw ->
  returns_potential_and_gradient (wr_dim wr) neg raw lib dpotall dmpeval dtaeval ->
  match drive_fmm_pg lib raw neg false wr complex_dipole times real_part t p starts box_centers sources targets (output_zeros (wr_dim wr) false) tr weights with
  | inr (Flat a) => forall j, drive_fmm_lib lib wr complex_dipole times real_part t p starts box_centers sources targets tr weights j = Some (a j)
  | inl e => e = LibraryOutOfBounds /\ forall j, drive_fmm_lib lib wr complex_dipole times real_part t p starts box_centers sources targets tr weights j = None
  | _ => False
  end.
Proof.
  intros pt Wt D ang rmat M L V lib raw neg wr cd times rp t p st bc sc tg tr w dp dm dt DIM NN NE RT.
  unfold drive_fmm_pg, drive_fmm_lib.
  pose proof (potentials_shows lib raw neg NN false wr cd t p st bc sc tg DIM dp dm dt RT NE tr (fun k => w (user_source_ids p k))) as H.
  change (zeros false wr) with (@output_zeros V (wr_dim wr) false) in H.
  destruct (potentials_pg _ _ _ _ _ _ _ _ _ _ _ _ _ _ _) as [e|out]; cbn [and_then].
  - destruct H as [-> H]. split; auto. intros j. specialize (H 0). cbn [row_lib] in H. rewrite H. auto.
  - destruct H as [rows [H S]]. specialize (H 0). cbn [row_lib] in H. rewrite H. unfold shows in S. destruct out as [a|l|n a]; try contradiction.
    cbn [reorder_potentials and_then]. unfold finalize_pg, finalize_potentials, scale_factor.
    destruct DIM as [-> | ->]; destruct (wr_kernel wr); intros j; rewrite S; reflexivity.
Qed.

(** C108.  With exact routines this is the direct sum (as in C93). *)
Theorem C108_direct_sum : forall (pt Wt D ang rmat : Type) (M L V : cmonoid) (lib : library pt (strength Wt D) ang rmat M L V)
    raw neg dpotall dmpeval dtaeval
    angle kern multipole local complex_dipole times real_part t P p tr box_centers sources targets user_sources user_targets
    k root_extent helmholtz_k level_to_order order dipole_vec already cutoff rot wr weights dipoles,
  dim t = 2 \/ dim t = 3 -> (forall v, neg (neg v) = v) -> no_errors raw ->
  returns_potential_and_gradient (dim t) neg raw lib dpotall dmpeval dtaeval ->
  linear_library lib -> exact_library lib angle kern multipole local ->
  fmm_input t P p tr -> level_start_box_nrs P (nlevels t) = nboxes t -> 0 < ntargets p ->
  make_wrangler k (dim t) (dim t) (nlevels t) (nsources p) root_extent (user_source_ids p) helmholtz_k level_to_order order dipole_vec already cutoff rot = inr wr ->
  (0 < root_extent)%Qc -> (forall a, helmholtz_k = Some a -> (0 <= a)%Qc) -> describes_dipoles (user_source_ids p) already dipole_vec dipoles ->
  (forall rd, rot = Some rd -> rotation_data_fits tr (fun A B => angle (box_centers A) (box_centers B)) rd) ->
  (forall i, i < nsources p -> sources i = user_sources (user_source_ids p i)) ->
  (forall j, j < ntargets p -> targets (sorted_target_ids p j) = user_targets j) ->
  exists a, drive_fmm_pg lib raw neg false wr complex_dipole times real_part t p (level_start_box_nrs P) box_centers sources targets (output_zeros (dim t) false) tr weights = inr (Flat a) /\
    forall j, j < ntargets p -> Some (a j) = with_factor times real_part k (dim t)
      (msum (map (fun u => kern (user_targets j) (user_sources u) (user_strength k (dim t) complex_dipole weights dipoles u)) (seq 0 (nsources p)))).
Proof.
  intros pt Wt D ang rmat M L V lib raw neg dpo dmp dta angle kern mu lo cd times rp t P p tr bc sc tg us ut k re hk f o dip al cu rot wr w dp
    DIM NN NE RT LIN EX H LE NT MW RE HA DD ROT US UT.
  assert (WD : wr_dim wr = dim t).
  { unfold make_wrangler in MW. destruct o as [o|], f as [f|]; try discriminate.
    all: destruct k; destruct hk as [a|]; try destruct (Qc_eq_dec a 0) as [->|NZ]; try discriminate.
    all: destruct (negb (dim t =? dim t)); try discriminate.
    all: try (destruct (Nat.eqb_spec (nlevels t) 0) as [E|]; try discriminate).
    all: destruct dip as [[[rows cols] d]|]; try (destruct ((rows =? dim t) && (cols =? nsources p)); try discriminate).
    all: injection MW as <-; auto. }
  assert (DS : forall j, j < ntargets p -> drive_fmm_lib lib wr cd times rp t p (level_start_box_nrs P) bc sc tg tr w j = with_factor times rp k (dim t)
      (msum (map (fun u => kern (ut j) (us u) (user_strength k (dim t) cd w dp u)) (seq 0 (nsources p))))).
  { intros j Hj. eapply C93_exact_library_gives_direct_sum; eauto. }
  rewrite <- WD in DIM, RT. pose proof (C108_without_gradients pt Wt D ang rmat M L V lib raw neg wr cd times rp t p (level_start_box_nrs P) bc sc tg tr w
    dpo dmp dta DIM NN NE RT) as X.
  rewrite WD in X, DIM. destruct (drive_fmm_pg _ _ _ _ _ _ _ _ _ _ _ _ _ _ _ _ _) as [e|[a|l|n a]]; try contradiction.
  - exfalso. destruct X as [_ X]. specialize (X 0). rewrite DS in X by auto. unfold with_factor in X. destruct DIM as [E|E]; rewrite E in X; destruct k; discriminate.
  - exists a. split; auto. intros j Hj. rewrite <- X, DS; auto.
Qed.

(** C108.  If gradients are asked for, the driver never succeeds (unless there are no targets):
    the array made by output_zeros has one axis and is indexed with two. *)
Theorem C108_gradients_refuted : forall (pt Wt D ang rmat : Type) (M L V : cmonoid) (lib : library pt (strength Wt D) ang rmat M L V)
    raw neg (wr : wrangler ang D) complex_dipole times real_part t P p tr starts box_centers sources targets weights,
  wr_dim wr = 2 \/ wr_dim wr = 3 -> fmm_input t P p tr -> 0 < ntargets p ->
  drive_fmm_pg lib raw neg true wr complex_dipole times real_part t p starts box_centers sources targets (output_zeros (wr_dim wr) true) tr weights = inl IndexError.
Proof.
  intros pt Wt D ang rmat M L V lib raw neg wr cd times rp t P p tr st bc sc tg w DIM H NT.
  destruct (C76_owners_and_routes_exist t P p tr 0 H NT) as [T [_ [_ [HT [HTi _]]]]].
  assert (HC : box_target_counts_nonchild p T <> 0) by (destruct (box_target_counts_nonchild p T); [destruct HTi|lia]).
  assert (HTb : In T (target_boxes tr)).
  { eapply input_target_box; eauto. apply (wf_target_flag _ _ (in_particles _ _ _ _ H)); auto. lia. }
  unfold drive_fmm_pg, potentials_pg. cbv zeta.
  rewrite (eval_direct_fails raw neg wr cd p sc tg DIM (target_boxes tr) (neighbor_source_boxes tr) _ T HTb HC). reflexivity.
Qed.

(** C108.  With an array of two axes (as a subclass may make it) the rows are, in tree order, the
    potential and the components of its gradient: each is what the driver computes with a library
    that evaluates that component. *)
Theorem C108_gradients_two_axes : forall (pt Wt D ang rmat : Type) (M L V : cmonoid) (lib : library pt (strength Wt D) ang rmat M L V)
    raw neg (wr : wrangler ang D) complex_dipole t p starts box_centers sources targets tr weights dpotall dmpeval dtaeval,
  wr_dim wr = 2 \/ wr_dim wr = 3 -> (forall v, neg (neg v) = v) -> no_errors raw ->
  returns_potential_and_gradient (wr_dim wr) neg raw lib dpotall dmpeval dtaeval ->
  match potentials_pg lib raw neg true wr complex_dipole t p starts box_centers sources targets (Rows (1 + wr_dim wr) (fun _ _ => e0)) tr weights with
  | inr (Rows n a) => n = 1 + wr_dim wr /\
      (exists pot, potentials_lib lib wr complex_dipole t p starts box_centers sources targets tr weights = Some pot /\ forall i, a 0 i = pot i) /\
      (forall c, c < wr_dim wr -> exists grad,
         potentials_lib (derivative lib dpotall dmpeval dtaeval c) wr complex_dipole t p starts box_centers sources targets tr weights = Some grad /\
         forall i, a (S c) i = grad i)
  | inl e => e = LibraryOutOfBounds /\ potentials_lib lib wr complex_dipole t p starts box_centers sources targets tr weights = None
  | _ => False
  end.
Proof.
  intros pt Wt D ang rmat M L V lib raw neg wr cd t p st bc sc tg tr w dp dm dt DIM NN NE RT.
  pose proof (potentials_shows lib raw neg NN true wr cd t p st bc sc tg DIM dp dm dt RT NE tr w) as H. unfold zeros in H.
  destruct (potentials_pg _ _ _ _ _ _ _ _ _ _ _ _ _ _ _) as [e|out].
  - destruct H as [-> H]. split; auto. apply (H 0).
  - destruct H as [rows [H SH]]. unfold shows in SH. destruct out as [a|l|n a]; try contradiction. destruct SH as [-> SH]. split; auto. split.
    + exists (rows 0). split; [apply (H 0)|]. intros i. apply SH. lia.
    + intros c Hc. exists (rows (S c)). split; [apply (H (S c))|]. intros i. apply SH. lia.
Qed.

(** C108.  In three dimensions a reported error is never ignored: an evaluating stage raises exactly
    if one of its calls reports an error for one of the targets of its box. *)
Theorem C108_errors_in_locals : forall (pt Wt D ang : Type) (M L V : cmonoid) (raw : raw_library pt (strength Wt D) M L V) neg (wr : wrangler ang D)
    t p starts box_centers targets level_starts target_boxes loc,
  wr_dim wr = 3 ->
  let reported := exists lev b i, lev < nlevels t /\ In b (slice target_boxes (nth lev level_starts 0) (nth (lev + 1) level_starts 0)) /\
    In i (seq (box_target_starts p b) (box_target_counts_nonchild p b)) /\
    snd (taeval3 raw false (mkFrame (box_centers b) (level_to_rscale wr lev) (nth lev (wr_level_orders wr) 0)) (view_get starts loc lev b) (targets i)) <> 0%Z in
  let result := eval_locals_pg raw neg false wr t p starts box_centers targets (output_zeros 3 false) level_starts target_boxes loc in
  (reported -> result = inl RuntimeError) /\ (~ reported -> exists a, result = inr (Flat a)).
Proof.
  intros pt Wt D ang M L V raw neg wr t p st bc tg ls tb loc D3 reported result.
  pose proof (eval_locals_codes raw neg wr t p st bc tg D3 ls tb loc) as H. fold result in H.
  match type of H with context [existsb ?f ?l] => destruct (existsb f l) eqn:E end.
  - split; auto. intros N. exfalso. apply N. apply existsb_exists in E. destruct E as [lev [Hl E]].
    apply existsb_exists in E. destruct E as [b [Hb E]]. apply existsb_exists in E. destruct E as [i [Hi E]].
    exists lev, b, i. apply in_seq in Hl. split; [lia|]. split; auto. split; auto. intros Z. rewrite Z in E. discriminate.
  - destruct H as [o [E' [a ->]]]. split; [|intros _; eauto]. intros [lev [b [i [Hl [Hb [Hi Z]]]]]]. exfalso.
    assert (T : existsb (fun lev => existsb (fun b => existsb (fun i => code (snd (taeval3 raw false
        (mkFrame (bc b) (level_to_rscale wr lev) (nth lev (wr_level_orders wr) 0)) (view_get st loc lev b) (tg i))))
        (seq (box_target_starts p b) (box_target_counts_nonchild p b))) (slice tb (nth lev ls 0) (nth (lev + 1) ls 0))) (seq 0 (nlevels t)) = true).
    { apply existsb_exists. exists lev. split; [apply in_seq; lia|]. apply existsb_exists. exists b. split; auto. apply existsb_exists. exists i. split; auto.
      unfold code. apply Bool.negb_true_iff, Z.eqb_neq. auto. }
    rewrite T in E. discriminate.
Qed.
Theorem C108_errors_in_multipoles : forall (pt Wt D ang : Type) (M L V : cmonoid) (raw : raw_library pt (strength Wt D) M L V) neg (wr : wrangler ang D)
    p starts box_centers targets by_level mpoles,
  wr_dim wr = 3 ->
  let reported := exists lev boxes ssn itgt s i, nth_error by_level lev = Some (boxes, ssn) /\ itgt < List.length boxes /\ In s (csr_get ssn itgt) /\
    In i (seq (box_target_starts p (nth itgt boxes 0)) (box_target_counts_nonchild p (nth itgt boxes 0))) /\
    snd (mpeval3 raw false (mkFrame (box_centers s) (level_to_rscale wr lev) (nth lev (wr_level_orders wr) 0)) (view_get starts mpoles lev s) (targets i)) <> 0%Z in
  let result := eval_multipoles_pg raw neg false wr p starts box_centers targets (output_zeros 3 false) by_level mpoles in
  (reported -> result = inl RuntimeError) /\ (~ reported -> exists a, result = inr (Flat a)).
Proof.
  intros pt Wt D ang M L V raw neg wr p st bc tg bl mp D3 reported result.
  pose proof (eval_multipoles_codes raw neg wr p st bc tg D3 bl mp) as H. fold result in H.
  match type of H with context [existsb ?f ?l] => set (F := f) in H; destruct (existsb F l) eqn:E end.
  - split; auto. intros N. exfalso. apply N. apply existsb_exists in E. destruct E as [[lev [boxes ssn]] [Hl E]]. unfold F in E. cbn [fst snd] in E.
    apply existsb_exists in E. destruct E as [itgt [Hb E]]. apply andb_prop in E. destruct E as [_ E].
    apply existsb_exists in E. destruct E as [s [Hs E]]. apply existsb_exists in E. destruct E as [i [Hi E]].
    exists lev, boxes, ssn, itgt, s, i. apply in_seq in Hb. split; [apply in_combine_seq; auto|]. split; [lia|]. split; auto. split; auto.
    intros Z. rewrite Z in E. discriminate.
  - destruct H as [o [E' [a ->]]]. split; [|intros _; eauto]. intros [lev [boxes [ssn [itgt [s [i [Hl [Hb [Hs [Hi Z]]]]]]]]]]. exfalso.
    assert (T : existsb F (combine (seq 0 (List.length bl)) bl) = true).
    { apply existsb_exists. exists (lev, (boxes, ssn)). split; [apply in_combine_seq; auto|]. unfold F. cbn [fst snd].
      apply existsb_exists. exists itgt. split; [apply in_seq; lia|]. apply andb_true_intro. split.
      - apply Bool.negb_true_iff, Nat.eqb_neq. destruct (box_target_counts_nonchild p (nth itgt boxes 0)); [destruct Hi|lia].
      - apply existsb_exists. exists s. split; auto. apply existsb_exists. exists i. split; auto. unfold code. apply Bool.negb_true_iff, Z.eqb_neq. auto. }
    rewrite T in E. discriminate.
Qed.

(** ** Cases *)
(** The library of C93 has a quadratic potential, so that central differences are its gradient. *)
Definition moved_by (c : nat) (h : Qc) (y : spt) : spt := match c with 0 => (fst y + h, snd y)%Qc | _ => (fst y, snd y + h)%Qc end.
Definition difference (f : spt -> Qc) (c : nat) (y : spt) : Qc := ((f (moved_by c 1 y) - f (moved_by c (- (1)) y)) / Q2Qc 2)%Qc.
Definition ex_dpot (c : nat) xs ws (y : spt) : SVm := difference (potall scaled_lib xs ws) c y.
Definition ex_dmp (c : nat) f m (y : spt) : SVm := difference (mpeval scaled_lib f m) c y.
Definition ex_dta (c : nat) f l (y : spt) : SVm := difference (taeval scaled_lib f l) c y.
(** pyfmmlib: nonsense where nothing was asked for *)
Definition asked (b : bool) (v : Qc) : Qc := if b then v else Q2Qc 77.
Definition ex_raw : raw_library spt (strength Qc spt) SQm SQm SVm := {|
  potgrad2 := fun b h xs ws y => ((potall scaled_lib xs ws y : SVm), (fun c => asked b (ex_dpot c xs ws y)), (fun _ => asked h 0%Qc));
  potfld3 := fun b xs ws y => (potall scaled_lib xs ws y, fun c => asked b (- ex_dpot c xs ws y)%Qc);
  mpeval2 := fun b h f m y => ((mpeval scaled_lib f m y : SVm), (fun c => asked b (ex_dmp c f m y)), (fun _ => asked h 0%Qc));
  mpeval3 := fun b f m y => ((mpeval scaled_lib f m y : SVm), (fun c => asked b (- ex_dmp c f m y)%Qc), 0%Z);
  taeval2 := fun b h f l y => ((taeval scaled_lib f l y : SVm), (fun c => asked b (ex_dta c f l y)), (fun _ => asked h 0%Qc));
  taeval3 := fun b f l y => ((taeval scaled_lib f l y : SVm), (fun c => asked b (- ex_dta c f l y)%Qc), 0%Z) |}.
Definition ex_neg : SVm -> SVm := Qcopp.
Example ex_grad_hypotheses :
  (forall v, ex_neg (ex_neg v) = v) /\ no_errors ex_raw /\
  (forall d, returns_potential_and_gradient d ex_neg ex_raw scaled_lib ex_dpot ex_dmp ex_dta) /\ 0 < ntargets ex_particles /\ dim ex_tree = 2.
Proof.
  split; [apply Qcopp_involutive|]. split; [split; reflexivity|]. split; [|split; [apply Nat.ltb_lt; reflexivity|reflexivity]].
  intros d. split; intros _ *; split; try reflexivity; intros -> c _; reflexivity.
Qed.
Definition ex_times (f : factor) (v : SVm) : SVm := (match f with MinusOneOver2Pi => q_of 2 | One => 1 | OneOver4Pi => q_of 3 end * v)%Qc.
Definition ex_drive (tr : traversal) (wr : wrangler spt spt) (ifgrad : bool) :=
  drive_fmm_pg scaled_lib ex_raw ex_neg ifgrad wr (fun w d => Qcmult w (fst d)) ex_times (fun v => v) ex_tree ex_particles ex_level_starts ex_centers
    (fun i => ex_source (user_source_ids ex_particles i)) (fun i => ex_target i) (output_zeros (wr_dim wr) ifgrad) tr (fun u => q_of (Z.of_nat (u * u + 1))).
Definition ex_rows (tr : traversal) (wr : wrangler spt spt) :=
  potentials_pg scaled_lib ex_raw ex_neg true wr (fun w d => Qcmult w (fst d)) ex_tree ex_particles ex_level_starts ex_centers
    (fun i => ex_source (user_source_ids ex_particles i)) (fun i => ex_target i) (Rows (1 + wr_dim wr) (fun _ _ => 0%Qc : SVm)) tr
    (fun k => q_of (Z.of_nat (user_source_ids ex_particles k * user_source_ids ex_particles k + 1))).
Definition ex_strength (k : kernel) (d u : nat) : strength Qc spt :=
  let w := q_of (Z.of_nat (u * u + 1)) in let v := (q_of (Z.of_nat u), q_of 2) in
  match k, d with LAPLACE, 2 => ComplexDipole (w * fst v)%Qc | _, _ => Dipole w v end.
Definition same_number (a b : Qc) : bool := if Qc_eq_dec a b then true else false.
(** the value at a target is the direct sum; asking for gradients fails; with two axes the rows are the
    direct sums of the potentials and of their derivatives *)
Example ex_grad_run :
  match ex_trav 1 (ex_extent true static_l2 2) with
  | Some tr =>
    map (fun kd => match ex_wrangler (fst kd) (snd kd) (Some (ex_rotation_data tr)) with
      | inr wr =>
        (match ex_drive tr wr false with
         | inr (Flat a) => same_number (a 20) (ex_times (match fst kd, snd kd with LAPLACE, 2 => MinusOneOver2Pi | HELMHOLTZ, 2 => One | _, _ => OneOver4Pi end)
             (fold_right Qcplus 0%Qc (map (fun u => potential (ex_target (sorted_target_ids ex_particles 20)) (ex_source u) (ex_strength (fst kd) (snd kd) u)) (seq 0 ex_ns))))
         | _ => false end,
         match ex_drive tr wr true with inl IndexError => true | _ => false end,
         match ex_rows tr wr with
         | inr (Rows n a) => (n =? 1 + snd kd) &&
             same_number (a 0 5) (fold_right Qcplus 0%Qc (map (fun u => potential (ex_target 5) (ex_source u) (ex_strength (fst kd) (snd kd) u)) (seq 0 ex_ns))) &&
             forallb (fun c => same_number (a (S c) 5) (fold_right Qcplus 0%Qc (map (fun u =>
                difference (fun y => potential y (ex_source u) (ex_strength (fst kd) (snd kd) u)) c (ex_target 5)) (seq 0 ex_ns)))) [0; 1]
         | _ => false end)
      | inl _ => (false, false, false) end) [(LAPLACE, 2); (HELMHOLTZ, 3)]
  | None => [] end = [(true, true, true); (true, true, true)].
Proof. vm_compute. reflexivity. Qed.
Example ex_translation : translation_wrapper HELMHOLTZ 3 [] (fun _ => None)
    (fun kw : dict nat => (Some (dict_get kw "xnodes", dict_get kw "rscale1", dict_get kw "level_for_projection"), [0; 0]%Z))
    [("level_for_projection", Given 4); ("rscale1", Given 9); ("nterms2", Nterms 7)] = inr (Some (Some (Xnodes 17), Some (Given 9), None)).
Proof. reflexivity. Qed.
Example ex_error_code : translation_wrapper LAPLACE 3 [] (fun _ => tt) (fun _ : dict nat => (tt, [0; 5]%Z)) [("nterms2", Nterms 7)] = inl RuntimeError.
Proof. reflexivity. Qed.

Print Assumptions C108_routine_names.
Print Assumptions C108_routine_names_differ.
Print Assumptions C108_other_dimensions.
Print Assumptions C108_translations.
Print Assumptions C108_without_gradients.
Print Assumptions C108_direct_sum.
Print Assumptions C108_gradients_refuted.
Print Assumptions C108_gradients_two_axes.
Print Assumptions C108_errors_in_locals.
Print Assumptions C108_errors_in_multipoles.
