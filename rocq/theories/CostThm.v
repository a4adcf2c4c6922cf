(** Traversals built by the traversal builder meet the requirements of the cost model; the
    operations charged are those of the FMM driver. *)
From Coq Require Import List Arith ZArith NArith Lia Bool Permutation.
From Verif Require Import Base Tree Spec TreeFacts Traversal SpecTraversal TraversalLists Coverage
  CoverageThm ListFacts LevelStarts MergeFacts Fmm SpecFmm FmmFacts FmmThm Cost SpecCost CostFacts.
Import ListNotations.

Lemma row_len_of ll i : i < length ll -> row_len (csr_of ll) i = Z.of_nat (length (csr_get (csr_of ll) i)).
Proof.
  intros H. rewrite csr_get_of by auto. unfold row_len, csr_of. cbn [starts].
  rewrite !prefix_from_nth by (rewrite map_length; lia). rewrite !Nat.add_0_l.
  rewrite nsum_firstn_S by (rewrite map_length; lia).
  rewrite (nth_indep _ _ (length (@nil nat))) by (rewrite map_length; auto). rewrite map_nth. lia.
Qed.
Lemma rows_of ll n : n = length ll -> rows_measured (csr_of ll) n.
Proof. intros -> i Hi. apply row_len_of. auto. Qed.

Section Built.
Variable t : tree.
Hypothesis W : wf_tree t.
Hypothesis F : wf_flags t.
Variable P : trav_params.
Hypothesis WP : wf_params t P.
Hypothesis LS : level_sorted t (level_start_box_nrs P).
Variable tr : traversal.
Hypothesis Htr : build_traversal t P = Some tr.

Lemma filter_starts q : starts_by_level t
  (extract_level_starts t (level_start_box_nrs P) (filter q (seq 0 (nboxes t)))) (filter q (seq 0 (nboxes t))).
Proof.
  set (bl := filter q (seq 0 (nboxes t))).
  assert (H1 : forall x, In x bl -> x < nboxes t).
  { intros x Hx. apply filter_In in Hx. destruct Hx as [Hx _]. apply in_seq in Hx. lia. }
  assert (H2 : forall i j, i < j -> j < length bl -> nth i bl 0 < nth j bl 0) by apply filter_seq_sorted.
  assert (H3 : forall b, b < nboxes t -> box_level t b < nlevels t) by apply (wf_level_lt t W).
  intros l Hl. rewrite (extract_level_starts_eq t H3 (level_start_box_nrs P) LS bl H1 H2).
  rewrite nth_map_seq by lia. split.
  - apply (below_le t H3 (level_start_box_nrs P) LS bl H1 H2).
  - intros i Hi. apply (below_lt t H3 (level_start_box_nrs P) LS bl H1 H2). auto.
Qed.

Lemma list3_level_level l T B : l < nlevels t -> In T (target_boxes tr) -> In B (list3_level_of tr l T) ->
  box_level t B = l.
Proof.
  intros Hl HT HB. pose proof (tr_tb_range t W P WP tr Htr T HT) as HTl.
  assert (HBr : B < nboxes t) by (eapply list3_level_range; eauto).
  assert (HC : 0 < count B (list3_level_of tr l T)) by (apply count_In; auto).
  destruct (is_source t B) eqn:E1; [|destruct (has_source_child t B) eqn:E2].
  - rewrite (list3_level_count t W F P WP tr Htr) in HC; auto; [|unfold holds_sources; auto].
    destruct (Nat.eqb_spec l (box_level t B)); auto. rewrite andb_false_r in HC. simpl in HC. lia.
  - rewrite (list3_level_count t W F P WP tr Htr) in HC; auto; [|unfold holds_sources; auto].
    destruct (Nat.eqb_spec l (box_level t B)); auto. rewrite andb_false_r in HC. simpl in HC. lia.
  - exfalso. rewrite (tr_eq t W P WP tr Htr) in HC. rewrite (tr_tb t W P WP tr Htr) in HT.
    rewrite list3_level_of_count in HC by auto.
    rewrite list3_count_gen in HC; auto; [lia|]. unfold holds_sources. rewrite E1, E2. intros [|]; discriminate.
Qed.

Lemma built_cost_ready : cost_ready t tr.
Proof.
  pose proof (built_ready t W F P WP LS tr Htr) as RD.
  assert (L3 : forall l T B, l < nlevels t -> In T (target_boxes tr) -> In B (list3_level_of tr l T) -> box_level t B = l)
    by (apply list3_level_level).
  assert (E := tr_eq t W P WP tr Htr). rewrite E in *. split.
  - apply NoDup_filter, seq_NoDup.
  - apply NoDup_filter, seq_NoDup.
  - apply RD.
  - apply RD.
  - intros b Hb. apply filter_In in Hb. destruct Hb as [Hb _]. apply in_seq in Hb. lia.
  - intros b Hb. apply filter_In in Hb. destruct Hb as [Hb _]. apply in_seq in Hb. lia.
  - apply RD.
  - apply RD.
  - apply filter_starts.
  - apply filter_starts.
  - cbn [level_start_target_box_nrs target_boxes the_traversal]. unfold find_target_boxes, find_source_boxes.
    destruct (sources_are_targets P); apply filter_starts.
  - apply filter_starts.
  - apply rows_of. rewrite map_length. reflexivity.
  - intros l lc. destruct (Nat.lt_ge_cases l (nlevels t)) as [Hl|Hl].
    + assert (E3 : lc = eliminate_empty (find_target_boxes t P)
         (map (fun b => pick true (list3_list t (well_sep_is_n_away P) (Traversal.extents P) (Some l) b)) (find_target_boxes t P))).
      { unfold lc. cbn [from_sep_smaller_by_level the_traversal]. rewrite nth_map_seq; auto. }
      assert (INC : incl (fst lc) (find_target_boxes t P)).
      { rewrite E3. unfold eliminate_empty. cbn [fst]. intros x Hx. apply in_map_iff in Hx.
        destruct Hx as [[y z] [<- Hy]]. apply filter_In in Hy. destruct Hy as [Hy _]. apply in_combine_l in Hy. auto. }
      split; [|split; [exact INC|split]].
      * rewrite E3. unfold eliminate_empty. cbn [fst].
        assert (G : forall (a : list nat) (b : list (list nat)) q, NoDup a -> NoDup (map fst (filter q (combine a b)))).
        { intros a b q ND. revert b. induction ND as [|x a Hx ND IH]; intros [|y b]; simpl; try constructor.
          destruct (q (x, y)); simpl; auto. constructor; auto.
          intros Hin. apply Hx. apply in_map_iff in Hin. destruct Hin as [[u v] [<- Hu]].
          apply filter_In in Hu. destruct Hu as [Hu _]. apply in_combine_l in Hu. auto. }
        apply G. apply tb_NoDup.
      * rewrite E3. unfold eliminate_empty. cbn [fst snd]. apply rows_of. rewrite !map_length. auto.
      * intros T B HT HB. apply (L3 l T B); auto.
    + assert (E3 : lc = ([], csr_of [])).
      { unfold lc. apply nth_overflow. cbn [from_sep_smaller_by_level the_traversal]. rewrite map_length, seq_length. auto. }
      rewrite E3. cbn [fst snd]. split; [constructor|]. split; [intros x []|]. split; [intros i Hi; simpl in Hi; lia|].
      intros T B _ HB. exfalso. unfold list3_level_of in HB. fold lc in HB. rewrite E3 in HB. exact HB.
Qed.
End Built.

Lemma merge_cost_ready t tr tr' : merge_close_lists tr = Some tr' -> cost_ready t tr -> cost_ready t tr'.
Proof.
  unfold merge_close_lists. destruct (from_sep_close_smaller tr) as [cs|]; [|discriminate].
  destruct (from_sep_close_bigger tr) as [cb|]; [|discriminate].
  intros H [R1 R2 R3 R4 R5 R6 R7 R8 R9 R10 R11 R12 R13 R14]. injection H as <-. split; auto.
Qed.

Lemma cost_ready_of t P tr : wf_tree t -> wf_flags t -> wf_params t P -> level_sorted t (level_start_box_nrs P) ->
  built_or_merged t P tr -> cost_ready t tr /\ fmm_ready t tr.
Proof.
  intros W F WP LS [tr0 [B [->|M]]].
  - split; [eapply built_cost_ready; eauto|eapply built_ready; eauto].
  - split; [eapply merge_cost_ready; eauto; eapply built_cost_ready; eauto|eapply merge_ready; eauto; eapply built_ready; eauto].
Qed.

(** ** Running the operations *)
Section Run.
Variable t : tree.
Hypothesis W : wf_tree t.
Variable p : particles.
Variable tr : traversal.
Hypothesis R : cost_ready t tr.
Hypothesis RF : fmm_ready t tr.
Variable w : array.
Notation tcounts := (box_target_counts_nonchild p).

Definition st_eq (a b : fmm_state) : Prop :=
  (forall j, mp a j = mp b j) /\ (forall j, loc a j = loc b j) /\ (forall j, pot a j = pot b j).

(** value added to the potentials / locals, given the expansions *)
Definition pot_delta (m l : array) (i : nat) (o : op) : Z :=
  match o with
  | P2P _ s T k => if box_target_starts p T + k =? i then w s else 0%Z
  | M2P B T k => if box_target_starts p T + k =? i then m B else 0%Z
  | L2P T k => if box_target_starts p T + k =? i then l T else 0%Z
  | _ => 0%Z
  end.
Definition loc_delta (m : array) (b : nat) (o : op) : Z :=
  match o with
  | M2L B A => if A =? b then m B else 0%Z
  | P2L _ s A => if A =? b then w s else 0%Z
  | _ => 0%Z
  end.
Definition is_pot_op (o : op) := match o with P2P _ _ _ _ | M2P _ _ _ | L2P _ _ => True | _ => False end.
Definition is_loc_op (o : op) := match o with M2L _ _ | P2L _ _ _ => True | _ => False end.

Lemma run_pot ops : (forall o, In o ops -> is_pot_op o) -> forall st,
  let st' := fold_left (do_op p w) ops st in
  mp st' = mp st /\ loc st' = loc st /\
  forall i, pot st' i = (pot st i + zsum (map (pot_delta (mp st) (loc st) i) ops))%Z.
Proof.
  induction ops as [|o ops IH]; intros H st; cbn [fold_left map].
  - split; auto. split; auto. intros i. change (zsum []) with 0%Z. lia.
  - destruct (IH (fun o' Ho => H o' (or_intror Ho)) (do_op p w st o)) as [I1 [I2 I3]].
    pose proof (H o (or_introl eq_refl)) as Ho.
    assert (E : mp (do_op p w st o) = mp st /\ loc (do_op p w st o) = loc st /\
       forall i, pot (do_op p w st o) i = (pot st i + pot_delta (mp st) (loc st) i o)%Z).
    { destruct o; try contradiction; cbn [do_op mp loc pot]; (split; [auto|split; [auto|]]); intros i;
      rewrite add_at_eq; unfold pot_delta; rewrite (Nat.eqb_sym i); auto. }
    destruct E as [E1 [E2 E3]]. rewrite E1 in I1. rewrite E2 in I2.
    split; [auto|split; [auto|]]. intros i. rewrite I3, E1, E2, E3.
    change (zsum (?a :: ?b)) with (a + zsum b)%Z. lia.
Qed.
Lemma run_loc ops : (forall o, In o ops -> is_loc_op o) -> forall st,
  let st' := fold_left (do_op p w) ops st in
  mp st' = mp st /\ pot st' = pot st /\
  forall b, loc st' b = (loc st b + zsum (map (loc_delta (mp st) b) ops))%Z.
Proof.
  induction ops as [|o ops IH]; intros H st; cbn [fold_left map].
  - split; auto. split; auto. intros i. change (zsum []) with 0%Z. lia.
  - destruct (IH (fun o' Ho => H o' (or_intror Ho)) (do_op p w st o)) as [I1 [I2 I3]].
    pose proof (H o (or_introl eq_refl)) as Ho.
    assert (E : mp (do_op p w st o) = mp st /\ pot (do_op p w st o) = pot st /\
       forall i, loc (do_op p w st o) i = (loc st i + loc_delta (mp st) i o)%Z).
    { destruct o; try contradiction; cbn [do_op mp loc pot]; (split; [auto|split; [auto|]]); intros i;
      rewrite add_at_eq; unfold loc_delta; rewrite (Nat.eqb_sym i); auto. }
    destruct E as [E1 [E2 E3]]. rewrite E1 in I1. rewrite E2 in I2.
    split; [auto|split; [auto|]]. intros i. rewrite I3, E1, E3.
    change (zsum (?a :: ?b)) with (a + zsum b)%Z. lia.
Qed.

Lemma fold_for_each {A} (l : list A) (f : A -> list op) st :
  fold_left (do_op p w) (for_each l f) st = fold_left (fun st x => fold_left (do_op p w) (f x) st) l st.
Proof.
  unfold for_each. revert st. induction l as [|x l IH]; intros st; cbn [map concat fold_left]; auto.
  rewrite fold_left_app. auto.
Qed.

(** P2M *)
Lemma run_p2m : forall bl st, (forall b, In b bl -> True) ->
  let st' := fold_left (do_op p w) (for_each bl (fun b => map (fun s => P2M s b) (sources_of p b))) st in
  loc st' = loc st /\ pot st' = pot st /\
  forall j, mp st' j = fold_left (fun m b => add_at m b (source_slice_sum p w b)) bl (mp st) j.
Proof.
  intros bl st _. cbv zeta. rewrite fold_for_each. revert st.
  induction bl as [|b bl IH]; intros st; cbn [fold_left]; auto.
  assert (One : forall ss st, let st' := fold_left (do_op p w) (map (fun s => P2M s b) ss) st in
     loc st' = loc st /\ pot st' = pot st /\
     forall j, mp st' j = add_at (mp st) b (zsum (map w ss)) j).
  { induction ss as [|s ss IHs]; intros st0; cbn [map fold_left].
    - split; auto. split; auto. intros j. rewrite add_at_eq. change (zsum []) with 0%Z. destruct (j =? b)%nat; lia.
    - destruct (IHs (do_op p w st0 (P2M s b))) as [I1 [I2 I3]]. cbv zeta. split; [rewrite I1; auto|].
      split; [rewrite I2; auto|]. intros j. rewrite I3. cbn [do_op mp].
      rewrite !add_at_eq. change (zsum (?a :: ?b)) with (a + zsum b)%Z. destruct (j =? b)%nat; lia. }
  destruct (One (sources_of p b) st) as [O1 [O2 O3]].
  destruct (IH (fold_left (do_op p w) (map (fun s => P2M s b) (sources_of p b)) st)) as [I1 [I2 I3]].
  split; [congruence|]. split; [congruence|]. intros j. rewrite I3.
  apply fold_left_ext_fun; auto.
  intros x u v _ Huv j0. rewrite !add_at_eq, Huv. auto.
Qed.

(** M2M *)
Lemma run_m2m : forall st,
  let st' := fold_left (do_op p w) (ops_coarsen_multipoles t tr) st in
  loc st' = loc st /\ pot st' = pot st /\
  forall j, mp st' j = coarsen_multipoles t (level_start_source_parent_box_nrs tr) (source_parent_boxes tr) (mp st) j.
Proof.
  intros st. cbv zeta. unfold ops_coarsen_multipoles, coarsen_multipoles. rewrite fold_for_each.
  rewrite <- (seq_shift _ 2), <- map_rev.
  assert (FM : forall {A B C} (f : A -> B -> A) (g : C -> B) l a, fold_left f (map g l) a = fold_left (fun a x => f a (g x)) l a).
  { intros A B C f g l. induction l; intros; simpl; auto. }
  rewrite FM.
  assert (G : forall ls st, (forall l, In l ls -> l < nlevels t) ->
    let st' := fold_left (fun st l => fold_left (do_op p w)
      (for_each (filter (fun b => box_level t b =? l) (source_parent_boxes tr)) (fun b => map (fun c => M2M c b) (children_of t b))) st) ls st in
    loc st' = loc st /\ pot st' = pot st /\
    forall j, mp st' j = fold_left (fun m l => fold_left (coarsen_box t)
      (slice (source_parent_boxes tr) (nth (S l - 1) (level_start_source_parent_box_nrs tr) 0)
         (nth (S l - 1 + 1) (level_start_source_parent_box_nrs tr) 0)) m) ls (mp st) j).
  2:{ apply (G (rev (seq 2 (nlevels t - 3))) st). intros l Hl. apply in_rev, in_seq in Hl. lia. }
  clear st. induction ls as [|l ls IH]; intros st Hl; cbn [fold_left]; auto.
  assert (One : forall bl st, let st' := fold_left (do_op p w) (for_each bl (fun b => map (fun c => M2M c b) (children_of t b))) st in
     loc st' = loc st /\ pot st' = pot st /\ forall j, mp st' j = fold_left (coarsen_box t) bl (mp st) j).
  { clear -R W. intros bl. induction bl as [|b bl IHb]; intros st; cbv zeta; rewrite fold_for_each; cbn [fold_left]; auto.
    assert (Ch : forall ms st, let st' := fold_left (do_op p w) (map (fun c => M2M c b) (filter (fun c => negb (c =? 0)) (map (fun m => box_child t m b) ms))) st in
      loc st' = loc st /\ pot st' = pot st /\
      forall j, mp st' j = fold_left (fun mpoles m => let child := box_child t m b in
               if (child =? 0)%nat then mpoles else add_at mpoles b (mpoles child)) ms (mp st) j).
    { induction ms as [|m ms IHm]; intros st0; cbn [map filter fold_left]; auto. cbv zeta.
      destruct (box_child t m b =? 0) eqn:E; cbn [negb].
      - apply IHm.
      - cbn [map fold_left]. destruct (IHm (do_op p w st0 (M2M (box_child t m b) b))) as [I1 [I2 I3]].
        split; [rewrite I1; auto|]. split; [rewrite I2; auto|]. intros j. rewrite I3. reflexivity. }
    destruct (Ch (seq 0 (nchildren t)) st) as [C1 [C2 C3]].
    pose proof (IHb (fold_left (do_op p w) (map (fun c => M2M c b) (children_of t b)) st)) as HI. cbv zeta in HI.
    rewrite fold_for_each in HI. destruct HI as [I1 [I2 I3]].
    fold (children_of t b) in C1, C2, C3.
    split; [congruence|]. split; [congruence|]. intros j. rewrite I3.
    assert (Ext : forall u v, (forall j, u j = v j) -> forall x j, coarsen_box t u x j = coarsen_box t v x j).
    { intros u v Huv x. unfold coarsen_box. apply fold_left_ext_fun; auto.
      intros m u' v' _ H' j'. cbv zeta. destruct (box_child t m x =? 0); auto. rewrite !add_at_eq, !H'. auto. }
    apply fold_left_ext_fun; auto. }
  destruct (One (filter (fun b => box_level t b =? l) (source_parent_boxes tr)) st) as [O1 [O2 O3]].
  destruct (IH (fold_left (do_op p w) (for_each (filter (fun b => box_level t b =? l) (source_parent_boxes tr)) (fun b => map (fun c => M2M c b) (children_of t b))) st)
     (fun l' H' => Hl l' (or_intror H'))) as [I1 [I2 I3]].
  split; [congruence|]. split; [congruence|]. intros j. rewrite I3. clear I1 I2 I3.
  assert (Ext : forall u v, (forall j, u j = v j) -> forall x j, coarsen_box t u x j = coarsen_box t v x j).
  { intros u v Huv x. unfold coarsen_box. apply fold_left_ext_fun; auto.
    intros m u' v' _ H' j'. cbv zeta. destruct (box_child t m x =? 0); auto. rewrite !add_at_eq, !H'. auto. }
  apply fold_left_ext_fun.
  - intros j'. rewrite O3. replace (S l - 1) with l by lia.
    rewrite (starts_slice t _ _ l (cr_spb_levels t tr R)) by (apply Hl; simpl; auto). auto.
  - intros x u v _ Huv j'. apply fold_left_ext_fun; auto.
Qed.

(** L2L *)
Lemma run_l2l : forall st,
  let st' := fold_left (do_op p w) (ops_refine_locals t tr) st in
  mp st' = mp st /\ pot st' = pot st /\
  forall j, loc st' j = refine_locals t (level_start_target_or_target_parent_box_nrs tr)
                          (target_or_target_parent_boxes tr) (loc st) j.
Proof.
  intros st. cbv zeta. unfold ops_refine_locals, refine_locals. rewrite fold_for_each.
  assert (G : forall ls st, (forall l, In l ls -> l < nlevels t) ->
    let st' := fold_left (fun st l => fold_left (do_op p w)
      (map (fun b => L2L (box_parent t b) b) (filter (fun b => box_level t b =? l) (target_or_target_parent_boxes tr))) st) ls st in
    mp st' = mp st /\ pot st' = pot st /\
    forall j, loc st' j = fold_left (fun m l => fold_left (fun loc ibox => add_at loc ibox (loc (box_parent t ibox)))
      (slice (target_or_target_parent_boxes tr) (nth l (level_start_target_or_target_parent_box_nrs tr) 0)
         (nth (l + 1) (level_start_target_or_target_parent_box_nrs tr) 0)) m) ls (loc st) j).
  2:{ apply (G (seq 1 (nlevels t - 1)) st). intros l Hl. apply in_seq in Hl. lia. }
  clear st. induction ls as [|l ls IH]; intros st Hl; cbn [fold_left]; auto.
  assert (One : forall bl st, let st' := fold_left (do_op p w) (map (fun b => L2L (box_parent t b) b) bl) st in
     mp st' = mp st /\ pot st' = pot st /\
     forall j, loc st' j = fold_left (fun loc ibox => add_at loc ibox (loc (box_parent t ibox))) bl (loc st) j).
  { clear. induction bl as [|b bl IHb]; intros st; cbn [map fold_left]; auto. cbv zeta.
    destruct (IHb (do_op p w st (L2L (box_parent t b) b))) as [I1 [I2 I3]].
    split; [rewrite I1; auto|]. split; [rewrite I2; auto|]. intros j. rewrite I3. reflexivity. }
  destruct (One (filter (fun b => box_level t b =? l) (target_or_target_parent_boxes tr)) st) as [O1 [O2 O3]].
  destruct (IH (fold_left (do_op p w) (map (fun b => L2L (box_parent t b) b) (filter (fun b => box_level t b =? l) (target_or_target_parent_boxes tr))) st)
     (fun l' H' => Hl l' (or_intror H'))) as [I1 [I2 I3]].
  split; [congruence|]. split; [congruence|]. intros j. rewrite I3. clear I1 I2 I3.
  apply fold_left_ext_fun.
  - intros j'. rewrite O3.
    rewrite (starts_slice t _ _ l (cr_ttpb_levels t tr R)) by (apply Hl; simpl; auto). auto.
  - intros x u v _ Huv j'. apply fold_left_ext_fun; auto. intros y u' v' _ H' j''. rewrite !add_at_eq, !H'. auto.
Qed.

(** potentials at a target owned by [T] *)
Variable i T : nat.
Hypothesis O : forall b, b < nboxes t ->
    (covers (box_target_starts p b) (box_target_counts_nonchild p b) i = true <-> b = T).
Hypothesis HT : In T (target_boxes tr).

Lemma zsum_if_one {A} (dec : forall x y : A, {x = y} + {x <> y}) (l : list A) (f : A -> Z) b : NoDup l -> In b l ->
  (forall x, In x l -> x <> b -> f x = 0%Z) -> zsum (map f l) = f b.
Proof.
  induction 1 as [|x l Hx ND IH]; intros Hb H; [contradiction|]. cbn [map].
  change (zsum (?a :: ?b)) with (a + zsum b)%Z. destruct (dec x b) as [->|N].
  - rewrite zsum_map_0; [lia|]. intros y Hy. apply H; simpl; auto. intros ->. contradiction.
  - rewrite (H x), IH; simpl; auto. { destruct Hb; [congruence|auto]. } intros; apply H; simpl; auto.
Qed.
Lemma targets_once T' (v : Z) : T' < nboxes t ->
  zsum (map (fun k => if box_target_starts p T' + k =? i then v else 0%Z) (targets_of tcounts T')) =
  if T' =? T then v else 0%Z.
Proof.
  intros H. pose proof (O T' H) as HO. unfold covers in HO. rewrite andb_true_iff, Nat.leb_le, Nat.ltb_lt in HO.
  destruct (Nat.eqb_spec T' T) as [E|E].
  - destruct (proj2 HO E) as [H1 H2].
    rewrite (zsum_if_one Nat.eq_dec _ _ (i - box_target_starts p T')).
    + destruct (Nat.eqb_spec (box_target_starts p T' + (i - box_target_starts p T')) i); lia.
    + apply seq_NoDup.
    + apply in_seq. lia.
    + intros x _ Hx. destruct (Nat.eqb_spec (box_target_starts p T' + x) i); lia.
  - apply zsum_map_0. intros k Hk. apply in_seq in Hk.
    destruct (Nat.eqb_spec (box_target_starts p T' + k) i); auto. exfalso. apply E, HO. lia.
Qed.
Lemma zsum_for_each {A B} (f : B -> Z) (l : list A) (g : A -> list B) :
  zsum (map f (for_each l g)) = zsum (map (fun x => zsum (map f (g x))) l).
Proof. unfold for_each. rewrite zsum_map_concat, map_map. auto. Qed.
(** a stage summing over target boxes contributes what it contributes to T *)
Lemma only_T (f : op -> Z) (g : nat -> list op) (c : Z) :
  (forall T', In T' (target_boxes tr) -> zsum (map f (g T')) = if T' =? T then c else 0%Z) ->
  zsum (map f (for_each (target_boxes tr) g)) = c.
Proof.
  intros H. rewrite zsum_for_each. rewrite (zsum_map_ext _ _ _ H).
  rewrite (zsum_if_one Nat.eq_dec _ _ T); [rewrite Nat.eqb_refl; auto|apply R|auto|].
  intros x _ Hx. destruct (Nat.eqb_spec x T); congruence.
Qed.
Lemma direct_delta m l row :
  zsum (map (pot_delta m l i) (ops_direct p tr tcounts row)) = zsum (map (source_slice_sum p w) (row T)).
Proof.
  unfold ops_direct. apply only_T. intros T' HT'. apply (cr_tb_range t tr R) in HT'.
  rewrite zsum_for_each. destruct (Nat.eqb_spec T' T) as [->|E].
  - apply zsum_map_ext. intros S _. rewrite zsum_for_each. unfold source_slice_sum, slice_sum.
    apply zsum_map_ext. intros s _. rewrite map_map. cbn [pot_delta].
    rewrite (targets_once T (w s) HT'), Nat.eqb_refl. auto.
  - apply zsum_map_0. intros S _. rewrite zsum_for_each. apply zsum_map_0. intros s _. rewrite map_map.
    cbn [pot_delta]. rewrite (targets_once T' (w s) HT').
    destruct (Nat.eqb_spec T' T); congruence.
Qed.
Lemma list3_delta m l :
  zsum (map (pot_delta m l i) (ops_eval_multipoles tr tcounts)) = zsum (map m (list3_of tr T)).
Proof.
  unfold ops_eval_multipoles. apply only_T. intros T' HT'. apply (cr_tb_range t tr R) in HT'.
  rewrite zsum_for_each. destruct (Nat.eqb_spec T' T) as [->|E].
  - apply zsum_map_ext. intros B _. rewrite map_map. cbn [pot_delta].
    rewrite (targets_once T (m B) HT'), Nat.eqb_refl. auto.
  - apply zsum_map_0. intros B _. rewrite map_map. cbn [pot_delta]. rewrite (targets_once T' (m B) HT').
    destruct (Nat.eqb_spec T' T); congruence.
Qed.
Lemma locals_delta m l :
  zsum (map (pot_delta m l i) (ops_eval_locals tr tcounts)) = l T.
Proof.
  unfold ops_eval_locals. apply only_T. intros T' HT'. apply (cr_tb_range t tr R) in HT'.
  rewrite map_map. cbn [pot_delta]. rewrite (targets_once T' (l T') HT').
  destruct (Nat.eqb_spec T' T) as [->|]; auto.
Qed.
Lemma zsum_sel bl (f : nat -> Z) b : NoDup bl -> In b bl ->
  zsum (map (fun A => if A =? b then f A else 0%Z) bl) = f b.
Proof.
  intros ND Hb. rewrite (zsum_if_one Nat.eq_dec _ _ b); auto; [rewrite Nat.eqb_refl; auto|].
  intros x _ Hx. destruct (Nat.eqb_spec x b); congruence.
Qed.
Lemma list2_delta m b : In b (target_or_target_parent_boxes tr) ->
  zsum (map (loc_delta m b) (ops_multipole_to_local tr)) = zsum (map m (list2_of tr b)).
Proof.
  intros Hb. unfold ops_multipole_to_local. rewrite zsum_for_each.
  rewrite (zsum_map_ext _ (fun A => if A =? b then zsum (map m (list2_of tr A)) else 0%Z)).
  - apply zsum_sel; auto. apply R.
  - intros A _. rewrite map_map. cbn [loc_delta]. destruct (A =? b); auto. apply zsum_map_0. auto.
Qed.
Lemma list4_delta m b : In b (target_or_target_parent_boxes tr) ->
  zsum (map (loc_delta m b) (ops_form_locals p tr)) = zsum (map (source_slice_sum p w) (list4_of tr b)).
Proof.
  intros Hb. unfold ops_form_locals. rewrite zsum_for_each.
  rewrite (zsum_map_ext _ (fun A => if A =? b then zsum (map (source_slice_sum p w) (list4_of tr A)) else 0%Z)).
  - apply zsum_sel; auto. apply R.
  - intros A _. rewrite zsum_for_each. destruct (Nat.eqb_spec A b) as [->|E].
    + apply zsum_map_ext. intros S _. rewrite map_map. cbn [loc_delta]. rewrite Nat.eqb_refl. auto.
    + apply zsum_map_0. intros S _. rewrite map_map. cbn [loc_delta].
      destruct (Nat.eqb_spec A b); [congruence|]. apply zsum_map_0. auto.
Qed.

Theorem run_ops_at : pot (run_ops p w (fmm_ops t p tr tcounts)) i = fmm_potentials t p tr (fun m => m) w i.
Proof.
  rewrite (fmm_at t p tr (fun m => m) w i T W RF O HT).
  unfold run_ops, fmm_ops. rewrite !fold_left_app.
  set (s0 := mkFmm zeros zeros zeros).
  destruct (run_p2m (source_boxes tr) s0 ltac:(auto)) as [A1 [A2 A3]].
  fold (ops_form_multipoles p tr) in A1, A2, A3. set (s1 := fold_left (do_op p w) (ops_form_multipoles p tr) s0) in *.
  destruct (run_m2m s1) as [B1 [B2 B3]]. set (s2 := fold_left (do_op p w) (ops_coarsen_multipoles t tr) s1) in *.
  set (M := coarsen_multipoles t (level_start_source_parent_box_nrs tr) (source_parent_boxes tr)
       (form_multipoles p (source_boxes tr) w)).
  assert (EM : forall j, mp s2 j = M j).
  { intros j. rewrite B3. unfold M, coarsen_multipoles. apply fold_left_ext_fun.
    - intros j'. rewrite A3. reflexivity.
    - intros x u v _ Huv j'. apply fold_left_ext_fun; auto. intros y u' v' _ H' j''.
      unfold coarsen_box. apply fold_left_ext_fun; auto.
      intros m u2 v2 _ H2 j2. cbv zeta. destruct (box_child t m y =? 0); auto. rewrite !add_at_eq, !H2. auto. }
  assert (P1 : forall o, In o (ops_eval_direct p tr tcounts) -> is_pot_op o).
  { intros o. unfold ops_eval_direct, ops_direct. rewrite !in_app_iff. 
    intros [Ho|[Ho|Ho]]; repeat (apply in_for_each in Ho; destruct Ho as [? [_ Ho]]);
    apply in_map_iff in Ho; destruct Ho as [? [<- _]]; exact I. }
  destruct (run_pot _ P1 s2) as [C1 [C2 C3]]. set (s3 := fold_left (do_op p w) (ops_eval_direct p tr tcounts) s2) in *.
  assert (P2 : forall o, In o (ops_multipole_to_local tr) -> is_loc_op o).
  { intros o Ho. apply in_for_each in Ho. destruct Ho as [? [_ Ho]]. apply in_map_iff in Ho. destruct Ho as [? [<- _]]. exact I. }
  destruct (run_loc _ P2 s3) as [D1 [D2 D3]]. set (s4 := fold_left (do_op p w) (ops_multipole_to_local tr) s3) in *.
  assert (P3 : forall o, In o (ops_eval_multipoles tr tcounts) -> is_pot_op o).
  { intros o Ho. unfold ops_eval_multipoles in Ho. repeat (apply in_for_each in Ho; destruct Ho as [? [_ Ho]]).
    apply in_map_iff in Ho. destruct Ho as [? [<- _]]. exact I. }
  destruct (run_pot _ P3 s4) as [E1 [E2 E3]]. set (s5 := fold_left (do_op p w) (ops_eval_multipoles tr tcounts) s4) in *.
  assert (P4 : forall o, In o (ops_form_locals p tr) -> is_loc_op o).
  { intros o Ho. unfold ops_form_locals in Ho. repeat (apply in_for_each in Ho; destruct Ho as [? [_ Ho]]).
    apply in_map_iff in Ho. destruct Ho as [? [<- _]]. exact I. }
  destruct (run_loc _ P4 s5) as [F1 [F2 F3]]. set (s6 := fold_left (do_op p w) (ops_form_locals p tr) s5) in *.
  destruct (run_l2l s6) as [G1 [G2 G3]]. set (s7 := fold_left (do_op p w) (ops_refine_locals t tr) s6) in *.
  assert (P5 : forall o, In o (ops_eval_locals tr tcounts) -> is_pot_op o).
  { intros o Ho. unfold ops_eval_locals in Ho. repeat (apply in_for_each in Ho; destruct Ho as [? [_ Ho]]).
    apply in_map_iff in Ho. destruct Ho as [? [<- _]]. exact I. }
  destruct (run_pot _ P5 s7) as [_ [_ H3]]. rewrite H3, locals_delta.
  rewrite G2, F2, E3, list3_delta, D2, C3. unfold ops_eval_direct. rewrite !map_app, !zsum_app, !direct_delta.
  rewrite B2, A2, G3. cbn [pot s0]. unfold zeros at 1.
  rewrite (refine_locals_at t W); [|apply R|apply R|apply RF|apply RF|apply RF; auto].
  assert (HL : forall A, In A (ancestors_or_self t T) -> In A (target_or_target_parent_boxes tr)).
  { assert (Hi : forall k b, In b (target_or_target_parent_boxes tr) -> In (Nat.iter k (box_parent t) b) (target_or_target_parent_boxes tr)).
    { induction k; intros b Hb; simpl; auto. apply (fr_ttpb_parent t tr RF). auto. }
    intros A HA. apply (in_chain t) in HA; [|apply (cr_tb_range t tr R); auto]. destruct HA as [k [Hk ->]].
    unfold anc, up. apply Hi. apply RF. auto. }
  assert (LL : forall A, In A (ancestors_or_self t T) -> loc s6 A =
     (zsum (map M (list2_of tr A)) + zsum (map (source_slice_sum p w) (list4_of tr A)))%Z).
  { intros A HA. rewrite F3, list4_delta by auto. rewrite E2, D3, list2_delta by auto.
    rewrite C2, B1, A1. cbn [loc s0]. unfold zeros.
    rewrite C1. rewrite (zsum_map_ext (mp s2) M) by auto. lia. }
  rewrite (zsum_map_ext _ _ _ LL), zsum_map_add. unfold received.
  rewrite D1, C1. rewrite (zsum_map_ext (mp s2) M) by auto. fold M. lia.
Qed.
End Run.

(** ** No overflow: nsources * ntargets and nboxes * ntargets of a box below 2^31 *)
Lemma zsum_nonneg {A} (f : A -> Z) l : (forall x, In x l -> 0 <= f x)%Z -> (0 <= zsum (map f l))%Z.
Proof.
  induction l; intros H; cbn [map]; [reflexivity|]. change (zsum (?a :: ?b)) with (a + zsum b)%Z.
  pose proof (H a (or_introl eq_refl)). assert (0 <= zsum (map f l))%Z by (apply IHl; intros; apply H; simpl; auto). lia.
Qed.

Section Bound.
Variable t : tree.
Hypothesis W : wf_tree t.
Hypothesis F : wf_flags t.
Variable P : trav_params.
Hypothesis WP : wf_params t P.
Hypothesis WE : targets_have_extent (Traversal.extents P) = true -> wf_extent (Traversal.extents P).
Variable p : particles.
Hypothesis HP : wf_particles t p.

Lemma nsources_total : zsum (map (fun S => Z.of_nat (box_source_counts_nonchild p S)) (seq 0 (nboxes t))) = Z.of_nat (nsources p).
Proof.
  pose proof (wf_sources_owned t p HP) as O. unfold owned_once in O. apply Permutation_length in O.
  rewrite seq_length in O. rewrite <- O. clear O. induction (seq 0 (nboxes t)) as [|b l IH]; auto.
  cbn [map concat]. change (zsum (?a :: ?b)) with (a + zsum b)%Z. rewrite app_length, seq_length, IH. lia.
Qed.
Lemma direct_sources_le tr T : built_or_merged t P tr -> In T (target_boxes tr) ->
  (nsources_in p (list1_of tr T ++ list3_close_of tr T ++ list4_close_of tr T) <= Z.of_nat (nsources p))%Z.
Proof.
  set (Wb := fun S => Z.of_nat (box_source_counts_nonchild p S)). intros [tr0 [B M]] HT.
  assert (NN : forall l, (0 <= zsum (map Wb l))%Z) by (intros; apply zsum_nonneg; unfold Wb; intros; lia).
  assert (NS : forall x, (0 <= subtree_sum t Wb x)%Z).
  { intros x. unfold subtree_sum. apply zsum_nonneg. intros. unfold Wb. nia. }
  assert (NM : forall l, (0 <= zsum (map (subtree_sum t Wb) l))%Z) by (intros; apply zsum_nonneg; auto).
  assert (HT0 : In T (target_boxes tr0)).
  { destruct M as [->|M]; auto. unfold merge_close_lists in M.
    destruct (from_sep_close_smaller tr0), (from_sep_close_bigger tr0); try discriminate. injection M as <-. auto. }
  assert (E : received t tr Wb (subtree_sum t Wb) T = Z.of_nat (nsources p)).
  { rewrite <- nsources_total. etransitivity.
    2:{ apply (received_total t W F P WP tr0 B WE Wb (subtree_sum t Wb) T HT0); auto.
        intros s Hs E. unfold Wb. destruct (box_source_counts_nonchild p s) eqn:E2; auto.
        rewrite (wf_source_flag t p HP s Hs) in E; [discriminate|lia]. }
    destruct M as [->|M]; auto. eapply received_merge; eauto. }
  rewrite <- E. unfold received, nsources_in. fold Wb. rewrite !map_app, !zsum_app.
  pose proof (NM (list3_of tr T)).
  assert (0 <= zsum (map (fun A => zsum (map (subtree_sum t Wb) (list2_of tr A))) (ancestors_or_self t T)))%Z
    by (apply zsum_nonneg; intros; apply NM).
  assert (0 <= zsum (map (fun A => zsum (map Wb (list4_of tr A))) (ancestors_or_self t T)))%Z
    by (apply zsum_nonneg; intros; apply NN).
  lia.
Qed.
Lemma list3_level_short tr l T : built_or_merged t P tr -> In T (target_boxes tr) ->
  length (list3_level_of tr l T) <= nboxes t.
Proof.
  intros [tr0 [B M]] HT.
  assert (E : list3_level_of tr l T = list3_level_of tr0 l T /\ target_boxes tr = target_boxes tr0).
  { destruct M as [->|M]; auto. unfold merge_close_lists in M.
    destruct (from_sep_close_smaller tr0), (from_sep_close_bigger tr0); try discriminate. injection M as <-. auto. }
  destruct E as [-> E]. rewrite E in HT. pose proof (tr_tb_range t W P WP tr0 B T HT) as HTl.
  destruct (Nat.lt_ge_cases l (nlevels t)) as [Hl|Hl].
  - assert (RG : forall x, In x (list3_level_of tr0 l T) -> x < nboxes t) by (intros; eapply list3_level_range; eauto).
    assert (ND : NoDup (list3_level_of tr0 l T)).
    { apply NoDup_count. intros B0. destruct (in_dec Nat.eq_dec B0 (list3_level_of tr0 l T)) as [HB0|HB0].
      2:{ apply count_notIn in HB0. rewrite HB0. lia. }
      pose proof (RG B0 HB0) as HBr.
      destruct (is_source t B0 || has_source_child t B0) eqn:ES.
      - rewrite (list3_level_count t W F P WP tr0 B); auto.
        2:{ unfold holds_sources. apply orb_true_iff. auto. }
        destruct (_ && _); auto. apply NoDup_count. apply slnws_NoDup; auto. apply WP.
      - rewrite (tr_eq t W P WP tr0 B). rewrite (tr_tb t W P WP tr0 B) in HT.
        rewrite list3_level_of_count by auto. rewrite list3_count_gen; auto.
        unfold holds_sources. apply orb_false_iff in ES. destruct ES as [-> ->]. intros [|]; discriminate. }
    rewrite <- (seq_length (nboxes t) 0). apply NoDup_incl_length; auto.
    intros x Hx. apply in_seq. apply RG in Hx. lia.
  - assert (E3 : list3_level_of tr0 l T = []); [|rewrite E3; simpl; lia].
    unfold list3_level_of. rewrite nth_overflow; [reflexivity|].
    rewrite (tr_eq t W P WP tr0 B). cbn [from_sep_smaller_by_level the_traversal]. rewrite map_length, seq_length. auto.
Qed.
Lemma fits32_of_bounds tr tcounts : built_or_merged t P tr ->
  (Z.of_nat (nsources p) < 2 ^ 31)%Z ->
  (forall T, In T (target_boxes tr) -> (Z.of_nat (nsources p) * Z.of_nat (tcounts T) < 2 ^ 31 /\
                                        Z.of_nat (nboxes t) * Z.of_nat (tcounts T) < 2 ^ 31)%Z) ->
  fits32 p tr tcounts.
Proof.
  intros BM H1 H2 T HT. cbv zeta. pose proof (direct_sources_le tr T BM HT) as D. destruct (H2 T HT) as [H3 H4].
  split; [lia|]. split; [nia|]. intros l. pose proof (list3_level_short tr l T BM HT). nia.
Qed.
End Bound.

Lemma target_owner t P tr p i : wf_tree t -> wf_params t P -> built_or_merged t P tr -> wf_particles t p ->
  i < ntargets p -> exists T, In T (target_boxes tr) /\
  forall b, b < nboxes t -> (covers (box_target_starts p b) (box_target_counts_nonchild p b) i = true <-> b = T).
Proof.
  intros W WP [tr0 [B M]] HP Hi.
  destruct (owner_exists t _ _ _ i (wf_targets_owned t p HP) Hi) as [T [HT [HTc HO]]]. exists T. split; auto.
  assert (HTb : In T (target_boxes tr0)).
  { rewrite (tr_tb t W P WP tr0 B). unfold find_target_boxes, find_source_boxes.
    destruct (sources_are_targets P) eqn:SAT; apply filter_In; split; try (apply in_seq; lia).
    - rewrite <- (proj2 WP) by auto. apply (wf_target_flag t p HP); auto.
    - apply (wf_target_flag t p HP); auto. }
  destruct M as [->|M]; auto. unfold merge_close_lists in M.
  destruct (from_sep_close_smaller tr0), (from_sep_close_bigger tr0); try discriminate. injection M as <-. auto.
Qed.
