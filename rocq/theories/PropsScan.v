(** C82: the result of the device scans does not depend on how the scan is carried out. *)
From Coq Require Import List Arith ZArith Lia Bool Permutation.
From Verif Require Import Base Tree Walk Traversal Fmm TreeBuild ArrayFacts SpecBuild ParticleLists Partition LocalTree Scan ScanFacts.
Import ListNotations.

(** [s] is where the segment of [i] begins *)
Definition segment_begins (start : nat -> bool) (i s : nat) : Prop :=
  s <= i /\ (s = 0 \/ start s = true) /\ forall j, s < j <= i -> start j = false.
Lemma segment_begin start i s : segment_begins start i s -> seg_begin start i = s.
Proof. intros [H1 [H2 H3]]. apply seg_begin_eq; auto. Qed.

(** Any associative operation with a neutral element: all evaluation orders of a segmented scan
    give the sequential result, the combination of the inputs from the beginning of the segment. *)
Theorem C82_any_evaluation_order : forall (A : Type) (add : A -> A -> A) (neutral : A) start input i s v,
  (forall a b c, add (add a b) c = add a (add b c)) -> (forall a, add neutral a = a) -> (forall a, add a neutral = a) ->
  segment_begins start i s ->
  item_at (fun a b across => if across then b else add a b) neutral start input i v ->
  v = fold_left add (map input (seq s (S i - s))) neutral.
Proof.
  intros A add neutral start input i s v AS NL NR SB H.
  assert (X : v = seg_scan start add input i).
  { apply (item_seg_scan add neutral (fun _ => True)); auto. }
  subst v. clear H. apply segment_begin in SB. subst s. induction i.
  - cbn. rewrite NL. auto.
  - cbn [seg_scan seg_begin]. destruct (start (S i)).
    + replace (S (S i) - S i) with 1 by lia. cbn. rewrite NL. auto.
    + rewrite IHi. assert (Y := seg_begin_le start i). replace (S (S i) - seg_begin start i) with (S (S i - seg_begin start i)) by lia.
      rewrite seq_S, map_app, fold_left_app. replace (seg_begin start i + (S i - seg_begin start i)) with (S i) by lia. auto.
Qed.

(** The Morton scan: for each particle, whatever the order of evaluation, the item has the numbers and
    the weights of the particles of the same box up to this one, per octant.  [octant j] is the
    octant of the particle at position [j], [user j] its user id. *)
Theorem C82_morton_scan : forall inp start (user : nat -> nat) (octant : nat -> option nat) i s v,
  valid_input inp -> (forall j, j <= i -> user j < npart inp) -> segment_begins start i s ->
  item_at scan_t_add scan_t_neutral start (fun j => scan_t_from_particle inp (user j) (octant j)) i v ->
  let mine := seq s (S i - s) in
  let in_octant o j := match octant j, o with None, None => true | Some m, Some m' => m =? m' | _, _ => false end in
  nonchild_srcntgts v = length (filter (in_octant None) mine) /\
  (forall m, pcnt v m = length (filter (in_octant (Some m)) mine)) /\
  (forall m, pwt v m = Z.min INT_MAX (zsum (map (fun j => weight inp (user j)) (filter (in_octant (Some m)) mine)))).
Proof.
  intros inp start user octant i s v V HU SB H. cbv zeta. apply segment_begin in SB.
  assert (FS : forall (p : nat -> bool) w l, zsum (map (fun j => if p j then w j else 0%Z) l) = zsum (map w (filter p l))).
  { intros p w l. induction l; cbn [map filter]; auto. change (zsum (?x :: ?y)) with (x + zsum y)%Z. rewrite IHl.
    destruct (p a); cbn [map]; [change (zsum (?x :: ?y)) with (x + zsum y)%Z|]; lia. }
  split; [|split].
  - assert (X := item_component nonchild_srcntgts scan_t_add seg_add ltac:(intros a b [|]; cbn; lia) _ _ _ _ _ H).
    apply seg_nat_item in X. rewrite X. cbn [scan_t_from_particle nonchild_srcntgts]. rewrite seg_scan_nsum, SB, count_filter.
    reflexivity.
  - intros m. assert (X := item_component (fun x => pcnt x m) scan_t_add seg_add ltac:(intros a b [|]; cbn; lia) _ _ _ _ _ H).
    apply seg_nat_item in X. rewrite X. cbn [scan_t_from_particle pcnt]. rewrite seg_scan_nsum, SB, count_filter. auto.
  - intros m. assert (X := item_component (fun x => pwt x m) scan_t_add (op add_sat) ltac:(intros a b [|]; cbn; auto) _ _ _ _ _ H).
    cbn [scan_t_from_particle pwt scan_t_neutral] in X.
    assert (W : forall j, j <= i -> (0 <= (if match octant j with Some m' => (m' =? m)%nat | None => false end then weight inp (user j) else 0) <= INT_MAX)%Z).
    { intros j Hj. assert (Y := v_weight _ V (user j) (HU j Hj)). assert (Z := v_max _ V). destruct (match octant j with Some m' => m' =? m | None => false end); lia. }
    apply seg_sat_item in X; [|exact W]. rewrite X, seg_scan_sat by exact W. rewrite SB, FS. auto.
Qed.

(** The scan arrays the tree builder's model works with are the only possible results: Morton scan,
    split-box-id scan, level box counts *)
Theorem C82_tree_builder_scans : forall inp st,
  valid_input inp -> (forall j, j < npart inp -> s_user st j < npart inp) ->
  let octant j := morton inp (s_user st j) (s_blevel st (s_box st j)) in
  (forall i v, i < npart inp ->
     item_at scan_t_add scan_t_neutral (s_start_flag st) (fun j => scan_t_from_particle inp (s_user st j) (octant j)) i v ->
     nonchild_srcntgts v = bin_counts inp st (morton_nrs inp st) i 0 /\
     forall m, m < nchild inp -> pcnt v m = bin_counts inp st (morton_nrs inp st) i (S m) /\ pwt v m = bin_wts inp st (morton_nrs inp st) i m) /\
  (forall b v, b < nth (s_level st) (s_lstart st) 0 ->
     item_at seg_add 0 (fun b => (b =? 0) || negb (s_blevel st b =? s_blevel st (b - 1))) (boxes_needed inp st) b v ->
     v = split_box_ids inp st b) /\
  (forall blevel i v, item_at seg_add 0 (fun b => (b =? 0) || negb (blevel b =? blevel (b - 1))) (fun _ => 1) i v ->
     v = seg_scan (fun j => negb (blevel j =? blevel (j - 1))) Nat.add (fun _ => 1) i).
Proof.
  intros inp st V HU. cbv zeta.
  assert (S0 : forall (f : nat -> bool) input i, seg_scan (fun b => (b =? 0) || f b) Nat.add input i = seg_scan f Nat.add input i).
  { intros f input i. induction i; cbn [seg_scan]; auto. cbn [Nat.eqb orb]. rewrite IHi. auto. }
  assert (KM : forall (A : Type) n (f : nat -> A) old i, i < n -> kernel_map n f old i = f i).
  { intros. apply kernel_map_lt; auto. }
  split; [|split].
  - intros i v Hi H.
    assert (MN : forall j, j <= i -> morton_nrs inp st j = bin_key (morton inp (s_user st j) (s_blevel st (s_box st j)))).
    { intros j Hj. unfold morton_nrs. rewrite KM by lia. auto. }
    unfold bin_counts, bin_wts. rewrite !(KM _ (npart inp)) by auto.
    split; [|intros m Hm; split].
    + assert (X := item_component nonchild_srcntgts scan_t_add seg_add ltac:(intros a b [|]; cbn; lia) _ _ _ _ _ H).
      rewrite KM by lia. apply seg_nat_item. eapply item_ext; [| | |exact X]; auto. intros j Hj. cbn. rewrite MN by auto. destruct (morton _ _ _); auto.
    + assert (X := item_component (fun x => pcnt x m) scan_t_add seg_add ltac:(intros a b [|]; cbn; lia) _ _ _ _ _ H).
      rewrite KM by lia. apply seg_nat_item. eapply item_ext; [| | |exact X]; auto. intros j Hj. cbn. rewrite MN by auto. destruct (morton _ _ _); auto.
    + assert (X := item_component (fun x => pwt x m) scan_t_add (op add_sat) ltac:(intros a b [|]; cbn; auto) _ _ _ _ _ H).
      rewrite KM by lia. apply seg_sat_item.
      * intros j Hj. unfold weight_ok. assert (Y := v_weight _ V (s_user st j) (HU j ltac:(lia))). assert (Z := v_max _ V). destruct (_ =? _); lia.
      * eapply item_ext; [| | |exact X]; auto. intros j Hj. cbn. rewrite MN by auto. destruct (morton _ _ _); auto.
  - intros b v Hb H. apply seg_nat_item in H. rewrite S0 in H. unfold split_box_ids. rewrite KM by auto. auto.
  - intros blevel i v H. apply seg_nat_item in H. rewrite S0 in H. auto.
Qed.

(** Pruning: compaction by a scan gives the list of boxes with particles, in order, and its inverse, for all
    evaluation orders of the scan and all orders of the work items *)
Theorem C82_prune_indices : forall (cumul : nat -> nat) n item order old,
  (forall i, i < n -> item_at plain_add 0 no_segments (fun i => if negb (cumul i =? 0) then 1 else 0) i (item i)) ->
  Permutation order (seq 0 n) ->
  let kept := filter (fun b => negb (cumul b =? 0)) (seq 0 n) in
  (0 < n -> prune_count item n = length kept) /\
  (forall j, j < length kept -> prune_src cumul item order old j = nth j kept 0) /\
  (forall b, prune_dst cumul item order b = dst_boxes kept b).
Proof.
  intros cumul n item order old H PO. cbv zeta. set (p := fun b => negb (cumul b =? 0)) in *. set (kept := filter p (seq 0 n)).
  assert (IT : forall i, i < n -> item i = length (filter p (seq 0 (S i)))).
  { intros i Hi. rewrite (plain_item _ _ _ (H i Hi)). apply count_filter. }
  assert (POS : forall i, i < n -> p i = true -> item i - 1 = length (filter p (seq 0 i)) /\ nth (item i - 1) kept 0 = i /\ item i - 1 < length kept).
  { intros i Hi Hp. assert (E : item i - 1 = length (filter p (seq 0 i))).
    { rewrite IT by auto. rewrite seq_S, filter_app, app_length. cbn [filter Nat.add]. rewrite Hp. cbn. lia. }
    split; auto. split; [rewrite E; apply filter_nth; auto|]. rewrite E. unfold kept. replace n with (i + S (n - S i)) by lia.
    rewrite seq_app, filter_app, app_length. cbn [Nat.add]. change (seq i (S (n - S i))) with (i :: seq (S i) (n - S i)). cbn [filter]. rewrite Hp. cbn. lia. }
  assert (IN : forall i, In i (filter p order) <-> i < n /\ p i = true).
  { intros i. rewrite filter_In. split; intros [H1 H2]; split; auto.
    - apply (Permutation_in _ PO), in_seq in H1. lia.
    - apply (Permutation_in _ (Permutation_sym PO)), in_seq. lia. }
  assert (NDk : NoDup kept) by (apply NoDup_filter, seq_NoDup).
  split; [|split].
  - intros Hn. unfold prune_count. rewrite IT by lia. replace (S (n - 1)) with n by lia. auto.
  - intros j Hj. unfold prune_src. set (x := nth j kept 0).
    assert (Hx : x < n /\ p x = true).
    { assert (I : In x kept) by (apply nth_In; auto). apply filter_In in I. destruct I as [I1 I2]. apply in_seq in I1. split; auto; lia. }
    destruct (POS x (proj1 Hx) (proj2 Hx)) as [E1 [E2 E3]].
    assert (EJ : item x - 1 = j).
    { apply (proj1 (NoDup_nth kept 0) NDk); auto. }
    rewrite <- EJ. apply (scatter_map_in (fun i => item i - 1) (fun i => i)).
    + apply IN; auto.
    + intros y Hy E. apply IN in Hy. destruct (POS y (proj1 Hy) (proj2 Hy)) as [_ [E4 _]]. congruence.
  - intros b. unfold prune_dst, dst_boxes.
    destruct (in_dec Nat.eq_dec b (filter p order)) as [I|I].
    + assert (I' := proj1 (IN b) I). destruct (POS b (proj1 I') (proj2 I')) as [E1 [E2 E3]].
      rewrite (scatter_map_in (fun i => i) (fun i => item i - 1) _ _ b I) by (intros; congruence).
      symmetry. apply (scatter_in_eq (combine kept (seq 0 (length kept)))).
      * replace (b, item b - 1) with (nth (item b - 1) (combine kept (seq 0 (length kept))) (0, 0)).
        { apply nth_In. rewrite combine_length, seq_length. lia. }
        rewrite combine_nth by (rewrite seq_length; auto). rewrite E2, seq_nth by auto. auto.
      * intros w Hw. apply (In_nth _ _ (0, 0)) in Hw. destruct Hw as [k [Hk Hw]]. rewrite combine_length, seq_length, Nat.min_id in Hk.
        rewrite combine_nth in Hw by (rewrite seq_length; auto). rewrite seq_nth in Hw by lia. injection Hw as W1 W2.
        assert (k = item b - 1) by (apply (proj1 (NoDup_nth kept 0) NDk); [exact Hk|exact E3|congruence]). cbn in W2. congruence.
    + rewrite (scatter_map_notin (fun i => i) (fun i => item i - 1)) by (intros x Hx E; subst; auto).
      symmetry. apply scatter_notin. intros w Hw. apply in_combine_l in Hw. apply filter_In in Hw. destruct Hw as [W1 W2]. apply in_seq in W1. apply I, IN. split; auto; lia.
Qed.

(** Scans without segments elsewhere: source numbers, filtered targets, point sources, masks of local
    trees; and the ids of linked point sources *)
Theorem C82_other_scans :
  (forall inp ps i v, i < npart inp ->
     prev_item_at plain_add 0 no_segments (fun j => if p_user ps j <? nsrc inp then 1 else 0) i v -> v = source_numbers inp ps i) /\
  (forall p flags order i v,
     prev_item_at plain_add 0 no_segments (fun j => if tree_order_flags p flags order j then 1 else 0) i v ->
     v = prev_item p flags order i) /\
  (forall p pss i v, prev_item_at plain_add 0 no_segments (ps_input p pss) i v -> v = ps_starts p pss i) /\
  (forall p pss order i v,
     item_at seg_add 0 (source_boundaries p pss order) (ps_seed p pss order) i v -> v = user_point_source_ids p pss order i) /\
  (forall pm i v, item_at plain_add 0 no_segments (fun j => if (pm : mask) j then 1 else 0) i v -> v = mask_scan pm (S i)).
Proof.
  split; [|split; [|split; [|split]]].
  - intros inp ps i v Hi H. apply plain_prev in H. subst v. unfold source_numbers. rewrite kernel_map_lt by auto. apply count_filter.
  - intros p flags order i v H. apply plain_prev in H. auto.
  - intros p pss i v H. apply plain_prev in H. auto.
  - intros p pss order i v H. apply seg_nat_item in H. auto.
  - intros pm i v H. apply plain_item in H. auto.
Qed.

(** The validation of the weights is needed for this: with a negative weight the saturating addition is
    not associative, and two evaluation orders of the same Morton scan disagree.  (tree_build.py:443-444
    rejects negative weights.) *)
Theorem C82_negative_weights_refuted : exists inp,
  (forall u, u < npart inp -> (weight inp u <= INT_MAX)%Z) /\
  exists v v',
    let scan := item_at scan_t_add scan_t_neutral no_segments (fun j => scan_t_from_particle inp j (Some 0)) 2 in
    scan v /\ scan v' /\ pwt v 0 <> pwt v' 0.
Proof.
  exists {| idim := 1; npart := 3; nsrc := 3; same := true; coord := fun _ _ => 0%Z; ext := None;
    weight := fun u => nth u [INT_MAX; 1; -1]%Z 0%Z; max_weight := INT_MAX; bbox_min := fun _ => 0%Z; bbox_max := fun _ => 1%Z;
    build_kind := Adaptive; nlevels_max := 50; skip_prune := false; nboxes_guess := 1; lr_lookbehind := 1 |}.
  split.
  - cbn [npart weight]. intros u Hu. assert (u = 0 \/ u = 1 \/ u = 2) as [ -> | [ -> | -> ] ] by lia; cbn [nth]; unfold INT_MAX; lia.
  - eexists; eexists. split; [|split].
    + exists (Join (Join (One 0) (One 1)) (One 2)). split; reflexivity.
    + exists (Join (One 0) (Join (One 1) (One 2))). split; reflexivity.
    + vm_compute. discriminate.
Qed.

(** ** Non-vacuity: every scan has a result for every way of splitting the work, e.g. halving, and the
    restart of segments occurs *)
Example C82_results_exist : forall A (op : A -> A -> bool -> A) neutral start input i, exists v, item_at op neutral start input i v.
Proof.
  intros. exists (snd (run op neutral start input (fold_left (fun b j => Join b (One j)) (seq 0 (S i)) Padding))).
  eexists. split; [|reflexivity].
  assert (X : forall l b, range_of (fold_left (fun b j => Join b (One j)) l b) = range_of b ++ l).
  { induction l; intros b; cbn [fold_left]; [rewrite app_nil_r; auto|]. rewrite IHl. cbn. rewrite <- app_assoc. auto. }
  rewrite X. auto.
Qed.
Example C82_segments :
  let start j := (j =? 0) || (j =? 3) in
  snd (run seg_add 0 start (fun j => j) (Join (Join (One 0) (One 1)) (Join (Join (One 2) (One 3)) (One 4)))) = 7 /\
  snd (run seg_add 0 start (fun j => j) (Join (Join (Join (One 0) (One 1)) (One 2)) (Join (One 3) (Join Padding (One 4))))) = 7 /\
  segment_begins start 4 3.
Proof. cbv zeta. split; [|split]; try reflexivity. split; [lia|]. split; [right; reflexivity|]. intros j [H1 H2]. assert (j = 4) as -> by lia. reflexivity. Qed.

Print Assumptions C82_any_evaluation_order.
Print Assumptions C82_morton_scan.
Print Assumptions C82_tree_builder_scans.
Print Assumptions C82_prune_indices.
Print Assumptions C82_other_scans.
Print Assumptions C82_negative_weights_refuted.
