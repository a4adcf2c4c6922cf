(** C106: plots.  What is drawn for a tree and for the interaction lists of a box, box extents, the TikZ
    document and its Roman numerals. *)
From Coq Require Import List Arith ZArith NArith QArith String Ascii Lia Lqa Bool.
From Verif Require Import Base Tree Spec TreeFacts Traversal SpecTraversal CheckTree ExampleTree TraversalLists Coverage PropsTraversal ListFacts CostFacts AreaMore
  TreeBuild SpecBuild BuildThm PropsBuild SpecArea AreaBuilt ExampleBuild Plot SpecPlot PlotFacts PlotThm.
Import ListNotations.
Local Open Scope string_scope.
Local Open Scope list_scope.
Local Open Scope nat_scope.

(** ** Roman numerals *)
Theorem C106_roman_numerals : forall n,
  ((0 < n < 4000)%Z -> int_to_roman n = Some (roman_numeral n) /\ roman_value (roman_numeral n) = Some n) /\
  int_to_roman 0 = Some "Z" /\
  (int_to_roman n = None <-> (n < 0 \/ 4000 <= n)%Z).
Proof.
  intros n. split; [|split; [reflexivity|apply roman_none]]. intros H. destruct (roman_ok n H) as [A [B _]]. auto.
Qed.

(** ** Box extents: the closed box around the center, inside of that of the root; those of a built tree
    hold the particles of the box, and that of the root is the bounding box *)
Theorem C106_box_extents : forall t b, wf_tree t -> b < nboxes t ->
  (forall x, in_closed_box t b x <-> forall a, a < dim t -> (extent_low t b a <= inject_Z (x a))%Q /\ (inject_Z (x a) <= extent_high t b a)%Q) /\
  (forall a, a < dim t -> (extent_low t 0 a <= extent_low t b a)%Q /\ (extent_high t b a <= extent_high t 0 a)%Q).
Proof.
  intros t b W H. assert (H0 := wf_nboxes t W). split.
  - intros x. split; intros I a Ha; specialize (I a Ha).
    + rewrite low_eq, high_eq, <- !Zle_Qle by auto. lia.
    + rewrite low_eq, high_eq, <- !Zle_Qle in I by auto. lia.
  - intros a Ha. rewrite !low_eq, !high_eq, <- !Zle_Qle by auto. apply in_root; auto.
Qed.

Theorem C106_built_extents : forall inp B,
  valid_input inp -> valid_geometry inp -> not_restricted_with_extents inp ->
  build_tree inp = inl B -> nlevels (b_tree B) <= 30 ->
  let t := b_tree B in
  (forall b k, b < nboxes t -> own_sources B b k -> forall a, a < dim t -> (extent_low t b a <= inject_Z (b_sources B k a))%Q /\ (inject_Z (b_sources B k a) < extent_high t b a)%Q) /\
  (forall b k, b < nboxes t -> own_targets B b k -> forall a, a < dim t -> (extent_low t b a <= inject_Z (b_targets B k a))%Q /\ (inject_Z (b_targets B k a) < extent_high t b a)%Q) /\
  (forall a, a < dim t -> (extent_low t 0 a == inject_Z (bbox_min inp a))%Q /\ (extent_high t 0 a == inject_Z (bbox_max inp a))%Q).
Proof.
  intros inp B V G NR H D t. destruct (C18_particles_in_their_boxes inp B V G NR H D) as [_ [_ [S T]]].
  destruct (built_fin inp B V H) as [st [pth [_ [F E]]]].
  assert (D' := D). rewrite E in D'.
  assert (W : wf_tree t). { unfold t. rewrite E. apply (finish_wf_tree inp V st pth F G D'). }
  assert (C : lower_corner t (bbox_min inp)). { unfold t. rewrite E. apply (built_lower_corner inp V st pth F G D'). }
  split; [|split].
  - intros b k Hb O a Ha. rewrite low_eq, high_eq, <- Zle_Qle, <- Zlt_Qlt by auto. apply (S b k Hb O a Ha).
  - intros b k Hb O a Ha. rewrite low_eq, high_eq, <- Zle_Qle, <- Zlt_Qlt by auto. apply (T b k Hb O a Ha).
  - intros a Ha. assert (P := wf_nboxes t W). rewrite low_eq, high_eq by auto.
    assert (X := C a Ha). assert (RX : (2 * box_rad t 0 = the_root_extent inp)%Z).
    { assert (Y := rad_exact t W (box_level t 0) ltac:(apply (wf_level_lt t W); auto)). unfold box_rad. rewrite (wf_root_level t W) in *.
      change (2 ^ Z.of_nat (0 + 1))%Z with 2%Z in Y. assert (Z : root_extent t = the_root_extent inp) by (unfold t; rewrite E; reflexivity). lia. }
    assert (Y := v_cube _ G a ltac:(unfold t in Ha; rewrite E in Ha; exact Ha)).
    split; apply inject_Z_injective; lia.
Qed.

(** ** draw_tree: one rectangle for each box, in the order of the boxes, only for two dimensions *)
Theorem C106_tree_drawn : forall t, wf_tree t ->
  (dim t <> 2 -> draw_tree t = None) /\
  (dim t = 2 -> exists ps, draw_tree t = Some ps /\ Forall2 (fun p b => scaled_box t b 1 p /\ fill (look p) = false) ps (seq 0 (nboxes t))).
Proof.
  intros t W. unfold draw_tree. split; intros D.
  - destruct (Nat.eqb_spec (dim t) 2); [contradiction|reflexivity].
  - rewrite D. eexists. split; [reflexivity|].
    assert (G : forall l, (forall b, In b l -> b < nboxes t) -> Forall2 (fun p b => scaled_box t b 1 p /\ fill (look p) = false) (map (fun b => draw_box t b 0 (mkStyle None (Some "black") None false)) l) l).
    { induction l as [|b l IH]; intros H; constructor; [|apply IH; intros; apply H; right; auto].
      split; [|reflexivity]. apply draw_box_scaled; auto; [apply H; left; auto|reflexivity]. }
    apply G. intros b Hb. apply in_seq in Hb. lia.
Qed.

(** ** TikZ: a document for every tree of at most 4000 boxes in two dimensions.  Every box has its own
    coordinates and macros, macro names consist of letters *)
Theorem C106_tikz : forall t, wf_tree t -> dim t = 2 -> nboxes t <= 4000 -> exists doc,
  get_tikz_for_tree t = Some doc /\
  (forall n v, In (Def n v) doc -> letters_only n = true) /\
  macro_is doc "nboxes" (VInt (Z.of_nat (nboxes t))) /\ macro_is doc "lastboxnr" (VInt (Z.of_nat (nboxes t) - 1)) /\
  forall b, b < nboxes t ->
    coordinate_is doc (append "boxl" (dec b)) (inject_Z (box_center t b 0 - box_rad t b)) (inject_Z (box_center t b 1 - box_rad t b)) /\
    coordinate_is doc (append "boxh" (dec b)) (inject_Z (box_center t b 0 + box_rad t b)) (inject_Z (box_center t b 1 + box_rad t b)) /\
    coordinate_is doc (append "boxc" (dec b)) (inject_Z (box_center t b 0)) (inject_Z (box_center t b 1)) /\
    let number := if b =? 0 then "Z" else roman_numeral (Z.of_nat b) in
    macro_is doc (append "boxsize" number) (VNum (2 * inject_Z (box_rad t b))) /\
    macro_is doc (append "boxlevel" number) (VInt (Z.of_nat (box_level t b))).
Proof.
  intros t W D S. eexists. split; [apply (tikz_eq t D S)|].
  split; [apply macro_letters; auto|]. split; [apply fixed_macro; auto; left; auto|]. split; [apply fixed_macro; auto; right; left; auto|].
  intros b H. destruct (coordinate_names t W D S b H) as [A [B C]]. split; [exact A|]. split; [exact B|]. split; [exact C|].
  destruct (macro_names t W D S b H) as [r [R M]]. destruct (Nat.eqb_spec b 0) as [->|N]; cbv zeta.
  - change (Some "Z" = Some r) in R. injection R as <-. exact M.
  - assert (BZ : (Z.of_nat b < 4000)%Z).
    { assert (X : b < 4000) by (apply (Nat.lt_le_trans _ _ _ H S)). replace 4000%Z with (Z.of_nat 4000) by (vm_compute; reflexivity). lia. }
    destruct (roman_ok (Z.of_nat b)) as [R' _]; [lia|]. rewrite R' in R. injection R as <-. exact M.
Qed.

(** a larger tree has no TikZ document: Roman numerals end at 3999 *)
Fixpoint heap_level (fuel b : nat) : nat :=
  match fuel with 0 => 0 | S f => if b =? 0 then 0 else S (heap_level f ((b - 1) / 4)) end.
Definition heap_rad (b : nat) : Z := (256 / 2 ^ Z.of_nat (heap_level 7 b + 1))%Z.
Fixpoint heap_center (fuel b i : nat) : Z :=
  match fuel with
  | 0 => 0%Z
  | S f => if b =? 0 then 0%Z else (heap_center f ((b - 1) / 4) i + morton_sign 2 ((b - 1) mod 4) i * heap_rad b)%Z
  end.
(** boxes numbered level by level: the children of b are 4 b + 1, ..., 4 b + 4 *)
Definition big_tree (n : nat) : tree := {|
  dim := 2; nlevels := 7; nboxes := n; root_extent := 256;
  box_center := heap_center 7; box_level := heap_level 7; box_parent := fun b => (b - 1) / 4;
  box_child := fun m b => if 4 * b + 1 + m <? n then 4 * b + 1 + m else 0; box_flags := fun _ => 0%N |}.
Fixpoint heap_size (k : nat) : nat := match k with 0 => 0 | S k => 4 * heap_size k + 1 end.
Lemma heap_up k b : b < heap_size (S k) -> b <> 0 -> (b - 1) / 4 < heap_size k.
Proof. cbn [heap_size]. intros H N. apply Nat.div_lt_upper_bound; lia. Qed.
Lemma heap_level_more k : forall b, b < heap_size k -> heap_level (S k) b = heap_level k b.
Proof.
  induction k; intros b H; [cbn in H; lia|]. cbn [heap_level] in *. destruct (Nat.eqb_spec b 0); auto. f_equal. apply IHk. apply heap_up; auto.
Qed.
Lemma heap_center_more i k : forall b, b < heap_size k -> heap_center (S k) b i = heap_center k b i.
Proof.
  induction k; intros b H; [cbn in H; lia|]. change (heap_center (S (S k)) b i) with (if b =? 0 then 0%Z else (heap_center (S k) ((b - 1) / 4) i + morton_sign 2 ((b - 1) mod 4) i * heap_rad b)%Z).
  change (heap_center (S k) b i) with (if b =? 0 then 0%Z else (heap_center k ((b - 1) / 4) i + morton_sign 2 ((b - 1) mod 4) i * heap_rad b)%Z).
  destruct (Nat.eqb_spec b 0); auto. rewrite IHk; auto. apply heap_up; auto.
Qed.
Lemma heap_level_lt k : forall b, b < heap_size k -> heap_level k b < k.
Proof.
  induction k; intros b H; [cbn in H; lia|]. cbn [heap_level]. destruct (Nat.eqb_spec b 0); [lia|]. apply -> Nat.succ_lt_mono. apply IHk. apply heap_up; auto.
Qed.
Lemma heap_child b m : m < 4 -> (4 * b + 1 + m - 1) / 4 = b /\ (4 * b + 1 + m - 1) mod 4 = m.
Proof.
  intros H. replace (4 * b + 1 + m - 1) with (m + b * 4) by lia. rewrite Nat.div_add, Nat.mod_add, Nat.div_small, Nat.mod_small by lia. auto.
Qed.
Lemma big_tree_wf n : 0 < n <= heap_size 7 -> wf_tree (big_tree n).
Proof.
  intros N. assert (NC : nchildren (big_tree n) = 4) by reflexivity.
  assert (S6 : forall b m, 4 * b + 1 + m < n -> b < heap_size 6) by (intros b m H; change (heap_size 7) with (4 * heap_size 6 + 1) in N; revert H N; generalize (heap_size 6); intros; lia).
  constructor; cbn [nboxes root_extent nlevels box_level box_parent box_child box_center dim big_tree]; try rewrite NC.
  - lia.
  - lia.
  - exists 2%Z. reflexivity.
  - reflexivity.
  - reflexivity.
  - intros b H. apply heap_level_lt. lia.
  - intros m b H M. destruct (Nat.ltb_spec (4 * b + 1 + m) n); lia.
  - intros m b H M NZ. destruct (Nat.ltb_spec (4 * b + 1 + m) n) as [L|]; [|lia]. destruct (heap_child b m M) as [E1 E2].
    assert (HL : heap_level 7 (4 * b + 1 + m) = S (heap_level 7 b)).
    { change (heap_level 7 (4 * b + 1 + m)) with (if 4 * b + 1 + m =? 0 then 0 else S (heap_level 6 ((4 * b + 1 + m - 1) / 4))).
      destruct (Nat.eqb_spec (4 * b + 1 + m) 0); [lia|]. rewrite E1. rewrite (heap_level_more 6 b (S6 b m L)). reflexivity. }
    split; [exact E1|]. split; [exact HL|]. intros i Hi.
    change (heap_center 7 (4 * b + 1 + m) i) with (if 4 * b + 1 + m =? 0 then 0%Z else (heap_center 6 ((4 * b + 1 + m - 1) / 4) i + morton_sign 2 ((4 * b + 1 + m - 1) mod 4) i * heap_rad (4 * b + 1 + m))%Z).
    destruct (Nat.eqb_spec (4 * b + 1 + m) 0); [lia|]. rewrite E1, E2, <- (heap_center_more i 6 b (S6 b m L)). reflexivity.
  - intros m m' b H M M' NZ E. destruct (Nat.ltb_spec (4 * b + 1 + m) n) as [L|]; [|lia]. destruct (Nat.ltb_spec (4 * b + 1 + m') n); lia.
  - intros b Z H. split; [apply (Nat.le_lt_trans _ (b - 1)); [apply Nat.div_le_upper_bound; lia|lia]|].
    exists ((b - 1) mod 4). assert (X := Nat.mod_upper_bound (b - 1) 4). assert (Y := Nat.div_mod (b - 1) 4). split; [lia|].
    replace (4 * ((b - 1) / 4) + 1 + (b - 1) mod 4) with b by lia. destruct (Nat.ltb_spec b n); lia.
Qed.

Theorem C106_tikz_refuted :
  (forall t, 4000 < nboxes t -> get_tikz_for_tree t = None) /\
  (exists t, wf_tree t /\ dim t = 2 /\ nlevels t = 7 /\ 4000 < nboxes t).
Proof.
  split.
  - intros t H. unfold get_tikz_for_tree. destruct (negb (dim t =? 2)); [reflexivity|].
    assert (G : forall l, In 4000 l -> run_all (tikz_box t) l = None).
    { induction l as [|b l IH]; intros I; [elim I|]. cbn [run_all]. destruct (tikz_box t b) as [x|] eqn:E; [|reflexivity].
      destruct I as [->|I]; [|rewrite (IH I); reflexivity]. exfalso. unfold tikz_box in E.
      assert (N : int_to_roman (Z.of_nat 4000) = None) by (vm_compute; reflexivity). rewrite N in E. discriminate. }
    rewrite (G (seq 0 (nboxes t))); [reflexivity|]. apply in_seq. split; [apply Nat.le_0_l|exact H].
  - exists (big_tree 4001). split; [apply big_tree_wf; split; [apply Nat.lt_0_succ|apply Nat.leb_le; vm_compute; reflexivity]|].
    split; [reflexivity|]. split; [reflexivity|]. apply Nat.lt_succ_diag_r.
Qed.

(** ** draw_box_lists: the box in red; in the colors of the lists, exactly their entries for the box;
    and blue outlines around the box, one for each list in which the box has no row *)
Theorem C106_lists_drawn : forall t P tr0 tr ibox rnd,
  wf_tree t -> wf_flags t -> wf_params t P -> build_traversal t P = Some tr0 ->
  tr = tr0 \/ merge_close_lists tr0 = Some tr ->
  ibox < nboxes t -> unit_numbers rnd ->
  exists ps, draw_box_lists t tr ibox rnd = Some ps /\
   (exists p, colored "red" None ps = [p] /\ scaled_box t ibox 1 p) /\
   Forall2 (marks t) (colored "green" None ps) (list1_of tr ibox) /\
   Forall2 (marks t) (colored "blue" None ps) (list2_of tr ibox) /\
   Forall2 (marks t) (colored "orange" None ps) (list3_of tr ibox) /\
   Forall2 (marks t) (colored "orange" (Some ".") ps) (list3_close_of tr ibox) /\
   Forall2 (marks t) (colored "purple" None ps) (list4_of tr ibox) /\
   Forall2 (marks t) (colored "purple" (Some ".") ps) (list4_close_of tr ibox) /\
   Forall (fun p => surrounds t p ibox /\ edgecolor (look p) = Some "blue") (outlines ps) /\
   List.length (outlines ps) = List.length (filter (fun k => negb (existsb (Nat.eqb ibox) k)) (row_keys tr)).
Proof.
  intros t P tr0 tr ibox rnd W F WP H C B U. apply (lists_drawn t W); auto.
  destruct C as [->|M]; [apply (built_listed t W F P WP tr0 H)|apply (merged_listed t W F P WP tr0 H tr ibox M)].
Qed.

(** draw_same_level_non_well_sep_boxes: the colleagues *)
Theorem C106_same_level_drawn : forall t P tr ibox rnd,
  wf_tree t -> wf_flags t -> wf_params t P -> build_traversal t P = Some tr -> ibox < nboxes t -> unit_numbers rnd ->
  exists ps es, draw_same_level_non_well_sep_boxes t tr ibox rnd = Some ps /\
   (exists p, colored "red" None ps = [p] /\ scaled_box t ibox 1 p) /\
   Forall2 (marks t) (colored "green" None ps) es /\ outlines ps = [] /\
   NoDup es /\ forall c, In c es <-> c < nboxes t /\ c <> ibox /\ within_n_boxes t (well_sep_is_n_away P) ibox c.
Proof.
  intros t P tr ibox rnd W F WP H B U. destruct (C04_same_level_lists_exact t P tr ibox W F WP H B) as [ND [IN _]].
  set (es := csr_get (same_level_non_well_sep_boxes tr) ibox) in *.
  destruct (row_shows t W (same_level_non_well_sep_boxes tr) ibox ibox "green" None (rnd 0) es) as [ps [E [A [O [_ L]]]]]; auto.
  - rewrite (tr_eq t W P WP tr H). cbn [same_level_non_well_sep_boxes the_traversal]. unfold slnws_csr. rewrite starts_length, map_length, seq_length. lia.
  - intros x X. apply IN in X. tauto.
  - apply U.
  - apply U.
  - exists (red_box t ibox :: ps), es. unfold draw_same_level_non_well_sep_boxes, draw_box_list. rewrite E. split; [reflexivity|].
    change (red_box t ibox :: ps) with ([red_box t ibox] ++ ps). rewrite !colored_app, outlines_app.
    rewrite (O "red" None) by discriminate. split; [exists (red_box t ibox); split; [reflexivity|apply draw_box_scaled; auto; reflexivity]|].
    split; [exact A|]. split; [apply length_zero_iff_nil; exact L|]. split; [exact ND|exact IN].
Qed.

(** ** get_box_list *)
Theorem C106_get_box_list : forall t P tr i,
  wf_tree t -> wf_params t P -> build_traversal t P = Some tr ->
  (i < List.length (target_boxes tr) -> get_box_list tr "neighbor_source_boxes" i = Some (list1_of tr (nth i (target_boxes tr) 0))) /\
  (i < List.length (target_or_target_parent_boxes tr) -> get_box_list tr "from_sep_siblings" i = Some (list2_of tr (nth i (target_or_target_parent_boxes tr) 0)) /\
     get_box_list tr "from_sep_bigger" i = Some (list4_of tr (nth i (target_or_target_parent_boxes tr) 0))) /\
  get_box_list tr "from_sep_smaller" i = None.
Proof.
  intros t P tr i W WP H. assert (A := NDtb t W P WP tr H). assert (B := NDttpb t W P WP tr H).
  assert (E := tr_eq t W P WP tr H).
  assert (L1 : List.length (starts (neighbor_source_boxes tr)) = S (List.length (target_boxes tr))).
  { rewrite E. cbn [neighbor_source_boxes target_boxes the_traversal]. rewrite starts_length, map_length. auto. }
  assert (L2 : List.length (starts (from_sep_siblings tr)) = S (List.length (target_or_target_parent_boxes tr))).
  { rewrite E. cbn [from_sep_siblings target_or_target_parent_boxes the_traversal]. rewrite starts_length, map_length. auto. }
  assert (L4 : List.length (starts (from_sep_bigger tr)) = S (List.length (target_or_target_parent_boxes tr))).
  { rewrite E. cbn [from_sep_bigger target_or_target_parent_boxes the_traversal]. rewrite starts_length, map_length. auto. }
  split; [|split; [|reflexivity]].
  - intros I. change (get_box_list tr "neighbor_source_boxes" i) with (if negb (S i <? List.length (starts (neighbor_source_boxes tr))) then None else Some (csr_get (neighbor_source_boxes tr) i)).
    unfold list1_of. rewrite entries_row, L1 by auto. destruct (Nat.ltb_spec (S i) (S (List.length (target_boxes tr)))); [reflexivity|lia].
  - intros I. change (get_box_list tr "from_sep_siblings" i) with (if negb (S i <? List.length (starts (from_sep_siblings tr))) then None else Some (csr_get (from_sep_siblings tr) i)).
    change (get_box_list tr "from_sep_bigger" i) with (if negb (S i <? List.length (starts (from_sep_bigger tr))) then None else Some (csr_get (from_sep_bigger tr) i)).
    unfold list2_of, list4_of. rewrite !entries_row, L2, L4 by auto. destruct (Nat.ltb_spec (S i) (S (List.length (target_or_target_parent_boxes tr)))); [split; reflexivity|lia].
Qed.

(** ** Non-vacuity *)
(** the tree of 29 boxes of PropsTraversal.v with target extents: what is drawn for box 24 *)
Example C106_lists_case : exists tr,
  let P := ex_params 1 (ex_extent true static_l2 2) in
  wf_tree ex_tree /\ wf_flags ex_tree /\ wf_params ex_tree P /\ build_traversal ex_tree P = Some tr /\
  24 < nboxes ex_tree /\ unit_numbers (fun _ => (1#2)%Q) /\
  option_map (fun ps => (List.length (colored "green" None ps), List.length (colored "orange" None ps), List.length (colored "orange" (Some ".") ps),
                         List.length (colored "purple" (Some ".") ps), List.length (outlines ps)))
    (draw_box_lists ex_tree tr 24 (fun _ => (1#2)%Q)) = Some (7, 1, 1, 3, 4).
Proof.
  destruct (C09_build_traversal_succeeds ex_tree (ex_params 1 (ex_extent true static_l2 2)) (proj1 ex_tree_wf) (le_n 1)) as [tr H].
  exists tr. cbv zeta. destruct ex_tree_wf as [W [F _]]. destruct (ex_params_wf 1 true static_l2 2 (le_n 1)) as [WP WE].
  split; auto. split; auto. split; auto. split; auto. split; [cbn; lia|]. split; [intros k; split; [discriminate|reflexivity]|].
  assert (X : build_traversal ex_tree (ex_params 1 (ex_extent true static_l2 2)) = Some tr) by exact H. clear H.
  vm_compute in X. injection X as <-. vm_compute. reflexivity.
Qed.
Example C106_tikz_case : wf_tree ex_tree /\ dim ex_tree = 2 /\ nboxes ex_tree <= 4000 /\
  int_to_roman 1994 = Some "MCMXCIV" /\ dec 28 = "28" /\ option_map (@List.length _) (get_tikz_for_tree ex_tree) = Some 150.
Proof.
  split; [apply ex_tree_wf|]. split; [reflexivity|]. split; [apply Nat.leb_le; vm_compute; reflexivity|]. split; [vm_compute; reflexivity|]. split; vm_compute; reflexivity.
Qed.

Print Assumptions C106_roman_numerals.
Print Assumptions C106_box_extents.
Print Assumptions C106_built_extents.
Print Assumptions C106_tree_drawn.
Print Assumptions C106_tikz.
Print Assumptions C106_tikz_refuted.
Print Assumptions C106_lists_drawn.
Print Assumptions C106_same_level_drawn.
Print Assumptions C106_get_box_list.
