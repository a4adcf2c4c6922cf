(** Separation of interaction list entries. *)
From Coq Require Import List Arith ZArith Lia Bool.
From Verif Require Import Base Tree Spec TreeFacts GeomFacts Walk Traversal SpecTraversal TraversalLists
  Coverage CoverageThm ListFacts FmmThm SpecSep.
Import ListNotations.

(** ** Sums of squares *)
Lemma zsum_nonneg {A} (f : A -> Z) l : (forall x, In x l -> (0 <= f x)%Z) -> (0 <= zsum (map f l))%Z.
Proof. induction l as [|x l IH]; intros H; cbn [map zsum fold_right]; [lia|]. assert (X := H x (or_introl eq_refl)). assert (Y := IH ltac:(intros; apply H; right; auto)). unfold zsum in Y. lia. Qed.
Lemma zsum_map_mono {A} (f g : A -> Z) l : (forall x, In x l -> (f x <= g x)%Z) -> (zsum (map f l) <= zsum (map g l))%Z.
Proof. induction l as [|x l IH]; intros H; cbn [map zsum fold_right]; [lia|]. assert (X := H x (or_introl eq_refl)). assert (Y := IH ltac:(intros; apply H; right; auto)). unfold zsum in Y. lia. Qed.
Lemma zsum_const {A} (c : Z) (l : list A) : zsum (map (fun _ => c) l) = (Z.of_nat (length l) * c)%Z.
Proof. induction l; cbn [map zsum fold_right length]; [lia|]. unfold zsum in IHl. rewrite IHl. lia. Qed.
Lemma zsum_term {A} (f : A -> Z) l x : (forall x, In x l -> (0 <= f x)%Z) -> In x l -> (f x <= zsum (map f l))%Z.
Proof.
  induction l as [|y l IH]; intros H I; [destruct I|]. cbn [map zsum fold_right].
  assert (Y := zsum_nonneg f l ltac:(intros; apply H; right; auto)). assert (X := H y (or_introl eq_refl)).
  destruct I as [->|I]; [unfold zsum in Y; lia|]. assert (Z := IH ltac:(intros; apply H; right; auto) I). unfold zsum in Z. lia.
Qed.
Lemma sq_le_abs a b : (0 <= b -> a * a <= b * b -> a <= b)%Z.
Proof. nia. Qed.
(** Cauchy-Schwarz *)
Lemma cauchy {A} (f g : A -> Z) l :
  (zsum (map (fun i => f i * g i) l) * zsum (map (fun i => f i * g i) l)
   <= zsum (map (fun i => f i * f i) l) * zsum (map (fun i => g i * g i) l))%Z.
Proof.
  induction l as [|x l IH]; cbn [map zsum fold_right]; [lia|].
  assert (P1 := zsum_nonneg (fun i => f i * f i)%Z l ltac:(intros; nia)).
  assert (P2 := zsum_nonneg (fun i => g i * g i)%Z l ltac:(intros; nia)).
  unfold zsum in *.
  set (s := fold_right Z.add 0%Z (map (fun i => f i * g i)%Z l)) in *.
  set (a := fold_right Z.add 0%Z (map (fun i => f i * f i)%Z l)) in *.
  set (b := fold_right Z.add 0%Z (map (fun i => g i * g i)%Z l)) in *.
  generalize (f x) (g x). clearbody s a b. intros u v. clear x l f g.
  assert (K : (2 * (s * (u * v)) <= u * u * b + v * v * a)%Z).
  { apply sq_le_abs; [nia|].
    assert (E : (4 * (u * u * b) * (v * v * a) <= (u * u * b + v * v * a) * (u * u * b + v * v * a))%Z).
    { generalize (u * u * b)%Z (v * v * a)%Z. intros p q. assert (X := Z.square_nonneg (p - q)). nia. }
    assert (E2 : (4 * (u * u * (v * v)) * (s * s) <= 4 * (u * u * (v * v)) * (a * b))%Z).
    { apply Z.mul_le_mono_nonneg_l; [|lia]. nia. }
    nia. }
  nia.
Qed.
(** |v + w|^2 expanded *)
Lemma zsum_square {A} (f g : A -> Z) l :
  zsum (map (fun i => (f i + g i) * (f i + g i))%Z l) =
  (zsum (map (fun i => f i * f i) l) + 2 * zsum (map (fun i => f i * g i) l) + zsum (map (fun i => g i * g i) l))%Z.
Proof.
  rewrite <- zsum_map_mul, <- !zsum_map_add. f_equal. apply map_ext. intros i. ring.
Qed.
(** triangle inequality, |u| >= A + B, |w| <= B gives |u + w| >= A; A^2, B^2 given, |u|^2 >= (A+B)^2
    in the form without roots *)
Lemma triangle_far {A} (u w : A -> Z) l (a2 b2 : Z) :
  let U := zsum (map (fun i => u i * u i)%Z l) in
  let r := (U - a2 - b2)%Z in
  (0 <= a2 -> 0 <= b2 -> 0 <= r -> 4 * a2 * b2 <= r * r ->
   zsum (map (fun i => w i * w i) l) <= b2 ->
   a2 <= zsum (map (fun i => (u i + w i) * (u i + w i)) l))%Z.
Proof.
  intros U r Ha Hb Hr H4 Hw.
  set (v := fun i => (u i + w i)%Z). set (V := zsum (map (fun i => v i * v i)%Z l)).
  change (a2 <= V)%Z. destruct (Z_le_gt_dec a2 V) as [|N]; auto. exfalso.
  set (W := zsum (map (fun i => w i * w i)%Z l)) in *.
  set (s := zsum (map (fun i => v i * w i)%Z l)).
  assert (EU : U = (V - 2 * s + W)%Z).
  { unfold U, V, s, W. replace (map (fun i => u i * u i)%Z l) with (map (fun i => (v i + - w i) * (v i + - w i))%Z l).
    - rewrite (zsum_square v (fun i => - w i)%Z).
      replace (map (fun i => v i * - w i)%Z l) with (map (fun i => -1 * (v i * w i))%Z l) by (apply map_ext; intros; ring).
      rewrite zsum_map_mul. replace (map (fun i => - w i * - w i)%Z l) with (map (fun i => w i * w i)%Z l) by (apply map_ext; intros; ring). ring.
    - apply map_ext. intros i. unfold v. ring. }
  assert (CS := cauchy v w l). fold s V W in CS.
  assert (PV : (0 <= V)%Z) by (apply zsum_nonneg; intros; nia). assert (PW : (0 <= W)%Z) by (apply zsum_nonneg; intros; nia).
  assert (L : (r < -2 * s)%Z) by (unfold r; lia).
  assert (Q : (r * r < (2 * s) * (2 * s))%Z) by nia.
  assert (Q2 : (V * W <= a2 * b2)%Z) by nia. nia.
Qed.
(** |u|^2 <= a^2, |w|^2 <= b^2 gives |u + w|^2 <= (a + b)^2; scaled by k *)
Lemma triangle_near {A} (u w : A -> Z) l (k a b : Z) : (0 <= k -> 0 <= a -> 0 <= b ->
   zsum (map (fun i => u i * u i) l) <= k * (a * a) -> zsum (map (fun i => w i * w i) l) <= k * (b * b) ->
   zsum (map (fun i => (u i + w i) * (u i + w i)) l) <= k * ((a + b) * (a + b)))%Z.
Proof.
  intros Hk Ha Hb Hu Hw. rewrite zsum_square. assert (CS := cauchy u w l).
  assert (PU := zsum_nonneg (fun i => u i * u i)%Z l ltac:(intros; nia)). assert (PW := zsum_nonneg (fun i => w i * w i)%Z l ltac:(intros; nia)).
  set (U := zsum (map (fun i => u i * u i)%Z l)) in *. set (W := zsum (map (fun i => w i * w i)%Z l)) in *.
  set (s := zsum (map (fun i => u i * w i)%Z l)) in *. clearbody U W s.
  assert (s <= k * a * b)%Z.
  { apply sq_le_abs; [nia|]. assert (U * W <= (k * (a * a)) * (k * (b * b)))%Z by (apply Z.mul_le_mono_nonneg; auto). nia. }
  nia.
Qed.
(** |x| + rho < R (without roots) and |w| <= rho gives |x + w| <= R *)
Lemma triangle_strict {A} (u w : A -> Z) l (R2 rho2 : Z) :
  let U := zsum (map (fun i => u i * u i)%Z l) in
  let K := (R2 - U - rho2)%Z in
  (0 <= rho2 -> 0 < K -> 4 * rho2 * U < K * K -> zsum (map (fun i => w i * w i) l) <= rho2 ->
   zsum (map (fun i => (u i + w i) * (u i + w i)) l) <= R2)%Z.
Proof.
  intros U K Hr HK H4 Hw. rewrite zsum_square. assert (CS := cauchy u w l).
  assert (PU := zsum_nonneg (fun i => u i * u i)%Z l ltac:(intros; nia)). assert (PW := zsum_nonneg (fun i => w i * w i)%Z l ltac:(intros; nia)).
  fold U in CS, PU |- *. set (W := zsum (map (fun i => w i * w i)%Z l)) in *.
  set (s := zsum (map (fun i => u i * w i)%Z l)) in *. assert (EK : K = (R2 - U - rho2)%Z) by reflexivity. clearbody U W s K.
  assert (2 * s <= K)%Z; [|lia].
  apply sq_le_abs; [lia|]. assert (U * W <= rho2 * U)%Z by (clear - PU Hw; nia). clear - CS H H4. nia.
Qed.

Lemma apart_linf_l2 d x y num den : (0 <= num)%Z -> (0 <= den)%Z -> apart_linf d x y num den -> apart_l2 d x y num den.
Proof.
  intros Hn Hd [i [Hi H]]. unfold apart_l2.
  assert (T := zsum_term (fun i => (x i - y i) * (x i - y i))%Z (seq 0 d) i (fun j _ => Z.square_nonneg (x j - y j)) ltac:(apply in_seq; lia)).
  fold (dist2 d x y) in T. cbv beta in T.
  assert ((x i - y i) * (x i - y i) = Z.abs (x i - y i) * Z.abs (x i - y i))%Z by (rewrite <- Z.abs_mul; symmetry; apply Z.abs_eq; nia).
  rewrite H0 in T. set (z := Z.abs (x i - y i)) in *. assert (0 <= z)%Z by apply Z.abs_nonneg. clearbody z.
  assert (num * num <= (den * z) * (den * z))%Z by nia.
  assert (den * den * (z * z) <= den * den * dist2 d x y)%Z by (apply Z.mul_le_mono_nonneg_l; nia). lia.
Qed.
Lemma max_axes_ge d f r : (0 < r)%Z -> (r <= max_axes d f)%Z -> exists i, i < d /\ (r <= f i)%Z.
Proof.
  intros Hr H. destruct (Exists_dec (fun i => (r <= f i)%Z) (seq 0 d)) as [E|N].
  - intros i. destruct (Z_le_gt_dec r (f i)); [left|right]; lia.
  - apply Exists_exists in E. destruct E as [i [Hi E]]. apply in_seq in Hi. exists i. split; [lia|auto].
  - exfalso. assert (X : (max_axes d f <= r - 1)%Z).
    { unfold max_axes. apply fold_max_le. split; [lia|]. intros i Hi. destruct (Z_le_gt_dec r (f i)) as [Y|Y]; [|lia].
      exfalso. apply N. apply Exists_exists. eauto. }
    lia.
Qed.
Lemma linf_dist_max d a b : linf_dist d a b = max_axes d (fun i => Z.abs (a i - b i)).
Proof. reflexivity. Qed.

Section Sep.
Variable t : tree.
Hypothesis W : wf_tree t.

(** boxes that are not adjacent are at least one box of the smaller size apart *)
Lemma not_adj_gap a b : a < nboxes t -> b < nboxes t -> adj t a b = false ->
  exists i, i < dim t /\
    (box_rad t a + box_rad t b + 2 * Z.min (box_rad t a) (box_rad t b) <= Z.abs (box_center t a i - box_center t b i))%Z.
Proof.
  intros Ha Hb E. unfold adj, is_adj, is_adj_nbhd in E. apply Z.leb_gt in E.
  fold (box_rad t a) in E. fold (box_rad t b) in E. change (Z.of_nat 1) with 1%Z in E.
  pose proof (box_rad_pos t W a Ha) as Pa. pose proof (box_rad_pos t W b Hb) as Pb.
  rewrite linf_dist_max in E.
  destruct (max_axes_ge (dim t) (fun i => Z.abs (box_center t a i - box_center t b i)) (box_rad t a + box_rad t b + Z.min (box_rad t a) (box_rad t b) + 1)%Z ltac:(lia) ltac:(lia)) as [i [Hi H]].
  cbv beta in H. clear E. exists i. split; auto.
  destruct (grid t W a Ha i Hi) as [ga Ga]. destruct (grid t W b Hb i Hi) as [gb Gb].
  set (o := (box_center t 0 i - level_to_rad t 0)%Z) in *. rewrite Ga, Gb in *.
  assert (PAR : forall D X r : Z, (0 < r)%Z -> (exists k, D + X = 2 * k)%Z -> (Z.abs (D * r) > X * r + r)%Z -> (X * r + 2 * r <= Z.abs (D * r))%Z).
  { intros D X r Hr [k Hk] G. rewrite Z.abs_mul, (Z.abs_eq r) in * by lia. assert (Z.abs D > X + 1)%Z by nia.
    assert (X + 2 <= Z.abs D)%Z by lia. nia. }
  destruct (Nat.le_ge_cases (box_level t a) (box_level t b)) as [L|L].
  - assert (E : box_rad t a = (2 ^ Z.of_nat (box_level t b - box_level t a) * box_rad t b)%Z).
    { unfold box_rad. rewrite (rad_pow t W _ (box_level t b - box_level t a)).
      - f_equal. f_equal. lia.
      - pose proof (wf_level_lt t W b Hb). lia. }
    set (k := (2 ^ Z.of_nat (box_level t b - box_level t a))%Z) in *.
    assert (Hk : (1 <= k)%Z) by (assert (0 < k)%Z by (apply Z.pow_pos_nonneg; lia); lia).
    rewrite E in *. set (r := box_rad t b) in *. clearbody k r o.
    rewrite Z.min_r in * by nia.
    replace (o + (2*ga+1)*(k*r) - (o + (2*gb+1)*r))%Z with (((2*ga+1)*k - (2*gb+1)) * r)%Z in * by ring.
    replace (k * r + r + 2 * r)%Z with ((k + 1) * r + 2 * r)%Z by ring. apply PAR; auto.
    + exists (ga * k - gb + k)%Z. ring.
    + nia.
  - assert (E : box_rad t b = (2 ^ Z.of_nat (box_level t a - box_level t b) * box_rad t a)%Z).
    { unfold box_rad. rewrite (rad_pow t W _ (box_level t a - box_level t b)).
      - f_equal. f_equal. lia.
      - pose proof (wf_level_lt t W a Ha). lia. }
    set (k := (2 ^ Z.of_nat (box_level t a - box_level t b))%Z) in *.
    assert (Hk : (1 <= k)%Z) by (assert (0 < k)%Z by (apply Z.pow_pos_nonneg; lia); lia).
    rewrite E in *. set (r := box_rad t a) in *. clearbody k r o.
    rewrite Z.min_l in * by nia.
    replace (o + (2*ga+1)*r - (o + (2*gb+1)*(k*r)))%Z with (((2*ga+1) - (2*gb+1)*k) * r)%Z in * by ring.
    replace (r + k * r + 2 * r)%Z with ((1 + k) * r + 2 * r)%Z by ring. apply PAR; auto.
    + exists (ga - gb * k + 1)%Z. ring.
    + nia.
Qed.
(** boxes of one level that are not within n boxes are at least n+1 boxes apart *)
Lemma not_within_gap n a b : a < nboxes t -> b < nboxes t -> box_level t a = box_level t b -> ~ within_n_boxes t n a b ->
  exists i, i < dim t /\ ((2 * Z.of_nat n + 2) * box_rad t a <= Z.abs (box_center t a i - box_center t b i))%Z.
Proof.
  intros Ha Hb L N. pose proof (box_rad_pos t W a Ha) as Pa.
  destruct (Exists_dec (fun i => ~ (Z.abs (box_center t a i - box_center t b i) <= Z.of_nat n * (2 * box_rad t a))%Z) (seq 0 (dim t))) as [E|E].
  - intros i. destruct (Z_le_gt_dec (Z.abs (box_center t a i - box_center t b i)) (Z.of_nat n * (2 * box_rad t a))); [right|left]; lia.
  - apply Exists_exists in E. destruct E as [i [Hi E]]. apply in_seq in Hi. exists i. split; [lia|].
    destruct (grid t W a Ha i ltac:(lia)) as [ga Ga]. destruct (grid t W b Hb i ltac:(lia)) as [gb Gb].
    set (o := (box_center t 0 i - level_to_rad t 0)%Z) in *. rewrite Ga, Gb in *.
    assert (R : box_rad t b = box_rad t a) by (unfold box_rad; congruence). rewrite R in *. set (r := box_rad t a) in *. clearbody o r.
    replace (o + (2*ga+1)*r - (o + (2*gb+1)*r))%Z with ((2 * (ga - gb)) * r)%Z in * by ring.
    rewrite Z.abs_mul, (Z.abs_eq r) in * by lia. assert (Z.abs (2 * (ga - gb)) > 2 * Z.of_nat n)%Z by nia.
    assert (2 * Z.of_nat n + 2 <= Z.abs (2 * (ga - gb)))%Z by lia. nia.
  - exfalso. apply N. split; auto. intros i Hi. destruct (Z_le_gt_dec (Z.abs (box_center t a i - box_center t b i)) (Z.of_nat n * (2 * box_rad t a))) as [|G]; auto.
    exfalso. apply E. apply Exists_exists. exists i. split; [apply in_seq; lia|lia].
Qed.
(** a box lies inside its ancestors *)
Lemma anc_inside b k i : b < nboxes t -> k <= box_level t b -> i < dim t ->
  (Z.abs (box_center t b i - box_center t (anc t k b) i) <= box_rad t (anc t k b) - box_rad t b)%Z.
Proof.
  intros Hb Hk Hi. unfold anc. assert (Hj : box_level t b - k <= box_level t b) by lia. revert Hj. generalize (box_level t b - k) as j. clear k Hk.
  induction j as [|j IH]; intros Hj; [simpl; rewrite !Z.sub_diag; simpl; lia|].
  specialize (IH ltac:(lia)). change (up t (S j) b) with (box_parent t (up t j b)). set (c := up t j b) in *.
  assert (Hc : c < nboxes t) by (apply up_lt; auto).
  assert (L : box_level t c = box_level t b - j) by (apply up_level; auto).
  assert (C0 : 0 < c). { destruct c; [|lia]. rewrite (wf_root_level t W) in L. lia. }
  rewrite (parent_rad t W c) by auto. pose proof (parent_center t W c i Hc C0 Hi). lia.
Qed.
End Sep.

Section Lists.
Variable t : tree.
Hypothesis W : wf_tree t.
Hypothesis F : wf_flags t.
Variable P : trav_params.
Hypothesis WP : wf_params t P.
Let n := well_sep_is_n_away P.
Let Hn : 1 <= n := proj1 WP.
Let ex := extents P.
Variable tr : traversal.
Hypothesis Htr : build_traversal t P = Some tr.

Lemma list3_entry_facts T B : In T (target_boxes tr) -> In B (list3_of tr T) ->
  T < nboxes t /\ B < nboxes t /\ 0 < T /\ box_level t T < box_level t B /\ adj t T B = false /\
  (targets_have_extent ex = true -> meets_sep_smaller t ex T B = true).
Proof.
  intros HT HB. assert (HTl := tr_tb_range t W P WP tr Htr T HT).
  destruct (list3_of_level t W P WP tr Htr T B HB) as [l [Hl HB2]].
  apply (list3_level_in t W F P WP tr Htr) in HB2; auto. destruct HB2 as [H1 [H2 [H3 [H4 [H5 [H6 _]]]]]].
  unfold stop, is_far in H6. apply andb_true_iff in H6. destruct H6 as [N H6]. apply negb_true_iff in N.
  apply andb_true_iff in H6. destruct H6 as [M _].
  split; auto. split; auto. split; [|split; [lia|split; auto]].
  - destruct T; [|lia]. exfalso. apply slnws_in in H5; auto. destruct H5 as [_ [_ [NE _]]]. apply NE.
    rewrite (wf_root_level t W). apply anc_0; auto.
  - intros E. fold ex in M. rewrite E in M. exact M.
Qed.
Lemma list4_entry_facts A s : In A (target_or_target_parent_boxes tr) -> In s (list4_of tr A) ->
  A < nboxes t /\ s < nboxes t /\ 0 < A /\ box_level t s <= box_level t A /\ adj t A s = false /\
  (targets_have_extent ex = true ->
   meets_sep_bigger t ex (box_center t A) (box_level t A) (box_center t s) (box_level t s) = true).
Proof.
  intros HA Hs. assert (HAl := tr_ttpb_range t W P WP tr Htr A HA).
  assert (Hsl := list4_of_in_range t W P WP tr Htr A s HA Hs).
  apply count_In in Hs. rewrite (tr_eq t W P WP tr Htr) in Hs.
  rewrite list4_of_count in Hs by (auto; rewrite <- (tr_ttpb t W P WP tr Htr); auto).
  rewrite list4_count in Hs by auto.
  destruct (Nat.leb_spec 1 (box_level t s)) as [L1|L1]; simpl in Hs; [|lia].
  destruct (Nat.leb_spec (box_level t s) (box_level t A)) as [L2|L2]; [|lia].
  assert (A0 : 0 < A). { destruct A; [rewrite (wf_root_level t W) in L2; lia|lia]. }
  assert (C : In s (pick true (list4_entry t ex n A (box_level t s) s))).
  { apply count_In. unfold ex, n. destruct (count s (pick true _)); lia. }
  clear Hs. split; auto. split; auto. split; auto. split; auto.
  unfold list4_entry in C. destruct (is_source t s); [|destruct C].
  change (is_adj t (box_center t A) (box_level t A) (box_center t s) (box_level t s)) with (adj t A s) in C.
  destruct (adj t A s); simpl in C; [destruct C|]. split; auto.
  intros E. rewrite E in C. destruct (meets_sep_bigger _ _ _ _ _ _); auto.
  simpl in C. destruct (is_target t A); simpl in C; destruct C.
Qed.
Lemma list2_entry_facts A B : In A (target_or_target_parent_boxes tr) -> In B (list2_of tr A) ->
  A < nboxes t /\ B < nboxes t /\ 0 < A /\ box_level t A = box_level t B /\ ~ within_n_boxes t n A B.
Proof.
  intros HA HB. assert (HAl := tr_ttpb_range t W P WP tr Htr A HA).
  destruct (list2_spec t W P WP tr Htr A HA) as [_ S]. apply S in HB. destruct HB as [H1 [H2 [H3 [H4 [H5 _]]]]].
  repeat split; auto; try lia. 
Qed.
End Lists.
