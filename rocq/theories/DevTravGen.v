(** The kernels of the traversal on the device compute the lists of Traversal.v. *)
From Coq Require Import List Arith ZArith NArith Lia Bool.
From Verif Require Import Base Tree Walk Traversal TraversalLists Kernel Device DeviceFacts ListBuilder ListBuilderFacts TravDevice.
Import ListNotations.

(** the arguments of the builder that are not arrays *)
Definition scalars_of (t : tree) (P : trav_params) (m1 m2 : bool) : scalars := {|
  s_dim := dim t; s_nlevels := nlevels t; s_nboxes := nboxes t; s_root_extent := root_extent t;
  s_n_away := well_sep_is_n_away P; s_sources_are_targets := sources_are_targets P;
  s_source_mask := m1; s_parent_mask := m2; s_ext := targets_have_extent (extents P);
  s_stick_num := stick_out_num (extents P); s_stick_den := stick_out_den (extents P);
  s_eps_num := eps_num (extents P); s_eps_den := eps_den (extents P);
  s_crit := from_sep_smaller_crit (extents P); s_min_nsources := from_sep_smaller_min_nsources_cumul (extents P) |}.

Notation kn := (known varr).
Notation gok := (gen_ok tarray lname).
Definition cell (K : kn) (a : varr) (k : Z) (v : Z) : Prop :=
  exists m, len K a = Some m /\ (0 <= k < m)%Z /\ val K a (Z.to_nat k) = Some v.
Lemma has_cell (K : kn) a m n f k : has K a m n f -> k < n -> cell K a (z k) (f k).
Proof. intros [A B C] H. exists (z m). rewrite Nat2Z.id. repeat split; auto; lia. Qed.
Lemma same_cell (P : varr -> Prop) (K K' : kn) a k v : same_on tarray lname P K K' -> P a -> cell K a k v -> cell K' a k v.
Proof. intros [A B] Pa [m [L [R V]]]. exists m. auto. Qed.

(** ** Tests on loaded values *)
Lemma fold_max_ext (f g : nat -> Z) l : (forall i, In i l -> f i = g i) -> forall acc,
  fold_left (fun acc i => Z.max acc (f i)) l acc = fold_left (fun acc i => Z.max acc (g i)) l acc.
Proof.
  induction l as [|i l IH]; intros E acc; cbn [fold_left]; auto. rewrite (E i) by (left; auto). apply IH. intros j J. apply E. right; auto.
Qed.
Lemma linf_ext d a a' b b' : (forall i, i < d -> a i = a' i) -> (forall i, i < d -> b i = b' i) -> linf_dist d a b = linf_dist d a' b'.
Proof. intros A B. apply fold_max_ext. intros i I. apply in_seq in I. rewrite A, B by lia. auto. Qed.
Lemma max_axes_ext d f g : (forall i, i < d -> f i = g i) -> max_axes d f = max_axes d g.
Proof. intros E. apply fold_max_ext. intros i I. apply in_seq in I. apply E. lia. Qed.

Section Gen.
Variable t : tree.
Hypothesis W : wf_tree t.
Variable P : trav_params.
Variable m1 m2 : bool.
Notation S := (scalars_of t P m1 m2).
Notation al := (aligned S).
Notation ex := (extents P).
Notation n := (well_sep_is_n_away P).

(** what is known about the arrays of the tree *)
Record boxes_known (K : kn) : Prop := {
  k_centers : forall a b, a < dim t -> b < nboxes t -> cell K (Base BoxCenters) (z al * z a + z b) (box_center t b a);
  k_levels : forall b, b < nboxes t -> cell K (Base BoxLevels) (z b) (z (box_level t b));
  k_children : forall m b, m < nchildren t -> b < nboxes t -> cell K (Base BoxChildren) (z m * z al + z b) (z (box_child t m b));
  k_flags : forall b, b < nboxes t -> cell K (Base BoxFlags) (z b) (Z.of_N (box_flags t b))
}.
Record tree_known (K : kn) : Prop := {
  k_boxes : boxes_known K;
  k_parents : forall b, b < nboxes t -> cell K (Base BoxParents) (z b) (z (box_parent t b));
  k_level_starts : forall l, l < nlevels t -> cell K (Base LevelStartBoxNrs) (z l) (z (level_start_box_nrs P l));
  k_mask : if m1 then forall b, b < nboxes t -> exists v, cell K (Base SourceMask) (z b) v /\ negb (v =? 0)%Z = source_boxes_mask P b
           else forall b, b < nboxes t -> source_boxes_mask P b = true;
  k_parent_mask : if m2 then forall b, b < nboxes t -> exists v, cell K (Base SourceParentMask) (z b) v /\ negb (v =? 0)%Z = source_parent_boxes_mask P b
           else forall b, b < nboxes t -> source_parent_boxes_mask P b = true;
  k_extents : targets_have_extent ex = true -> from_sep_smaller_crit ex = precise_linf -> exists mn mx, forall a b, a < dim t -> b < nboxes t ->
    cell K (Base TargetMin) (z al * z a + z b) (mn b a) /\ cell K (Base TargetMax) (z al * z a + z b) (mx b a) /\
    tgt_ext_center2 ex b a = (mn b a + mx b a)%Z /\ tgt_ext_radius2 ex b a = (mx b a - mn b a)%Z;
  k_counts : targets_have_extent ex = true -> forall b, b < nboxes t -> cell K (Base SourceCounts) (z b) (z (box_source_counts_cumul ex b))
}.
(** arrays that are read by a kernel after they have been computed *)
Definition tree_array (a : varr) : Prop :=
  match a with
  | Base BoxCenters | Base BoxLevels | Base BoxChildren | Base BoxParents | Base BoxFlags | Base LevelStartBoxNrs
  | Base SourceMask | Base SourceParentMask | Base TargetMin | Base TargetMax | Base SourceCounts => True
  | _ => False
  end.
Lemma boxes_known_same (F : varr -> Prop) K K' : same_on tarray lname F K K' -> (forall a, tree_array a -> F a) -> boxes_known K -> boxes_known K'.
Proof.
  intros SM TA [A1 A2 A3 A4].
  assert (C : forall a k v, tree_array a -> cell K a k v -> cell K' a k v) by (intros; eapply same_cell; eauto).
  constructor; intros; (apply C; [exact Logic.I|auto]).
Qed.
Lemma tree_known_same (F : varr -> Prop) K K' : same_on tarray lname F K K' -> (forall a, tree_array a -> F a) -> tree_known K -> tree_known K'.
Proof.
  intros SM TA [A1 A4 A6 A7 A8 A9 A10].
  assert (C : forall a k v, tree_array a -> cell K a k v -> cell K' a k v) by (intros; eapply same_cell; eauto).
  constructor.
  - eapply boxes_known_same; eauto.
  - intros. apply C; [exact Logic.I|auto].
  - intros. apply C; [exact Logic.I|auto].
  - destruct m1; auto. intros b Hb. destruct (A7 b Hb) as [v [V E]]. exists v. split; auto. apply C; [exact Logic.I|auto].
  - destruct m2; auto. intros b Hb. destruct (A8 b Hb) as [v [V E]]. exists v. split; auto. apply C; [exact Logic.I|auto].
  - intros T Q. destruct (A9 T Q) as [mn [mx H]]. exists mn, mx. intros a b Ha Hb. destruct (H a b Ha Hb) as [H1 [H2 H3]].
    split; [apply C; [exact Logic.I|auto]|]. split; [apply C; [exact Logic.I|auto]|auto].
  - intros. apply C; [exact Logic.I|auto].
Qed.

Variable K : kn.
Variable F : varr -> Prop.
Hypothesis FB : forall b, F (Base b).

Section BoxesKnown.
Hypothesis TK : boxes_known K.

Lemma gcell a k v next out : F a -> cell K a k v -> gok K F (next v) out -> gok K F (GLoad a k next) out.
Proof. intros Fa [m [L [R V]]] O. exists m, v. auto. Qed.

Lemma gloads_ok {X} (l : list X) (g : X -> varr * Z) (v : X -> Z) next out :
  (forall x, In x l -> F (fst (g x)) /\ cell K (fst (g x)) (snd (g x)) (v x)) ->
  gok K F (next (map v l)) out -> gok K F (gloads (map g l) next) out.
Proof.
  revert next. induction l as [|x l IH]; intros next H O; cbn [map gloads]; auto.
  destruct (g x) as [a k] eqn:G. destruct (H x) as [H1 H2]; [left; auto|]. rewrite G in *. cbn [fst snd] in *.
  apply (gcell a k (v x)); auto. apply IH; auto. intros y Hy. apply H. right; auto.
Qed.
Lemma load_row_ok arr b f next out : (forall a, a < dim t -> cell K (Base arr) (z al * z a + z b) (f a)) ->
  (forall c, (forall i, i < dim t -> c i = f i) -> gok K F (next c) out) -> gok K F (load_row S arr (z b) next) out.
Proof.
  intros C N. unfold load_row. apply (gloads_ok (seq 0 (dim t)) _ f).
  - intros a I. apply in_seq in I. cbn [fst snd]. split; [apply FB|apply C; lia].
  - apply N. intros i Hi. apply nth_map_seq. auto.
Qed.
Lemma center_ok b next out : b < nboxes t ->
  (forall c, (forall i, i < dim t -> c i = box_center t b i) -> gok K F (next c) out) -> gok K F (load_center S (z b) next) out.
Proof. intros Hb. apply load_row_ok. intros a Ha. apply (k_centers K TK); auto. Qed.
Lemma level_ok b next out : b < nboxes t -> gok K F (next (box_level t b)) out -> gok K F (load_level (z b) next) out.
Proof. intros Hb N. unfold load_level. eapply gcell; [apply FB|apply (k_levels K TK); auto|]. rewrite Nat2Z.id. auto. Qed.
Lemma flags_ok b next out : b < nboxes t -> gok K F (next (box_flags t b)) out -> gok K F (load_flags (z b) next) out.
Proof. intros Hb N. unfold load_flags. eapply gcell; [apply FB|apply (k_flags K TK); auto|]. rewrite N2Z.id. auto. Qed.
Lemma put_if_ok c l v next out : gok K F next out -> gok K F (put_if c l v next) ((if c then [(l, v)] else []) ++ out).
Proof. destruct c; cbn [put_if app]; auto. apply gen_put. Qed.

Lemma near_n_adj ct cs a b : (forall i, i < dim t -> ct i = box_center t a i) -> (forall i, i < dim t -> cs i = box_center t b i) ->
  near_n S ct (box_level t a) cs (box_level t b) = adj_n t n a b.
Proof. intros A B. unfold near_n, adj_n, is_adj_nbhd. cbn [dim pair_tree]. change (s_dim S) with (dim t). rewrite (linf_ext _ ct (box_center t a) cs (box_center t b)); auto. Qed.
Lemma near_is_adj ct cs c c' lt ls : (forall i, i < dim t -> ct i = c i) -> (forall i, i < dim t -> cs i = c' i) ->
  near S ct lt cs ls = is_adj t c lt c' ls.
Proof. intros A B. unfold near, is_adj, is_adj_nbhd. cbn [dim pair_tree]. change (s_dim S) with (dim t). rewrite (linf_ext _ ct c cs c'); auto. Qed.
Lemma smaller_meets ct cs c2 r2 a b : (forall i, i < dim t -> ct i = box_center t a i) -> (forall i, i < dim t -> cs i = box_center t b i) ->
  (from_sep_smaller_crit ex = precise_linf -> forall i, i < dim t -> c2 i = tgt_ext_center2 ex a i /\ r2 i = tgt_ext_radius2 ex a i) ->
  meets_sep_smaller (pair_tree S ct (box_level t a) cs (box_level t b)) (extent_scalars S c2 r2) 0 1 = meets_sep_smaller t ex a b.
Proof.
  intros A B C. unfold meets_sep_smaller.
  change (from_sep_smaller_crit (extent_scalars S c2 r2)) with (from_sep_smaller_crit ex).
  change (dim (pair_tree S ct (box_level t a) cs (box_level t b))) with (dim t).
  destruct (from_sep_smaller_crit ex) eqn:Q.
  - f_equal. f_equal. apply max_axes_ext. intros i Hi. cbn [box_center pair_tree Nat.eqb]. rewrite A, B by auto. reflexivity.
  - f_equal. f_equal. apply max_axes_ext. intros i Hi. cbn [box_center pair_tree Nat.eqb tgt_ext_center2 tgt_ext_radius2 extent_scalars].
    destruct (C eq_refl i Hi) as [-> ->]. rewrite B by auto. reflexivity.
  - assert (E : map (fun i => ((box_center (pair_tree S ct (box_level t a) cs (box_level t b)) 0 i - box_center (pair_tree S ct (box_level t a) cs (box_level t b)) 1 i) *
      (box_center (pair_tree S ct (box_level t a) cs (box_level t b)) 0 i - box_center (pair_tree S ct (box_level t a) cs (box_level t b)) 1 i))%Z) (seq 0 (dim t)) =
      map (fun i => ((box_center t a i - box_center t b i) * (box_center t a i - box_center t b i))%Z) (seq 0 (dim t))).
    { apply map_ext_in. intros i I. apply in_seq in I. cbn [box_center pair_tree Nat.eqb]. rewrite A, B by lia. reflexivity. }
    rewrite E. reflexivity.
Qed.
Lemma bigger_meets ct cs c c' lt ls : (forall i, i < dim t -> ct i = c i) -> (forall i, i < dim t -> cs i = c' i) ->
  forall a b c2 r2, meets_sep_bigger (pair_tree S a lt b ls) (extent_scalars S c2 r2) ct lt cs ls = meets_sep_bigger t ex c lt c' ls.
Proof.
  intros A B a b c2 r2. unfold meets_sep_bigger. change (dim (pair_tree S a lt b ls)) with (dim t).
  rewrite (linf_ext (dim t) ct c cs c'); auto.
Qed.

(** ** The walk *)
Definition zs (s : list (nat * nat)) : list (Z * nat) := map (fun p => (z (fst p), snd p)) s.
Lemma advance_walk stack : forall par mor, advance S (zs stack) (z par) mor =
  match walk_advance (nchildren t) stack par mor with Some (s, p, m) => Some (zs s, z p, m) | None => None end.
Proof.
  induction stack as [|[p m] s IH]; intros par mor; cbn [zs map advance walk_advance fst snd]; change (nch S) with (nchildren t).
  - destruct (Datatypes.S mor <? nchildren t); auto.
  - destruct (Datatypes.S mor <? nchildren t); [auto|apply IH].
Qed.
Lemma advance_slots stack : forall par mor s p m, (forall q, In q stack -> snd q < nchildren t) ->
  walk_advance (nchildren t) stack par mor = Some (s, p, m) -> m < nchildren t /\ forall q, In q s -> snd q < nchildren t.
Proof.
  induction stack as [|[p0 m0] s0 IH]; intros par mor s p m Hs; cbn [walk_advance]; destruct (Nat.ltb_spec (Datatypes.S mor) (nchildren t)); intros E.
  - injection E as <- <- <-. auto.
  - discriminate.
  - injection E as <- <- <-. auto.
  - apply IH in E; auto. intros q Q. apply Hs. right; auto.
Qed.

Section WalkOk.
Variable A : Type.
Variable tag : A -> lname * Z.
Variable visit : nat -> nat -> list A * bool.
Variable room : nat.
Variable vd : Z -> nat -> (bool -> vgen) -> vgen.
Hypothesis VD : forall c ssz k out, c < nboxes t ->
  gok K F (k (snd (if c =? 0 then ([], false) else visit c ssz))) out ->
  gok K F (vd (z c) ssz k) (map tag (fst (if c =? 0 then ([], false) else visit c ssz)) ++ out).
Lemma gwalk_ok after o : gok K F after o -> forall fuel stack par mor out, mor < nchildren t -> (forall q, In q stack -> snd q < nchildren t) ->
  walk t visit room fuel stack par mor = Some out ->
  gok K F (gwalk S room vd after fuel (zs stack) (z par) mor) (map tag out ++ o).
Proof.
  intros AF. induction fuel as [|fuel IH]; intros stack par mor out Hm Hs; cbn [walk gwalk]; [discriminate|].
  destruct (Nat.ltb_spec par (nboxes t)) as [Hp|Hp]; cbn [negb]; [|discriminate].
  intros E. eapply gcell; [apply FB|apply (k_children K TK); auto|].
  assert (Hc : box_child t mor par < nboxes t) by (apply (wf_child_lt t W); auto). set (c := box_child t mor par) in *. clearbody c.
  assert (L : length (zs stack) = length stack) by apply map_length. rewrite !L.
  assert (V := fun k out => VD c (length stack) k out Hc). destruct (if c =? 0 then ([], false) else visit c (length stack)) as [o1 push].
  cbn [fst snd] in V. destruct push.
  - destruct (Nat.ltb_spec (length stack) room) as [Hl|Hl]; [|discriminate].
    destruct (walk t visit room fuel ((par, mor) :: stack) c 0) as [o2|] eqn:E2; [|discriminate]. injection E as <-.
    rewrite map_app, <- app_assoc. apply V. cbn beta.
    apply (IH ((par, mor) :: stack) c 0); auto; [lia|].
    intros q [<-|Q]; auto.
  - assert (AW := advance_walk stack par mor). destruct (walk_advance (nchildren t) stack par mor) as [[[s p] m]|] eqn:E1.
    + destruct (walk t visit room fuel s p m) as [o2|] eqn:E2; [|discriminate]. injection E as <-.
      rewrite map_app, <- app_assoc. apply V. cbn beta. rewrite AW. destruct (advance_slots stack par mor s p m Hs E1) as [M1 M2].
      apply IH; auto.
    + injection E as <-. apply V. cbn beta. rewrite AW. auto.
Qed.
Lemma walk_room_ok start after out o : gok K F after o -> run_walk t visit room start = Some out ->
  gok K F (walk_room S room (z start) vd after) (map tag out ++ o).
Proof.
  intros AF E. apply (gwalk_ok after o AF (nchildren t * nboxes t) [] start 0); auto.
  - unfold nchildren. assert (2 ^ dim t <> 0) by (apply Nat.pow_nonzero; lia). lia.
  - intros q [].
Qed.
End WalkOk.
Lemma map_tag_concat {A B} (f : A -> B) ll : map f (concat ll) = concat (map (map f) ll).
Proof. apply concat_map. Qed.

End BoxesKnown.

(** ** Lists that have been built *)
Definition rows_known (l : lname) (ll : list (list nat)) : Prop :=
  is_list tarray lname K (Starts l) (prefixes (map (@length nat) ll)) /\ is_list tarray lname K (Lists l) (map z (concat ll)).
Lemma is_list_cell a l k : is_list tarray lname K a l -> k < length l -> cell K a (z k) (nth k l 0%Z).
Proof. intros H Hk. exact (has_cell K a _ _ _ k H Hk). Qed.
Lemma entries_loop_ok l (body : Z -> vgen -> vgen) (bo : nat -> list (lname * Z)) all after o : F (Lists l) ->
  is_list tarray lname K (Lists l) (map z all) -> gok K F after o ->
  forall row i, firstn (length row) (skipn i all) = row -> i + length row <= length all ->
  (forall v nx out, In v row -> gok K F nx out -> gok K F (body (z v) nx) (bo v ++ out)) ->
  gok K F (entries_loop l (length row) (z i) body after) (concat (map bo row) ++ o).
Proof.
  intros FL IL AF. induction row as [|v row IH]; intros i E Hi B; cbn [length entries_loop map concat]; auto.
  cbn [length] in *. assert (V : nth i all 0 = v).
  { rewrite <- (firstn_skipn i all), app_nth2 by (rewrite firstn_length; lia). rewrite firstn_length, Nat.min_l by lia.
    rewrite Nat.sub_diag. destruct (skipn i all) as [|x r]; cbn [firstn] in E; [discriminate|]. injection E as -> _. reflexivity. }
  apply (gcell _ _ (z v)); auto.
  - assert (C := is_list_cell _ _ i IL). rewrite map_length in C. specialize (C ltac:(lia)).
    rewrite (nth_indep _ 0%Z (z 0)), map_nth, V in C by (rewrite map_length; lia). exact C.
  - rewrite <- app_assoc. apply B; [left; auto|]. replace (z i + 1)%Z with (z (Datatypes.S i)) by lia. apply IH.
    + destruct (skipn i all) as [|x r] eqn:SK; cbn [firstn] in E; [discriminate|]. injection E as -> E.
      assert (SK' : skipn (Datatypes.S i) all = r).
      { clear - SK. revert all SK. induction i as [|i IH]; intros [|x all] SK; cbn [skipn] in *; try discriminate; [congruence|]. apply IH. auto. }
      rewrite SK'. auto.
    + lia.
    + intros w nx out Wi. apply B. right; auto.
Qed.
Lemma over_list_ok l ll i (body : Z -> vgen -> vgen) (bo : nat -> list (lname * Z)) after o : F (Starts l) -> F (Lists l) -> rows_known l ll -> i < length ll ->
  (forall v nx out, In v (nth i ll []) -> gok K F nx out -> gok K F (body (z v) nx) (bo v ++ out)) ->
  gok K F after o ->
  gok K F (over_list l (z i) body after) (concat (map bo (nth i ll [])) ++ o).
Proof.
  intros F1 F2 [R1 R2] Hi B AF. unfold over_list. assert (L1 := prefixes_length (map (@length nat) ll)). rewrite map_length in L1.
  assert (C := fun k Hk => is_list_cell _ _ k R1 Hk). rewrite L1 in C.
  assert (P1 : i <= length (map (@length nat) ll)) by (rewrite map_length; lia).
  assert (P2 : Datatypes.S i <= length (map (@length nat) ll)) by (rewrite map_length; lia).
  eapply gcell; [auto|apply C; lia|]. replace (z i + 1)%Z with (z (Datatypes.S i)) by lia.
  eapply gcell; [auto|apply C; lia|]. rewrite !prefixes_nth by auto.
  assert (NS : nsum (firstn (Datatypes.S i) (map (@length nat) ll)) = nsum (firstn i (map (@length nat) ll)) + length (nth i ll [])).
  { rewrite nsum_firstn_S by (rewrite map_length; lia). f_equal. change 0 with (length (@nil nat)). apply map_nth. }
  rewrite NS. replace (Z.to_nat _) with (length (nth i ll [])) by lia.
  apply (entries_loop_ok l body bo (concat ll)); auto.
  - clear - Hi. rewrite firstn_map. revert i Hi. induction ll as [|r ll IH]; intros i Hi; cbn [length] in Hi; [lia|].
    destruct i as [|i]; cbn [firstn map concat nth].
    + unfold nsum. cbn [fold_right]. rewrite skipn_O, firstn_app, Nat.sub_diag, firstn_O, app_nil_r. apply firstn_all.
    + specialize (IH i ltac:(lia)). unfold nsum in *. cbn [fold_right map]. rewrite skipn_app.
      rewrite skipn_all2 by lia. cbn [app]. match goal with |- context[?a + ?b - ?a] => replace (a + b - a) with b by lia end. exact IH.
  - rewrite concat_len, <- NS. clear - P2. set (c := map (@length nat) ll) in *. rewrite <- (firstn_skipn (Datatypes.S i) c) at 2. rewrite nsum_app. lia.
Qed.

Hypothesis TK : tree_known K.
Lemma load_center_ok b next out : b < nboxes t ->
  (forall c, (forall i, i < dim t -> c i = box_center t b i) -> gok K F (next c) out) -> gok K F (load_center S (z b) next) out.
Proof. exact (center_ok (k_boxes K TK) b next out). Qed.
Lemma load_level_ok b next out : b < nboxes t -> gok K F (next (box_level t b)) out -> gok K F (load_level (z b) next) out.
Proof. exact (level_ok (k_boxes K TK) b next out). Qed.
Lemma load_flags_ok b next out : b < nboxes t -> gok K F (next (box_flags t b)) out -> gok K F (load_flags (z b) next) out.
Proof. exact (flags_ok (k_boxes K TK) b next out). Qed.
Lemma load_parent_ok b next out : b < nboxes t -> gok K F (next (z (box_parent t b))) out -> gok K F (GLoad (Base BoxParents) (z b) next) out.
Proof. intros Hb N. eapply gcell; [apply FB|apply (k_parents K TK); auto|auto]. Qed.
Lemma walk_from_ok A (tag : A -> lname * Z) visit vd :
  (forall c ssz k out, c < nboxes t -> gok K F (k (snd (if c =? 0 then ([], false) else visit c ssz))) out ->
     gok K F (vd (z c) ssz k) (map tag (fst (if c =? 0 then ([], false) else visit c ssz)) ++ out)) ->
  forall start after out o, gok K F after o -> run_walk t visit (max_levels t) start = Some out ->
  gok K F (walk_from S (z start) vd after) (map tag out ++ o).
Proof. intros VD. exact (walk_room_ok (k_boxes K TK) A tag visit (max_levels t) vd VD). Qed.

(** ** The kernels *)
(** traversal.py:326-355 *)
Definition boxes_out (i : nat) : list (lname * Z) :=
  (if is_source t i && source_boxes_mask P i then [(SourceBoxes, z i)] else []) ++
  (if has_source_child t i && source_parent_boxes_mask P i then [(SourceParentBoxes, z i)] else []) ++
  (if negb (sources_are_targets P) && is_target t i then [(TargetBoxes, z i)] else []) ++
  (if flag (box_flags t i) (N.lor HAS_TARGET_CHILD_BOXES IS_TARGET_BOX) then [(TargetOrParentBoxes, z i)] else []).
Lemma boxes_gen_ok i : i < nboxes t -> gok K F (boxes_gen S i) (boxes_out i).
Proof.
  intros Hi. unfold boxes_gen, boxes_out. apply load_flags_ok; auto. cbn beta.
  change (flag (box_flags t i) IS_SOURCE_BOX) with (is_source t i).
  change (flag (box_flags t i) HAS_SOURCE_CHILD_BOXES) with (has_source_child t i).
  assert (E : forall o : list (lname * Z), o = o ++ []) by (intros; rewrite app_nil_r; auto).
  assert (G4 : gok K F (put_if (negb (s_sources_are_targets S) && flag (box_flags t i) IS_TARGET_BOX) TargetBoxes (z i)
    (put_if (flag (box_flags t i) (N.lor HAS_TARGET_CHILD_BOXES IS_TARGET_BOX)) TargetOrParentBoxes (z i) GEnd))
    ((if negb (sources_are_targets P) && is_target t i then [(TargetBoxes, z i)] else []) ++
     (if flag (box_flags t i) (N.lor HAS_TARGET_CHILD_BOXES IS_TARGET_BOX) then [(TargetOrParentBoxes, z i)] else []))).
  { apply put_if_ok. rewrite (E (if flag _ _ then _ else _)). apply put_if_ok. reflexivity. }
  assert (G3 : forall g o, gok K F g o -> gok K F (if has_source_child t i then masked m2 SourceParentMask (z i) SourceParentBoxes g else g)
     ((if has_source_child t i && source_parent_boxes_mask P i then [(SourceParentBoxes, z i)] else []) ++ o)).
  { intros g o G. destruct (has_source_child t i); cbn [andb]; auto. assert (KM := k_parent_mask K TK). unfold masked. destruct m2.
    - destruct (KM i Hi) as [v [C <-]]. eapply gcell; [apply FB|exact C|]. apply put_if_ok. auto.
    - rewrite KM by auto. apply gen_put. auto. }
  assert (G2 : forall g o, gok K F g o -> gok K F (if is_source t i then masked m1 SourceMask (z i) SourceBoxes g else g)
     ((if is_source t i && source_boxes_mask P i then [(SourceBoxes, z i)] else []) ++ o)).
  { intros g o G. destruct (is_source t i); cbn [andb]; auto. assert (KM := k_mask K TK). unfold masked. destruct m1.
    - destruct (KM i Hi) as [v [C <-]]. eapply gcell; [apply FB|exact C|]. apply put_if_ok. auto.
    - rewrite KM by auto. apply gen_put. auto. }
  apply G2, G3, G4.
Qed.

(** traversal.py:398-464 *)
Lemma zeqb a b : (z a =? z b)%Z = (a =? b).
Proof. destruct (Nat.eqb_spec a b), (Z.eqb_spec (z a) (z b)); auto; lia. Qed.
Lemma zeqb0 a : (z a =? 0)%Z = (a =? 0).
Proof. exact (zeqb a 0). Qed.
Definition tagged (l : lname) (b : nat) : lname * Z := (l, z b).
Lemma same_level_ok i l : i < nboxes t -> slnws_kernel t n i = Some l -> gok K F (same_level_gen S i) (map (tagged SameLevel) l).
Proof.
  intros Hi E. unfold same_level_gen. apply load_center_ok; auto. intros c Ec. unfold slnws_kernel in E. rewrite zeqb0.
  destruct (i =? 0); [injection E as <-; reflexivity|]. apply load_level_ok; auto.
  rewrite <- (app_nil_r (map _ l)). refine (walk_from_ok nat (tagged SameLevel) (slnws_visit t n i) _ _ 0 _ l [] _ E); [|reflexivity].
  intros b ssz k out Hb G. rewrite zeqb0. destruct (Nat.eqb_spec b 0) as [->|N0]; cbn [fst snd map app] in *; auto.
  apply load_center_ok; auto. intros cb Eb. apply load_level_ok; auto. rewrite (near_n_adj c cb i b) by auto.
  unfold slnws_visit in *. rewrite zeqb. destruct (adj_n t n i b); cbn [fst snd map app] in *; auto.
  destruct ((ssz + 1 =? box_level t i) && negb (b =? i)); cbn [fst snd map app] in *; auto. apply gen_put. auto.
Qed.

(** traversal.py:470-550 *)
Lemma list1_ok i tb l : F (Lists (tgt_list S)) -> is_list tarray lname K (Lists (tgt_list S)) (map z tb) -> i < length tb -> nth i tb 0 < nboxes t ->
  list1_kernel t (nth i tb 0) = Some l -> gok K F (list1_gen S i) (map (tagged NeighborSources) l).
Proof.
  intros FL IL Hi Hb E. unfold list1_gen.
  apply (gcell _ _ (z (nth i tb 0))); auto.
  { assert (C := is_list_cell _ _ i IL). rewrite map_length in C. specialize (C Hi).
    rewrite (nth_indep _ 0%Z (z 0)), map_nth in C by (rewrite map_length; auto). exact C. }
  set (box := nth i tb 0) in *. clearbody box.
  apply load_center_ok; auto. intros c Ec. apply load_level_ok; auto. change 0%Z with (z 0). apply load_flags_ok; [apply (wf_nboxes t W)|].
  unfold list1_kernel in E. destruct (run_walk t (list1_visit t box) (max_levels t) 0) as [o|] eqn:E1; [|discriminate].
  injection E as <-. change (flag (box_flags t 0) IS_SOURCE_BOX) with (is_source t 0). rewrite map_app.
  replace (map (tagged NeighborSources) (if is_source t 0 then [0] else [])) with (if is_source t 0 then [(NeighborSources, z 0)] else []) by (destruct (is_source t 0); auto).
  apply put_if_ok.
  rewrite <- (app_nil_r (map _ o)). refine (walk_from_ok nat (tagged NeighborSources) (list1_visit t box) _ _ 0 _ o [] _ E1); [|reflexivity].
  intros b ssz k out Hbb G. change (z 0) with 0%Z. rewrite zeqb0. destruct (Nat.eqb_spec b 0) as [->|N0]; cbn [fst snd map app] in *; auto.
  apply load_center_ok; auto. intros cb Eb. apply load_level_ok; auto.
  rewrite (near_is_adj c cb (box_center t box) (box_center t b)) by auto. fold (adj t box b).
  unfold list1_visit in *. destruct (adj t box b); cbn [fst snd map app] in *; auto. apply load_flags_ok; auto.
  change (flag (box_flags t b) IS_SOURCE_BOX) with (is_source t b).
  replace (map (tagged NeighborSources) (if is_source t b then [b] else [])) with (if is_source t b then [(NeighborSources, z b)] else []) by (destruct (is_source t b); auto).
  apply put_if_ok. exact G.
Qed.

(** traversal.py:556-601 *)
Lemma gseq_ok {X} (l : list X) (body : X -> vgen -> vgen) (bo : X -> list (lname * Z)) after o : gok K F after o ->
  (forall x nx out, In x l -> gok K F nx out -> gok K F (body x nx) (bo x ++ out)) -> gok K F (gseq l body after) (concat (map bo l) ++ o).
Proof.
  intros AF. induction l as [|x l IH]; intros B; cbn [gseq map concat app]; auto. rewrite <- app_assoc. apply B; [left; auto|].
  apply IH. intros y nx out Iy. apply B. right; auto.
Qed.
Lemma csr_read_rows ll i l : csr_read (csr_of ll) (z i) = Some l -> i < length ll /\ l = nth i ll [].
Proof.
  unfold csr_read. destruct ((0 <=? z i)%Z && (z i + 1 <? z (length (starts (csr_of ll))))%Z) eqn:E; [|discriminate].
  apply andb_true_iff in E. destruct E as [_ E]. apply Z.ltb_lt in E.
  assert (L := prefixes_length (map (@length nat) ll)). unfold prefixes in L. rewrite !map_length in L. cbn [csr_of starts] in E.
  assert (Hi : i < length ll) by lia. intros H. injection H as <-. split; auto. rewrite Nat2Z.id. apply csr_get_of. auto.
Qed.
Section Slnws.
Variable sl : list (list nat).
Hypothesis FS : F (Starts SameLevel).
Hypothesis FL : F (Lists SameLevel).
Hypothesis RK : rows_known SameLevel sl.
Hypothesis SB : forall i b, In b (nth i sl []) -> b < nboxes t.

Lemma list2_ok i tb l : F (Lists TargetOrParentBoxes) -> is_list tarray lname K (Lists TargetOrParentBoxes) (map z tb) -> i < length tb -> nth i tb 0 < nboxes t ->
  list2_kernel t n (csr_of sl) (nth i tb 0) (z (box_parent t (nth i tb 0))) = Some l -> gok K F (list2_gen S i) (map (tagged SepSiblings) l).
Proof.
  intros FT IL Hi Hb E. unfold list2_gen.
  apply (gcell _ _ (z (nth i tb 0))); auto.
  { assert (C := is_list_cell _ _ i IL). rewrite map_length in C. specialize (C Hi).
    rewrite (nth_indep _ 0%Z (z 0)), map_nth in C by (rewrite map_length; auto). exact C. }
  set (box := nth i tb 0) in *. clearbody box.
  apply load_center_ok; auto. intros c Ec. apply load_level_ok; auto. apply load_parent_ok; auto.
  unfold list2_kernel in E. destruct (z (box_parent t box) =? z box)%Z; [injection E as <-; reflexivity|].
  destruct (csr_read (csr_of sl) (z (box_parent t box))) as [nfs|] eqn:R; [|discriminate]. cbn [option_map] in E. injection E as <-.
  apply csr_read_rows in R. destruct R as [Hp ->].
  rewrite map_tag_concat, map_map. rewrite <- (app_nil_r (concat _)).
  apply (over_list_ok SameLevel sl (box_parent t box) _ (fun nf => map (tagged SepSiblings) (concat (map (fun m =>
     let sib := box_child t m nf in if sib =? 0 then [] else if negb (adj_n t n box sib) then [sib] else []) (seq 0 (nchildren t)))))); auto; [|reflexivity].
  intros nf nx out Inf G. assert (Hn := SB _ _ Inf). rewrite map_tag_concat, map_map. apply gseq_ok; auto.
  intros m nx' out' Im G'. apply in_seq in Im. change (nch S) with (nchildren t) in Im.
  eapply gcell; [apply FB|apply (k_children K (k_boxes K TK)); [lia|auto]|].
  assert (Hs : box_child t m nf < nboxes t) by (apply (wf_child_lt t W); auto; lia). set (sib := box_child t m nf) in *. clearbody sib.
  cbn zeta. rewrite zeqb0. destruct (Nat.eqb_spec sib 0) as [->|N0]; auto.
  apply load_center_ok; auto. intros cs Es. apply load_level_ok; auto. rewrite (near_n_adj c cs box sib) by auto.
  replace (map (tagged SepSiblings) (if negb (adj_n t n box sib) then [sib] else [])) with (if negb (adj_n t n box sib) then [(SepSiblings, z sib)] else [])
    by (destruct (negb (adj_n t n box sib)); auto).
  apply put_if_ok. auto.
Qed.

(** traversal.py:607-875 *)
Definition tag3 (slev : option nat) (e : bool * nat) : lname * Z :=
  if fst e then (SepSmaller (match slev with Some l => l | None => 0 end), z (snd e)) else (SepCloseSmaller, z (snd e)).
Lemma ltb_z a b : (z a <? z b)%Z = (a <? b).
Proof. destruct (Nat.ltb_spec a b), (Z.ltb_spec (z a) (z b)); auto; lia. Qed.
Lemma list3_visit_ok tgt ct c2 r2 slev c ssz k out : tgt < nboxes t -> c < nboxes t -> (forall i, i < dim t -> ct i = box_center t tgt i) ->
  (targets_have_extent ex = true -> from_sep_smaller_crit ex = precise_linf -> forall i, i < dim t -> c2 i = tgt_ext_center2 ex tgt i /\ r2 i = tgt_ext_radius2 ex tgt i) ->
  gok K F (k (snd (if c =? 0 then ([], false) else list3_visit t ex tgt slev c ssz))) out ->
  gok K F (list3_visit_gen S ct (box_level t tgt) c2 r2 slev (z c) ssz k) (map (tag3 slev) (fst (if c =? 0 then ([], false) else list3_visit t ex tgt slev c ssz)) ++ out).
Proof.
  intros Ht Hc Ec EX G. unfold list3_visit_gen. apply load_flags_ok; auto. rewrite zeqb0.
  destruct (Nat.eqb_spec c 0) as [->|N0]; cbn [negb andb]; [exact G|]. unfold list3_visit in *.
  destruct (flag (box_flags t c) (N.lor IS_SOURCE_BOX HAS_SOURCE_CHILD_BOXES)); [|exact G].
  apply load_center_ok; auto. intros cc Ecc. apply load_level_ok; auto.
  rewrite (near_is_adj ct cc (box_center t tgt) (box_center t c)) by auto. fold (adj t tgt c).
  change (flag (box_flags t c) HAS_SOURCE_CHILD_BOXES) with (has_source_child t c).
  change (flag (box_flags t c) IS_SOURCE_BOX) with (is_source t c).
  destruct (adj t tgt c).
  { destruct (has_source_child t c); cbn [andb]; [|exact G]. destruct (match slev with Some l => box_level t c <=? l | None => true end); exact G. }
  cbn zeta in *. change (s_ext S) with (targets_have_extent ex). change (s_min_nsources S) with (from_sep_smaller_min_nsources_cumul ex).
  destruct (targets_have_extent ex) eqn:TE.
  - eapply gcell; [apply FB|apply (k_counts K TK TE); auto|]. rewrite ltb_z. rewrite (smaller_meets ct cc c2 r2 tgt c) by auto.
    destruct (meets_sep_smaller t ex tgt c && negb (box_source_counts_cumul ex c <? from_sep_smaller_min_nsources_cumul ex)); cbn [fst snd] in *.
    + destruct slev as [lev|]; cbn [put_if map app]; [|exact G]. destruct (lev =? box_level t c); cbn [put_if map app]; [|exact G]. apply gen_put. exact G.
    + destruct (is_source t c && (match slev with None => true | _ => false end)); cbn [put_if map app]; [|exact G]. apply gen_put. exact G.
  - cbn [negb andb fst snd] in *. destruct slev as [lev|]; cbn [put_if map app]; [|exact G]. destruct (lev =? box_level t c); cbn [put_if map app]; [|exact G]. apply gen_put. exact G.
Qed.
Lemma run_all_rows {A B} (f : A -> option (list B)) l r : run_all f l = Some r ->
  exists h, r = map h l /\ forall x, In x l -> f x = Some (h x).
Proof.
  revert r. induction l as [|x l IH]; intros r E; cbn [run_all] in E.
  - injection E as <-. exists (fun _ => []). split; auto. intros x [].
  - destruct (f x) as [y|] eqn:Ex; [|discriminate]. destruct (run_all f l) as [ys|] eqn:El; [|discriminate]. injection E as <-.
    destruct (IH ys eq_refl) as [h [H1 H2]].
    exists (fun a => match f a with Some b => b | None => [] end). cbn [map]. rewrite Ex. split.
    + f_equal. rewrite H1. apply map_ext_in. intros a Ia. rewrite (H2 a Ia). auto.
    + intros a [<-|Ia]; [rewrite Ex; auto|rewrite (H2 a Ia); auto].
Qed.
Lemma list3_ok slev i tb l : F (Lists (tgt_list S)) -> is_list tarray lname K (Lists (tgt_list S)) (map z tb) -> i < length tb -> nth i tb 0 < nboxes t ->
  list3_kernel t ex (csr_of sl) slev (nth i tb 0) = Some l -> gok K F (list3_gen S slev i) (map (tag3 slev) l).
Proof.
  intros FT IL Hi Hb E. unfold list3_gen.
  apply (gcell _ _ (z (nth i tb 0))); auto.
  { assert (C := is_list_cell _ _ i IL). rewrite map_length in C. specialize (C Hi).
    rewrite (nth_indep _ 0%Z (z 0)), map_nth in C by (rewrite map_length; auto). exact C. }
  set (box := nth i tb 0) in *. clearbody box.
  apply load_center_ok; auto. intros c Ec. apply load_level_ok; auto.
  assert (GO : forall c2 r2, (targets_have_extent ex = true -> from_sep_smaller_crit ex = precise_linf -> forall i, i < dim t -> c2 i = tgt_ext_center2 ex box i /\ r2 i = tgt_ext_radius2 ex box i) ->
    gok K F (over_list SameLevel (z box) (fun nws next => if (nws =? z box)%Z then next else walk_from S nws (list3_visit_gen S c (box_level t box) c2 r2 slev) next) GEnd) (map (tag3 slev) l)).
  { intros c2 r2 EX. unfold list3_kernel in E. destruct (csr_read (csr_of sl) (z box)) as [nfs|] eqn:R; [|discriminate].
    apply csr_read_rows in R. destruct R as [Hp ->].
    destruct (run_all _ (nth box sl [])) as [rr|] eqn:RA; [|discriminate]. cbn [option_map] in E. injection E as <-.
    destruct (run_all_rows _ _ _ RA) as [h [-> HH]]. rewrite map_tag_concat, map_map, <- (app_nil_r (concat _)).
    apply (over_list_ok SameLevel sl box _ (fun nf => map (tag3 slev) (h nf))); auto; [|reflexivity].
    intros nf nx out Inf G. assert (Hn := SB _ _ Inf). specialize (HH nf Inf). rewrite zeqb. destruct (nf =? box).
    - injection HH as <-. exact G.
    - refine (walk_from_ok _ (tag3 slev) (list3_visit t ex box slev) _ _ nf nx (h nf) out G HH).
      intros b ssz k o Hbb. apply list3_visit_ok; auto. }
  change (s_ext S) with (targets_have_extent ex). change (s_crit S) with (from_sep_smaller_crit ex).
  destruct (targets_have_extent ex) eqn:TE; [|apply GO; discriminate].
  destruct (from_sep_smaller_crit ex) eqn:CR; try (apply GO; discriminate).
  destruct (k_extents K TK TE CR) as [mn [mx EXT]].
  apply (load_row_ok TargetMin box (mn box)). { intros a Ha. apply (EXT a box Ha Hb). } intros vmin E1.
  apply (load_row_ok TargetMax box (mx box)). { intros a Ha. apply (EXT a box Ha Hb). } intros vmax E2.
  apply GO. intros _ _ a Ha. destruct (EXT a box Ha Hb) as [_ [_ [-> ->]]]. rewrite E1, E2 by auto. auto.
Qed.

(** traversal.py:975-1145 *)
Definition tag4 (e : bool * nat) : lname * Z := if fst e then (SepBigger, z (snd e)) else (SepCloseBiggerRaw, z (snd e)).
Lemma list4_entry_ok tgt ct cp wl b next out : tgt < nboxes t -> b < nboxes t ->
  (forall i, i < dim t -> ct i = box_center t tgt i) -> (forall i, i < dim t -> cp i = box_center t (box_parent t tgt) i) ->
  gok K F next out -> gok K F (list4_entry_gen S ct (box_level t tgt) cp (box_flags t tgt) wl (z b) next) (map tag4 (list4_entry t ex n tgt wl b) ++ out).
Proof.
  intros Ht Hb Ec Ep G. unfold list4_entry_gen. apply load_flags_ok; auto. unfold list4_entry.
  change (flag (box_flags t b) IS_SOURCE_BOX) with (is_source t b). destruct (is_source t b); auto.
  apply load_center_ok; auto. intros cb Eb.
  rewrite (near_is_adj ct cb (box_center t tgt) (box_center t b)) by auto.
  rewrite (near_is_adj cp cb (box_center t (box_parent t tgt)) (box_center t b)) by auto.
  rewrite (bigger_meets ct cb (box_center t tgt) (box_center t b)) by auto.
  rewrite (bigger_meets cp cb (box_center t (box_parent t tgt)) (box_center t b)) by auto.
  cbn zeta. destruct (is_adj t (box_center t tgt) (box_level t tgt) (box_center t b) wl); cbn [negb]; auto.
  change (s_ext S) with (targets_have_extent ex). change (s_n_away S) with n.
  change (flag (box_flags t tgt) IS_TARGET_BOX) with (is_target t tgt).
  destruct (targets_have_extent ex && negb (meets_sep_bigger t ex (box_center t tgt) (box_level t tgt) (box_center t b) wl)).
  { destruct (is_target t tgt); cbn [put_if map app]; auto. apply gen_put. auto. }
  destruct (negb (is_adj t (box_center t (box_parent t tgt)) (box_level t tgt - 1) (box_center t b) wl) && (if 1 <? n then wl <? box_level t tgt else true)).
  - destruct (targets_have_extent ex); cbn [andb put_if map app]; auto.
    destruct (negb (meets_sep_bigger t ex (box_center t (box_parent t tgt)) (box_level t tgt - 1) (box_center t b) wl)); cbn [put_if map app]; auto. apply gen_put. auto.
  - apply gen_put. auto.
Qed.
Lemma list4_loop_ok tgt ct cp : tgt < nboxes t ->
  (forall i, i < dim t -> ct i = box_center t tgt i) -> (forall i, i < dim t -> cp i = box_center t (box_parent t tgt) i) ->
  forall wl cur l, cur < nboxes t -> list4_loop t ex n (csr_of sl) tgt wl cur = Some l ->
  gok K F (list4_loop_gen S ct (box_level t tgt) cp (box_flags t tgt) wl (z cur)) (map tag4 l).
Proof.
  intros Ht Ec Ep. induction wl as [|wl IH]; intros cur l Hc; cbn [list4_loop list4_loop_gen]; [intros E; injection E as <-; reflexivity|].
  destruct (csr_read (csr_of sl) (z cur)) as [nfs|] eqn:R; [|discriminate]. apply csr_read_rows in R. destruct R as [Hp ->].
  destruct (list4_loop t ex n (csr_of sl) tgt wl (box_parent t cur)) as [r|] eqn:E1; [|discriminate]. intros E. injection E as <-.
  rewrite map_app, map_tag_concat, map_map.
  apply (over_list_ok SameLevel sl cur _ (fun b => map tag4 (list4_entry t ex n tgt (Datatypes.S wl) b))); auto.
  - intros b nx out Ib G. apply list4_entry_ok; auto. apply (SB _ _ Ib).
  - apply load_parent_ok; auto. apply IH; auto.
    destruct (Nat.eq_dec cur 0) as [->|N0]; [rewrite (wf_root_parent t W); auto|]. apply (wf_parent t W); auto; lia.
Qed.
Lemma list4_ok i tb l : F (Lists TargetOrParentBoxes) -> is_list tarray lname K (Lists TargetOrParentBoxes) (map z tb) -> i < length tb -> nth i tb 0 < nboxes t ->
  list4_kernel t ex n (csr_of sl) (nth i tb 0) = Some l -> gok K F (list4_gen S i) (map tag4 l).
Proof.
  intros FT IL Hi Hb E. unfold list4_gen.
  apply (gcell _ _ (z (nth i tb 0))); auto.
  { assert (C := is_list_cell _ _ i IL). rewrite map_length in C. specialize (C Hi).
    rewrite (nth_indep _ 0%Z (z 0)), map_nth in C by (rewrite map_length; auto). exact C. }
  set (box := nth i tb 0) in *. clearbody box.
  apply load_center_ok; auto. intros c Ec. apply load_level_ok; auto. unfold list4_kernel in E.
  destruct (Nat.eqb_spec (box_level t box) 0) as [E0|E0]; [injection E as <-; reflexivity|]. apply load_parent_ok; auto.
  assert (Hp : box_parent t box < nboxes t).
  { destruct (Nat.eq_dec box 0) as [->|N0]; [rewrite (wf_root_parent t W); auto|]. apply (wf_parent t W); auto; lia. }
  apply load_center_ok; auto. intros cp Ep. apply load_flags_ok; auto. change (s_n_away S) with n.
  destruct (n =? 1); apply list4_loop_ok; auto.
Qed.
End Slnws.
End Gen.
