(** Level restriction: touching leaves of the tree differ by at most one level. *)
From Coq Require Import List Arith ZArith NArith Lia Bool Permutation.
From Verif Require Import Base Tree Walk GeomFacts Traversal Fmm TreeBuild ArrayFacts BuildInv BuildScan BuildIds BuildSort
  BuildAdvance BuildRenumber BuildStep BuildNext BuildLoop BuildDone BuildTerm BuildGeom.
Import ListNotations.

Section LR.
Variable inp : input.
Notation np := (npart inp).
Notation nch := (nchild inp).
Notation d := (idim inp).
Notation E := (the_root_extent inp).
Hypothesis WT : forall u, u < np -> (0 <= weight inp u <= INT_MAX)%Z.
Hypothesis MW : (0 <= max_weight inp)%Z.
Hypothesis NPOS : 0 < np.
Hypothesis GU : 0 < nboxes_guess inp.
Hypothesis EPOS : (0 < E)%Z.
Hypothesis EDIV : (2 ^ 30 | E)%Z.
Hypothesis LRT : level_restrict inp = true.
Notation lrad := (lrad inp).
Notation pc := (path_center inp).

(** the closed boxes of two paths meet *)
Definition touch (p q : list nat) : Prop :=
  forall a, a < d -> (Z.abs (pc p a - pc q a) <= lrad (length p) + lrad (length q))%Z.
Lemma touch_sym p q : touch p q -> touch q p.
Proof. intros T a Ha. specialize (T a Ha). lia. Qed.
Lemma touch_parent p m q : length p < 29 -> touch (p ++ [m]) q -> touch p q.
Proof.
  intros Hp T a Ha. specialize (T a Ha). rewrite path_center_child in T by auto.
  rewrite app_length in T. cbn [length] in T. replace (length p + 1) with (S (length p)) in T by lia.
  rewrite (lrad_half inp EDIV (length p)) by auto.
  assert (RP := lrad_pos inp EPOS EDIV (S (length p)) ltac:(lia)).
  unfold morton_sign in T. destruct (Nat.testbit m (d - 1 - a)); lia.
Qed.
Lemma touch_prefix p r q : length (p ++ r) <= 29 -> touch (p ++ r) q -> touch p q.
Proof.
  induction r as [|m r IH] using rev_ind; intros Hl T; [rewrite app_nil_r in T; auto|].
  rewrite app_assoc in *. rewrite app_length in Hl. cbn [length] in Hl. apply IH; [lia|].
  apply touch_parent with m; auto. lia.
Qed.

(** ** The walk finds the boxes it should *)
Section Visit.
Variable st : state.
Variable pth : nat -> list nat.
Variable n : nat.
Hypothesis I : inv inp st pth.
Hypothesis HM : forall b, used st b -> s_child st 0 b <> 0 -> s_has_children st b = true.
Hypothesis HP : forall b, used st b -> s_has_children st b = true -> s_child st 0 b <> 0.
Hypothesis CE : forall b a, used st b -> a < d -> s_center st b a = pc (pth b) a.
Notation t := (tree_of_state inp st n).
Lemma touch_is_adj x y : used st x -> used st y -> length (pth x) <= 29 -> length (pth y) <= 29 ->
  touch (pth x) (pth y) -> is_adj t (s_center st x) (length (pth x)) (s_center st y) (length (pth y)) = true.
Proof.
  intros Ux Uy Lx Ly T. unfold is_adj, is_adj_nbhd. apply Z.leb_le. cbn [tree_of_state dim].
  change (level_to_rad t (length (pth x))) with (lrad (length (pth x))).
  change (level_to_rad t (length (pth y))) with (lrad (length (pth y))).
  assert (Rx := lrad_pos inp EPOS EDIV _ Lx). assert (Ry := lrad_pos inp EPOS EDIV _ Ly).
  apply linf_le. split; [lia|]. intros a Ha. rewrite !CE by auto. specialize (T a Ha). lia.
Qed.
Variables (x y l : nat) (force : nat -> bool).
Hypothesis Ux : used st x.
Hypothesis Uy : used st y.
Hypothesis Fx : s_child st 0 x = 0.
Hypothesis Fy : s_child st 0 y = 0.
Hypothesis Lx : length (pth x) = l.
Hypothesis Ly : length (pth y) <= 29.
Hypothesis T : touch (pth y) (pth x).
Hypothesis HIT : length (pth y) = l + 2 \/ (length (pth y) = l + 1 /\ force y = true).
Notation visit := (restrict_visit st t l force x).
Lemma leaf_marks b : used st b -> s_child st 0 b = 0 -> s_has_children st b = false.
Proof. intros U Z. apply not_true_is_false. intros C. apply (HP b U C). auto. Qed.
Lemma dfs_hit r : forall b h, used st b -> pth y = pth b ++ r -> r <> [] -> length r <= h ->
  In y (dfs t visit h b (length (pth b))).
Proof.
  induction r as [|m r IH]; intros b h Ub EQ NE Hh; [congruence|]. destruct h as [|h]; [cbn in Hh; lia|].
  destruct (prefix_split inp st pth I b y m r Ub Uy EQ) as [SB Hm].
  destruct (i_split inp st pth I b m Ub SB Hm) as [Uc Ec]. set (c := s_child st m b) in *.
  assert (C0 : c <> 0). { intros C0. rewrite C0, (pth_0 inp st pth I) in Ec. destruct (pth b); discriminate. }
  assert (EQ' : pth y = pth c ++ r) by (rewrite Ec, <- app_assoc; auto).
  assert (LEN := f_equal (@length nat) EQ'). rewrite app_length in LEN.
  assert (LC := f_equal (@length nat) Ec). rewrite app_length in LC. cbn [length] in LC.
  cbn [length] in Hh. cbn [dfs]. apply in_concat.
  eexists. split; [apply in_map_iff; exists m; split; [reflexivity|apply in_seq; change (nchildren t) with nch; lia]|].
  change (box_child t m b) with c. apply Nat.eqb_neq in C0. rewrite C0.
  assert (CX : (c =? x) = false).
  { apply Nat.eqb_neq. intros ->. destruct r as [|m' r].
    - cbn [length] in LEN. destruct HIT as [Q|[Q _]]; lia.
    - destruct (prefix_split inp st pth I x y m' r Ux Uy EQ'). auto. }
  assert (TC : touch (pth c) (pth x)).
  { apply touch_prefix with r; rewrite <- EQ'; auto. }
  assert (LX : length (pth x) <= 29) by (destruct HIT as [Q|[Q _]]; lia).
  assert (A := touch_is_adj c x Uc Ux ltac:(lia) LX TC). rewrite LC, Lx in A.
  assert (V : visit c (length (pth b)) =
    if s_has_children st c then ([], length (pth b) + 1 <=? 1 + l)
    else (if (length (pth b) + 1 =? 2 + l) || ((length (pth b) + 1 =? 1 + l) && force c) then [c] else [], false)).
  { unfold restrict_visit. rewrite CX. rewrite A. auto. }
  rewrite V. destruct r as [|m' r].
  - rewrite app_nil_r in EQ'. assert (Y : y = c) by (apply (i_inj inp st pth I); auto). subst c. rewrite <- Y in *.
    rewrite (leaf_marks y Uy Fy). apply in_or_app. left.
    replace ((length (pth b) + 1 =? 2 + l) || ((length (pth b) + 1 =? 1 + l) && force y)) with true; [left; auto|].
    symmetry. apply orb_true_iff. destruct HIT as [Q|[Q Q2]]; [left; apply Nat.eqb_eq; lia|right].
    rewrite Q2, andb_true_r. apply Nat.eqb_eq. lia.
  - destruct (prefix_split inp st pth I c y m' r Uc Uy EQ') as [SC _]. rewrite (HM c Uc SC).
    cbn [length] in LEN, Hh. replace (length (pth b) + 1 <=? 1 + l) with true.
    2:{ symmetry. apply Nat.leb_le. destruct HIT as [Q|[Q _]]; lia. }
    apply in_or_app. right. replace (S (length (pth b))) with (length (pth c)) by lia.
    apply IH; auto; [discriminate|cbn [length]; lia].
Qed.
Lemma restrict_box_hit : nlev st = S (s_level st) -> n = lst st (nlev st) -> length (pth y) <= s_level st ->
  restrict_box inp st n l force x = Some true.
Proof.
  intros NL EN LY. unfold restrict_box. rewrite (leaf_marks x Ux Fx).
  rewrite (restrict_walk inp NPOS GU st pth n l force x I NL EN). cbn [option_map]. f_equal.
  assert (U0 := used_0 st (i_layout _ _ _ I)). assert (P0 := pth_0 inp st pth I).
  assert (X := dfs_hit (pth y) 0 (S (s_level st)) U0). rewrite P0 in X. cbn [app length] in X.
  specialize (X eq_refl). destruct (dfs _ _ _ _ _) as [|z zs].
  - exfalso. apply X; [|lia]. intros N. rewrite N in HIT. cbn in HIT. lia.
  - reflexivity.
Qed.
End Visit.

(** ** What the level restriction marks *)
Section Marks.
Variable st : state.
Variable pth : nat -> list nat.
Variable n : nat.
Hypothesis I : inv inp st pth.
Hypothesis HM : forall b, used st b -> s_child st 0 b <> 0 -> s_has_children st b = true.
Hypothesis HP : forall b, used st b -> s_has_children st b = true -> s_child st 0 b <> 0.
Hypothesis CE : forall b a, used st b -> a < d -> s_center st b a = pc (pth b) a.
Hypothesis NL : nlev st = S (s_level st).
Hypothesis EN : n = lst st (nlev st).
Hypothesis DEEP : s_level st <= 29.
Let Y := i_layout _ _ _ I.
Lemma used_level_le b : used st b -> length (pth b) <= s_level st.
Proof. intros U. rewrite (i_len _ _ _ I b U). assert (X := used_level st Y b U). destruct X. lia. Qed.
Lemma existsb_true_in hits : existsb (fun h : bool => h) hits = false -> ~ In true hits.
Proof. intros E1 H. assert (existsb (fun h : bool => h) hits = true); [|congruence]. apply existsb_exists. eauto. Qed.
Lemma restrict_levels_spec k : k <= s_level st -> forall force did force' did',
  (forall b, used st b -> length (pth b) <= k -> force b = false) ->
  restrict_levels inp st n (rev (seq 1 k)) force did = Some (force', did') ->
  (forall b, used st b -> k < length (pth b) -> force' b = force b) /\
  (forall x y, used st x -> used st y -> s_child st 0 x = 0 -> s_child st 0 y = 0 -> 0 < length (pth x) ->
     length (pth x) <= k -> touch (pth y) (pth x) -> length (pth y) = length (pth x) + 1 -> force' y = true -> force' x = true) /\
  (forall x y, used st x -> used st y -> s_child st 0 x = 0 -> s_child st 0 y = 0 -> 0 < length (pth x) ->
     length (pth x) = k -> touch (pth y) (pth x) -> length (pth y) = length (pth x) + 2 -> force' x = true) /\
  (did' = false -> did = false /\ forall b, used st b -> force' b = force b).
Proof.
  induction k as [|k IH]; intros Hk force did force' did' F0 RL.
  - cbn [seq rev restrict_levels] in RL. inversion RL; subst. split; auto. split; [|split; auto]; intros; lia.
  - rewrite seq_S, rev_app_distr in RL. cbn [rev app restrict_levels] in RL. replace (1 + k) with (S k) in RL by lia.
    destruct (run_all _ _) as [hits|] eqn:R; [|discriminate].
    destruct (run_all_combine _ _ _ R) as [R1 R2].
    set (bs := seq (nth (S k) (s_lstart st) 0) (nth (S k) (s_used st) 0)) in *.
    (* the marks of level k+1 *)
    assert (HH : forall x y, used st x -> used st y -> s_child st 0 x = 0 -> s_child st 0 y = 0 ->
       length (pth x) = S k -> touch (pth y) (pth x) ->
       length (pth y) = S k + 2 \/ (length (pth y) = S k + 1 /\ force y = true) -> In (x, true) (combine bs hits)).
    { intros x y Ux Uy Fx Fy Lx T HIT.
      assert (Ly := used_level_le y Uy).
      assert (RB := restrict_box_hit st pth n I HM HP CE x y (S k) force Ux Uy Fx Fy Lx ltac:(lia) T HIT NL EN Ly).
      assert (UA := used_level st Y x Ux). rewrite <- (i_len _ _ _ I x Ux), Lx in UA. destruct UA as [_ UA].
      assert (IN : In x bs). { apply in_seq. unfold lst, usd in UA. lia. }
      apply In_nth with (d := 0) in IN. destruct IN as [j [Hj Ej]].
      assert (IC : In (nth j bs 0, nth j hits false) (combine bs hits)).
      { rewrite <- combine_nth by auto. apply nth_In. rewrite combine_length. lia. }
      rewrite Ej in IC. destruct (R2 x _ IC) as [_ R3]. rewrite RB in R3. inversion R3. congruence. }
    destruct (existsb (fun h => h) hits) eqn:EX.
    + set (force1 := scatter (map (fun bh : nat * bool => (fst bh, true)) (filter snd (combine bs hits))) force) in *.
      assert (F1 : forall b, force1 b = true <-> In (b, true) (combine bs hits) \/ force b = true).
      { intros b. unfold force1. rewrite scatter_true_iff. rewrite in_map_iff. split; intros [A|A]; auto; left.
        - destruct A as [[b' h] [E1 A]]. apply filter_In in A. destruct A as [A1 A2]. cbn in *. subst. auto.
        - exists (b, true). split; auto. apply filter_In. auto. }
      assert (F1L : forall b, used st b -> length (pth b) <> S k -> force1 b = force b).
      { intros b U Hb. destruct (force b) eqn:FB; [apply F1; auto|]. apply not_true_is_false. intros C. apply F1 in C.
        destruct C as [C|C]; [|congruence]. destruct (R2 _ _ C) as [C1 _]. unfold bs in C1. apply in_seq in C1. apply Hb.
        rewrite (i_len _ _ _ I b U). apply (used_at_level st Y). split; [rewrite NL; lia|]. unfold lst, usd. lia. }
      destruct (IH ltac:(lia) force1 true force' did') as [A [B [_ D]]]; auto.
      { intros b U Hb. rewrite F1L by (auto; lia). apply F0; auto. }
      split; [|split; [|split]].
      * intros b U Hb. rewrite A by (auto; lia). apply F1L; auto. lia.
      * intros x y Ux Uy Fx Fy Px Lx T Ly FY. destruct (Nat.le_gt_cases (length (pth x)) k) as [C|C].
        { apply B with y; auto. }
        rewrite A by auto. apply F1. left. apply HH with y; auto; [lia|]. right. split; [lia|].
        rewrite A in FY by (auto; lia). rewrite F1L in FY by (auto; lia). auto.
      * intros x y Ux Uy Fx Fy Px Lx T Ly. rewrite A by (auto; lia). apply F1. left. apply HH with y; auto. left. lia.
      * intros ->. destruct (D eq_refl). discriminate.
    + inversion RL; subst. assert (NT := existsb_true_in hits EX).
      assert (NC : forall x, ~ In (x, true) (combine bs hits)) by (intros x C; apply in_combine_r in C; auto).
      split; auto. split; [|split; auto].
      * intros x y Ux Uy Fx Fy Px Lx T Ly FY. destruct (Nat.le_gt_cases (length (pth y)) (S k)) as [C|C].
        { rewrite F0 in FY by auto. discriminate. }
        exfalso. apply (NC x). apply HH with y; auto; [lia|]. right. split; auto. lia.
      * intros x y Ux Uy Fx Fy Px Lx T Ly. exfalso. apply (NC x). apply HH with y; auto. left. lia.
Qed.
End Marks.

(** ** The invariant *)
Definition leaf (st : state) (b : nat) : Prop := used st b /\ s_child st 0 b = 0.
Definition balanced (st : state) (pth : nat -> list nat) : Prop :=
  forall x y, leaf st x -> leaf st y -> touch (pth y) (pth x) -> length (pth y) <= length (pth x) + 1.
Record lr (st : state) (pth : nat -> list nat) : Prop := {
  lr_bal : forall x y, leaf st x -> leaf st y -> touch (pth y) (pth x) -> length (pth x) + 1 < length (pth y) ->
    length (pth y) = length (pth x) + 2 /\ length (pth y) + 1 = nlev st /\ s_force st x = true;
  lr_closed : forall x y, leaf st x -> leaf st y -> touch (pth y) (pth x) -> length (pth y) = length (pth x) + 1 ->
    s_force st y = true -> s_force st x = true
}.
Lemma root_not_leaf st pth x y : inv inp st pth -> leaf st x -> used st y -> length (pth x) < length (pth y) -> 0 < length (pth x).
Proof.
  intros I [Ux Fx] Uy LT. destruct (pth x) as [|m p] eqn:EX; [|cbn; lia]. exfalso.
  destruct (pth y) as [|m q] eqn:EY; [cbn in LT; lia|].
  destruct (prefix_split inp st pth I x y m q Ux Uy) as [C _]; [rewrite EX; auto|]. auto.
Qed.

Section Next.
Variable st : state.
Variable pth : nat -> list nat.
Hypothesis G : good inp st pth.
Hypothesis R : lr st pth.
Let H := g_head inp st pth G.
Let I := h_inv inp st pth H.
Let Y := i_layout inp st pth I.
Notation L := (nlev st).
Variables (nl : list nat) (nbn : nat).
Hypothesis NB : lst st L + nth L (nused inp st) 0 <= nbn.
Hypothesis NR : forall l, l < L -> nth l (nused inp st) 0 <= lst st (S l) - lst st l.
Notation st5 := (st5 inp st nl nbn).
Notation pth5 := (pth5 inp st pth nl nbn).
Notation moves := (moves inp st).
Notation nid := (nid inp st).
Hypothesis DEEP : L <= 29 \/ (L <= 30 /\ nth L (nused inp st) 0 = 0).
Let I5 : inv inp st5 pth5 := advance_inv inp WT MW st pth H nl nbn NB NR.

(** a leaf after the split is a leaf from before or a child of one *)
Lemma leaf5 x : leaf st5 x -> (leaf st x /\ ~ will inp st pth x /\ pth5 x = pth x) \/
  exists b m, leaf st b /\ will inp st pth b /\ m < nch /\ pth5 x = pth b ++ [m].
Proof.
  intros [U F]. apply (u5 inp st pth G nl nbn NB) in U. destruct U as [U|[b [m [M [Hm ->]]]]].
  - left. destruct (moves_dec inp st x) as [M|M].
    + exfalso. rewrite (c5n inp WT st pth G nl nbn NB x 0 M (nch_pos inp)) in F.
      apply (moves_nid_nonzero inp st pth H nbn NB x 0 M F).
    + rewrite (c5o inp WT st pth G nl nbn NB x 0 M (nch_pos inp)) in F. split; [split; auto|]. split.
      * intros W. apply M. apply (will_moves inp WT st pth G); auto.
      * apply (p5o inp st pth G nl nbn); auto.
  - right. exists b, m. split; [|split; [|split; auto]].
    + split; [apply (moves_used inp MW st pth H); auto|apply (moves_leaf inp WT MW st pth H); auto].
    + apply (moves_will inp WT MW st pth G); auto.
    + apply (p5n inp WT st pth G nl nbn NB NR); auto.
Qed.
Lemma level5_le x : used st5 x -> length (pth5 x) <= 29.
Proof.
  intros U. destruct DEEP as [C|[C Z]].
  - assert (X := pth5_level_le inp WT MW NPOS GU st pth G nl nbn NB NR x U). lia.
  - apply (u5 inp st pth G nl nbn NB) in U. destruct U as [U|[b [m [M [Hm ->]]]]].
    + rewrite (p5o inp st pth G nl nbn x U), (i_len _ _ _ I x U). destruct (used_level st Y x U). lia.
    + rewrite (p5n inp WT st pth G nl nbn NB NR b m M Hm), app_length. cbn [length].
      assert (U : used st b) by (apply (moves_used inp MW st pth H); auto).
      destruct (moves_will inp WT MW st pth G b M) as [[W1 W2]|[_ W]].
      * exfalso. assert (X := proj2 (nu_L_pos_iff inp WT MW st pth G _ (le_n _))). 
        change (new_used (marked inp (scanned inp st)) (split_box_ids inp (scanned inp st))) with (nused inp st) in X.
        rewrite (h_level inp st pth H) in W1. specialize (X (ex_intro _ b (conj U (conj W1 W2)))). lia.
      * destruct (g_force inp st pth G b W) as [_ [_ [_ W4]]]. rewrite (h_level inp st pth H) in W4. lia.
Qed.
Lemma will_level b : leaf st b -> will inp st pth b -> length (pth b) + 1 = L \/ (s_force st b = true /\ length (pth b) + 3 <= L).
Proof.
  intros _ [[W _]|[_ W]].
  - left. rewrite <- (h_level inp st pth H). auto.
  - right. destruct (g_force inp st pth G b W) as [_ [_ [_ W4]]]. rewrite (h_level inp st pth H) in W4. auto.
Qed.
Lemma not_will_force b : ~ will inp st pth b -> s_force st b = false.
Proof. intros W. apply not_true_is_false. intros F. apply W. right. auto. Qed.
Lemma leaf_level b : leaf st b -> length (pth b) + 1 <= L.
Proof. intros [U _]. rewrite (i_len _ _ _ I b U). destruct (used_level st Y b U). lia. Qed.
(** before the new marks *)
Lemma balanced5 x y : leaf st5 x -> leaf st5 y -> touch (pth5 y) (pth5 x) -> length (pth5 x) + 1 < length (pth5 y) ->
  length (pth5 y) = length (pth5 x) + 2 /\ length (pth5 y) = L.
Proof.
  intros Fx Fy T LT.
  assert (Dx := level5_le x (proj1 Fx)). assert (Dy := level5_le y (proj1 Fy)).
  assert (UP : forall p m q, length (p ++ [m]) <= 29 -> touch (p ++ [m]) q -> touch p q).
  { intros p m q Hl Tq. apply touch_parent with m; auto. rewrite app_length in Hl. cbn [length] in Hl. lia. }
  destruct (leaf5 x Fx) as [[Lx [Wx Ex]]|[bx [mx [Lx [Wx [Hmx Ex]]]]]];
  destruct (leaf5 y Fy) as [[Ly [Wy Ey]]|[by_ [my [Ly [Wy [Hmy Ey]]]]]]; rewrite Ex, Ey in *.
  - destruct (lr_bal st pth R x y Lx Ly T LT) as [_ [_ C]]. rewrite (not_will_force x Wx) in C. discriminate.
  - assert (T' := UP _ _ _ Dy T). rewrite app_length in *. cbn [length] in *.
    destruct (will_level by_ Ly Wy) as [W|[W W2]].
    + destruct (Nat.le_gt_cases (length (pth by_)) (length (pth x) + 1)) as [C|C]; [lia|].
      destruct (lr_bal st pth R x by_ Lx Ly T' C) as [_ [_ C2]]. rewrite (not_will_force x Wx) in C2. discriminate.
    + destruct (Nat.le_gt_cases (length (pth by_)) (length (pth x) + 1)) as [C|C].
      * assert (C2 := lr_closed st pth R x by_ Lx Ly T' ltac:(lia) W). rewrite (not_will_force x Wx) in C2. discriminate.
      * destruct (lr_bal st pth R x by_ Lx Ly T' C) as [_ [C2 _]]. lia.
  - assert (T' := touch_sym _ _ (UP _ _ _ Dx (touch_sym _ _ T))). rewrite app_length in *. cbn [length] in *.
    destruct (lr_bal st pth R bx y Lx Ly T' ltac:(lia)) as [C _]. lia.
  - assert (T' := touch_sym _ _ (UP _ _ _ Dx (touch_sym _ _ (UP _ _ _ Dy T)))). rewrite !app_length in *. cbn [length] in *.
    destruct (lr_bal st pth R bx by_ Lx Ly T' ltac:(lia)) as [C [C2 _]]. lia.
Qed.
Lemma nothing_new : nth L (nused inp st) 0 = 0 -> forall x, used st5 x -> length (pth5 x) < L.
Proof.
  intros Z x U. apply (u5 inp st pth G nl nbn NB) in U. destruct U as [U|[b [m [M [Hm ->]]]]].
  - rewrite (p5o inp st pth G nl nbn x U), (i_len _ _ _ I x U). destruct (used_level st Y x U). lia.
  - rewrite (p5n inp WT st pth G nl nbn NB NR b m M Hm), app_length. cbn [length].
    assert (U : used st b) by (apply (moves_used inp MW st pth H); auto).
    destruct (moves_will inp WT MW st pth G b M) as [[W1 W2]|[_ W]].
    * exfalso. assert (X := proj2 (nu_L_pos_iff inp WT MW st pth G _ (le_n _))). 
      change (new_used (marked inp (scanned inp st)) (split_box_ids inp (scanned inp st))) with (nused inp st) in X.
      rewrite (h_level inp st pth H) in W1. specialize (X (ex_intro _ b (conj U (conj W1 W2)))). lia.
    * destruct (g_force inp st pth G b W) as [_ [_ [_ W4]]]. rewrite (h_level inp st pth H) in W4. lia.
Qed.
Lemma balanced_final : nth L (nused inp st) 0 = 0 -> balanced st5 pth5.
Proof.
  intros Z x y Fx Fy T. destruct (Nat.le_gt_cases (length (pth5 y)) (length (pth5 x) + 1)) as [C|C]; auto. exfalso.
  destruct (balanced5 x y Fx Fy T C) as [_ C2]. assert (X := nothing_new Z y (proj1 Fy)). lia.
Qed.
Section Restrict.
Variables (force : nat -> bool) (did : bool).
Hypothesis NZ : L <= 29.
Hypothesis RL : restrict_levels inp st5 nbn (rev (seq 1 (s_level st5 - 2))) (fun _ => false) false = Some (force, did).
Lemma restrict5 :
  (forall x y, leaf st5 x -> leaf st5 y -> 0 < length (pth5 x) -> length (pth5 x) + 2 <= L ->
     touch (pth5 y) (pth5 x) -> length (pth5 y) = length (pth5 x) + 1 -> force y = true -> force x = true) /\
  (forall x y, leaf st5 x -> leaf st5 y -> 0 < length (pth5 x) -> length (pth5 x) + 2 = L ->
     touch (pth5 y) (pth5 x) -> length (pth5 y) = length (pth5 x) + 2 -> force x = true) /\
  (did = false -> forall b, used st5 b -> force b = false).
Proof.
  assert (L5 : s_level st5 = L) by apply (h_level inp st pth H).
  assert (N5 := nlev5 inp st pth H nl nbn).
  assert (LL : nbn = lst st5 (nlev st5)) by (rewrite N5; symmetry; apply (lst5_last inp st pth H nl nbn NB)).
  assert (RL' : restrict_levels inp st5 nbn (rev (seq 1 (L - 2))) (fun _ => false) false = Some (force, did))
    by (rewrite <- L5 at 1; exact RL).
  destruct (restrict_levels_spec st5 pth5 nbn I5 (marks5 inp WT MW st pth G nl nbn NB NR)
     (pending5 inp WT MW st pth G nl nbn NB NR) (center5 inp WT MW st pth G nl nbn NB NR) ltac:(lia) LL ltac:(lia)
     (L - 2) ltac:(lia) (fun _ : nat => false) false force did ltac:(auto) RL') as [A [B [C D]]].
  split; [|split].
    + intros x y [Ux Fx] [Uy Fy] Px Hx T Ly FY. apply B with y; auto. lia.
    + intros x y [Ux Fx] [Uy Fy] Px Hx T Ly. apply C with y; auto. lia.
    + intros E0 b U. apply (proj2 (D E0) b U).
Qed.
Lemma next_lr level over final : lr (with_control st5 level force over final) pth5.
Proof.
  destruct restrict5 as [A [B _]]. assert (N5 := nlev5 inp st pth H nl nbn). split.
  - intros x y Fx Fy T LT. destruct (balanced5 x y Fx Fy T LT) as [E1 E2]. split; auto.
    split; [change (nlev (with_control st5 level force over final)) with (nlev st5); lia|].
    cbn [with_control s_force]. apply B with y; auto; [|lia]. apply (root_not_leaf st5 pth5 x y I5); auto; [apply Fy|lia].
  - intros x y Fx Fy T E1 F. cbn [with_control s_force] in *.
    assert (FF := force_facts inp WT MW st pth nl nbn force did G NB NR LRT RL y F). destruct FF as [_ [_ [F3 [F4 _]]]].
    apply A with y; auto; [|lia]. apply (root_not_leaf st5 pth5 x y I5); auto; [apply Fy|lia].
Qed.
Lemma balanced_restricted : did = false -> balanced st5 pth5.
Proof.
  intros D0 x y Fx Fy T. destruct (Nat.le_gt_cases (length (pth5 y)) (length (pth5 x) + 1)) as [C|C]; auto. exfalso.
  destruct (balanced5 x y Fx Fy T C) as [E1 E2]. destruct restrict5 as [_ [B D]].
  assert (F := B x y Fx Fy (root_not_leaf st5 pth5 x y I5 Fx (proj1 Fy) ltac:(lia)) ltac:(lia) T E1).
  rewrite (D D0 x (proj1 Fx)) in F. discriminate.
Qed.
End Restrict.
End Next.

Lemma run_lr st pth : run inp st pth -> nlev st <= 30 -> lr st pth.
Proof.
  induction 1 as [E0|st pth st' pt RU IH T]; intros DEEP.
  - split.
    + intros x y _ _ _ C. cbn in C. lia.
    + intros x y _ _ _ C. cbn in C. lia.
  - assert (G := run_good inp WT MW NPOS GU st pth RU). assert (H := g_head _ _ _ G).
    destruct T as [g Hg|ns nbn LR NSlen NS0 NSle|nl nbn force did NB NR NE TI F RL O].
    + specialize (IH DEEP). destruct IH as [A B]. split; [exact A|exact B].
    + assert (MG := marked_good inp WT MW st pth G). assert (MH := g_head _ _ _ MG).
      assert (N' : nlev (renumbered inp (marks inp st) ns nbn) = nlev st).
      { apply (nlev' inp (marks inp st) ns nbn). }
      specialize (IH ltac:(lia)). assert (Y := i_layout _ _ _ (h_inv _ _ _ MH)).
      assert (UI := used'_inv inp _ pth MH ns nbn NSlen NS0). 
      assert (P := pth'_dst inp _ pth MH ns nbn NSlen NS0 NSle).
      assert (C0 := child0_iff inp _ pth MH ns nbn NSlen NS0 NSle).
      assert (FF := force' inp _ pth MH ns nbn NSlen NS0 NSle).
      assert (LF : forall x, leaf (renumbered inp (marks inp st) ns nbn) x -> exists b, leaf st b /\ x = renumbering (marks inp st) ns b /\
         pth' inp (marks inp st) pth ns nbn x = pth b /\ s_force (renumbered inp (marks inp st) ns nbn) x = s_force st b).
      { intros x [U Fx]. destruct (UI x U) as [b [Ub ->]]. exists b. assert (X := used_lt _ Y b Ub).
        split; [split; [exact Ub|apply C0 in Fx; auto]|]. split; auto. split; [apply P; auto|apply FF; auto]. }
      destruct IH as [A B]. split.
      * intros x y Fx Fy T LT. destruct (LF x Fx) as [bx [Lx [_ [Ex Ox]]]]. destruct (LF y Fy) as [b2 [Ly [_ [Ey Oy]]]].
        rewrite Ex, Ey, Ox in *. rewrite N'. apply A; auto.
      * intros x y Fx Fy T LT. destruct (LF x Fx) as [bx [Lx [_ [Ex Ox]]]]. destruct (LF y Fy) as [b2 [Ly [_ [Ey Oy]]]].
        rewrite Ex, Ey, Ox, Oy in *. apply (B bx b2); auto.
    + rewrite LRT in RL. 
      change (nlev (st5 inp st nl nbn) <= 30) in DEEP. rewrite (nlev5 inp st pth H nl nbn) in DEEP.
      apply next_lr with did; auto; try lia. apply IH; lia.
Qed.
Theorem ends_balanced st pth st' pth' : run inp st pth -> ends inp st pth st' pth' -> have_extent inp = false ->
  nlev st' <= 30 -> balanced st' pth'.
Proof.
  intros RU EN NE DEEP. assert (G := run_good inp WT MW NPOS GU st pth RU). assert (H := g_head _ _ _ G).
  destruct EN as [X|nl nbn NB NR F Z OV|nl nbn force NB NR P LR F RL OV|nl nbn NB NR P LR _ OV].
  - congruence.
  - assert (D : nlev st <= 30).
    { revert DEEP. unfold nlev. cbn [with_control with_level_counts s_used].
      rewrite removelast_length. assert (X := nlev5 inp st pth H nl nbn). unfold nlev in X. lia. }
    assert (B := balanced_final st pth G (run_lr st pth RU D) nl nbn NB NR ltac:(lia) Z).
    intros x y Fx Fy T.
    assert (I5 := advance_inv inp WT MW st pth H nl nbn NB NR).
    assert (LF : forall x, leaf (with_control (with_level_counts (st5 inp st nl nbn) (removelast (s_lstart (st5 inp st nl nbn)))
                       (removelast (s_used (st5 inp st nl nbn))) (s_leaves (st5 inp st nl nbn)))
         (s_level (st5 inp st nl nbn) - 1) (s_force (st5 inp st nl nbn)) false true) x -> leaf (st5 inp st nl nbn) x).
    { intros z [U Z0]. split; [|exact Z0].
      apply (drop_used inp _ _ (s_leaves (st5 inp st nl nbn)) I5); auto.
      - rewrite (nlev5 inp st pth H nl nbn). assert (X := lay_pos st (i_layout _ _ _ (h_inv _ _ _ H))). lia.
      - rewrite (nlev5 inp st pth H nl nbn). replace (S (nlev st) - 1) with (nlev st) by lia. exact Z. }
    apply B; auto.
  - change (nlev (st5 inp st nl nbn) <= 30) in DEEP. rewrite (nlev5 inp st pth H nl nbn) in DEEP.
    intros x y Fx Fy T.
    apply (balanced_restricted st pth G (run_lr st pth RU ltac:(lia)) nl nbn NB NR ltac:(lia) force false); auto; lia.
  - congruence.
Qed.
End LR.
