(** Invariant of the tree builder's level loop. *)
From Coq Require Import List Arith ZArith NArith Lia Bool Permutation.
From Verif Require Import Base Tree Walk Traversal Fmm TreeBuild ArrayFacts.
Import ListNotations.

Lemma lor_lt_pow2 a b n : a < 2 ^ n -> b < 2 ^ n -> Nat.lor a b < 2 ^ n.
Proof.
  intros Ha Hb. destruct (Nat.eq_dec (Nat.lor a b) 0) as [E|E]; [lia|].
  apply Nat.log2_lt_pow2; [lia|]. rewrite Nat.log2_lor.
  destruct (Nat.eq_dec a 0) as [->|Ha0].
  { rewrite Nat.lor_0_l in E. rewrite (Nat.log2_nonpos 0) by lia. rewrite Nat.max_0_l.
    apply Nat.log2_lt_pow2; lia. }
  destruct (Nat.eq_dec b 0) as [->|Hb0].
  { rewrite (Nat.log2_nonpos 0) by lia. rewrite Nat.max_0_r. apply Nat.log2_lt_pow2; lia. }
  apply Nat.max_lub_lt; apply Nat.log2_lt_pow2; lia.
Qed.
Lemma morton_number_lt inp u l : morton_number inp u l < nchild inp.
Proof.
  unfold morton_number, nchild.
  assert (X : forall ax acc, acc < 2 ^ idim inp -> (forall a, In a ax -> a < idim inp) ->
    fold_left (fun acc a => Nat.lor acc (Nat.shiftl (if Z.odd (particle_bits inp u l a) then 1 else 0)
                                                  (idim inp - 1 - a))) ax acc < 2 ^ idim inp).
  { induction ax as [|a ax IH]; intros acc Hacc Hax; simpl; auto.
    apply IH; [|intros; apply Hax; right; auto]. apply lor_lt_pow2; auto.
    assert (Ha := Hax a (or_introl eq_refl)).
    assert (P : 2 ^ (idim inp - 1 - a) < 2 ^ idim inp) by (apply Nat.pow_lt_mono_r; lia).
    destruct (Z.odd _); rewrite Nat.shiftl_mul_pow2; lia. }
  apply X.
  - assert (2 ^ idim inp <> 0) by (apply Nat.pow_nonzero; lia). lia.
  - intros a Ha. apply in_seq in Ha. lia.
Qed.

Section Reach.
Variable inp : input.
Notation np := (npart inp).
Notation nch := (nchild inp).

(** the child a particle goes to at a level, [None]: it stays *)
Definition dig (u l : nat) : option nat := morton inp u l.
Lemma dig_lt u l m : dig u l = Some m -> m < nch.
Proof.
  unfold dig, morton. destruct (stop_descent inp u l); [discriminate|]. intros E; inversion E; subst.
  apply morton_number_lt.
Qed.
Definition key (u l : nat) : nat := bin_key (dig u l).
Lemma key_le u l : key u l <= nch.
Proof. unfold key. destruct (dig u l) eqn:E; simpl; [apply dig_lt in E; lia|lia]. Qed.
Lemma nch_pos : 0 < nch.
Proof. unfold nchild. assert (2 ^ idim inp <> 0) by (apply Nat.pow_nonzero; lia). lia. Qed.

(** particle [u] reaches the box with path [p] (morton numbers from the root) *)
Fixpoint reach_from (l u : nat) (p : list nat) : bool :=
  match p with
  | [] => true
  | m :: p' => match dig u l with Some k => k =? m | None => false end && reach_from (S l) u p'
  end.
Definition reach (u : nat) (p : list nat) : bool := reach_from 0 u p.

Lemma reach_from_app l u p q : reach_from l u (p ++ q) = reach_from l u p && reach_from (l + length p) u q.
Proof.
  revert l. induction p as [|m p IH]; intros l; simpl.
  - f_equal. lia.
  - rewrite IH, andb_assoc. do 2 f_equal. lia.
Qed.
Lemma reach_snoc u p m : reach u (p ++ [m]) = reach u p && (key u (length p) =? S m).
Proof.
  unfold reach. rewrite reach_from_app. f_equal. simpl. unfold key.
  destruct (dig u (length p)); simpl; rewrite ?andb_true_r; auto.
Qed.
Lemma reach_app u p q : reach u (p ++ q) = true -> reach u p = true.
Proof. unfold reach. rewrite reach_from_app. intros H. apply andb_true_iff in H. tauto. Qed.
Lemma reach_digit u p m q : reach u (p ++ m :: q) = true -> dig u (length p) = Some m.
Proof.
  unfold reach. rewrite reach_from_app. intros H. apply andb_true_iff in H. destruct H as [_ H].
  simpl in H. apply andb_true_iff in H. destruct H as [H _].
  destruct (dig u (length p)); [|discriminate]. apply Nat.eqb_eq in H. congruence.
Qed.
(** two boxes reached by the same particle lie on one path *)
Lemma reach_from_comparable l u p q : reach_from l u p = true -> reach_from l u q = true ->
  (exists r, q = p ++ r) \/ (exists m r, p = q ++ m :: r).
Proof.
  revert l q. induction p as [|m p IH]; intros l q Hp Hq.
  - left. exists q. auto.
  - destruct q as [|k q].
    + right. exists m, p. auto.
    + simpl in Hp, Hq. apply andb_true_iff in Hp, Hq. destruct Hp as [P1 P2], Hq as [Q1 Q2].
      destruct (dig u l) as [d|]; [|discriminate]. apply Nat.eqb_eq in P1, Q1. subst m k.
      destruct (IH (S l) q P2 Q2) as [[r ->]|[m' [r ->]]].
      * left. exists r. auto.
      * right. exists m', r. auto.
Qed.
Lemma reach_comparable u p q : reach u p = true -> reach u q = true ->
  (exists r, q = p ++ r) \/ (exists m r, p = q ++ m :: r).
Proof. apply reach_from_comparable. Qed.

(** numbers of particles *)
Definition rcount (p : list nat) : nat := cnt (fun u => reach u p) np.
Definition kcount (p : list nat) (k : nat) : nat := cnt (fun u => reach u p && (key u (length p) =? k)) np.
Definition kless (p : list nat) (k : nat) : nat := cnt (fun u => reach u p && (key u (length p) <? k)) np.
Definition rweight (p : list nat) : Z := zsum (map (weight inp) (filter (fun u => reach u p) (seq 0 np))).
Definition subweight (p : list nat) (m : nat) : Z := Z.min INT_MAX (rweight (p ++ [m])).
Lemma rcount_snoc p m : rcount (p ++ [m]) = kcount p (S m).
Proof. apply cnt_ext. intros u Hu. apply reach_snoc. Qed.
Lemma kcount_le p k : kcount p k <= rcount p.
Proof. apply cnt_mono. intros u Hu H. apply andb_true_iff in H. tauto. Qed.
Lemma kless_le p k : kless p k <= rcount p.
Proof. apply cnt_mono. intros u Hu H. apply andb_true_iff in H. tauto. Qed.
Lemma kless_sum p k : nsum (map (kcount p) (seq 0 k)) = kless p k.
Proof. apply (cnt_key_sum (fun u => reach u p) (fun u => key u (length p))). Qed.
Lemma kless_all p : kless p (S nch) = rcount p.
Proof.
  apply cnt_ext. intros u Hu. destruct (reach u p); auto. simpl.
  apply Nat.ltb_lt. assert (X := key_le u (length p)). lia.
Qed.
Lemma kless_S p k : kless p (S k) = kless p k + kcount p k.
Proof. rewrite <- !kless_sum, seq_S, map_app, nsum_app. simpl. lia. Qed.
Lemma rweight_0 p : rcount p = 0 -> rweight p = 0%Z.
Proof. unfold rcount, cnt, rweight. intros H. apply length_zero_iff_nil in H. rewrite H. auto. Qed.
End Reach.

Section Inv.
Variable inp : input.
Notation np := (npart inp).
Notation nch := (nchild inp).
Notation dig := (dig inp).
Notation key := (key inp).
Notation reach := (reach inp).
Notation rcount := (rcount inp).
Notation kcount := (kcount inp).
Notation kless := (kless inp).
Notation subweight := (subweight inp).

Definition lst (st : state) (l : nat) : nat := nth l (s_lstart st) 0.
Definition usd (st : state) (l : nat) : nat := nth l (s_used st) 0.
Definition nlev (st : state) : nat := length (s_used st).
(** box [b] is in use at level [l] *)
Definition used_at (st : state) (l b : nat) : Prop := l < nlev st /\ lst st l <= b < lst st l + usd st l.
Definition used (st : state) (b : nat) : Prop := exists l, used_at st l b.

Record layout (st : state) : Prop := {
  lay_pos : 0 < nlev st;
  lay_len : length (s_lstart st) = S (nlev st);
  lay_0 : lst st 0 = 0;
  lay_used_0 : usd st 0 = 1;
  lay_used : forall l, l < nlev st -> lst st l + usd st l <= lst st (S l);
  lay_level : forall l b, l < nlev st -> lst st l <= b -> b < lst st (S l) -> s_blevel st b = l
}.

Record inv (st : state) (pth : nat -> list nat) : Prop := {
  i_layout : layout st;
  i_len : forall b, used st b -> length (pth b) = s_blevel st b;
  i_inj : forall b b', used st b -> used st b' -> pth b = pth b' -> b = b';
  i_leaf : forall b m, used st b -> s_child st 0 b = 0 -> m < nch -> s_child st m b = 0;
  i_split : forall b m, used st b -> s_child st 0 b <> 0 -> m < nch ->
    used st (s_child st m b) /\ pth (s_child st m b) = pth b ++ [m];
  i_parent : forall b, used st b -> b <> 0 -> used st (s_parent st b) /\
    exists m, m < nch /\ pth b = pth (s_parent st b) ++ [m] /\ s_child st m (s_parent st b) = b;
  i_root_parent : s_parent st 0 = 0;
  i_perm : Permutation (map (s_user st) (seq 0 np)) (seq 0 np);
  i_cumul : forall b, used st b -> s_cumul st b = rcount (pth b);
  i_range : forall b i, used st b -> 0 < s_cumul st b -> i < np ->
    (s_start st b <= i < s_start st b + s_cumul st b <-> reach (s_user st i) (pth b) = true);
  i_range_np : forall b, used st b -> 0 < s_cumul st b -> s_start st b + s_cumul st b <= np;
  i_box : forall i, i < np -> used st (s_box st i) /\ reach (s_user st i) (pth (s_box st i)) = true /\
    (s_child st 0 (s_box st i) <> 0 -> dig (s_user st i) (length (pth (s_box st i))) = None);
  i_order : forall b m, used st b -> s_child st 0 b <> 0 -> m < nch -> 0 < s_cumul st (s_child st m b) ->
    s_start st (s_child st m b) = s_start st b + kless (pth b) (S m);
  i_flag : forall i, 0 < i -> i < np ->
    (s_start_flag st i = true <-> exists b, used st b /\ 0 < s_cumul st b /\ s_start st b = i);
  i_bins : forall b k, used st b -> s_child st 0 b <> 0 \/ s_cumul st b = 0 -> k <= nch ->
    s_bins st b k = kcount (pth b) k;
  i_wts : forall b m, used st b -> s_child st 0 b <> 0 \/ s_cumul st b = 0 -> m < nch ->
    s_wts st b m = subweight (pth b) m;
  i_unused : forall b, ~ used st b -> (forall m, m < nch -> s_child st m b = 0) /\ s_cumul st b = 0 /\
    s_has_children st b = false /\ s_force st b = false /\
    (forall k, k <= nch -> s_bins st b k = 0) /\ (forall m, m < nch -> s_wts st b m = 0%Z)
}.

Section Layout.
Variable st : state.
Hypothesis Y : layout st.
Lemma lst_le l l' : l <= l' -> l' <= nlev st -> lst st l <= lst st l'.
Proof.
  intros H. induction H; intros Hl; auto. assert (X := lay_used st Y m). lia.
Qed.
Lemma used_at_level l b : used_at st l b -> s_blevel st b = l.
Proof. intros [H1 H2]. apply (lay_level st Y); auto; [lia|]. assert (X := lay_used st Y l H1). lia. Qed.
Lemma used_level b : used st b -> used_at st (s_blevel st b) b.
Proof. intros [l H]. rewrite (used_at_level l b H). auto. Qed.
Lemma used_lt b : used st b -> b < lst st (nlev st).
Proof.
  intros [l [H1 H2]]. assert (X := lay_used st Y l H1). assert (X2 := lst_le (S l) (nlev st)). lia.
Qed.
Lemma used_0 : used st 0.
Proof.
  exists 0. split; [apply (lay_pos st Y)|]. rewrite (lay_0 st Y), (lay_used_0 st Y). lia.
Qed.
Lemma level_0 : s_blevel st 0 = 0.
Proof. destruct used_0 as [l H]. apply (lay_level st Y); try apply (lay_pos st Y).
  - rewrite (lay_0 st Y). lia.
  - assert (X := lay_used st Y 0 (lay_pos st Y)). rewrite (lay_used_0 st Y) in X. lia.
Qed.
Lemma level_pos b : used st b -> b <> 0 -> 0 < s_blevel st b.
Proof.
  intros U Hb. destruct (Nat.eq_dec (s_blevel st b) 0) as [E|]; [|lia]. exfalso.
  apply used_level in U. rewrite E in U. destruct U as [_ U]. rewrite (lay_0 st Y), (lay_used_0 st Y) in U. lia.
Qed.
(** every box belongs to a level *)
Lemma level_of b : b < lst st (nlev st) -> exists l, l < nlev st /\ lst st l <= b < lst st (S l).
Proof.
  assert (X : forall k, k <= nlev st -> b < lst st k -> exists l, l < k /\ lst st l <= b < lst st (S l)).
  { induction k; intros Hk Hb.
    - rewrite (lay_0 st Y) in Hb. lia.
    - destruct (Nat.lt_ge_cases b (lst st k)).
      + destruct IHk as [l Hl]; try lia. exists l. split; [lia|tauto].
      + exists k. lia. }
  intros Hb. apply X; auto.
Qed.
Lemma level_spec b : b < lst st (nlev st) ->
  s_blevel st b < nlev st /\ lst st (s_blevel st b) <= b < lst st (S (s_blevel st b)).
Proof.
  intros Hb. destruct (level_of b Hb) as [l [H1 H2]].
  rewrite (lay_level st Y l b) by lia. auto.
Qed.
Lemma used_dec b : used st b \/ ~ used st b.
Proof.
  destruct (Nat.lt_ge_cases b (lst st (nlev st))) as [H|H].
  - destruct (level_spec b H) as [H1 H2].
    destruct (Nat.lt_ge_cases b (lst st (s_blevel st b) + usd st (s_blevel st b))).
    + left. exists (s_blevel st b). split; auto. lia.
    + right. intros U. apply used_level in U. destruct U. lia.
  - right. intros U. apply used_lt in U. lia.
Qed.
Definition usedb (b : nat) : bool :=
  (b <? lst st (nlev st)) && (b <? lst st (s_blevel st b) + usd st (s_blevel st b)).
Lemma usedb_spec b : usedb b = true <-> used st b.
Proof.
  unfold usedb. rewrite andb_true_iff, !Nat.ltb_lt. split.
  - intros [H1 H2]. destruct (level_spec b H1). exists (s_blevel st b). split; auto. lia.
  - intros U. split; [apply used_lt; auto|]. apply used_level in U. destruct U. lia.
Qed.
End Layout.

Section Paths.
Variable st : state.
Variable pth : nat -> list nat.
Hypothesis I : inv st pth.
Let Y := i_layout st pth I.

Lemma pth_0 : pth 0 = [].
Proof.
  apply length_zero_iff_nil. rewrite (i_len st pth I 0 (used_0 st Y)). apply level_0; auto.
Qed.
Lemma pth_nil b : used st b -> pth b = [] -> b = 0.
Proof. intros U E. apply (i_inj st pth I); auto; [apply used_0; auto|]. rewrite pth_0. auto. Qed.
Lemma prefix_used b p r : used st b -> pth b = p ++ r -> exists a, used st a /\ pth a = p.
Proof.
  revert b p. induction r as [|m r IH] using rev_ind; intros b p U E.
  - rewrite app_nil_r in E. exists b. auto.
  - destruct (Nat.eq_dec b 0) as [->|Hb].
    + rewrite pth_0 in E. destruct p; destruct r; discriminate.
    + destruct (i_parent st pth I b U Hb) as [U' [k [Hk [E' _]]]].
      rewrite E', app_assoc in E. apply app_inj_tail in E. destruct E as [E _]. apply (IH (s_parent st b) p U' E).
Qed.
Lemma prefix_split a b m r : used st a -> used st b -> pth b = pth a ++ m :: r ->
  s_child st 0 a <> 0 /\ m < nch.
Proof.
  intros Ua Ub E. replace (pth a ++ m :: r) with ((pth a ++ [m]) ++ r) in E by (rewrite <- app_assoc; auto).
  destruct (prefix_used b _ _ Ub E) as [c [Uc Ec]].
  assert (Hc : c <> 0). { intros ->. rewrite pth_0 in Ec. destruct (pth a); discriminate. }
  destruct (i_parent st pth I c Uc Hc) as [U' [k [Hk [E' Ek]]]].
  rewrite E' in Ec. apply app_inj_tail in Ec. destruct Ec as [Ec ->].
  apply (i_inj st pth I) in Ec; auto. rewrite Ec in Ek. split; auto. intros Z.
  rewrite (i_leaf st pth I a m Ua Z Hk) in Ek. congruence.
Qed.
(** a leaf is the box of all the particles reaching it *)
Lemma leaf_box b i : used st b -> s_child st 0 b = 0 -> i < np -> reach (s_user st i) (pth b) = true -> s_box st i = b.
Proof.
  intros U Lf Hi R. destruct (i_box st pth I i Hi) as [U' [R' D]].
  destruct (reach_comparable _ _ _ _ R R') as [[r E]|[m [r E]]].
  - destruct r as [|m r].
    + rewrite app_nil_r in E. apply (i_inj st pth I); auto.
    + destruct (prefix_split b (s_box st i) m r U U' E). contradiction.
  - exfalso. destruct (prefix_split (s_box st i) b m r U' U E) as [S _].
    specialize (D S). rewrite E in R. rewrite (reach_digit _ _ _ _ _ R) in D. discriminate.
Qed.
(** the box of a particle is the deepest one it reaches *)
Lemma box_deepest b i : used st b -> i < np -> reach (s_user st i) (pth b) = true ->
  exists r, pth (s_box st i) = pth b ++ r.
Proof.
  intros U Hi R. destruct (i_box st pth I i Hi) as [U' [R' D]].
  destruct (reach_comparable _ _ _ _ R R') as [[r E]|[m [r E]]].
  - exists r; auto.
  - exfalso. destruct (prefix_split (s_box st i) b m r U' U E) as [S _].
    specialize (D S). rewrite E in R. rewrite (reach_digit _ _ _ _ _ R) in D. discriminate.
Qed.
Lemma reach_cumul b i : used st b -> i < np -> reach (s_user st i) (pth b) = true -> 0 < s_cumul st b.
Proof.
  intros U Hi R. rewrite (i_cumul st pth I b U). apply cnt_pos. exists (s_user st i). split; auto.
  apply (perm_lt np); auto. apply (i_perm st pth I).
Qed.
Lemma in_range b i : used st b -> i < np -> reach (s_user st i) (pth b) = true ->
  s_start st b <= i < s_start st b + s_cumul st b.
Proof. intros U Hi R. apply (i_range st pth I); auto. eapply reach_cumul; eauto. Qed.
(** counts of users as counts of positions *)
Lemma count_positions p : cnt p np = cnt (fun i => p (s_user st i)) np.
Proof. symmetry. apply cnt_perm, (i_perm st pth I). Qed.
Lemma kcount_range b k : used st b -> 0 < s_cumul st b ->
  kcount (pth b) k = cntr (fun i => key (s_user st i) (length (pth b)) =? k) (s_start st b) (s_start st b + s_cumul st b).
Proof.
  intros U C. unfold BuildInv.kcount. rewrite count_positions.
  rewrite (cnt_range _ np (s_start st b) (s_start st b + s_cumul st b)).
  - apply cntr_ext. intros i H1 H2. assert (Hi : i < np) by (assert (X := i_range_np st pth I b U C); lia).
    rewrite (proj1 (i_range st pth I b i U C Hi)) by lia. auto.
  - lia.
  - apply (i_range_np st pth I b U C).
  - intros i Hi H. apply andb_true_iff in H. apply (i_range st pth I b i U C Hi). tauto.
Qed.
End Paths.

(** the first iteration *)
Lemma initial_layout : layout (initial_state inp).
Proof.
  split; unfold nlev, lst, usd; cbn; auto; try lia.
  intros l Hl. assert (l = 0) by lia. subst. auto.
Qed.
Lemma initial_used b : used (initial_state inp) b <-> b = 0.
Proof.
  unfold used, used_at, nlev, lst, usd. cbn. split.
  - intros [l [H1 H2]]. assert (l = 0) by lia. subst. cbn in H2. lia.
  - intros ->. exists 0. cbn. lia.
Qed.
Lemma initial_inv : 0 < np -> inv (initial_state inp) (fun _ => []).
Proof.
  intros Hnp. split; try exact initial_layout; intros.
  - auto.
  - apply initial_used in H, H0. congruence.
  - auto.
  - cbn in H0. congruence.
  - apply initial_used in H. congruence.
  - auto.
  - cbn [s_user initial_state]. rewrite map_id. auto.
  - apply initial_used in H. subst. cbn. symmetry. unfold BuildInv.rcount. cbn.
    unfold cnt. rewrite <- (seq_length np 0) at 2. f_equal. induction (seq 0 np); simpl; congruence.
  - apply initial_used in H. subst. cbn. split; auto. lia.
  - apply initial_used in H. subst. cbn. lia.
  - cbn. split; [apply initial_used; auto|]. split; auto. congruence.
  - cbn in H0. congruence.
  - cbn. split; [discriminate|]. intros [b [U [_ E]]]. lia.
  - apply initial_used in H. subst. cbn in H0. destruct H0; [congruence|lia].
  - apply initial_used in H. subst. cbn in H0. destruct H0; [congruence|lia].
  - rewrite initial_used in H. cbn. destruct (Nat.eqb_spec b 0); [contradiction|]. repeat split; auto.
Qed.

(** does a box split in this iteration? *)
Definition heavy (p : list nat) : bool :=
  if adaptive inp then
    (max_weight inp <? Z.min INT_MAX (zsum (map (fun m => rweight inp (p ++ [m])) (seq 0 nch))))%Z
  else true.
Definition will (st : state) (pth : nat -> list nat) (b : nat) : Prop :=
  (length (pth b) + 1 = s_level st /\ heavy (pth b) = true) \/ (level_restrict inp = true /\ s_force st b = true).

(** at the head of the loop *)
Record head (st : state) (pth : nat -> list nat) : Prop := {
  h_inv : inv st pth;
  h_level : s_level st = nlev st;
  h_strict : forall l, l < nlev st -> lst st l < lst st (S l);
  h_tight : level_restrict inp = false -> forall l, l < nlev st -> lst st l + usd st l = lst st (S l);
  h_marks : forall b, used st b -> s_child st 0 b <> 0 -> s_has_children st b = true;
  h_force : level_restrict inp = true -> forall b, used st b -> s_force st b = true -> s_child st 0 b = 0;
  h_pending : forall b, used st b -> s_has_children st b = true -> s_child st 0 b = 0 -> will st pth b
}.
End Inv.
