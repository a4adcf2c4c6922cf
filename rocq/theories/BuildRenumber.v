(** Renumbering the boxes to make room in the upper levels keeps the invariant. *)
From Coq Require Import List Arith ZArith NArith Lia Bool Permutation.
From Verif Require Import Base Tree Walk Traversal Fmm TreeBuild ArrayFacts BuildInv BuildScan BuildIds BuildSort.
Import ListNotations.

Section Marked.
Variable inp : input.
Notation np := (npart inp).
Notation nch := (nchild inp).
Hypothesis WT : forall u, u < np -> (0 <= weight inp u <= INT_MAX)%Z.
Hypothesis MW : (0 <= max_weight inp)%Z.
Variable st : state.
Variable pth : nat -> list nat.
Hypothesis H : head inp st pth.
Let I := h_inv inp st pth H.
Let Y := i_layout inp st pth I.
Notation st2 := (marked inp (scanned inp st)).

Lemma marked_head : head inp st2 pth.
Proof.
  assert (HC := has_children2 inp st pth H).
  split.
  - pose proof (scanned_inv inp WT st pth I) as [J1 J2 J3 J4 J5 J6 J7 J8 J9 J10 J11 J12 J13 J14 J15 J16 J17].
    split; auto.
    + destruct Y. split; auto.
    + intros b U. destruct (J17 b U) as [Z1 [Z2 [Z3 [Z4 Z5]]]]. split; auto. split; auto. split; auto.
      change (s_has_children st2 b) with (s_has_children (marked inp (scanned inp st)) b). rewrite HC.
      destruct (Nat.ltb_spec b (lst st (nlev st))) as [C|C]; auto.
      change (s_has_children st b) with (s_has_children (scanned inp st) b). rewrite Z3. cbn.
      destruct (splits inp (scanned inp st) b) eqn:S; auto. exfalso. apply U.
      apply (splits_used inp MW st pth H b C S).
  - apply (h_level inp st pth H).
  - apply (h_strict inp st pth H).
  - apply (h_tight inp st pth H).
  - intros b U S. rewrite HC. assert (X := used_lt st Y b U). apply Nat.ltb_lt in X. rewrite X.
    rewrite (h_marks inp st pth H b U S). auto.
  - apply (h_force inp st pth H).
  - intros b U S Lf. rewrite HC in S. assert (X := used_lt st Y b U). apply Nat.ltb_lt in X. rewrite X in S.
    apply orb_true_iff in S. destruct S as [S|S].
    + apply (h_pending inp st pth H b U S Lf).
    + apply (splits_iff inp WT st pth H b U) in S. exact S.
Qed.
End Marked.

Section Renumber.
Variable inp : input.
Notation np := (npart inp).
Notation nch := (nchild inp).
Variable st : state.
Variable pth : nat -> list nat.
Hypothesis H : head inp st pth.
Hypothesis LR : level_restrict inp = true.
Let I := h_inv inp st pth H.
Let Y := i_layout inp st pth I.
Notation L := (nlev st).
Notation n := (lst st L).
Variable ns : list nat.
Variable nbn : nat.
Hypothesis NSlen : length ns = S L.
Hypothesis NS0 : nth 0 ns 0 = 0.
Hypothesis NSle : forall l, l < L -> nth l ns 0 + (lst st (S l) - lst st l) <= nth (S l) ns 0.
Notation dst := (renumbering st ns).
Notation st' := (renumbered inp st ns nbn).
Notation nst l := (nth l ns 0).

Lemma nst_le l l' : l <= l' -> l' <= L -> nst l <= nst l'.
Proof. intros A. induction A; intros B; auto. assert (X := NSle m). lia. Qed.
Lemma nst_lt l : l < L -> nst l < nst (S l).
Proof. intros A. assert (X := NSle l A). assert (X2 := h_strict inp st pth H l A). lia. Qed.
Lemma nst_unique l l' x : l < L -> l' < L -> nst l <= x < nst (S l) -> nst l' <= x < nst (S l') -> l = l'.
Proof.
  intros A A' B B'. destruct (Nat.lt_trichotomy l l') as [C|[C|C]]; auto.
  - assert (X := nst_le (S l) l'). lia.
  - assert (X := nst_le (S l') l). lia.
Qed.
Lemma combine_seq_in a b k x y : In (x, y) (combine (seq a k) (seq b k)) <-> a <= x < a + k /\ y = b + (x - a).
Proof.
  revert a b. induction k; intros a b; simpl.
  - split; [tauto|lia].
  - rewrite IHk. split.
    + intros [E|E]; [inversion E; subst; lia|lia].
    + intros [E1 E2]. destruct (Nat.eq_dec x a); [left; subst; f_equal; lia|right; lia].
Qed.
Lemma dst_val b : b < n -> dst b = nst (s_blevel st b) + (b - lst st (s_blevel st b)).
Proof.
  intros Hb. destruct (level_spec st Y b Hb) as [L1 L2].
  unfold renumbering. rewrite (h_level inp st pth H). apply scatter_in_eq.
  - apply in_concat_map. exists (s_blevel st b). split; [apply in_seq; lia|].
    apply combine_seq_in. unfold level_length. replace (s_blevel st b + 1) with (S (s_blevel st b)) by lia.
    fold (lst st (S (s_blevel st b))) (lst st (s_blevel st b)). lia.
  - intros v Hv. apply in_concat_map in Hv. destruct Hv as [l [Hl Hv]]. apply in_seq in Hl.
    apply combine_seq_in in Hv. unfold level_length in Hv. replace (l + 1) with (S l) in Hv by lia.
    fold (lst st (S l)) (lst st l) in Hv. destruct Hv as [Hv ->].
    rewrite (lay_level st Y l b) by lia. auto.
Qed.
Lemma dst_range b : b < n -> nst (s_blevel st b) <= dst b < nst (S (s_blevel st b)).
Proof.
  intros Hb. destruct (level_spec st Y b Hb) as [L1 L2]. rewrite dst_val by auto.
  assert (X := NSle (s_blevel st b) L1). lia.
Qed.
Lemma dst_inj b b' : b < n -> b' < n -> dst b = dst b' -> b = b'.
Proof.
  intros Hb Hb' E. destruct (level_spec st Y b Hb) as [L1 L2]. destruct (level_spec st Y b' Hb') as [L1' L2'].
  assert (R := dst_range b Hb). assert (R' := dst_range b' Hb'). rewrite <- E in R'.
  assert (EL : s_blevel st b = s_blevel st b') by (apply (nst_unique _ _ (dst b)); auto).
  rewrite !dst_val in E by auto. rewrite <- EL in *. lia.
Qed.
Lemma n_pos : 0 < n.
Proof. apply (used_lt st Y), (used_0 st Y). Qed.
Lemma dst_0 : dst 0 = 0.
Proof. rewrite dst_val by apply n_pos. rewrite (level_0 st Y). rewrite NS0, (lay_0 st Y). auto. Qed.
Lemma dst_eq_0 b : b < n -> dst b = 0 -> b = 0.
Proof. intros Hb E. apply dst_inj; auto; [apply n_pos|]. rewrite dst_0. auto. Qed.

Lemma gappy_val {A} (ary : nat -> A) zero b : b < n -> gappy_copy n dst ary zero (dst b) = ary b.
Proof.
  intros Hb. unfold gappy_copy. apply (scatter_map_in dst ary); [apply in_seq; lia|].
  intros y Hy E. apply in_seq in Hy. apply dst_inj in E; [subst; auto|lia|auto].
Qed.
Lemma gappy_other {A} (ary : nat -> A) zero x : (forall b, b < n -> x <> dst b) -> gappy_copy n dst ary zero x = zero.
Proof.
  intros N. unfold gappy_copy. apply (scatter_map_notin dst ary). intros y Hy. apply in_seq in Hy. intros E.
  apply (N y); [lia|auto].
Qed.

(** fields of the new state *)
Lemma old_n : nth (s_level st) (s_lstart st) 0 = n.
Proof. rewrite (h_level inp st pth H). reflexivity. Qed.
Ltac fld f := unfold renumbered; cbn [f]; rewrite old_n.
Lemma cumul' b : b < n -> s_cumul st' (dst b) = s_cumul st b.
Proof. intros Hb. fld s_cumul. apply gappy_val; auto. Qed.
Lemma start' b : b < n -> s_start st' (dst b) = s_start st b.
Proof. intros Hb. fld s_start. apply gappy_val; auto. Qed.
Lemma parent' b : b < n -> s_parent st' (dst b) = dst (s_parent st b).
Proof. intros Hb. fld s_parent. rewrite gappy_val; auto. Qed.
Lemma child' b m : b < n -> m < nch -> s_child st' m (dst b) = dst (s_child st m b).
Proof. intros Hb Hm. fld s_child. rewrite kernel_map_lt by auto. rewrite gappy_val; auto. Qed.
Lemma center' b : b < n -> s_center st' (dst b) = s_center st b.
Proof. intros Hb. fld s_center. apply gappy_val; auto. Qed.
Lemma bins' b : b < n -> s_bins st' (dst b) = s_bins st b.
Proof. intros Hb. fld s_bins. apply gappy_val; auto. Qed.
Lemma wts' b : b < n -> s_wts st' (dst b) = s_wts st b.
Proof. intros Hb. fld s_wts. apply gappy_val; auto. Qed.
Lemma hc' b : b < n -> s_has_children st' (dst b) = s_has_children st b.
Proof. intros Hb. fld s_has_children. apply gappy_val; auto. Qed.
Lemma force' b : b < n -> s_force st' (dst b) = s_force st b.
Proof. intros Hb. fld s_force. apply gappy_val; auto. Qed.
Lemma box' i : i < np -> s_box st' i = dst (s_box st i).
Proof. intros Hi. unfold renumbered. cbn [s_box]. rewrite kernel_map_lt; auto. Qed.
Lemma lst' l : lst st' l = nst l.
Proof. reflexivity. Qed.
Lemma usd' l : usd st' l = usd st l.
Proof. reflexivity. Qed.
Lemma nlev' : nlev st' = L.
Proof. reflexivity. Qed.
Lemma blevel' l x : l < L -> nst l <= x -> x < nst (S l) -> s_blevel st' x = l.
Proof.
  intros Hl X1 X2. unfold renumbered. cbn [s_blevel]. unfold fill_levels.
  apply scatter_in_eq.
  - apply in_concat_map. exists l. rewrite NSlen. split; [apply in_seq; lia|].
    apply in_map_iff. exists x. split; auto. apply in_seq. replace (l + 1) with (S l) by lia. lia.
  - intros v Hv. apply in_concat_map in Hv. destruct Hv as [l' [Hl' Hv]]. rewrite NSlen in Hl'. apply in_seq in Hl'.
    apply in_map_iff in Hv. destruct Hv as [y [E Hy]]. inversion E; subst. apply in_seq in Hy.
    replace (v + 1) with (S v) in Hy by lia. apply (nst_unique _ _ x); lia.
Qed.
Lemma layout' : layout st'.
Proof.
  split.
  - apply (lay_pos st Y).
  - exact NSlen.
  - exact NS0.
  - apply (lay_used_0 st Y).
  - intros l Hl. rewrite nlev' in Hl. rewrite !lst', usd'. assert (X := NSle l Hl). assert (X2 := lay_used st Y l Hl). lia.
  - intros l b Hl. apply blevel'. auto.
Qed.
Lemma used'_dst b : b < n -> (used st' (dst b) <-> used st b).
Proof.
  intros Hb. destruct (level_spec st Y b Hb) as [L1 L2]. assert (R := dst_range b Hb). split.
  - intros U. exists (s_blevel st b). split; auto. apply (used_level st' layout') in U.
    rewrite (blevel' (s_blevel st b)) in U by tauto. destruct U as [_ U]. rewrite lst', usd' in U.
    rewrite dst_val in U by auto. lia.
  - intros U. apply (used_level st Y) in U. destruct U as [_ U]. exists (s_blevel st b). split; auto.
    rewrite lst', usd', dst_val by auto. lia.
Qed.
Lemma used'_inv x : used st' x -> exists b, used st b /\ x = dst b.
Proof.
  intros [l [U1 U2]]. rewrite nlev' in U1. rewrite lst', usd' in U2.
  assert (X := lay_used st Y l U1). assert (X2 := lst_le st Y (S l) L).
  exists (lst st l + (x - nst l)). split.
  - exists l. split; auto. lia.
  - rewrite dst_val by lia. rewrite (lay_level st Y l) by lia. lia.
Qed.
Definition unren (x : nat) : nat := lst st (s_blevel st' x) + (x - nst (s_blevel st' x)).
Lemma unren_dst b : b < n -> unren (dst b) = b.
Proof.
  intros Hb. destruct (level_spec st Y b Hb) as [L1 L2]. assert (R := dst_range b Hb).
  unfold unren. rewrite (blevel' (s_blevel st b)) by tauto. rewrite dst_val by auto. lia.
Qed.
Definition pth' (x : nat) : list nat := pth (unren x).
Lemma pth'_dst b : b < n -> pth' (dst b) = pth b.
Proof. intros Hb. unfold pth'. rewrite unren_dst; auto. Qed.
Lemma used_n b : used st b -> b < n.
Proof. apply (used_lt st Y). Qed.
Lemma level'_dst b : b < n -> s_blevel st' (dst b) = s_blevel st b.
Proof. intros Hb. destruct (level_spec st Y b Hb). apply blevel'; try apply dst_range; auto. Qed.

Lemma child_lt b m : used st b -> m < nch -> s_child st m b < n.
Proof.
  intros U Hm. destruct (Nat.eq_dec (s_child st 0 b) 0) as [Z|Z].
  - rewrite (i_leaf inp st pth I b m U Z Hm). apply n_pos.
  - apply used_n. apply (i_split inp st pth I b m U Z Hm).
Qed.
Lemma child0_iff b : used st b -> (s_child st' 0 (dst b) = 0 <-> s_child st 0 b = 0).
Proof.
  intros U. assert (NP := nch_pos inp). rewrite child' by (auto; apply used_n; auto). split.
  - apply dst_eq_0. apply child_lt; auto.
  - intros ->. apply dst_0.
Qed.

Theorem renumber_inv : inv inp st' pth'.
Proof.
  assert (NP := nch_pos inp). assert (UN := used_n).
  split.
  - apply layout'.
  - intros x U. apply used'_inv in U. destruct U as [b [U ->]]. rewrite pth'_dst, level'_dst by auto.
    apply (i_len inp st pth I); auto.
  - intros x x' U U' E. apply used'_inv in U, U'. destruct U as [b [U ->]], U' as [b' [U' ->]].
    rewrite !pth'_dst in E by auto. f_equal. apply (i_inj inp st pth I); auto.
  - intros x m U C Hm. apply used'_inv in U. destruct U as [b [U ->]]. apply child0_iff in C; auto.
    rewrite child' by auto. rewrite (i_leaf inp st pth I b m U C Hm). apply dst_0.
  - intros x m U C Hm. apply used'_inv in U. destruct U as [b [U ->]]. rewrite child0_iff in C by auto.
    rewrite child' by auto. destruct (i_split inp st pth I b m U C Hm) as [U' E'].
    split; [apply used'_dst; auto|]. rewrite !pth'_dst by auto. auto.
  - intros x U N. apply used'_inv in U. destruct U as [b [U ->]].
    assert (Hb : b <> 0) by (intros ->; apply N, dst_0).
    destruct (i_parent inp st pth I b U Hb) as [U' [m [Hm [E1 E2]]]]. rewrite parent' by auto.
    split; [apply used'_dst; auto|]. exists m. split; auto. rewrite !pth'_dst by auto. split; auto.
    rewrite child' by auto. congruence.
  - rewrite <- dst_0 at 1. rewrite parent' by apply n_pos. rewrite (i_root_parent inp st pth I). apply dst_0.
  - apply (i_perm inp st pth I).
  - intros x U. apply used'_inv in U. destruct U as [b [U ->]]. rewrite cumul', pth'_dst by auto.
    apply (i_cumul inp st pth I); auto.
  - intros x i U C Hi. apply used'_inv in U. destruct U as [b [U ->]]. rewrite cumul' in * by auto.
    rewrite start', pth'_dst by auto. apply (i_range inp st pth I); auto.
  - intros x U C. apply used'_inv in U. destruct U as [b [U ->]]. rewrite cumul' in * by auto.
    rewrite start' by auto. apply (i_range_np inp st pth I); auto.
  - intros i Hi. destruct (i_box inp st pth I i Hi) as [U [R D]]. rewrite box' by auto.
    rewrite used'_dst, pth'_dst by auto. split; auto. split; auto. rewrite child0_iff; auto.
  - intros x m U C Hm CC. apply used'_inv in U. destruct U as [b [U ->]]. rewrite child0_iff in C by auto.
    rewrite child' in * by auto. destruct (i_split inp st pth I b m U C Hm) as [U' E'].
    rewrite cumul' in CC by auto. rewrite !start', pth'_dst by auto. apply (i_order inp st pth I); auto.
  - intros i H0 Hi. change (s_start_flag st' i) with (s_start_flag st i). rewrite (i_flag inp st pth I i H0 Hi). split.
    + intros [b [U [C S]]]. exists (dst b). rewrite used'_dst, cumul', start' by auto. auto.
    + intros [x [U [C S]]]. apply used'_inv in U. destruct U as [b [U ->]]. exists b.
      rewrite cumul' in C by auto. rewrite start' in S by auto. auto.
  - intros x k U C Hk. apply used'_inv in U. destruct U as [b [U ->]]. rewrite cumul', child0_iff in C by auto.
    rewrite bins', pth'_dst by auto. apply (i_bins inp st pth I); auto.
  - intros x k U C Hk. apply used'_inv in U. destruct U as [b [U ->]]. rewrite cumul', child0_iff in C by auto.
    rewrite wts', pth'_dst by auto. apply (i_wts inp st pth I); auto.
  - intros x U.
    assert (Z : (exists b, b < n /\ x = dst b) \/ forall b, b < n -> x <> dst b).
    { destruct (in_dec Nat.eq_dec x (map dst (seq 0 n))) as [A|A].
      - left. apply in_map_iff in A. destruct A as [b [E Hb]]. apply in_seq in Hb. exists b. split; [lia|auto].
      - right. intros b Hb ->. apply A. apply in_map, in_seq. lia. }
    destruct Z as [[b [Hb ->]]|N].
    + rewrite used'_dst in U by auto. destruct (i_unused inp st pth I b U) as [Z1 [Z2 [Z3 [Z4 [Z5 Z6]]]]].
      rewrite cumul', hc', force', bins', wts' by auto. split; auto.
      intros m Hm. rewrite child', Z1 by auto. apply dst_0.
    + repeat split.
      * intros m Hm. fld s_child. rewrite kernel_map_lt by auto. apply gappy_other; auto.
      * fld s_cumul. apply gappy_other; auto.
      * fld s_has_children. apply gappy_other; auto.
      * fld s_force. apply gappy_other; auto.
      * intros k _. fld s_bins. rewrite gappy_other; auto.
      * intros k _. fld s_wts. rewrite gappy_other; auto.
Qed.
Theorem renumber_head : head inp st' pth'.
Proof.
  assert (UN := used_n). split.
  - apply renumber_inv.
  - apply (h_level inp st pth H).
  - intros l Hl. apply nst_lt. auto.
  - intros E. congruence.
  - intros x U S. apply used'_inv in U. destruct U as [b [U ->]]. rewrite child0_iff in S by auto. rewrite hc' by auto.
    apply (h_marks inp st pth H); auto.
  - intros _ x U F. apply used'_inv in U. destruct U as [b [U ->]]. rewrite force' in F by auto.
    apply child0_iff; auto. apply (h_force inp st pth H LR); auto.
  - intros x U HC Lf. apply used'_inv in U. destruct U as [b [U ->]]. rewrite hc' in HC by auto.
    apply child0_iff in Lf; auto. assert (W := h_pending inp st pth H b U HC Lf). unfold will in *.
    rewrite pth'_dst, force' by auto. exact W.
Qed.
End Renumber.

(** the new level starts of a renumbering *)
Section NewStarts.
Variable inp : input.
Variable st : state.
Variable pth : nat -> list nat.
Hypothesis H : head inp st pth.
Let I := h_inv inp st pth H.
Let Y := i_layout inp st pth I.
Notation L := (nlev st).
Variables nu nl : list nat.
Notation ns := (new_lstart inp st nu nl).
Lemma new_lstart_length : length ns = S L.
Proof. unfold new_lstart. rewrite prefix_from_length, map_length, seq_length, (h_level inp st pth H). auto. Qed.
Lemma new_lstart_0 : nth 0 ns 0 = 0.
Proof. unfold new_lstart. rewrite prefix_from_nth by lia. auto. Qed.
Lemma new_lstart_S l : l < L -> nth (S l) ns 0 = nth l ns 0 +
  (nth l nu 0 + Nat.max (padding inp nl l) (minimal_length st nu l - nth l nu 0)).
Proof.
  intros Hl. unfold new_lstart. rewrite (h_level inp st pth H).
  rewrite !prefix_from_nth by (rewrite map_length, seq_length; lia).
  rewrite nsum_firstn_S by (rewrite map_length, seq_length; lia). rewrite nth_map_seq by auto. lia.
Qed.
Lemma new_lstart_le l : l < L -> nth l ns 0 + (lst st (S l) - lst st l) <= nth (S l) ns 0.
Proof.
  intros Hl. rewrite new_lstart_S by auto. unfold minimal_length, level_length.
  replace (l + 1) with (S l) by lia. fold (lst st (S l)) (lst st l). lia.
Qed.
Lemma new_lstart_ge_nu l : l < L -> nth l ns 0 + nth l nu 0 <= nth (S l) ns 0.
Proof. intros Hl. rewrite new_lstart_S by auto. lia. Qed.
End NewStarts.
