(** Which boxes split and where their children go. *)
From Coq Require Import List Arith ZArith NArith Lia Bool Permutation.
From Verif Require Import Base Tree Walk Traversal Fmm TreeBuild ArrayFacts BuildInv BuildScan.
Import ListNotations.

Section Ids.
Variable inp : input.
Notation np := (npart inp).
Notation nch := (nchild inp).
Hypothesis WT : forall u, u < np -> (0 <= weight inp u <= INT_MAX)%Z.
Hypothesis MW : (0 <= max_weight inp)%Z.
Variable st : state.
Variable pth : nat -> list nat.
Hypothesis H : head inp st pth.
Let I := h_inv inp st pth H.
Let Y := i_layout inp st pth I.
Notation st1 := (scanned inp st).
Notation L := (nlev st).
Notation n := (lst st L).
Notation sp := (splits inp st1).
Notation ids := (split_box_ids inp st1).

Lemma rweight_nonneg p : (0 <= rweight inp p)%Z.
Proof.
  apply zsum_nonneg. intros x Hx. apply in_map_iff in Hx. destruct Hx as [u [<- Hu]].
  apply filter_In in Hu. destruct Hu as [Hu _]. apply in_seq in Hu. apply WT. lia.
Qed.
Lemma overfull_val b : used st b -> overfull inp st1 b = heavy inp (pth b).
Proof.
  intros U. unfold overfull, heavy. destruct (adaptive inp) eqn:A.
  - f_equal. unfold box_refine_weight.
    rewrite (map_ext_in _ (fun m => Z.min INT_MAX (rweight inp (pth b ++ [m])))).
    2:{ intros m Hm. apply in_seq in Hm. apply scanned_wts; auto. lia. }
    rewrite <- (map_map (fun m => rweight inp (pth b ++ [m])) (Z.min INT_MAX)).
    change 0%Z with (Z.min INT_MAX 0) at 1. rewrite fold_add_sat; [auto|lia|].
    intros x Hx. apply in_map_iff in Hx. destruct Hx as [m [<- _]]. apply rweight_nonneg.
  - apply Z.leb_le. cbn [scanned with_scan s_cumul]. change (s_bins _ b 0) with (s_bins st1 b 0).
    destruct (have_extent inp); [|lia].
    rewrite (scanned_bins inp st pth I b 0 U) by lia. rewrite (i_cumul inp st pth I b U).
    assert (X := kcount_le inp (pth b) 0). lia.
Qed.
Lemma splits_iff b : used st b -> (sp b = true <-> will inp st pth b).
Proof.
  intros U. unfold splits, will. rewrite overfull_val by auto.
  rewrite orb_true_iff, !andb_true_iff, Nat.eqb_eq. cbn [scanned with_scan s_blevel s_level s_force].
  rewrite (i_len inp st pth I b U). tauto.
Qed.
Lemma splits_used b : b < n -> sp b = true -> used st b.
Proof.
  intros Hb S. destruct (used_dec st Y b) as [|U]; auto. exfalso.
  destruct (i_unused inp st pth I b U) as [_ [C [_ [F [_ W]]]]].
  destruct (scanned_unused inp st pth I b U) as [_ EW].
  unfold splits in S. cbn [scanned with_scan s_blevel s_level s_force] in S. rewrite F, andb_false_r, orb_false_r in S.
  apply andb_true_iff in S. destruct S as [_ S]. unfold overfull in S.
  destruct (adaptive inp) eqn:A.
  - apply Z.ltb_lt in S. unfold box_refine_weight in S. rewrite EW in S.
    rewrite (map_ext_in _ (fun m => 0%Z)) in S by (intros m Hm; apply in_seq in Hm; apply W; lia).
    assert (Z0 : forall l : list nat, fold_left add_sat (map (fun _ => 0%Z) l) 0%Z = 0%Z)
      by (induction l; auto). rewrite Z0 in S. lia.
  - (* not adaptive: no padding *)
    assert (LR : level_restrict inp = false).
    { unfold level_restrict, adaptive in *. destruct (build_kind inp); auto; discriminate. }
    apply U. destruct (level_spec st Y b Hb) as [H1 H2]. exists (s_blevel st b). split; auto.
    rewrite (h_tight inp st pth H LR); auto.
Qed.
Lemma splits_leaf b : used st b -> sp b = true -> s_child st 0 b = 0.
Proof.
  intros U S. apply splits_iff in S; auto. destruct S as [[E _]|[LR F]].
  - destruct (Nat.eq_dec (s_child st 0 b) 0) as [|n0]; auto. exfalso.
    destruct (i_split inp st pth I b 0 U n0 (nch_pos inp)) as [U' E'].
    assert (X := i_len inp st pth I _ U'). rewrite E', app_length in X. cbn [length] in X.
    apply (used_level st Y) in U'. destruct U' as [U' _]. rewrite (h_level inp st pth H) in E. lia.
  - apply (h_force inp st pth H LR); auto.
Qed.

Definition base (l : nat) : nat := lst st (S l) + usd st (S l).
Definition nid (b m : nat) : nat :=
  base (s_blevel st b) + nch * cntr sp (lst st (s_blevel st b)) b + m.
Lemma seg_begin_level b : b < n ->
  seg_begin (fun b => negb (s_blevel st b =? s_blevel st (b - 1))) b = lst st (s_blevel st b).
Proof.
  intros Hb. destruct (level_spec st Y b Hb) as [H1 H2]. set (l := s_blevel st b) in *.
  apply seg_begin_eq.
  - lia.
  - destruct l as [|l]; [left; apply (lay_0 st Y)|]. right.
    assert (X := h_strict inp st pth H l ltac:(lia)). assert (X2 := h_strict inp st pth H (S l) ltac:(lia)).
    rewrite (lay_level st Y (S l)), (lay_level st Y l); try lia.
    apply negb_true_iff, Nat.eqb_neq. lia.
  - intros j J1 J2. rewrite (lay_level st Y l j), (lay_level st Y l (j - 1)); try lia.
    rewrite Nat.eqb_refl. auto.
Qed.
Lemma ids_val b : b < n -> ids b = base (s_blevel st b) + nch * cntr sp (lst st (s_blevel st b)) (S b).
Proof.
  intros Hb. unfold split_box_ids. cbn [scanned with_scan s_level s_lstart s_blevel].
  rewrite (h_level inp st pth H). fold (lst st L). rewrite kernel_map_lt by auto.
  rewrite seg_scan_nsum, seg_begin_level by auto.
  destruct (level_spec st Y b Hb) as [H1 H2]. set (l := s_blevel st b) in *.
  assert (X : forall k, nsum (map (boxes_needed inp st1) (seq (lst st l) (S k))) =
     base l + nch * cntr sp (lst st l) (lst st l + S k) \/ lst st (S l) < lst st l + S k).
  { intros k. destruct (Nat.le_gt_cases (lst st l + S k) (lst st (S l))) as [C|C]; [left|right; auto].
    revert C. induction k; intros C.
    - cbn [seq map nsum fold_right]. unfold boxes_needed. cbn [scanned with_scan s_blevel s_lstart s_used].
      rewrite (lay_level st Y l (lst st l)) by lia. fold (lst st l). rewrite Nat.eqb_refl.
      replace (l + 1) with (S l) by lia. fold (lst st (S l)) (usd st (S l)). fold (base l).
      replace (lst st l + 1) with (S (lst st l)) by lia. rewrite cntr_S, cntr_empty by lia.
      unfold base, lst, usd. destruct (sp (nth l (s_lstart st) 0)); lia.
    - rewrite seq_S, map_app, nsum_app, IHk by lia. cbn [map nsum fold_right].
      replace (lst st l + S (S k)) with (S (lst st l + S k)) by lia. rewrite (cntr_S _ _ (lst st l + S k)) by lia.
      unfold boxes_needed at 1. cbn [scanned with_scan s_blevel s_lstart s_used].
      rewrite (lay_level st Y l (lst st l + S k)) by lia. fold (lst st l).
      destruct (Nat.eqb_spec (lst st l + S k) (lst st l)); [lia|].
      destruct (sp (lst st l + S k)); lia. }
  destruct (X (b - lst st l)) as [X'|X']; [|lia].
  replace (S b - lst st l) with (S (b - lst st l)) by lia. rewrite X'. do 3 f_equal. lia.
Qed.
Lemma new_box_id_val b m : b < n -> sp b = true -> new_box_id inp ids b m = nid b m.
Proof.
  intros Hb S. unfold new_box_id, nid. rewrite ids_val by auto.
  destruct (level_spec st Y b Hb) as [H1 H2]. rewrite cntr_S, S by lia. lia.
Qed.

(** number of boxes of level [l] that split *)
Definition nsp (l : nat) : nat := cntr sp (lst st l) (lst st (S l)).
Notation st2 := (marked inp st1).
Notation nu := (new_used st2 ids).
Lemma nu_length : length nu = S L.
Proof.
  unfold new_used. cbn [length]. rewrite map_length. cbn [marked with_split scanned with_scan s_lstart].
  assert (X := lay_len st Y). destruct (s_lstart st); simpl in *; lia.
Qed.
Lemma nu_0 : nth 0 nu 0 = 1.
Proof. reflexivity. Qed.
Lemma nu_S l : l < L -> nth (S l) nu 0 = usd st (S l) + nch * nsp l.
Proof.
  intros Hl. set (f := fun s => ids (s - 1) - s). change (nth (S l) nu 0) with (nth l (map f (tl (s_lstart st))) 0).
  assert (X := lay_len st Y).
  rewrite (nth_indep _ 0 (f 0)).
  2:{ rewrite map_length. destruct (s_lstart st); simpl in *; lia. }
  rewrite map_nth, nth_tl. fold (lst st (S l)). unfold f.
  assert (S1 := h_strict inp st pth H l Hl). assert (S2 := lst_le st Y (S l) L).
  rewrite ids_val by lia. rewrite (lay_level st Y l) by lia.
  replace (S (lst st (S l) - 1)) with (lst st (S l)) by lia. unfold base, nsp. lia.
Qed.

Lemma nid_range b m : b < n -> sp b = true -> m < nch ->
  let l := s_blevel st b in base l <= nid b m < lst st (S l) + nth (S l) nu 0.
Proof.
  intros Hb S Hm l. destruct (level_spec st Y b Hb) as [H1 H2]. fold l in H1, H2.
  rewrite nu_S by auto. unfold nid, base, nsp. fold l.
  assert (X := cntr_lt sp (lst st l) b (lst st (Datatypes.S l)) ltac:(lia) ltac:(lia) S).
  assert (Z := Nat.mul_le_mono_l _ _ nch X). lia.
Qed.
Lemma nid_inj_level b m b' m' : b < n -> b' < n -> sp b = true -> sp b' = true -> m < nch -> m' < nch ->
  s_blevel st b = s_blevel st b' -> nid b m = nid b' m' -> b = b' /\ m = m'.
Proof.
  intros Hb Hb' S S' Hm Hm' E E2. unfold nid in E2. rewrite <- E in E2.
  destruct (level_spec st Y b Hb) as [H1 H2]. destruct (level_spec st Y b' Hb') as [H1' H2']. rewrite <- E in H1', H2'.
  assert (E3 : nch * cntr sp (lst st (s_blevel st b)) b + m = nch * cntr sp (lst st (s_blevel st b)) b' + m') by lia.
  apply Nat.div_mod_unique in E3; auto. destruct E3 as [E3 E4]. split; auto.
  apply (cntr_inj sp (lst st (s_blevel st b))); auto; lia.
Qed.
Lemma nid_surj l x : l < L -> base l <= x -> x < lst st (S l) + nth (S l) nu 0 ->
  exists b m, b < n /\ s_blevel st b = l /\ sp b = true /\ m < nch /\ x = nid b m.
Proof.
  intros Hl H1 H2. rewrite nu_S in H2 by auto. unfold base in H1.
  set (y := x - (lst st (S l) + usd st (S l))).
  assert (Hy : y < nch * nsp l) by lia.
  assert (NP := nch_pos inp).
  assert (Hr : y / nch < nsp l) by (apply Nat.div_lt_upper_bound; lia).
  destruct (cntr_nth _ _ _ _ Hr) as [b [B1 [B2 B3]]].
  assert (S2 := lst_le st Y (S l) L).
  exists b, (y mod nch). split; [lia|]. assert (E : s_blevel st b = l) by (apply (lay_level st Y); lia).
  split; auto. split; auto. split; [apply Nat.mod_upper_bound; lia|].
  unfold nid. rewrite E, B3. unfold base. assert (X := Nat.div_mod y nch ltac:(lia)). lia.
Qed.
End Ids.
