(** More about the finished tree: bounding boxes, level restriction, pruning, stick-out. *)
From Coq Require Import List Arith ZArith Lia Bool Permutation.
From Verif Require Import Base Tree Fmm SpecFmm TreeBuild ArrayFacts BuildInv BuildStep BuildLoop BuildDone BuildTerm
  BuildPrune BuildFull BuildSplit BuildFinish BuildGeom BuildLR BuildBounds BuildSkip SpecBuild BuildThm.
Import ListNotations.

Section Finished.
Variable inp : input.
Hypothesis V : valid_input inp.
Variable st : state.
Variable pth : nat -> list nat.
Hypothesis F : fin inp st pth.
Notation B := (finish inp st).
Notation ps := (prune inp st).
Notation q := (pq inp st pth).
Notation sp := (psp inp st).
Notation n := (p_nboxes ps).
Notation R := (the_split inp ps).
Notation T := (b_tree B).
Notation PT := (b_particles B).
Notation NP := (NP inp V).
Notation PI := (PI inp V st pth F).
Notation NSL := (NSL inp V).
Notation SM := (SM inp V).

Lemma all_sources_lt b k : b < n -> all_sources B b k -> k < nsrc inp.
Proof.
  intros Hb A. unfold all_sources in A. change (box_source_starts PT b) with (sp_source_starts R b) in A.
  change (b_source_cumul B b) with (sp_source_cumul R b) in A.
  rewrite (fin_source_cumul inp ps q sp PI NSL SM b Hb) in A.
  assert (Y := cntr_le (BuildFinish.src_pos inp ps) (p_start ps b) (p_start ps b + p_cumul ps b)).
  assert (C : 0 < p_cumul ps b) by lia.
  rewrite (fin_source_starts inp ps q sp PI NSL SM b Hb C) in A. rewrite <- cnt_cntr in A by lia.
  assert (L := pi_range_np _ _ _ _ PI b Hb C).
  assert (M := cnt_le_mono (BuildFinish.src_pos inp ps) _ _ L). rewrite (cnt_src inp ps q sp PI NSL SM) in M. lia.
Qed.
Lemma all_targets_lt b k : b < n -> all_targets B b k -> k < num_targets inp.
Proof.
  intros Hb A. unfold all_targets in A. change (box_target_starts PT b) with (sp_target_starts R b) in A.
  change (b_target_cumul B b) with (sp_target_cumul R b) in A.
  rewrite (fin_target_cumul inp ps q sp PI NSL SM b Hb) in A.
  assert (Y := cntr_le (tgt_pos inp ps) (p_start ps b) (p_start ps b + p_cumul ps b)).
  assert (C : 0 < p_cumul ps b) by lia.
  rewrite (fin_target_starts inp ps q sp PI NSL SM b Hb C) in A. rewrite <- cnt_cntr in A by lia.
  assert (L := pi_range_np _ _ _ _ PI b Hb C).
  assert (M := cnt_le_mono (tgt_pos inp ps) _ _ L). rewrite (cnt_tgt inp ps q sp PI NSL SM) in M.
  change (num_targets inp) with (ntgt inp). lia.
Qed.

(** ** Bounding boxes *)
Section Bounds.
Hypothesis PE : (level_restrict inp && have_extent inp)%bool = false.
Hypothesis FULL : skip_prune inp = true \/ populated inp st pth.
Lemma extreme_spec (le : Z -> Z -> Prop) val cum all b a v : b < n ->
  (forall k, all k <-> cum b k) ->
  extreme le ps q val cum b a v ->
  (forall k, all k -> le v (val k a)) /\ (forall c, below T b c -> le v (box_center T c a)) /\
  ((exists k, all k /\ v = val k a) \/ (exists c, below T b c /\ v = box_center T c a)).
Proof.
  intros Hb EQ [E1 [E2 E3]]. assert (BP := below_path inp V st pth F b). split; [|split].
  - intros k H. apply E1, EQ, H.
  - intros c H. apply (BP c Hb) in H. destruct H as [Hc [r E]]. apply (E2 c r Hc E).
  - destruct E3 as [[i [H E]]|[x [r [Hx [E E']]]]].
    + left. exists i. split; auto. apply EQ. auto.
    + right. exists x. split; auto. apply (BP x Hb). split; auto. exists r. auto.
Qed.
Lemma src_cum_all b k : b < n -> all_sources B b k <-> src_cum inp ps q b k.
Proof.
  intros Hb. unfold src_cum. split.
  - intros A. assert (L := all_sources_lt b k Hb A). split; auto. apply (all_sources_reach inp V st pth F b k Hb L). auto.
  - intros [L A]. apply (all_sources_reach inp V st pth F b k Hb L). auto.
Qed.
Lemma tgt_cum_all b k : b < n -> all_targets B b k <-> tgt_cum inp ps q b k.
Proof.
  intros Hb. unfold tgt_cum. split.
  - intros A. assert (L := all_targets_lt b k Hb A). split; auto. apply (all_targets_reach inp V st pth F b k Hb L). auto.
  - intros [L A]. apply (all_targets_reach inp V st pth F b k Hb L). auto.
Qed.
Lemma source_bounds pick (le : Z -> Z -> Prop) val b a :
  (forall x, le x x) -> (forall x y z, le x y -> le y z -> le x z) -> (forall x y, le (pick x y) x) -> (forall x y, le (pick x y) y) ->
  (forall x y, pick x y = x \/ pick x y = y) ->
  b < nboxes T -> a < dim T ->
  let v := box_extents inp ps pick val (sp_source_starts R) (info_source_nonchild inp ps R) b a in
  (forall k, all_sources B b k -> le v (val k a)) /\ (forall c, below T b c -> le v (box_center T c a)) /\
  ((exists k, all_sources B b k /\ v = val k a) \/ (exists c, below T b c /\ v = box_center T c a)).
Proof.
  intros O1 O2 O3 O4 O5 Hb Ha v. apply (extreme_spec le val (src_cum inp ps q)); auto.
  - intros k. apply src_cum_all. auto.
  - apply (source_extreme inp ps q sp PI (PEND inp V st pth F PE) NSL SM (nlev st)); auto.
    + apply (p_lstart_length inp st pth F).
    + intros l j Hl Hj. apply (lstart_iff inp V st pth F FULL); auto.
    + intros l Hl. apply (lstart_n inp V st pth F FULL); auto.
    + intros j Hj. apply (pq_level_lt inp st pth F NP); auto.
Qed.
Lemma target_bounds pick (le : Z -> Z -> Prop) val b a :
  (forall x, le x x) -> (forall x y z, le x y -> le y z -> le x z) -> (forall x y, le (pick x y) x) -> (forall x y, le (pick x y) y) ->
  (forall x y, pick x y = x \/ pick x y = y) ->
  b < nboxes T -> a < dim T ->
  let v := box_extents inp ps pick val (sp_target_starts R) (info_target_nonchild inp ps R) b a in
  (forall k, all_targets B b k -> le v (val k a)) /\ (forall c, below T b c -> le v (box_center T c a)) /\
  ((exists k, all_targets B b k /\ v = val k a) \/ (exists c, below T b c /\ v = box_center T c a)).
Proof.
  intros O1 O2 O3 O4 O5 Hb Ha v. apply (extreme_spec le val (tgt_cum inp ps q)); auto.
  - intros k. apply tgt_cum_all. auto.
  - apply (target_extreme inp ps q sp PI (PEND inp V st pth F PE) NSL SM (nlev st)); auto.
    + apply (p_lstart_length inp st pth F).
    + intros l j Hl Hj. apply (lstart_iff inp V st pth F FULL); auto.
    + intros l Hl. apply (lstart_n inp V st pth F FULL); auto.
    + intros j Hj. apply (pq_level_lt inp st pth F NP); auto.
Qed.
End Bounds.

(** ** Leaves *)
Lemma leaf_sp b : have_extent inp = false -> b < nboxes T -> leaf_box T b -> sp b = false.
Proof.
  intros E Hb L. destruct (sp b) eqn:S; auto. exfalso.
  destruct (skip_prune inp) eqn:SK.
  - assert (S0 := S). apply negb_true_iff, Nat.eqb_neq in S0. assert (Y := f_inv inp st pth F).
    assert (U := old_used inp st pth F NP b Hb).
    destruct (i_split _ _ _ Y (old inp st b) 0 U S0 (nch_pos inp)) as [U' E'].
    assert (IS : In (s_child st 0 (old inp st b)) (src_boxes inp st)).
    { apply (in_src inp st pth F NP). split; [apply (used_lt st (i_layout _ _ _ Y)); auto|]. unfold keep. rewrite SK.
      apply (usedb_spec st (i_layout _ _ _ Y)). auto. }
    assert (C := L 0 (nch_pos inp)). change (box_child T 0 b) with (p_child ps 0 b) in C.
    cbn [prune p_child] in C. rewrite kernel_map_lt in C by apply nch_pos. unfold pruned in C. rewrite kernel_map_lt in C by exact Hb.
    change (nth b (src_boxes inp st) 0) with (old inp st b) in C.
    assert (X := old_dst inp st pth F NP _ IS). rewrite C in X. rewrite (old_0 inp st pth F NP) in X.
    rewrite <- X in E'. rewrite (pth_0 inp st pth Y) in E'. destruct (pth (old inp st b)); discriminate.
  - assert (C := prune_nonempty inp st pth F NP SK b Hb). rewrite (pi_cumul _ _ _ _ PI b Hb) in C. apply cnt_pos in C.
    destruct C as [u [Hu R0]]. destruct (split_has_child inp V st pth F b u E Hb S Hu R0) as [m [Hm X]]. apply X. apply (L m Hm).
Qed.

(** ** Level restriction *)
Lemma finish_balanced (G : valid_geometry inp) b c : build_kind inp = LevelRestricted -> have_extent inp = false -> nlevels T <= 30 ->
  (nlev st = 1 \/ balanced inp st pth) ->
  b < nboxes T -> c < nboxes T -> leaf_box T b -> leaf_box T c -> boxes_touch T b c -> box_level T b <= box_level T c + 1.
Proof.
  intros K E DEEP BAL Hb Hc Lb Lc TC. change (box_level T b) with (p_blevel ps b). change (box_level T c) with (p_blevel ps c).
  rewrite !(pi_level _ _ _ _ PI) by auto. destruct BAL as [N1|BAL].
  - assert (X := pq_level_lt inp st pth F NP b Hb). lia.
  - apply leaf_sp in Lb, Lc; auto. apply BAL.
    + split; [apply (old_used inp st pth F NP); auto|]. apply negb_false_iff, Nat.eqb_eq in Lc. auto.
    + split; [apply (old_used inp st pth F NP); auto|]. apply negb_false_iff, Nat.eqb_eq in Lb. auto.
    + intros a Ha. specialize (TC a Ha).
      rewrite (T_center inp V st pth F b a Hb Ha), (T_center inp V st pth F c a Hc Ha) in TC.
      rewrite (T_rad inp V st pth F b Hb), (T_rad inp V st pth F c Hc) in TC. exact TC.
Qed.
End Finished.

(** ** Pruning *)
Section Pruned.
Variable inp : input.
Hypothesis V : valid_input inp.
Hypothesis SK : skip_prune inp = false.
Variable st : state.
Variable pth pth0 : nat -> list nat.
Notation inp0 := (with_skip_prune true inp).
Hypothesis F : fin inp st pth.
Hypothesis F0 : fin inp0 st pth0.
Notation ps := (prune inp st).
Notation ps0 := (prune inp0 st).
Notation n := (p_nboxes ps).
Notation n0 := (p_nboxes ps0).
Lemma V0 : valid_input inp0.
Proof. destruct V. split; auto. Qed.
Notation NP := (NP inp V).
Notation PIv := (PI inp V st pth F).
Notation PI0 := (PI inp0 V0 st pth0 F0).
Notation src := (src_boxes inp st).
Notation src0 := (src_boxes inp0 st).
Definition position (j : nat) : nat := dst_boxes src0 (old inp st j).
Lemma layout_st : layout st.
Proof. apply (i_layout _ _ _ (f_inv inp st pth F)). Qed.
Lemma old_src0 j : j < n -> In (old inp st j) src0.
Proof.
  intros Hj. assert (U := old_used inp st pth F NP j Hj). apply (in_src inp0 st pth0 F0 NP).
  split; [apply (used_lt st layout_st); auto|]. unfold keep. cbn [with_skip_prune skip_prune]. apply (usedb_spec st layout_st). auto.
Qed.
Lemma position_lt j : j < n -> position j < n0.
Proof. intros _. apply (dst_lt inp0 st pth0 F0 NP). Qed.
Lemma old_position j : j < n -> old inp0 st (position j) = old inp st j.
Proof. intros Hj. apply (old_dst inp0 st pth0 F0 NP). apply old_src0; auto. Qed.
Lemma position_mono j j' : j < j' -> j' < n -> position j < position j'.
Proof.
  intros H Hj'. assert (A := src_sorted inp st pth F j j' H Hj').
  destruct (Nat.lt_ge_cases (position j) (position j')) as [|C]; auto. exfalso.
  assert (E1 := old_position j ltac:(lia)). assert (E2 := old_position j' Hj').
  destruct (Nat.eq_dec (position j') (position j)) as [D|D].
  - rewrite D in E2. lia.
  - assert (X := src_sorted inp0 st pth0 F0 (position j') (position j) ltac:(lia) (position_lt j ltac:(lia))). lia.
Qed.
Lemma pruned_at {A} (ary : nat -> A) z j : j < n -> pruned src ary z j = ary (old inp st j).
Proof. intros Hj. unfold pruned. rewrite kernel_map_lt by exact Hj. auto. Qed.
Lemma pruned0_at {A} (ary : nat -> A) z x : x < n0 -> pruned src0 ary z x = ary (old inp0 st x).
Proof. intros Hj. unfold pruned. rewrite kernel_map_lt by exact Hj. auto. Qed.
Lemma in_src_nonempty b : In b src <-> b < lst st (nlev st) /\ 0 < s_cumul st b.
Proof.
  rewrite (in_src inp st pth F NP). unfold keep. rewrite SK. destruct (Nat.eqb_spec (s_cumul st b) 0); cbn [negb]; intuition (try lia; try discriminate).
Qed.
Lemma position_image x : x < n0 -> (0 < p_cumul ps0 x <-> exists j, j < n /\ position j = x).
Proof.
  intros Hx. cbn [prune p_cumul]. rewrite pruned0_at by auto. split.
  - intros C. assert (U := old_used inp0 st pth0 F0 NP x Hx). assert (I : In (old inp0 st x) src).
    { apply in_src_nonempty. split; auto. apply (used_lt st layout_st); auto. }
    destruct (in_src_old inp st _ I) as [j [Hj E]]. exists j. split; auto. unfold position. rewrite <- E.
    apply (dst_old inp0 st pth0 F0 NP); auto.
  - intros [j [Hj <-]]. rewrite old_position by auto. assert (I := old_in inp st j Hj). apply in_src_nonempty in I. tauto.
Qed.
Lemma position_child j m : j < n -> m < nchild inp ->
  (p_child ps m j = 0 /\ (p_child ps0 m (position j) = 0 \/ p_cumul ps0 (p_child ps0 m (position j)) = 0)) \/
  (p_child ps m j <> 0 /\ p_child ps0 m (position j) = position (p_child ps m j)).
Proof.
  intros Hj Hm. assert (E : p_child ps m j = dst_boxes src (s_child st m (old inp st j))).
  { cbn [prune p_child]. rewrite kernel_map_lt by auto. rewrite pruned_at by auto. auto. }
  assert (E0 : p_child ps0 m (position j) = dst_boxes src0 (s_child st m (old inp st j))).
  { cbn [prune p_child]. rewrite kernel_map_lt by auto. rewrite pruned0_at by (apply position_lt; auto). rewrite old_position; auto. }
  rewrite E, E0. destruct (in_dec Nat.eq_dec (s_child st m (old inp st j)) src) as [I|I].
  - destruct (in_src_old inp st _ I) as [c [Hc Ec]]. rewrite Ec. rewrite (dst_old inp st pth F NP c Hc).
    destruct (Nat.eq_dec c 0) as [->|C0].
    + left. split; auto. left. rewrite (old_0 inp st pth F NP). apply (dst_0 inp0 st pth0 F0 NP).
    + right. split; auto.
  - left. split; [apply (dst_out inp st NP); auto|].
    set (c := dst_boxes src0 (s_child st m (old inp st j))). destruct (Nat.eq_dec c 0) as [Z0|C0]; [left; exact Z0|right].
    assert (X := dst_nonzero inp0 st pth0 F0 NP _ C0). fold c in X.
    assert (Lc : c < n0) by (apply (dst_lt inp0 st pth0 F0 NP)).
    cbn [prune p_cumul]. rewrite pruned0_at by exact Lc. rewrite X.
    destruct (Nat.eq_dec (s_cumul st (s_child st m (old inp st j))) 0) as [|Z]; auto. exfalso. apply I. apply in_src_nonempty.
    split; [|lia]. rewrite <- X. apply (used_lt st layout_st). apply (old_used inp0 st pth0 F0 NP). auto.
Qed.
Lemma position_parent j : j < n -> position (p_parent ps j) = p_parent ps0 (position j).
Proof.
  intros Hj. assert (E0 : p_parent ps0 (position j) = dst_boxes src0 (s_parent st (old inp st j))).
  { cbn [prune p_parent]. rewrite pruned0_at by (apply position_lt; auto). rewrite old_position; auto. }
  rewrite E0. unfold position at 1. f_equal. cbn [prune p_parent]. rewrite pruned_at by auto.
  destruct (Nat.eq_dec j 0) as [->|J0].
  - rewrite (old_0 inp st pth F NP). rewrite (i_root_parent _ _ _ (f_inv inp st pth F)). rewrite (dst_0 inp st pth F NP). apply (old_0 inp st pth F NP).
  - apply (old_dst inp st pth F NP). apply (old_parent inp st pth F NP); auto.
Qed.
Notation Bp := (finish inp st).
Notation B0 := (finish inp0 st).
Lemma own_counts inp' (V' : valid_input inp') (pth' : nat -> list nat) (F' : fin inp' st pth') j : j < p_nboxes (prune inp' st) ->
  own inp' (pq inp' st pth') (psp inp' st) j = if psp inp' st j then p_nonchild (prune inp' st) j else p_cumul (prune inp' st) j.
Proof.
  intros Hj. assert (P := BuildThm.PI inp' V' st pth' F'). unfold own. destruct (psp inp' st j) eqn:S.
  - symmetry. apply (pi_nonchild _ _ _ _ P); auto.
  - symmetry. apply (pi_cumul _ _ _ _ P); auto.
Qed.
Lemma own_same j : j < n -> own inp0 (pq inp0 st pth0) (psp inp0 st) (position j) = own inp (pq inp st pth) (psp inp st) j.
Proof.
  intros Hj. rewrite (own_counts inp0 V0 pth0 F0) by (apply position_lt; auto). rewrite (own_counts inp V pth F) by auto.
  unfold psp. rewrite old_position by auto. cbn [prune p_nonchild p_cumul].
  rewrite !pruned0_at by (apply position_lt; auto). rewrite !pruned_at by auto. rewrite old_position by auto. reflexivity.
Qed.
Lemma start_same j : j < n -> p_start ps0 (position j) = p_start ps j.
Proof. intros Hj. cbn [prune p_start]. rewrite pruned0_at by (apply position_lt; auto). rewrite pruned_at by auto. rewrite old_position by auto. auto. Qed.
Lemma cumul_same j : j < n -> p_cumul ps0 (position j) = p_cumul ps j.
Proof. intros Hj. cbn [prune p_cumul]. rewrite pruned0_at by (apply position_lt; auto). rewrite pruned_at by auto. rewrite old_position by auto. auto. Qed.
Lemma NS0 : nsrc inp0 <= npart inp0. Proof. apply (v_nsrc _ V0). Qed.
Lemma SM0 : same inp0 = true -> nsrc inp0 = npart inp0. Proof. apply (v_same _ V0). Qed.
Notation NSL := (BuildThm.NSL inp V).
Notation SM := (BuildThm.SM inp V).
Lemma position_ranges j : j < n ->
  sp_source_starts (the_split inp0 ps0) (position j) = sp_source_starts (the_split inp ps) j /\
  sp_source_cumul (the_split inp0 ps0) (position j) = sp_source_cumul (the_split inp ps) j /\
  sp_target_starts (the_split inp0 ps0) (position j) = sp_target_starts (the_split inp ps) j /\
  sp_target_cumul (the_split inp0 ps0) (position j) = sp_target_cumul (the_split inp ps) j.
Proof.
  intros Hj. assert (L := position_lt j Hj). assert (C := prune_nonempty inp st pth F NP SK j Hj).
  assert (C0 : 0 < p_cumul ps0 (position j)) by (rewrite cumul_same; auto).
  rewrite (fin_source_starts inp0 ps0 _ _ PI0 NS0 SM0) by auto. rewrite (fin_source_starts inp ps _ _ PIv NSL SM) by auto.
  rewrite (fin_source_cumul inp0 ps0 _ _ PI0 NS0 SM0) by auto. rewrite (fin_source_cumul inp ps _ _ PIv NSL SM) by auto.
  rewrite (fin_target_starts inp0 ps0 _ _ PI0 NS0 SM0) by auto. rewrite (fin_target_starts inp ps _ _ PIv NSL SM) by auto.
  rewrite (fin_target_cumul inp0 ps0 _ _ PI0 NS0 SM0) by auto. rewrite (fin_target_cumul inp ps _ _ PIv NSL SM) by auto.
  rewrite start_same, cumul_same by auto. repeat split; reflexivity.
Qed.
Hypothesis PE : (level_restrict inp && have_extent inp)%bool = false.
Notation PEND := (BuildThm.PEND inp V st pth F PE).
Lemma PEND0 : forall j, j < n0 -> p_has_children ps0 j = true -> psp inp0 st j = true.
Proof. apply (BuildThm.PEND inp0 V0 st pth0 F0 PE). Qed.
Lemma position_own j : j < n ->
  info_source_nonchild inp0 ps0 (the_split inp0 ps0) (position j) = info_source_nonchild inp ps (the_split inp ps) j /\
  info_target_nonchild inp0 ps0 (the_split inp0 ps0) (position j) = info_target_nonchild inp ps (the_split inp ps) j /\
  info_flags inp0 ps0 (the_split inp0 ps0) (position j) = info_flags inp ps (the_split inp ps) j.
Proof.
  intros Hj. assert (L := position_lt j Hj).
  assert (E1 : info_source_nonchild inp0 ps0 (the_split inp0 ps0) (position j) = info_source_nonchild inp ps (the_split inp ps) j).
  { rewrite (snc_eq inp0 ps0 _ _ PI0 PEND0 NS0 SM0) by auto. rewrite (snc_eq inp ps _ _ PIv PEND NSL SM) by auto.
    rewrite start_same, own_same by auto. reflexivity. }
  assert (E2 : info_target_nonchild inp0 ps0 (the_split inp0 ps0) (position j) = info_target_nonchild inp ps (the_split inp ps) j).
  { rewrite (tnc_eq inp0 ps0 _ _ PI0 PEND0 NS0 SM0) by auto. rewrite (tnc_eq inp ps _ _ PIv PEND NSL SM) by auto.
    rewrite start_same, own_same by auto. reflexivity. }
  split; auto. split; auto. 
  assert (ES : psp inp0 st (position j) = psp inp st j) by (unfold psp; rewrite old_position; auto).
  destruct (psp inp st j) eqn:S.
  - rewrite (flags_split inp0 ps0 _ _ PI0 PEND0 NS0 SM0) by auto. rewrite (flags_split inp ps _ _ PIv PEND NSL SM) by auto.
    rewrite E1, E2. auto.
  - rewrite (flags_leaf inp0 ps0 _ _ PI0 PEND0 SM0) by auto. rewrite (flags_leaf inp ps _ _ PIv PEND SM) by auto.
    rewrite E1, E2. auto.
Qed.
End Pruned.

(** ** Stick-out *)
Section StickOut.
Variable inp : input.
Hypothesis V : valid_input inp.
Hypothesis G : valid_geometry inp.
Variable st : state.
Variable pth : nat -> list nat.
Hypothesis F : fin inp st pth.
Notation B := (finish inp st).
Notation ps := (prune inp st).
Notation q := (pq inp st pth).
Notation n := (p_nboxes ps).
Notation R := (the_split inp ps).
Notation T := (b_tree B).
Notation PT := (b_particles B).
Hypothesis DEEP : nlevels T <= 30.
Variable e : extents.
Hypothesis EE : ext inp = Some e.
Notation PI := (BuildThm.PI inp V st pth F).
Notation CUBE := (G_cube inp G).
Notation EPOS := (v_pos _ G).
Notation EDIV := (v_unit _ G).
Lemma G_in u : u < npart inp -> forall a, a < idim inp -> (bbox_min inp a <= coord inp u a < bbox_max inp a)%Z.
Proof. intros. apply (v_inside _ G); auto. Qed.

(** the center the kernel computes is that of the octant containing the particle *)
Lemma next_center2_cell u p m a : u < npart inp -> a < idim inp -> length p < 29 ->
  (path_center inp (p ++ [m]) a - lrad inp (S (length p)) <= coord inp u a < path_center inp (p ++ [m]) a + lrad inp (S (length p)))%Z ->
  next_center2 inp u (length p) a = (2 ^ Z.of_nat (length p + 2) * path_center inp (p ++ [m]) a)%Z.
Proof.
  intros Hu Ha Hp C. unfold next_center2, particle_bits.
  rewrite (path_center_idx inp CUBE EDIV) in * by (rewrite ?app_length; cbn [length]; auto; lia).
  rewrite app_length in *. cbn [length] in *. replace (S (length p)) with (length p + 1) in C by lia.
  rewrite CUBE by auto. rewrite u32_shl1_small by lia. replace (1 + length p) with (length p + 1) by lia.
  assert (EX := lrad_exact inp EDIV (length p + 1) ltac:(lia)). replace (length p + 1 + 1) with (length p + 2) in EX by lia.
  assert (P2 : (2 ^ Z.of_nat (length p + 2) = 2 * 2 ^ Z.of_nat (length p + 1))%Z).
  { rewrite !Nat2Z.inj_add, !Z.pow_add_r by lia. change (Z.of_nat 1) with 1%Z. change (Z.of_nat 2) with 2%Z. ring. }
  assert (Q : (0 < 2 ^ Z.of_nat (length p + 1))%Z) by (apply Z.pow_pos_nonneg; lia).
  assert (RP := lrad_pos inp EPOS EDIV (length p + 1) ltac:(lia)).
  set (r := lrad inp (length p + 1)) in *. set (w := (2 ^ Z.of_nat (length p + 1))%Z) in *. rewrite P2 in *.
  set (k := idx inp (p ++ [m]) a) in *.
  assert (K : ((coord inp u a - bbox_min inp a) * w / the_root_extent inp = k)%Z).
  { rewrite EX. replace (2 * w * r)%Z with (2 * r * w)%Z by ring. rewrite Z.div_mul_cancel_r by lia.
    symmetry. apply (Z.div_unique _ _ _ (coord inp u a - bbox_min inp a - 2 * r * k)); lia. }
  rewrite K. rewrite EX. ring.
Qed.
Lemma stop_fits u p m : u < npart inp -> m < nchild inp -> length p < 29 ->
  (forall a, a < idim inp ->
    (path_center inp (p ++ [m]) a - lrad inp (S (length p)) <= coord inp u a < path_center inp (p ++ [m]) a + lrad inp (S (length p)))%Z) ->
  (stop_descent inp u (length p) = false <-> fits e (idim inp) (path_center inp (p ++ [m])) (lrad inp (S (length p))) (coord inp u) (radius e u)).
Proof.
  intros Hu Hm Hp C. unfold stop_descent, fits. rewrite EE.
  assert (NC : forall a, a < idim inp -> next_center2 inp u (length p) a = (2 ^ Z.of_nat (length p + 2) * path_center inp (p ++ [m]) a)%Z)
    by (intros a Ha; apply next_center2_cell; auto).
  assert (EX := lrad_exact inp EDIV (length p + 1) ltac:(lia)). replace (length p + 1 + 1) with (length p + 2) in EX by lia.
  replace (S (length p)) with (length p + 1) in * by lia.
  assert (P2 : (2 ^ Z.of_nat (length p + 2) = 2 * 2 ^ Z.of_nat (length p + 1))%Z).
  { rewrite !Nat2Z.inj_add, !Z.pow_add_r by lia. change (Z.of_nat 1) with 1%Z. change (Z.of_nat 2) with 2%Z. ring. }
  assert (Q : (0 < 2 ^ Z.of_nat (length p + 1))%Z) by (apply Z.pow_pos_nonneg; lia). rewrite P2 in *.
  set (r := lrad inp (length p + 1)) in *. set (w := (2 * 2 ^ Z.of_nat (length p + 1))%Z) in *.
  assert (W : (0 < w)%Z) by (unfold w; lia).
  destruct (extent_norm e).
  - unfold fits_linf.
    assert (AX : forall a, a < idim inp -> sticks_out_linf inp e u (length p) a = false <->
      (sof_den e * path_center inp (p ++ [m]) a - (sof_den e + sof_num e) * r <= sof_den e * (coord inp u a - radius e u) /\
       sof_den e * (coord inp u a + radius e u) < sof_den e * path_center inp (p ++ [m]) a + (sof_den e + sof_num e) * r)%Z).
    { intros a Ha. unfold sticks_out_linf. rewrite NC, CUBE by auto. rewrite u32_shl1_small by lia.
      replace (1 + length p) with (length p + 1) by lia. fold w. rewrite EX. rewrite orb_false_iff, Z.leb_gt, Z.ltb_ge.
      set (c := path_center inp (p ++ [m]) a). set (x := coord inp u a). set (rho := radius e u). split.
      - intros [S1 S2]. split; [apply (Z.mul_le_mono_pos_l _ _ w); lia|apply (Z.mul_lt_mono_pos_l w); lia].
      - intros [S1 S2]. apply (Z.mul_le_mono_pos_l _ _ w) in S1; [|lia]. apply (Z.mul_lt_mono_pos_l w) in S2; [|lia]. split; lia. }
    split.
    + intros EX0 a Ha. apply AX; auto. apply not_true_is_false. intros T0.
      assert (X : existsb (sticks_out_linf inp e u (length p)) (seq 0 (idim inp)) = true).
      { apply existsb_exists. exists a. split; auto. apply in_seq. lia. } congruence.
    + intros H. apply not_true_is_false. intros T0. apply existsb_exists in T0. destruct T0 as [a [Ha T0]]. apply in_seq in Ha.
      assert (X := proj2 (AX a ltac:(lia)) (H a ltac:(lia))). congruence.
  - unfold fits_l2, sticks_out_l2. rewrite CUBE by apply (v_dim _ G). rewrite u32_shl1_small by lia.
    replace (1 + length p) with (length p + 1) by lia. fold w. rewrite EX.
    set (D2 := zsum (map (fun a => (sof_den e * (coord inp u a - path_center inp (p ++ [m]) a))
                              * (sof_den e * (coord inp u a - path_center inp (p ++ [m]) a)))%Z (seq 0 (idim inp)))).
    assert (DD : zsum (map (fun a => (sof_den e * (w * coord inp u a - next_center2 inp u (length p) a))
                                 * (sof_den e * (w * coord inp u a - next_center2 inp u (length p) a)))%Z (seq 0 (idim inp))) = (w * w * D2)%Z).
    { unfold D2. apply zsum_scale. intros a Ha. apply in_seq in Ha. rewrite NC by lia. ring. }
    rewrite DD. set (K := (Z.of_nat (idim inp) * ((sof_den e + sof_num e) * r) * ((sof_den e + sof_num e) * r) - D2 - sof_den e * radius e u * (sof_den e * radius e u))%Z).
    assert (KE : (Z.of_nat (idim inp) * ((sof_den e + sof_num e) * (w * r)) * ((sof_den e + sof_num e) * (w * r))
               - w * w * D2 - w * sof_den e * radius e u * (w * sof_den e * radius e u) = w * w * K)%Z) by (unfold K; ring).
    rewrite KE. rewrite orb_false_iff, !Z.leb_gt. assert (WW : (0 < w * w)%Z) by nia.
    replace (4 * (w * sof_den e * radius e u) * (w * sof_den e * radius e u) * (w * w * D2))%Z
      with (w * w * (w * w) * (4 * (sof_den e * radius e u) * (sof_den e * radius e u) * D2))%Z by ring.
    replace (w * w * K * (w * w * K))%Z with (w * w * (w * w) * (K * K))%Z by ring.
    rewrite <- Z.mul_lt_mono_pos_l by nia. split; intros [A1 A2]; split; auto; nia.
Qed.
Lemma reach_fits u b : u < npart inp -> b < n -> b <> 0 -> reach inp u (q b) = true ->
  fits e (idim inp) (box_center T b) (box_rad T b) (coord inp u) (radius e u).
Proof.
  intros Hu Hb B0 RR. destruct (pi_parent _ _ _ _ PI b Hb B0) as [Hp [m [Hm [E _]]]].
  assert (L := q_len inp V st pth F DEEP b Hb). rewrite E, app_length in L. cbn [length] in L.
  set (p := q (p_parent ps b)) in *. rewrite E in RR.
  assert (S0 : stop_descent inp u (length p) = false).
  { assert (RR2 := RR). rewrite reach_snoc in RR2. apply andb_true_iff in RR2. destruct RR2 as [_ K]. apply Nat.eqb_eq in K.
    unfold key, dig, morton in K. destruct (stop_descent inp u (length p)); [discriminate|auto]. }
  apply (stop_fits u p m Hu Hm ltac:(lia)) in S0.
  2:{ intros a Ha. assert (X := reach_inside inp CUBE EPOS EDIV u (G_in u Hu) (p ++ [m]) a Ha RR). rewrite app_length in X. cbn [length] in X.
      rewrite Nat.add_1_r in X. apply X. lia. }
  assert (ER : box_rad T b = lrad inp (S (length p))).
  { rewrite (T_rad inp V st pth F b Hb), E, app_length. cbn [length]. f_equal. lia. }
  assert (EC : forall a, a < idim inp -> box_center T b a = path_center inp (p ++ [m]) a).
  { intros a Ha. rewrite (T_center inp V st pth F b a Hb Ha), E. auto. }
  rewrite ER. revert S0. unfold fits, fits_linf, fits_l2. destruct (extent_norm e).
  - intros H a Ha. rewrite EC by auto. apply H; auto.
  - replace (map (fun a => (sof_den e * (coord inp u a - box_center T b a) * (sof_den e * (coord inp u a - box_center T b a)))%Z) (seq 0 (idim inp)))
      with (map (fun a => (sof_den e * (coord inp u a - path_center inp (p ++ [m]) a) * (sof_den e * (coord inp u a - path_center inp (p ++ [m]) a)))%Z) (seq 0 (idim inp))); auto.
    apply map_ext_in. intros a Ha. apply in_seq in Ha. rewrite EC by lia. auto.
Qed.
Lemma stays_unfit u b m : u < npart inp -> b < n -> m < nchild inp -> box_level T b < 29 -> reach inp u (q b) = true ->
  key inp u (length (q b)) = 0 ->
  (forall a, a < idim inp -> (octant_center T b m a - box_rad T b / 2 <= coord inp u a < octant_center T b m a + box_rad T b / 2)%Z) ->
  ~ fits e (idim inp) (octant_center T b m) (box_rad T b / 2) (coord inp u) (radius e u).
Proof.
  intros Hu Hb Hm LV RR K C FT. set (p := q b) in *. assert (L : length p < 29).
  { change (box_level T b) with (p_blevel ps b) in LV. rewrite (pi_level _ _ _ _ PI b Hb) in LV. exact LV. }
  assert (ER : (box_rad T b / 2 = lrad inp (S (length p)))%Z).
  { rewrite (T_rad inp V st pth F b Hb). fold p. rewrite (lrad_half inp EDIV) by auto. rewrite Z.mul_comm. apply Z.div_mul. lia. }
  assert (EC : forall a, a < idim inp -> octant_center T b m a = path_center inp (p ++ [m]) a).
  { intros a Ha. unfold octant_center. rewrite (T_center inp V st pth F b a Hb Ha). fold p. rewrite path_center_child by auto. rewrite ER. auto. }
  rewrite ER in *.
  assert (S0 : stop_descent inp u (length p) = false).
  { apply (stop_fits u p m Hu Hm L).
    - intros a Ha. rewrite <- EC by auto. auto.
    - revert FT. unfold fits, fits_linf, fits_l2. destruct (extent_norm e).
      + intros H a Ha. rewrite <- EC by auto. apply H; auto.
      + replace (map (fun a => (sof_den e * (coord inp u a - octant_center T b m a) * (sof_den e * (coord inp u a - octant_center T b m a)))%Z) (seq 0 (idim inp)))
          with (map (fun a => (sof_den e * (coord inp u a - path_center inp (p ++ [m]) a) * (sof_den e * (coord inp u a - path_center inp (p ++ [m]) a)))%Z) (seq 0 (idim inp))); auto.
        apply map_ext_in. intros a Ha. apply in_seq in Ha. rewrite EC by lia. auto. }
  unfold key, dig, morton in K. rewrite S0 in K. discriminate.
Qed.
End StickOut.
