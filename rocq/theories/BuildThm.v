(** What the finished tree satisfies, for every accepted input. *)
From Coq Require Import List Arith ZArith Lia Bool Permutation.
From Verif Require Import Base Tree Traversal SpecTraversal LevelStarts Fmm SpecFmm TreeBuild ArrayFacts BuildInv BuildStep BuildLoop BuildDone BuildTerm
  BuildPrune BuildFull BuildSplit BuildFinish BuildGeom BuildLR BuildBounds SpecBuild.
Import ListNotations.

Section Valid.
Variable inp : input.
Hypothesis V : valid_input inp.
Lemma V_WT : forall u, u < npart inp -> (0 <= weight inp u <= INT_MAX)%Z.
Proof. intros u Hu. assert (A := v_weight _ V u Hu). assert (C := v_max _ V). lia. Qed.
Lemma V_MW : (0 <= max_weight inp)%Z.
Proof. assert (C := v_max _ V). lia. Qed.
Lemma built_done B : build_tree inp = inl B -> exists st, level_loop inp = Done st /\ B = finish inp st.
Proof. unfold build_tree. destruct (level_loop inp) as [s|s|e]; try discriminate. intros [= <-]. eauto. Qed.
Lemma done_fin st : level_loop inp = Done st -> exists pth, fin inp st pth.
Proof. intros D. apply (level_loop_fin inp st V_WT V_MW (v_npart _ V) (v_guess _ V) D). Qed.
End Valid.

Section Finished.
Variable inp : input.
Hypothesis V : valid_input inp.
Variable st : state.
Variable pth : nat -> list nat.
Hypothesis F : fin inp st pth.
Notation B := (finish inp st).
Notation ps := (prune inp st).
Notation q := (pq inp st pth).
Notation sp := (psp inp st).
Notation n := (p_nboxes ps).
Notation R := (the_split inp ps).
Notation T := (b_tree B).
Notation PT := (b_particles B).
Lemma NP : 0 < npart inp.
Proof. apply (v_npart _ V). Qed.
Lemma PI : pinv inp ps q sp.
Proof. apply (prune_pinv inp st pth F NP). Qed.
Lemma NSL : nsrc inp <= npart inp.
Proof. apply (v_nsrc _ V). Qed.
Lemma SM : same inp = true -> nsrc inp = npart inp.
Proof. apply (v_same _ V). Qed.
Lemma T_nboxes : nboxes T = n. Proof. reflexivity. Qed.
Lemma T_nch : nchildren T = nchild inp. Proof. reflexivity. Qed.

(** ** C17 *)
Lemma finish_perm :
  Permutation (map (user_source_ids PT) (seq 0 (nsources PT))) (seq 0 (nsources PT)) /\
  nsources PT = nsrc inp /\ ntargets PT = num_targets inp /\
  (forall k a, k < nsources PT -> b_sources B k a = coord inp (user_source_ids PT k) a) /\
  (forall k, k < nsources PT -> b_source_radii B k = rad_of inp (user_source_ids PT k)) /\
  Permutation (map (sorted_target_ids PT) (seq 0 (ntargets PT))) (seq 0 (ntargets PT)) /\
  (forall j a, j < ntargets PT -> b_targets B (sorted_target_ids PT j) a = coord inp (first_target inp + j) a) /\
  (forall j, j < ntargets PT -> b_target_radii B (sorted_target_ids PT j) = rad_of inp (first_target inp + j)).
Proof.
  assert (SL := sorted_target_lt inp ps q sp PI NSL SM).
  split; [apply (source_ids_perm inp ps q sp PI NSL SM)|]. do 4 (split; [reflexivity|]). split.
  - apply perm_of_inj.
    + intros k Hk. apply SL. auto.
    + intros j j' Hj Hj' E. destruct (SL j Hj) as [_ E1]. destruct (SL j' Hj') as [_ E2].
      change (sp_sorted_target_ids R j = sp_sorted_target_ids R j') in E. rewrite E in E1. lia.
  - split; intros j; [intros a|]; intros Hj; destruct (SL j Hj) as [_ E].
    + change (coord inp (sp_target_ids R (sp_sorted_target_ids R j)) a = coord inp (first_target inp + j) a). rewrite E. auto.
    + change (rad_of inp (sp_target_ids R (sp_sorted_target_ids R j)) = rad_of inp (first_target inp + j)). rewrite E. auto.
Qed.

(** ** Structure *)
Lemma finish_tree_structure : 
  0 < nboxes T /\ box_level T 0 = 0 /\ box_parent T 0 = 0 /\
  (forall b, b < nboxes T -> box_level T b < nlevels T) /\
  (forall m b, b < nboxes T -> m < nchildren T -> box_child T m b < nboxes T) /\
  (forall m b, b < nboxes T -> m < nchildren T -> box_child T m b <> 0 ->
     box_parent T (box_child T m b) = b /\ box_level T (box_child T m b) = S (box_level T b)) /\
  (forall b, 0 < b -> b < nboxes T -> box_parent T b < nboxes T /\
     exists m, m < nchildren T /\ box_child T m (box_parent T b) = b) /\
  (forall m m' b, b < nboxes T -> m < nchildren T -> m' < nchildren T ->
     box_child T m b <> 0 -> box_child T m b = box_child T m' b -> m = m') /\
  (forall b c, b <= c -> c < nboxes T -> box_level T b <= box_level T c).
Proof.
  assert (P := PI). rewrite T_nboxes, T_nch. cbn [finish b_tree box_level box_parent box_child nlevels].
  rewrite (p_lstart_length inp st pth F). replace (S (nlev st) - 1) with (nlev st) by lia.
  assert (CH : forall m b, b < n -> m < nchild inp -> p_child ps m b <> 0 -> p_child ps m b < n /\ q (p_child ps m b) = q b ++ [m])
    by (intros; apply (child_nonzero_path inp ps q sp P); auto).
  split; [apply (pi_pos _ _ _ _ P)|]. split; [rewrite (pi_level _ _ _ _ P) by apply (pi_pos _ _ _ _ P); rewrite (pi_root _ _ _ _ P); auto|].
  split; [apply (pi_parent0 _ _ _ _ P)|].
  split; [intros b Hb; rewrite (pi_level _ _ _ _ P b Hb); apply (pq_level_lt inp st pth F NP); auto|].
  split; [intros; apply (pi_child_lt _ _ _ _ P); auto|]. split.
  { intros m b Hb Hm C. destruct (CH m b Hb Hm C) as [Hc E]. split.
    - destruct (pi_parent _ _ _ _ P _ Hc C) as [Hp [m' [Hm' [E' C']]]]. rewrite E in E'.
      apply app_inj_tail in E'. destruct E' as [E' _]. symmetry. apply (pi_inj _ _ _ _ P); auto.
    - rewrite !(pi_level _ _ _ _ P) by auto. rewrite E, app_length. cbn. lia. }
  split.
  { intros b B0 Hb. destruct (pi_parent _ _ _ _ P b Hb ltac:(lia)) as [Hp [m [Hm [E C]]]]. split; auto. exists m. auto. }
  split.
  { intros m m' b Hb Hm Hm' C E. destruct (CH m b Hb Hm C) as [_ E1]. rewrite E in C. destruct (CH m' b Hb Hm' C) as [_ E2].
    rewrite E in E1. rewrite E1 in E2. apply app_inj_tail in E2. tauto. }
  intros b c L Hc. rewrite !(pi_level _ _ _ _ P) by lia. apply (pi_mono _ _ _ _ P); auto.
Qed.

(** ** Geometry *)
Section Geometry.
Hypothesis G : valid_geometry inp.
Hypothesis DEEP : nlevels T <= 30.
Lemma G_cube : forall a, a < idim inp -> extent_along inp a = the_root_extent inp.
Proof. intros a Ha. unfold extent_along. apply (v_cube _ G); auto. Qed.
Lemma nlev30 : nlev st <= 30.
Proof. revert DEEP. cbn [finish b_tree nlevels]. rewrite (p_lstart_length inp st pth F). lia. Qed.
Lemma q_len j : j < n -> length (q j) <= 29.
Proof. intros Hj. assert (A := pq_level_lt inp st pth F NP j Hj). assert (C := nlev30). lia. Qed.
Lemma T_rad j : j < n -> box_rad T j = lrad inp (length (q j)).
Proof.
  intros Hj. unfold box_rad, level_to_rad, lrad. cbn [finish b_tree box_level root_extent].
  rewrite (pi_level _ _ _ _ PI j Hj). auto.
Qed.
Lemma T_center j a : j < n -> a < idim inp -> box_center T j a = path_center inp (q j) a.
Proof. intros Hj Ha. cbn [finish b_tree box_center]. apply (pi_center _ _ _ _ PI); auto. Qed.

Lemma finish_wf_tree : wf_tree T.
Proof.
  destruct finish_tree_structure as [S1 [S2 [S3 [S4 [S5 [S6 [S7 [S8 S9]]]]]]]].
  split; auto.
  - apply (v_pos _ G).
  - apply Z.divide_trans with (2 ^ 30)%Z; [|apply (v_unit _ G)].
    exists (2 ^ Z.of_nat (30 - nlevels T))%Z. rewrite <- Z.pow_add_r by lia. f_equal. lia.
  - intros m b Hb Hm C. destruct (S6 m b Hb Hm C) as [E1 E2]. split; [auto|]. split; [auto|]. intros a Ha.
    destruct (child_nonzero_path inp ps q sp PI m b Hb Hm C) as [Hc E].
    change (a < idim inp) in Ha. change (dim T) with (idim inp).
    rewrite (T_center (box_child T m b) a), (T_center b a), (T_rad (box_child T m b)) by auto.
    change (box_child T m b) with (p_child ps m b). rewrite E, app_length. cbn [length].
    rewrite Nat.add_1_r. apply (path_center_child inp); try apply (v_unit _ G); try apply (v_pos _ G); try apply G_cube; auto.
    assert (A := q_len _ Hc). rewrite E, app_length in A. cbn in A. lia.
Qed.

Lemma reach_cell u j : u < npart inp -> j < n -> reach inp u (q j) = true -> in_cell T j (coord inp u).
Proof.
  intros Hu Hj R a Ha. change (a < idim inp) in Ha. rewrite T_center, T_rad by auto.
  apply reach_inside; auto; try apply (v_unit _ G); try apply (v_pos _ G).
  - apply G_cube.
  - intros c Hc. apply (v_inside _ G); auto.
  - apply q_len; auto.
Qed.
Lemma q_digits j : j < n -> forall m, In m (q j) -> m < nchild inp.
Proof.
  induction j as [j IH] using lt_wf_ind. intros Hj m. destruct (Nat.eq_dec j 0) as [->|J0].
  - rewrite (pi_root _ _ _ _ PI). contradiction.
  - assert (L := q_lt inp ps q sp PI j Hj J0). destruct (pi_parent _ _ _ _ PI j Hj J0) as [Hp [m' [Hm [E _]]]].
    rewrite E. intros I. apply in_app_iff in I. destruct I as [I|[<-|[]]]; auto. apply (IH (p_parent ps j)); auto.
Qed.
Lemma cell_reach u j : have_extent inp = false -> u < npart inp -> j < n -> in_cell T j (coord inp u) -> reach inp u (q j) = true.
Proof.
  intros HE Hu Hj IC.
  apply inside_reach; auto; try apply (v_unit _ G); try apply (v_pos _ G).
  - apply G_cube.
  - intros c Hc. apply (v_inside _ G); auto.
  - apply q_len; auto.
  - apply q_digits; auto.
  - intros a Ha. assert (X := IC a Ha). rewrite T_center, T_rad in X by auto. auto.
Qed.
End Geometry.

(** ** Level starts *)
Section Levels.
Hypothesis FULL : skip_prune inp = true \/ populated inp st pth.
Lemma full : forall l, l < nlev st -> exists j, j < n /\ length (q j) = l.
Proof. intros l Hl. apply (prune_full inp st pth F NP FULL l Hl). Qed.
Lemma lstart_iff l j : l <= nlev st -> j < n -> nth l (p_lstart ps) 0 <= j <-> l <= length (q j).
Proof.
  intros Hl Hj. rewrite (p_lstart_nth inp st pth F NP full l Hl).
  assert (X := before_spec inp st pth F NP l j Hj). lia.
Qed.
Lemma lstart_n l : l <= nlev st -> nth l (p_lstart ps) 0 <= n.
Proof. intros Hl. rewrite (p_lstart_nth inp st pth F NP full l Hl). apply before_le. Qed.
Lemma finish_levels :
  length (b_level_starts B) = S (nlevels T) /\
  nth 0 (b_level_starts B) 0 = 0 /\ nth (nlevels T) (b_level_starts B) 0 = nboxes T /\
  (forall l b, l < nlevels T -> b < nboxes T ->
     (nth l (b_level_starts B) 0 <= b < nth (S l) (b_level_starts B) 0 <-> box_level T b = l)) /\
  (forall l, l < nlevels T -> nth l (b_level_starts B) 0 < nth (S l) (b_level_starts B) 0) /\
  level_sorted T (fun l => nth l (b_level_starts B) 0).
Proof.
  assert (LL := p_lstart_length inp st pth F).
  cbn [finish b_tree b_level_starts nlevels nboxes box_level]. rewrite LL. replace (S (nlev st) - 1) with (nlev st) by lia.
  assert (K : 0 < nlev st). { assert (A := pq_level_lt inp st pth F NP 0 (pi_pos _ _ _ _ PI)). lia. }
  split; auto. split.
  { assert (A := lstart_iff 0 0 ltac:(lia) (pi_pos _ _ _ _ PI)). lia. }
  split.
  { rewrite (p_lstart_nth inp st pth F NP full (nlev st)) by lia. apply (before_last inp st pth F NP). lia. }
  split.
  { intros l b Hl Hb. assert (X1 := lstart_iff l b ltac:(lia) Hb). assert (X2 := lstart_iff (S l) b ltac:(lia) Hb).
    rewrite (pi_level _ _ _ _ PI b Hb). lia. }
  split.
  { intros l Hl. destruct (full l Hl) as [j [Hj E]].
    assert (X1 := lstart_iff l j ltac:(lia) Hj). assert (X2 := lstart_iff (S l) j ltac:(lia) Hj). lia. }
  intros b l Hb Hl. cbn [nboxes nlevels box_level finish b_tree] in *. try rewrite LL in Hl.
  rewrite (pi_level _ _ _ _ PI b Hb). apply lstart_iff; [lia|auto].
Qed.
End Levels.

(** ** Particle ranges *)
Section Owned.
Hypothesis PE : (level_restrict inp && have_extent inp)%bool = false.
Lemma PEND : forall j, j < n -> p_has_children ps j = true -> sp j = true.
Proof. apply (prune_pending inp st pth F NP PE). Qed.
Lemma nsum_in {X} (f : X -> nat) l x : In x l -> f x <= nsum (map f l).
Proof.
  induction l as [|y l IH]; cbn [In map]; [contradiction|]. unfold nsum in *. cbn [fold_right]. intros [->|H]; [lia|]. specialize (IH H). lia.
Qed.
Notation snc := (info_source_nonchild inp ps R).
Notation tnc := (info_target_nonchild inp ps R).

Lemma finish_wf_particles : wf_particles T PT.
Proof.
  destruct finish_perm as [P1 [P2 [P3 [_ [_ [P4 _]]]]]]. split.
  - apply P1.
  - intros j Hj. apply (sorted_target_lt inp ps q sp PI NSL SM). auto.
  - apply (sources_owned inp ps q sp PI PEND NSL SM).
  - apply (targets_owned inp ps q sp PI PEND NSL SM).
  - intros b Hb C. unfold is_source. change (box_flags T b) with (info_flags inp ps R b).
    rewrite (flags_source inp ps q sp PI PEND NSL SM b Hb). change (box_source_counts_nonchild PT b) with (snc b) in C.
    destruct (Nat.eqb_spec (snc b) 0); auto. lia.
  - intros b Hb C. unfold is_target. change (box_flags T b) with (info_flags inp ps R b).
    rewrite (flags_target inp ps q sp PI PEND NSL SM b Hb). change (box_target_counts_nonchild PT b) with (tnc b) in C.
    destruct (Nat.eqb_spec (tnc b) 0); auto. lia.
Qed.

Lemma finish_flags b : b < nboxes T ->
  is_source T b = negb (box_source_counts_nonchild PT b =? 0) /\
  is_target T b = negb (box_target_counts_nonchild PT b =? 0) /\
  has_source_child T b = sp b /\ has_target_child T b = sp b.
Proof.
  intros Hb. unfold is_source, is_target, has_source_child, has_target_child. change (box_flags T b) with (info_flags inp ps R b).
  split; [apply (flags_source inp ps q sp PI PEND NSL SM b Hb)|].
  split; [apply (flags_target inp ps q sp PI PEND NSL SM b Hb)|].
  split; [apply (flags_source_child inp ps q sp PI PEND NSL SM b Hb)|apply (flags_target_child inp ps q sp PI PEND NSL SM b Hb)].
Qed.
Lemma child_sp m b : b < n -> m < nchild inp -> p_child ps m b <> 0 -> sp b = true.
Proof. intros Hb Hm C. destruct (sp b) eqn:E; auto. destruct C. apply (pi_leaf _ _ _ _ PI); auto. Qed.
Lemma finish_wf_flags : wf_flags T.
Proof.
  split; intros m b Hb Hm C _; destruct (finish_flags b Hb) as [_ [_ [E1 E2]]]; [rewrite E1|rewrite E2]; apply (child_sp m); auto.
Qed.
Lemma same_counts b : same inp = true -> b < n -> tnc b = snc b.
Proof.
  intros S Hb. rewrite (snc_eq inp ps q sp PI PEND NSL SM b Hb), (tnc_eq inp ps q sp PI PEND NSL SM b Hb).
  apply cntr_ext. intros. unfold src_pos, tgt_pos. rewrite S. auto.
Qed.
Lemma finish_same_flags b : same inp = true -> b < nboxes T -> is_target T b = is_source T b.
Proof.
  intros S Hb. destruct (finish_flags b Hb) as [E1 [E2 _]]. rewrite E1, E2. do 2 f_equal. apply same_counts; auto.
Qed.

(** own ranges come first, then those of the children in Morton order *)
Lemma finish_source_counts b : b < nboxes T ->
  b_source_cumul B b = box_source_counts_nonchild PT b +
    nsum (map (fun m => if box_child T m b =? 0 then 0 else b_source_cumul B (box_child T m b)) (seq 0 (nchildren T))).
Proof.
  intros Hb. change (sp_source_cumul R b = snc b + nsum (map (fun m => if p_child ps m b =? 0 then 0 else sp_source_cumul R (p_child ps m b)) (seq 0 (nchild inp)))).
  rewrite (fin_source_cumul inp ps q sp PI NSL SM b Hb), (snc_eq inp ps q sp PI PEND NSL SM b Hb).
  change (cntr (src_pos inp ps) (p_start ps b) (p_start ps b + p_cumul ps b)) with (weighted ps (src_pos inp ps) b).
  rewrite (weighted_children inp ps q sp PI NSL SM b (src_pos inp ps) Hb). f_equal. f_equal.
  apply map_ext_in. intros m Hm. apply in_seq in Hm. destruct (Nat.eqb_spec (p_child ps m b) 0); auto.
  symmetry. apply (fin_source_cumul inp ps q sp PI NSL SM). apply (pi_child_lt _ _ _ _ PI); auto; lia.
Qed.
Lemma finish_target_counts b : b < nboxes T ->
  b_target_cumul B b = box_target_counts_nonchild PT b +
    nsum (map (fun m => if box_child T m b =? 0 then 0 else b_target_cumul B (box_child T m b)) (seq 0 (nchildren T))).
Proof.
  intros Hb. change (sp_target_cumul R b = tnc b + nsum (map (fun m => if p_child ps m b =? 0 then 0 else sp_target_cumul R (p_child ps m b)) (seq 0 (nchild inp)))).
  rewrite (fin_target_cumul inp ps q sp PI NSL SM b Hb), (tnc_eq inp ps q sp PI PEND NSL SM b Hb).
  change (cntr (tgt_pos inp ps) (p_start ps b) (p_start ps b + p_cumul ps b)) with (weighted ps (tgt_pos inp ps) b).
  rewrite (weighted_children inp ps q sp PI NSL SM b (tgt_pos inp ps) Hb). f_equal. f_equal.
  apply map_ext_in. intros m Hm. apply in_seq in Hm. destruct (Nat.eqb_spec (p_child ps m b) 0); auto.
  symmetry. apply (fin_target_cumul inp ps q sp PI NSL SM). apply (pi_child_lt _ _ _ _ PI); auto; lia.
Qed.
Lemma finish_source_child_start b m : b < nboxes T -> m < nchildren T -> box_child T m b <> 0 -> 0 < b_source_cumul B (box_child T m b) ->
  box_source_starts PT (box_child T m b) = box_source_starts PT b + box_source_counts_nonchild PT b +
    nsum (map (fun m => if box_child T m b =? 0 then 0 else b_source_cumul B (box_child T m b)) (seq 0 m)).
Proof.
  intros Hb Hm C P0. change (nchildren T) with (nchild inp) in Hm. change (box_child T m b) with (p_child ps m b) in *.
  change (sp_source_starts R (p_child ps m b) = sp_source_starts R b + snc b + nsum (map (fun m => if p_child ps m b =? 0 then 0 else sp_source_cumul R (p_child ps m b)) (seq 0 m))).
  change (0 < sp_source_cumul R (p_child ps m b)) in P0. change (b < n) in Hb.
  assert (Hc : p_child ps m b < n) by (apply (pi_child_lt _ _ _ _ PI); auto).
  rewrite (fin_source_cumul inp ps q sp PI NSL SM _ Hc) in P0.
  assert (KC : forall x, 0 < cntr (src_pos inp ps) (p_start ps x) (p_start ps x + p_cumul ps x) -> 0 < p_cumul ps x).
  { intros x X. assert (Y := cntr_le (src_pos inp ps) (p_start ps x) (p_start ps x + p_cumul ps x)). lia. }
  assert (WB : 0 < cntr (src_pos inp ps) (p_start ps b) (p_start ps b + p_cumul ps b)).
  { change (0 < weighted ps (src_pos inp ps) b). rewrite (weighted_children inp ps q sp PI NSL SM b (src_pos inp ps) Hb).
    assert (Y := nsum_in (fun m => if p_child ps m b =? 0 then 0 else weighted ps (src_pos inp ps) (p_child ps m b)) (seq 0 (nchild inp)) m ltac:(apply in_seq; lia)).
    cbn beta in Y. destruct (Nat.eqb_spec (p_child ps m b) 0); [congruence|]. unfold weighted at 1 in Y. lia. }
  rewrite !(fin_source_starts inp ps q sp PI NSL SM) by auto.
  rewrite (snc_eq inp ps q sp PI PEND NSL SM b Hb).
  rewrite (child_begin inp ps q sp PI NSL SM b m (src_pos inp ps) Hb Hm C P0). do 2 f_equal.
  apply map_ext_in. intros m' Hm'. apply in_seq in Hm'. destruct (Nat.eqb_spec (p_child ps m' b) 0); auto.
  symmetry. apply (fin_source_cumul inp ps q sp PI NSL SM). apply (pi_child_lt _ _ _ _ PI); auto; lia.
Qed.
Lemma finish_target_child_start b m : b < nboxes T -> m < nchildren T -> box_child T m b <> 0 -> 0 < b_target_cumul B (box_child T m b) ->
  box_target_starts PT (box_child T m b) = box_target_starts PT b + box_target_counts_nonchild PT b +
    nsum (map (fun m => if box_child T m b =? 0 then 0 else b_target_cumul B (box_child T m b)) (seq 0 m)).
Proof.
  intros Hb Hm C P0. change (nchildren T) with (nchild inp) in Hm. change (box_child T m b) with (p_child ps m b) in *.
  change (sp_target_starts R (p_child ps m b) = sp_target_starts R b + tnc b + nsum (map (fun m => if p_child ps m b =? 0 then 0 else sp_target_cumul R (p_child ps m b)) (seq 0 m))).
  change (0 < sp_target_cumul R (p_child ps m b)) in P0. change (b < n) in Hb.
  assert (Hc : p_child ps m b < n) by (apply (pi_child_lt _ _ _ _ PI); auto).
  rewrite (fin_target_cumul inp ps q sp PI NSL SM _ Hc) in P0.
  assert (KC : forall x, 0 < cntr (tgt_pos inp ps) (p_start ps x) (p_start ps x + p_cumul ps x) -> 0 < p_cumul ps x).
  { intros x X. assert (Y := cntr_le (tgt_pos inp ps) (p_start ps x) (p_start ps x + p_cumul ps x)). lia. }
  assert (WB : 0 < cntr (tgt_pos inp ps) (p_start ps b) (p_start ps b + p_cumul ps b)).
  { change (0 < weighted ps (tgt_pos inp ps) b). rewrite (weighted_children inp ps q sp PI NSL SM b (tgt_pos inp ps) Hb).
    assert (Y := nsum_in (fun m => if p_child ps m b =? 0 then 0 else weighted ps (tgt_pos inp ps) (p_child ps m b)) (seq 0 (nchild inp)) m ltac:(apply in_seq; lia)).
    cbn beta in Y. destruct (Nat.eqb_spec (p_child ps m b) 0); [congruence|]. unfold weighted at 1 in Y. lia. }
  rewrite !(fin_target_starts inp ps q sp PI NSL SM) by auto.
  rewrite (tnc_eq inp ps q sp PI PEND NSL SM b Hb).
  rewrite (child_begin inp ps q sp PI NSL SM b m (tgt_pos inp ps) Hb Hm C P0). do 2 f_equal.
  apply map_ext_in. intros m' Hm'. apply in_seq in Hm'. destruct (Nat.eqb_spec (p_child ps m' b) 0); auto.
  symmetry. apply (fin_target_cumul inp ps q sp PI NSL SM). apply (pi_child_lt _ _ _ _ PI); auto; lia.
Qed.

(** ** Particles and cells *)
Lemma finish_source_in_cell (G : valid_geometry inp) (DEEP : nlevels T <= 30) b k : b < nboxes T -> own_sources B b k ->
  in_cell T b (b_sources B k).
Proof.
  intros Hb O. destruct (source_own inp ps q sp PI PEND NSL SM b k Hb O) as [i [Hi [E1 [E2 E3]]]].
  assert (X : reach inp (p_user ps i) (q b) = true) by (rewrite <- E3; apply (pi_box _ _ _ _ PI i Hi)).
  assert (Y := reach_cell G DEEP (p_user ps i) b (user_lt inp ps q sp PI i Hi) Hb X).
  rewrite <- E2 in Y. exact Y.
Qed.
Lemma finish_target_in_cell (G : valid_geometry inp) (DEEP : nlevels T <= 30) b k : b < nboxes T -> own_targets B b k ->
  in_cell T b (b_targets B k).
Proof.
  intros Hb O. destruct (target_own inp ps q sp PI PEND NSL SM b k Hb O) as [i [Hi [E1 [E2 E3]]]].
  assert (X : reach inp (p_user ps i) (q b) = true) by (rewrite <- E3; apply (pi_box _ _ _ _ PI i Hi)).
  assert (Y := reach_cell G DEEP (p_user ps i) b (user_lt inp ps q sp PI i Hi) Hb X).
  rewrite <- E2 in Y. exact Y.
Qed.
End Owned.

Lemma source_id_lt k : k < nsrc inp -> sp_source_ids R k < nsrc inp.
Proof.
  intros Hk. assert (X : In (sp_source_ids R k) (seq 0 (nsrc inp))); [|apply in_seq in X; lia].
  apply (Permutation_in _ (source_ids_perm inp ps q sp PI NSL SM)). apply in_map, in_seq. lia.
Qed.
Lemma all_sources_reach b k : b < n -> k < nsrc inp -> all_sources B b k <-> reach inp (sp_source_ids R k) (q b) = true.
Proof.
  intros Hb Hk. rewrite <- (source_cumul_range inp ps q sp PI NSL SM b k Hb Hk). unfold all_sources.
  change (box_source_starts PT b) with (sp_source_starts R b). change (b_source_cumul B b) with (sp_source_cumul R b). lia.
Qed.
Lemma all_targets_reach b k : b < n -> k < num_targets inp -> all_targets B b k <-> reach inp (sp_target_ids R k) (q b) = true.
Proof.
  intros Hb Hk. rewrite <- (target_cumul_range inp ps q sp PI NSL SM b k Hb Hk). unfold all_targets.
  change (box_target_starts PT b) with (sp_target_starts R b). change (b_target_cumul B b) with (sp_target_cumul R b). lia.
Qed.

(** ** Weights *)
Lemma in_range_spec s c k : in_range s c k = true <-> s <= k < s + c.
Proof. unfold in_range. rewrite andb_true_iff, Nat.leb_le, Nat.ltb_lt. tauto. Qed.
Lemma filter_map_comm {X Y} (f : X -> Y) (p : Y -> bool) l : filter p (map f l) = map f (filter (fun x => p (f x)) l).
Proof. induction l as [|x l IH]; cbn [filter map]; auto. rewrite IH. destruct (p (f x)); auto. Qed.
Lemma filter_filter' {X} (p r : X -> bool) l : filter p (filter r l) = filter (fun x => r x && p x) l.
Proof. induction l as [|x l IH]; cbn [filter]; auto. destruct (r x); cbn [filter andb]; auto. rewrite IH. auto. Qed.
Lemma box_weight_of_reach sel b : b < n ->
  box_weight_of inp B sel b = zsum (map (weight inp) (filter (fun u => reach inp u (q b) && sel u) (seq 0 (npart inp)))).
Proof.
  intros Hb. unfold box_weight_of.
  assert (E1 : zsum (map (weight inp) (filter sel (map (user_source_ids PT)
     (filter (in_range (box_source_starts PT b) (b_source_cumul B b)) (seq 0 (nsrc inp)))))) =
     zsum (map (weight inp) (filter (fun u => reach inp u (q b) && sel u) (seq 0 (nsrc inp))))).
  { rewrite (filter_ext_in (in_range (box_source_starts PT b) (b_source_cumul B b)) (fun k => reach inp (sp_source_ids R k) (q b))).
    - change (user_source_ids PT) with (sp_source_ids R). rewrite <- (filter_map_comm (sp_source_ids R) (fun u => reach inp u (q b))). rewrite filter_filter'.
      apply zsum_perm, Permutation_map, filter_perm. apply (source_ids_perm inp ps q sp PI NSL SM).
    - intros k Hk. apply in_seq in Hk. apply eq_true_iff_eq. rewrite in_range_spec. apply (all_sources_reach b k Hb). lia. }
  rewrite E1. destruct (same inp) eqn:S.
  - rewrite (SM S). lia.
  - assert (E2 : zsum (map (weight inp) (filter sel (map (fun j => nsrc inp + j)
       (filter (fun j => in_range (box_target_starts PT b) (b_target_cumul B b) (sorted_target_ids PT j)) (seq 0 (npart inp - nsrc inp))))))
       = zsum (map (weight inp) (filter (fun u => reach inp u (q b) && sel u) (seq (nsrc inp) (npart inp - nsrc inp))))).
    { rewrite (filter_ext_in (fun j => in_range (box_target_starts PT b) (b_target_cumul B b) (sorted_target_ids PT j)) (fun j => reach inp (nsrc inp + j) (q b))).
      - rewrite <- (filter_map_comm (fun j => nsrc inp + j) (fun u => reach inp u (q b))). rewrite filter_filter'.
        assert (M : forall a m, map (fun j => nsrc inp + j) (seq a m) = seq (nsrc inp + a) m).
        { intros a m. revert a. induction m; intros a; cbn [seq map]; auto. rewrite IHm. do 2 f_equal. lia. }
        rewrite M. rewrite Nat.add_0_r. reflexivity.
      - intros j Hj. apply in_seq in Hj. apply eq_true_iff_eq. rewrite in_range_spec.
        assert (NT : j < ntgt inp) by (unfold ntgt; rewrite S; lia).
        destruct (sorted_target_lt inp ps q sp PI NSL SM j NT) as [L E]. 
        assert (Z := all_targets_reach b (sp_sorted_target_ids R j) Hb L). rewrite E in Z.
        unfold tgt_base in Z. rewrite S in Z. exact Z. }
    rewrite E2. rewrite <- zsum_app, <- map_app, <- filter_app. do 3 f_equal.
    rewrite <- seq_app. f_equal. assert (X := NSL). lia.
Qed.
Lemma box_weight_reach b : b < n -> box_weight inp B b = rweight inp (q b).
Proof.
  intros Hb. unfold box_weight. rewrite box_weight_of_reach by auto. unfold rweight. do 2 f_equal.
  apply filter_ext. intros u. apply andb_true_r.
Qed.
Lemma childweight_rest b : childweight inp (q b) =
  zsum (map (weight inp) (filter (fun u => reach inp u (q b) && negb (stop_descent inp u (length (q b)))) (seq 0 (npart inp)))).
Proof.
  rewrite childweight_eq. do 2 f_equal. apply filter_ext. intros u. f_equal.
  unfold key, dig, morton. destruct (stop_descent inp u (length (q b))); reflexivity.
Qed.
Lemma finish_weight_bound b : (max_weight inp < INT_MAX)%Z -> b < nboxes T -> sp b = false ->
  (box_weight_of inp B (fun u => negb (stop_descent inp u (box_level T b))) b <= max_weight inp)%Z.
Proof.
  intros M Hb L. rewrite box_weight_of_reach by auto. change (box_level T b) with (p_blevel ps b).
  rewrite (pi_level _ _ _ _ PI b Hb). rewrite <- childweight_rest. apply (prune_light inp st pth F NP M b Hb L).
Qed.
Lemma no_extent_stop u l : have_extent inp = false -> stop_descent inp u l = false.
Proof. unfold have_extent, stop_descent. destruct (ext inp); [discriminate|auto]. Qed.
Lemma no_extent_childweight b : have_extent inp = false -> childweight inp (q b) = rweight inp (q b).
Proof.
  intros E. rewrite childweight_rest. unfold rweight. do 2 f_equal. apply filter_ext. intros u.
  rewrite no_extent_stop by auto. apply andb_true_r.
Qed.
Lemma rweight_nonempty p : (0 < rweight inp p)%Z -> exists u, u < npart inp /\ reach inp u p = true.
Proof.
  unfold rweight. intros H. destruct (filter (fun u => reach inp u p) (seq 0 (npart inp))) as [|u l] eqn:E; [cbn in H; lia|].
  assert (I : In u (u :: l)) by (left; auto). rewrite <- E in I. apply filter_In in I. destruct I as [I1 I2]. apply in_seq in I1.
  exists u. split; [lia|auto].
Qed.
(** a populated split box without extents has a child *)
Lemma split_has_child b u : have_extent inp = false -> b < n -> sp b = true -> u < npart inp -> reach inp u (q b) = true ->
  exists m, m < nchild inp /\ p_child ps m b <> 0.
Proof.
  intros E Hb S Hu R0. assert (K : key inp u (length (q b)) <> 0).
  { unfold key, dig, morton. rewrite no_extent_stop by auto. discriminate. }
  destruct (key inp u (length (q b))) as [|m] eqn:KE; [congruence|]. exists m.
  assert (Hm := key_le inp u (length (q b))). split; [lia|].
  apply (pi_split _ _ _ _ PI m b u); auto; [lia|]. rewrite reach_snoc, R0, KE. cbn [andb]. apply Nat.eqb_refl.
Qed.
Lemma finish_leaf_light b : have_extent inp = false -> (max_weight inp < INT_MAX)%Z -> b < nboxes T -> leaf_box T b ->
  (box_weight inp B b <= max_weight inp)%Z.
Proof.
  intros E M Hb L. rewrite box_weight_reach by auto. destruct (Z.le_gt_cases (rweight inp (q b)) 0) as [C|C].
  - assert (X := v_max _ V). lia.
  - destruct (rweight_nonempty _ C) as [u [Hu R0]]. destruct (sp b) eqn:S.
    + destruct (split_has_child b u E Hb S Hu R0) as [m [Hm X]]. destruct X. apply (L m Hm).
    + rewrite <- no_extent_childweight by auto. apply (prune_light inp st pth F NP M b Hb S).
Qed.
Lemma finish_split_heavy b : build_kind inp = Adaptive -> have_extent inp = false -> b < nboxes T -> ~ leaf_box T b ->
  (max_weight inp < box_weight inp B b)%Z.
Proof.
  intros K E Hb L. rewrite box_weight_reach by auto. destruct (sp b) eqn:S.
  - assert (H := prune_split inp st pth F NP). unfold level_restrict in H. rewrite K in H. specialize (H eq_refl b Hb S).
    unfold heavy, adaptive in H. rewrite K in H. apply Z.ltb_lt in H. rewrite <- no_extent_childweight by auto. unfold childweight. lia.
  - destruct L. intros m Hm. apply (pi_leaf _ _ _ _ PI); auto.
Qed.

(** ** Below *)
Lemma below_path b c : b < nboxes T -> (below T b c <-> c < nboxes T /\ exists r, q c = q b ++ r).
Proof.
  intros Hb. split.
  - induction 1 as [|c m HB IH Hm C]; [split; auto; exists []; rewrite app_nil_r; auto|].
    destruct IH as [Hc [r E]]. destruct (child_nonzero_path inp ps q sp PI m c Hc Hm C) as [Hc' E'].
    split; auto. exists (r ++ [m]). change (box_child T m c) with (p_child ps m c). rewrite E', E, app_assoc. auto.
  - intros [Hc [r E]]. revert c Hc E. induction r as [|m r IH] using rev_ind; intros c Hc E.
    + rewrite app_nil_r in E. apply (pi_inj _ _ _ _ PI) in E; auto. subst c. constructor.
    + rewrite app_assoc in E. destruct (q_prefix inp ps q sp PI c (q b ++ r) [m] Hc E) as [c' [Hc' E']].
      rewrite <- E' in E. destruct (pi_child_back _ _ _ _ PI m c' c Hc' Hc E) as [Hm C].
      assert (X : below T b (box_child T m c')).
      { constructor; auto. change (p_child ps m c' <> 0). rewrite C. intros Z. subst c. rewrite Z in E. rewrite (pi_root _ _ _ _ PI) in E.
        destruct (q c'); discriminate. }
      change (box_child T m c') with (p_child ps m c') in X. rewrite C in X. auto.
Qed.
End Finished.
