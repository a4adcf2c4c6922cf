(** Properties C77, C78: expansion arrays of the pyfmmlib wrangler; gradients. *)
From Coq Require Import List Arith ZArith Lia Bool Permutation.
From Verif Require Import Base Layout SpecLayout LayoutFacts.
Import ListNotations.

(** ** C77: every coefficient of every box has its own place in the array, and the array has no
    other places. *)
Theorem C77_reshapes_succeed : forall nboxes nlevels level_starts sizes level,
  level_ranges nboxes nlevels level_starts -> level < nlevels ->
  exists first position, expansions_view nlevels level_starts sizes level = Some (first, position) /\ first = level_starts level.
Proof. intros. rewrite view_ok by auto. eauto. Qed.
Theorem C77_in_bounds : forall (C : Type) (zero : C) nboxes nlevels level_starts sizes level b c,
  level_ranges nboxes nlevels level_starts -> level < nlevels -> on_level level_starts level b -> c < sizes level ->
  exists i, coefficient_index nlevels level_starts sizes level b c = Some i /\
    i < length (expansion_zeros nlevels level_starts sizes zero).
Proof.
  intros C z nb nl ls sz l b c R Hl Hb Hc. rewrite index_eq by auto. eexists. split; [reflexivity|].
  unfold expansion_zeros. rewrite repeat_length, els_last.
  pose proof (index_range ls sz l b c Hb Hc). pose proof (start_mono ls sz (S l) nl Hl). lia.
Qed.
Theorem C77_disjoint : forall nboxes nlevels level_starts sizes l b c l' b' c' i,
  level_ranges nboxes nlevels level_starts -> l < nlevels -> l' < nlevels ->
  on_level level_starts l b -> on_level level_starts l' b' -> c < sizes l -> c' < sizes l' ->
  coefficient_index nlevels level_starts sizes l b c = Some i ->
  coefficient_index nlevels level_starts sizes l' b' c' = Some i -> l = l' /\ b = b' /\ c = c'.
Proof.
  intros nb nl ls sz l b c l' b' c' i R Hl Hl' Hb Hb' Hc Hc' E E'.
  rewrite index_eq in E, E' by auto. injection E as E. injection E' as E'.
  pose proof (index_range ls sz l b c Hb Hc). pose proof (index_range ls sz l' b' c' Hb' Hc').
  assert (L : l = l').
  { destruct (Nat.lt_trichotomy l l') as [Q|[Q|Q]]; auto; exfalso.
    - pose proof (start_mono ls sz (S l) l' Q). lia.
    - pose proof (start_mono ls sz (S l') l Q). lia. }
  subst l'. split; auto. unfold on_level in *.
  assert (D : b - ls l = b' - ls l) by nia. split; [lia|]. nia.
Qed.
Theorem C77_no_waste : forall (C : Type) (zero : C) nboxes nlevels level_starts sizes i,
  level_ranges nboxes nlevels level_starts -> i < length (expansion_zeros nlevels level_starts sizes zero) ->
  exists l b c, l < nlevels /\ b < nboxes /\ on_level level_starts l b /\ c < sizes l /\
    coefficient_index nlevels level_starts sizes l b c = Some i.
Proof.
  intros C z nb nl ls sz i [R0 [Rn Rm]] Hi. unfold expansion_zeros in Hi. rewrite repeat_length, els_last in Hi.
  assert (F : forall n, n <= nl -> i < start_of ls sz n -> exists l, l < n /\ start_of ls sz l <= i < start_of ls sz (S l)).
  { induction n as [|n IH]; intros Hn Q; [unfold start_of in Q; simpl in Q; lia|].
    destruct (Nat.lt_ge_cases i (start_of ls sz n)) as [D|D]; [|exists n; split; [lia|auto]].
    destruct (IH ltac:(lia) D) as [l [A B]]. exists l. split; [lia|auto]. }
  destruct (F nl (le_n _) Hi) as [l [Hl Q]]. rewrite start_of_S in Q.
  assert (S0 : 0 < sz l) by nia.
  set (x := i - start_of ls sz l). exists l, (ls l + x / sz l), (x mod sz l).
  pose proof (Nat.div_mod x (sz l) ltac:(lia)) as DM. pose proof (Nat.mod_upper_bound x (sz l) ltac:(lia)) as MB.
  assert (DB : x / sz l < ls (l + 1) - ls l) by (apply Nat.div_lt_upper_bound; unfold x; lia).
  split; [auto|]. split; [|split; [unfold on_level; lia|split; [auto|]]].
  - assert (M : forall a, l + 1 + a <= nl -> ls (l + 1) <= ls (l + 1 + a)).
    { induction a; intros; [rewrite Nat.add_0_r; auto|]. specialize (IHa ltac:(lia)). specialize (Rm (l + 1 + a) ltac:(lia)).
      replace (l + 1 + S a) with (l + 1 + a + 1) by lia. lia. }
    specialize (M (nl - (l + 1)) ltac:(lia)). replace (l + 1 + (nl - (l + 1))) with nl in M by lia. lia.
  - rewrite index_eq by auto. f_equal. replace (ls l + x / sz l - ls l) with (x / sz l) by lia. unfold x in *. lia.
Qed.

(** Reading back: after assigning to the expansion of box b, that box has the new coefficients
    and all other boxes have what they had. *)
Theorem C77_views_are_independent : forall (C : Type) nboxes nlevels level_starts sizes (a : list C) l b v l' b',
  level_ranges nboxes nlevels level_starts -> l < nlevels -> l' < nlevels ->
  on_level level_starts l b -> on_level level_starts l' b' ->
  length a = last (expansions_level_starts nlevels level_starts sizes) 0 -> length v = sizes l ->
  exists a', expansion_set nlevels level_starts sizes a l b v = Some a' /\ length a' = length a /\
    expansion_get nlevels level_starts sizes a' l b = Some v /\
    (b' <> b -> expansion_get nlevels level_starts sizes a' l' b' = expansion_get nlevels level_starts sizes a l' b').
Proof.
  intros C nb nl ls sz a l b v l' b' R Hl Hl' Hb Hb' La Lv.
  unfold expansion_set, expansion_get. rewrite !view_ok by auto. rewrite Lv, Nat.eqb_refl.
  rewrite els_last in La. pose proof (start_mono ls sz (S l) nl Hl) as M1. pose proof (start_mono ls sz (S l') nl Hl') as M2.
  pose proof (start_of_S ls sz l) as E1. pose proof (start_of_S ls sz l') as E2. unfold on_level in *.
  set (p := start_of ls sz l + (b - ls l) * sz l). set (q := start_of ls sz l' + (b' - ls l') * sz l').
  assert (P1 : p + sz l <= start_of ls sz (S l)) by (unfold p; nia).
  assert (P2 : q + sz l' <= start_of ls sz (S l')) by (unfold q; nia).
  assert (Q1 : start_of ls sz l <= p) by apply Nat.le_add_r. assert (Q2 : start_of ls sz l' <= q) by apply Nat.le_add_r.
  eexists. split; [reflexivity|]. split; [rewrite !app_length, firstn_length, skipn_length; lia|].
  split; [rewrite firstn_skipn_app_mid by lia; auto|].
  intros Nb. f_equal. apply firstn_skipn_other; try lia.
  destruct (Nat.lt_trichotomy l l') as [Q|[Q|Q]].
  - pose proof (start_mono ls sz (S l) l' Q). right. lia.
  - subst l'. destruct (Nat.lt_ge_cases b b'); [right|left]; unfold p, q; nia.
  - pose proof (start_mono ls sz (S l') l Q). left. lia.
Qed.

(** The order chosen for precomputed rotations is the largest expansion order in use whose
    memory estimate is below the cutoff; a level uses them only if its order does not exceed it. *)
Theorem C77_rotation_order : forall supported nangles cutoff level_orders,
  match rotation_matrix_order supported nangles cutoff level_orders with
  | Z.neg _ => forall lev, In lev level_orders -> uses_rotations (rotation_matrix_order supported nangles cutoff level_orders) lev = false
  | r => supported = true /\ 0 < nangles /\ In (Z.to_nat r) level_orders /\
         8 * (Z.to_nat r + 1) ^ 2 * (2 * Z.to_nat r + 1) * nangles < cutoff /\
         (forall o, In o level_orders -> 8 * (o + 1) ^ 2 * (2 * o + 1) * nangles < cutoff -> o <= Z.to_nat r) /\
         (forall o, uses_rotations r o = true <-> o <= Z.to_nat r)
  end.
Proof.
  intros s n c lo.
  assert (NEG : forall lev, uses_rotations (-1) lev = false) by (intros lev; unfold uses_rotations; apply Z.leb_gt; lia).
  unfold rotation_matrix_order. destruct s; simpl negb; cbv iota; [|auto].
  destruct (Nat.eqb_spec n 0) as [->|Hn]; [auto|].
  pose proof (find_desc (fun order => mem_estimate n order <? c) _ (sort_desc_desc lo)) as F.
  destruct (find _ (sort_desc lo)) as [o|]; [|auto].
  destruct F as [F1 [F2 F3]]. apply (Permutation_in _ (sort_desc_perm lo)) in F1. apply Nat.ltb_lt in F2.
  assert (EST : forall o, 8 * (o + 1) ^ 2 * (2 * o + 1) * n = mem_estimate n o).
  { intros. unfold mem_estimate. rewrite Nat.pow_2_r. lia. }
  assert (G : forall r, r = Z.of_nat o -> true = true /\ 0 < n /\ In (Z.to_nat r) lo /\
         8 * (Z.to_nat r + 1) ^ 2 * (2 * Z.to_nat r + 1) * n < c /\
         (forall o, In o lo -> 8 * (o + 1) ^ 2 * (2 * o + 1) * n < c -> o <= Z.to_nat r) /\
         (forall o, uses_rotations r o = true <-> o <= Z.to_nat r)).
  { intros r ->. rewrite Nat2Z.id. split; auto. split; [lia|]. split; auto. rewrite EST. split; auto. split.
    - intros o' Ho'. rewrite EST. intros Q. apply F3; [|apply Nat.ltb_lt; auto].
      apply (Permutation_in _ (Permutation_sym (sort_desc_perm lo))). auto.
    - intros o'. unfold uses_rotations. rewrite Z.leb_le. lia. }
  destruct (Z.of_nat o) as [|q|q] eqn:E; [apply G; auto|apply G; auto|]. lia.
Qed.

(** ** C78: gradients.  Asking for gradients (ifgrad) should give the potential and its gradient
    at every target; instead the evaluation stops with an IndexError for every set of targets. *)
Theorem C78_refuted_gradients_fail : forall dim ntargets counts, nsum counts = ntargets -> 0 < ntargets ->
  eval_direct_runs true dim ntargets counts = false.
Proof.
  intros d n counts E H. unfold eval_direct_runs. destruct (forallb _ counts) eqn:F; auto. exfalso.
  rewrite forallb_forall in F.
  assert (X : exists c, In c counts /\ c <> 0).
  { clear F. revert n E H. induction counts as [|c l IH]; intros n E H; [simpl in E; lia|].
    destruct c as [|c]; [|exists (S c); split; [left; auto|lia]].
    cbn in E. destruct (IH n E H) as [x [A B]]. exists x. split; [right|]; auto. }
  destruct X as [c [Hc Nc]]. specialize (F c Hc). destruct (Nat.eqb_spec c 0); [lia|]. discriminate.
Qed.
(** Even if they were added up, bringing the result into user order would fail for more than
    dim+1 targets. *)
Theorem C78_refuted_reordering : forall dim ntargets sorted_target_ids,
  Permutation sorted_target_ids (seq 0 ntargets) -> dim + 1 < ntargets ->
  reorder_potentials_runs (output_zeros true dim ntargets) sorted_target_ids = false.
Proof.
  intros d n ids P H. unfold reorder_potentials_runs, output_zeros. rewrite repeat_length.
  destruct (forallb _ ids) eqn:F; auto. exfalso. rewrite forallb_forall in F.
  assert (X : In (d + 1) ids). { apply (Permutation_in _ (Permutation_sym P)). apply in_seq. lia. }
  specialize (F _ X). apply Nat.ltb_lt in F. lia.
Qed.
(** Without gradients neither fails. *)
Theorem C78_potentials_only : forall dim ntargets counts sorted_target_ids,
  Permutation sorted_target_ids (seq 0 ntargets) ->
  eval_direct_runs false dim ntargets counts = true /\
  reorder_potentials_runs (output_zeros false dim ntargets) sorted_target_ids = true.
Proof.
  intros d n counts ids P. split; apply forallb_forall.
  - intros c _. destruct (c =? 0); reflexivity.
  - intros i Hi. apply Nat.ltb_lt. apply (Permutation_in _ P) in Hi. apply in_seq in Hi. simpl. lia.
Qed.

(** ** Non-vacuity: five levels of a quadtree, orders growing towards the root, Helmholtz. *)
Definition ex_starts (l : nat) : nat := nth l [0; 1; 5; 9; 17; 29] 0.
Definition ex_sizes (l : nat) : nat := match expansion_size 2 HELMHOLTZ (9 - 2 * l) with Some s => s | None => 0 end.
Example ex_level_ranges : level_ranges 29 5 ex_starts /\ on_level ex_starts 3 12 /\
  expansions_level_starts 5 ex_starts ex_sizes = [0; 19; 79; 123; 179; 215].
Proof.
  split; [|split; [unfold on_level, ex_starts; simpl; lia|reflexivity]].
  split; [reflexivity|]. split; [reflexivity|]. intros l Hl. do 5 (destruct l as [|l]; [cbn; lia|]). lia.
Qed.
Example ex_write_read :
  match expansion_set 5 ex_starts ex_sizes (seq 100 215) 3 12 (seq 0 7) with
  | Some a => (expansion_get 5 ex_starts ex_sizes a 3 12, expansion_get 5 ex_starts ex_sizes a 3 13,
               expansion_get 5 ex_starts ex_sizes a 4 17)
  | None => (None, None, None) end =
  (Some (seq 0 7), Some (seq 251 7), Some (seq 279 3)).
Proof. vm_compute. reflexivity. Qed.
Example ex_rotation_order :
  rotation_matrix_order true 2 3000 [9; 7; 5; 3; 1] = 3%Z /\ rotation_matrix_order true 2 300 [9; 7] = (-1)%Z.
Proof. split; vm_compute; reflexivity. Qed.
Example ex_gradients : eval_direct_runs true 2 7 [3; 0; 4] = false /\ eval_direct_runs false 2 7 [3; 0; 4] = true.
Proof. split; reflexivity. Qed.

Print Assumptions C77_reshapes_succeed.
Print Assumptions C77_in_bounds.
Print Assumptions C77_disjoint.
Print Assumptions C77_no_waste.
Print Assumptions C77_views_are_independent.
Print Assumptions C77_rotation_order.
Print Assumptions C78_refuted_gradients_fail.
Print Assumptions C78_refuted_reordering.
Print Assumptions C78_potentials_only.
