(** Proofs about ParticleLists.v. *)
From Coq Require Import List Arith ZArith Lia Bool Permutation Sorted.
From Verif Require Import Base Tree Walk Traversal TraversalLists Fmm SpecFmm TreeBuild ArrayFacts ParticleLists.
Import ListNotations.

(** ** Permutations of 0..n-1 given as functions *)
Definition perm_fun (f : nat -> nat) (n : nat) : Prop := Permutation (map f (seq 0 n)) (seq 0 n).
Lemma perm_fun_lt f n i : perm_fun f n -> i < n -> f i < n.
Proof.
  intros P Hi. assert (H : In (f i) (seq 0 n)). { apply (Permutation_in _ P). apply in_map. apply in_seq. lia. }
  apply in_seq in H. lia.
Qed.
Lemma perm_fun_inj f n i j : perm_fun f n -> i < n -> j < n -> f i = f j -> i = j.
Proof.
  intros P Hi Hj E. assert (ND : NoDup (map f (seq 0 n))). { apply (Permutation_NoDup (Permutation_sym P)). apply seq_NoDup. }
  rewrite NoDup_nth with (d := f 0) in ND. apply ND; rewrite ?map_length, ?seq_length; auto.
  rewrite !map_nth, !seq_nth by auto. auto.
Qed.
Lemma perm_fun_onto f n k : perm_fun f n -> k < n -> exists i, i < n /\ f i = k.
Proof.
  intros P Hk. assert (H : In k (map f (seq 0 n))). { apply (Permutation_in _ (Permutation_sym P)). apply in_seq. lia. }
  apply in_map_iff in H. destruct H as [i [E Hi]]. apply in_seq in Hi. exists i. split; auto. lia.
Qed.
Lemma perm_seq_in order n i : Permutation order (seq 0 n) -> In i order <-> i < n.
Proof.
  intros P. split; intros H.
  - apply (Permutation_in _ P) in H. apply in_seq in H. lia.
  - apply (Permutation_in _ (Permutation_sym P)). apply in_seq. lia.
Qed.

(** ** Lookups *)
Lemma reverse_lookup_some f n i : perm_fun f n -> i < n -> reverse_index_lookup f n (f i) = Some i.
Proof.
  intros P Hi. unfold reverse_index_lookup. apply (scatter_map_in f (fun i => Some i)).
  - apply in_seq. lia.
  - intros y Hy E. apply in_seq in Hy. f_equal. apply (perm_fun_inj f n); auto; lia.
Qed.

Lemma find_box_nr_spec t starts counts n i b :
  owned_once t starts counts n -> i < n ->
  (find_box_nr (nboxes t) starts counts i = Some b <-> b < nboxes t /\ starts b <= i < starts b + counts b).
Proof.
  intros O Hi. unfold owned_once in O.
  assert (C1 : nsum (map (fun b => count i (seq (starts b) (counts b))) (seq 0 (nboxes t))) = 1).
  { assert (E := count_perm i _ _ O). rewrite count_concat, map_map in E. rewrite E.
    apply count_NoDup_In; [apply seq_NoDup|apply in_seq; lia]. }
  assert (EQ : forall b, count i (seq (starts b) (counts b)) = if (starts b <=? i) && (i <? starts b + counts b) then 1 else 0).
  { intros c. destruct ((starts c <=? i) && (i <? starts c + counts c)) eqn:E.
    - apply andb_true_iff in E. rewrite Nat.leb_le, Nat.ltb_lt in E. apply count_NoDup_In; [apply seq_NoDup|apply in_seq; lia].
    - apply count_notIn. intros H. apply in_seq in H. apply andb_false_iff in E. rewrite Nat.leb_gt, Nat.ltb_ge in E. lia. }
  rewrite (map_ext _ _ EQ) in C1.
  assert (L : length (boxes_meeting (nboxes t) starts counts i) = 1).
  { rewrite <- C1. unfold boxes_meeting. generalize (seq 0 (nboxes t)). intros l. clear.
    induction l as [|x l IH]; auto. cbn [filter map]. destruct ((starts x <=? i) && _); cbn [length nsum fold_right]; rewrite IH; reflexivity. }
  unfold find_box_nr. destruct (boxes_meeting (nboxes t) starts counts i) as [|c [|]] eqn:E; try discriminate L.
  assert (M : forall x, In x [c] <-> x < nboxes t /\ starts x <= i < starts x + counts x).
  { intros x. rewrite <- E. unfold boxes_meeting. rewrite filter_In, in_seq, andb_true_iff, Nat.leb_le, Nat.ltb_lt. lia. }
  split.
  - intros H. injection H as ->. apply M. left. auto.
  - intros H. apply M in H. destruct H as [->|[]]. auto.
Qed.
Lemma owned_range t starts counts n b : owned_once t starts counts n -> b < nboxes t -> 0 < counts b -> starts b + counts b <= n.
Proof.
  intros O Hb Hc. assert (H : In (starts b + counts b - 1) (seq 0 n)).
  { apply (Permutation_in _ O). apply in_concat. exists (seq (starts b) (counts b)). split; [|apply in_seq; lia].
    apply in_map_iff. exists b. split; auto. apply in_seq. lia. }
  apply in_seq in H. lia.
Qed.

(** ** Segments of a map by prefix sums *)
Lemma nsum_seq_S (f : nat -> nat) i : nsum (map f (seq 0 (S i))) = nsum (map f (seq 0 i)) + f i.
Proof. rewrite seq_S, map_app, nsum_app. cbn [map nsum fold_right]. simpl. lia. Qed.
Lemma nsum_seq_mono (f : nat -> nat) i j : i <= j -> nsum (map f (seq 0 i)) <= nsum (map f (seq 0 j)).
Proof. induction 1; auto. rewrite nsum_seq_S. lia. Qed.
(** if entry i of [g] occupies the segment of length [f i], the concatenated segments are one
    contiguous range *)
Lemma segments {A} (h : nat -> A) (f : nat -> nat) (g : nat -> list A) n :
  (forall i, i < n -> map h (seq (nsum (map f (seq 0 i))) (f i)) = g i) ->
  forall s m, s + m <= n ->
  map h (seq (nsum (map f (seq 0 s))) (nsum (map f (seq 0 (s + m))) - nsum (map f (seq 0 s)))) = flat_map g (seq s m).
Proof.
  intros H s m. induction m; intros L.
  - rewrite Nat.add_0_r, Nat.sub_diag. auto.
  - rewrite <- plus_n_Sm, nsum_seq_S, seq_S, flat_map_app. cbn [flat_map]. rewrite app_nil_r.
    rewrite <- H by lia. rewrite <- IHm by lia. rewrite <- map_app. f_equal.
    assert (X := nsum_seq_mono f s (s + m) ltac:(lia)).
    replace (nsum (map f (seq 0 (s + m))) + f (s + m) - nsum (map f (seq 0 s)))
      with ((nsum (map f (seq 0 (s + m))) - nsum (map f (seq 0 s))) + f (s + m)) by lia.
    rewrite seq_app. f_equal. f_equal. lia.
Qed.

Lemma filter_seq_sorted (q : nat -> bool) s n : StronglySorted lt (filter q (seq s n)).
Proof.
  revert s. induction n; intros s; cbn [seq filter]; [constructor|]. destruct (q s); auto. constructor; auto.
  apply Forall_forall. intros x Hx. apply filter_In in Hx. destruct Hx as [Hx _]. apply in_seq in Hx. lia.
Qed.

(** ** Target filtering *)
Section Filter.
Variable t : tree.
Variable p : particles.
Variable flags : nat -> bool.
Variable order : list nat.
Variable junk : nat.
Let nt := ntargets p.
Hypothesis PS : perm_fun (sorted_target_ids p) nt.
Hypothesis PO : Permutation order (seq 0 nt).

Lemma user_target_ids_inv j : j < nt -> user_target_ids p order (sorted_target_ids p j) = j.
Proof.
  intros Hj. apply (scatter_map_in (sorted_target_ids p) (fun j => j)); [apply (perm_seq_in _ _ _ PO); auto|].
  intros y Hy E. apply (perm_seq_in _ _ _ PO) in Hy. apply (perm_fun_inj (sorted_target_ids p) nt); auto.
Qed.
Lemma user_target_ids_lt k : k < nt -> user_target_ids p order k < nt /\ sorted_target_ids p (user_target_ids p order k) = k.
Proof.
  intros Hk. destruct (perm_fun_onto _ _ k PS Hk) as [j [Hj <-]]. rewrite user_target_ids_inv by auto. auto.
Qed.
Lemma user_order_list_eq b :
  user_order_list p flags order b = filter flags (map (user_target_ids p order) (seq (box_target_starts p b) (box_target_counts_nonchild p b))).
Proof.
  unfold user_order_list. generalize (seq (box_target_starts p b) (box_target_counts_nonchild p b)). intros l.
  induction l as [|x l IH]; auto. cbn [flat_map map filter]. rewrite IH.
  destruct (flags _); auto.
Qed.
Lemma map_sorted_user_list b : (0 < box_target_counts_nonchild p b -> box_target_starts p b + box_target_counts_nonchild p b <= nt) ->
  map (sorted_target_ids p) (user_order_list p flags order b) =
  filter (fun k => flags (user_target_ids p order k)) (seq (box_target_starts p b) (box_target_counts_nonchild p b)).
Proof.
  intros R. rewrite user_order_list_eq.
  assert (L : forall k, In k (seq (box_target_starts p b) (box_target_counts_nonchild p b)) -> k < nt).
  { intros k Hk. apply in_seq in Hk. lia. }
  revert L. generalize (seq (box_target_starts p b) (box_target_counts_nonchild p b)). intros l.
  induction l as [|x l IH]; intros L; auto. cbn [map filter].
  assert (IH' := IH (fun k Hk => L k (or_intror Hk))).
  destruct (flags (user_target_ids p order x)); cbn [map]; rewrite IH'; auto.
  f_equal. apply user_target_ids_lt. apply L. left. auto.
Qed.
Lemma user_list_in b j : (0 < box_target_counts_nonchild p b -> box_target_starts p b + box_target_counts_nonchild p b <= nt) ->
  In j (user_order_list p flags order b) <->
  j < nt /\ flags j = true /\ box_target_starts p b <= sorted_target_ids p j < box_target_starts p b + box_target_counts_nonchild p b.
Proof.
  intros R. rewrite user_order_list_eq, filter_In, in_map_iff. split.
  - intros [[k [<- Hk]] F]. apply in_seq in Hk. destruct (user_target_ids_lt k ltac:(lia)) as [H1 H2]. rewrite H2. repeat split; auto; lia.
  - intros [H1 [H2 H3]]. split; auto. exists (sorted_target_ids p j). split; [apply user_target_ids_inv; auto|apply in_seq; lia].
Qed.

(** tree order *)
Lemma tof_eq j : j < nt -> tree_order_flags p flags order (sorted_target_ids p j) = flags j.
Proof.
  intros Hj. apply (scatter_map_in (sorted_target_ids p) flags); [apply (perm_seq_in _ _ _ PO); auto|].
  intros y Hy E. apply (perm_seq_in _ _ _ PO) in Hy. f_equal. apply (perm_fun_inj (sorted_target_ids p) nt); auto.
Qed.
Notation tof := (tree_order_flags p flags order).
Notation prev := (prev_item p flags order).
Lemma prev_S i : prev (S i) = prev i + if tof i then 1 else 0.
Proof. unfold prev_item. rewrite nsum_seq_S. auto. Qed.
Lemma prev_mono i j : i <= j -> prev i <= prev j.
Proof. apply nsum_seq_mono. Qed.
Lemma nfiltered_eq : nfiltered p flags order = prev nt.
Proof. unfold nfiltered, nt. destruct (ntargets p); auto. Qed.
Lemma unf_prev i : i < nt -> tof i = true -> unfiltered_from_filtered p flags order (prev i) = i.
Proof.
  intros Hi T. unfold unfiltered_from_filtered. apply scatter_in_eq.
  - apply in_flat_map. exists i. split; [apply (perm_seq_in _ _ _ PO); auto|].
    destruct (Nat.eqb_spec (prev (S i)) (prev i)) as [E|]; [|left; auto]. rewrite prev_S, T in E. lia.
  - intros k Hk. apply in_flat_map in Hk. destruct Hk as [k' [_ Hk]].
    destruct (Nat.eqb_spec (prev (S k')) (prev i)) as [E|E]; [destruct (Nat.eqb_spec (prev (S k')) (prev k')); [contradiction|]|].
    + destruct Hk as [Hk|[]]. injection Hk as E1 ->. lia.
    + destruct (Nat.eqb_spec (prev (S k')) (prev k')) as [|N]; [contradiction|]. destruct Hk as [Hk|[]]. injection Hk as E1 ->.
      destruct (Nat.lt_trichotomy k i) as [C|[C|C]]; auto.
      * assert (X := prev_mono (S k) i C). assert (Y := prev_mono k (S k) ltac:(lia)). lia.
      * assert (X := prev_mono (S i) k C). rewrite prev_S, T in X. lia.
Qed.
Lemma unf_segment s n : s + n <= nt ->
  map (unfiltered_from_filtered p flags order) (seq (prev s) (prev (s + n) - prev s)) = filter tof (seq s n).
Proof.
  intros L. unfold prev_item.
  rewrite (segments _ _ (fun i => if tof i then [i] else []) nt); auto.
  - induction (seq s n) as [|x l IH]; auto. cbn [flat_map filter]. rewrite IH. destruct (tof x); auto.
  - intros i Hi. destruct (tof i) eqn:T; auto. cbn [seq map]. f_equal. apply unf_prev; auto.
Qed.
Lemma unf_all : map (unfiltered_from_filtered p flags order) (seq 0 (nfiltered p flags order)) = filter tof (seq 0 nt).
Proof. rewrite nfiltered_eq. rewrite <- (unf_segment 0 nt) by lia. cbn [prev_item]. change (prev 0) with 0. rewrite Nat.sub_0_r. auto. Qed.
Lemma box_segment b : (0 < box_target_counts_nonchild p b -> box_target_starts p b + box_target_counts_nonchild p b <= nt) ->
  map (unfiltered_from_filtered p flags order) (seq (filtered_starts p flags order junk b) (filtered_counts p flags order junk b)) =
  filter tof (seq (box_target_starts p b) (box_target_counts_nonchild p b)).
Proof.
  intros R. unfold filtered_counts. destruct (Nat.ltb_spec 0 (box_target_counts_nonchild p b)) as [C|C].
  - rewrite <- unf_segment by auto. unfold filtered_starts, filtered_from_unfiltered, read. fold nt.
    rewrite (proj2 (Nat.ltb_lt (box_target_starts p b) nt)) by lia.
    destruct (Nat.ltb_spec (box_target_starts p b + box_target_counts_nonchild p b) nt); auto.
    rewrite nfiltered_eq. replace (box_target_starts p b + box_target_counts_nonchild p b) with nt by lia. auto.
  - replace (box_target_counts_nonchild p b) with 0 by lia. auto.
Qed.
Lemma tof_count : length (filter tof (seq 0 nt)) = length (filter flags (seq 0 nt)).
Proof.
  assert (P : Permutation (filter tof (seq 0 nt)) (map (sorted_target_ids p) (filter flags (seq 0 nt)))).
  { transitivity (filter tof (map (sorted_target_ids p) (seq 0 nt))).
    - assert (X := Permutation_sym PS). clear - X. induction X; cbn [filter]; auto.
      + destruct (tof x); auto.
      + destruct (tof x), (tof y); auto. constructor.
      + etransitivity; eauto.
    - assert (X : forall l, (forall j, In j l -> j < nt) -> filter tof (map (sorted_target_ids p) l) = map (sorted_target_ids p) (filter flags l)).
      { induction l as [|x l IH]; intros L; auto. cbn [map filter]. rewrite tof_eq by (apply L; left; auto).
        rewrite (IH (fun k Hk => L k (or_intror Hk))). destruct (flags x); auto. }
      rewrite X; auto. intros j Hj. apply in_seq in Hj. lia. }
  rewrite (Permutation_length P), map_length. auto.
Qed.
Lemma in_tof k : In k (filter tof (seq 0 nt)) <-> exists j, j < nt /\ flags j = true /\ sorted_target_ids p j = k.
Proof.
  rewrite filter_In, in_seq. split.
  - intros [Hk T]. destruct (perm_fun_onto _ _ k PS ltac:(lia)) as [j [Hj <-]]. rewrite tof_eq in T by auto. exists j; auto.
  - intros [j [Hj [F <-]]]. rewrite tof_eq by auto. split; auto. assert (X := perm_fun_lt _ _ j PS Hj). lia.
Qed.
End Filter.

(** ** Linked point sources *)
Section Link.
Variable p : particles.
Variable pss : nat -> nat.
Variable order : list nat.
Variable junk : nat.
Let ns := nsources p.
Hypothesis PO : Permutation order (seq 0 ns).
Notation starts := (ps_starts p pss).
Notation ids := (user_point_source_ids p pss order).
Notation uid := (user_source_ids p).
(** the writes of a nonempty source survive *)
Hypothesis SEED : forall i, i < ns -> 0 < ps_input p pss i -> ps_seed p pss order (starts i) = pss (uid i).

Lemma starts_S i : starts (S i) = starts i + ps_input p pss i.
Proof. unfold ps_starts. apply nsum_seq_S. Qed.
Lemma starts_mono i j : i <= j -> starts i <= starts j.
Proof. apply nsum_seq_mono. Qed.
Lemma ps_counts_eq i : ps_counts p pss i = ps_input p pss i.
Proof. unfold ps_counts. rewrite starts_S. lia. Qed.
Lemma nps_eq : npoint_sources p pss = starts ns.
Proof. unfold npoint_sources, ns. destruct (nsources p); auto. Qed.
Lemma ids_block i k : i < ns -> k < ps_input p pss i -> ids (starts i + k) = pss (uid i) + k.
Proof.
  intros Hi. induction k; intros Hk.
  - rewrite !Nat.add_0_r. rewrite <- SEED by (auto; lia). unfold user_point_source_ids.
    destruct (starts i) as [|x] eqn:E; auto. cbn [seg_scan].
    assert (B : source_boundaries p pss order (S x) = true).
    { rewrite <- E. apply (scatter_map_in starts (fun _ => true)); auto. apply (perm_seq_in _ _ _ PO); auto. }
    rewrite B. auto.
  - rewrite <- plus_n_Sm. unfold user_point_source_ids in *. cbn [seg_scan]. rewrite IHk by lia.
    assert (N : forall j, starts j <> S (starts i + k)).
    { intros j E. destruct (Nat.le_gt_cases j i) as [C|C].
      - assert (X := starts_mono j i C). lia.
      - assert (X := starts_mono (S i) j C). rewrite starts_S in X. lia. }
    assert (B : source_boundaries p pss order (S (starts i + k)) = false).
    { apply (scatter_map_notin starts (fun _ => true)). intros j _. apply N. }
    rewrite B. assert (S1 : ps_seed p pss order (S (starts i + k)) = 1).
    { etransitivity; [apply (scatter_map_notin starts (fun i => pss (uid i)) order (fun _ => 1)); intros j _; apply N|reflexivity]. }
    rewrite S1. lia.
Qed.
Definition own_points (i : nat) : list nat := seq (pss (uid i)) (ps_input p pss i).
Lemma ids_source i : i < ns -> map ids (seq (starts i) (ps_input p pss i)) = own_points i.
Proof.
  intros Hi. unfold own_points. assert (H : forall k, k < ps_input p pss i -> ids (starts i + k) = pss (uid i) + k) by (intros; apply ids_block; auto).
  revert H. generalize (ps_input p pss i) as n. generalize (starts i) as a. generalize (pss (uid i)) as c. clear. intros c a n. revert a c.
  induction n; intros a c H; auto. cbn [seq map]. f_equal; [assert (X := H 0 ltac:(lia)); rewrite !Nat.add_0_r in X; auto|].
  apply IHn. intros k Hk. assert (X := H (S k) ltac:(lia)). rewrite <- !plus_n_Sm in X. auto.
Qed.
Lemma ids_range s m : s + m <= ns -> map ids (seq (starts s) (starts (s + m) - starts s)) = flat_map own_points (seq s m).
Proof. unfold ps_starts. apply (segments ids (ps_input p pss) own_points ns). intros i Hi. apply ids_source; auto. Qed.
Lemma ids_all : map ids (seq 0 (npoint_sources p pss)) = flat_map own_points (seq 0 ns).
Proof. rewrite nps_eq. rewrite <- (ids_range 0 ns) by lia. change (starts 0) with 0. rewrite Nat.sub_0_r. auto. Qed.
Lemma ids_box bs cs b : (0 < cs b -> bs b + cs b <= ns) ->
  map ids (seq (box_ps_starts p pss junk bs b) (box_ps_counts p pss junk bs cs b)) = flat_map own_points (seq (bs b) (cs b)).
Proof.
  intros R. unfold box_ps_counts. destruct (Nat.eqb_spec (cs b) 0) as [E|E]; [rewrite E; auto|].
  rewrite <- ids_range by lia. unfold box_ps_starts, read. fold ns.
  rewrite !(proj2 (Nat.ltb_lt _ ns)) by lia. rewrite ps_counts_eq, <- starts_S.
  replace (S (bs b + cs b - 1)) with (bs b + cs b) by lia. auto.
Qed.
End Link.

Lemma own_points_perm p pss : perm_fun (user_source_ids p) (nsources p) -> pss 0 = 0 -> (forall i, i < nsources p -> pss i <= pss (S i)) ->
  Permutation (flat_map (own_points p pss) (seq 0 (nsources p))) (seq 0 (pss (nsources p))).
Proof.
  intros P Z0 M. unfold own_points, ps_input.
  set (g := fun u => seq (pss u) (pss (S u) - pss u)).

  assert (E : flat_map (fun i => seq (pss (user_source_ids p i)) (pss (S (user_source_ids p i)) - pss (user_source_ids p i))) (seq 0 (nsources p))
     = flat_map g (map (user_source_ids p) (seq 0 (nsources p)))).
  { clear P. induction (seq 0 (nsources p)) as [|x l IH]; auto. cbn [flat_map map]. rewrite IH. auto. }
  rewrite E. transitivity (flat_map g (seq 0 (nsources p))); [apply Permutation_flat_map; exact P|].
  assert (X : forall n, n <= nsources p -> flat_map g (seq 0 n) = seq 0 (pss n)).
  { induction n; intros L; [rewrite Z0; auto|]. rewrite seq_S, flat_map_app, IHn by lia. cbn [flat_map]. rewrite app_nil_r. unfold g. simpl plus.
    assert (Y := M n ltac:(lia)). replace (pss (S n)) with (pss n + (pss (S n) - pss n)) at 2 by lia. rewrite seq_app. auto. }
  rewrite X; auto.
Qed.
Lemma seed_positive p pss order : Permutation order (seq 0 (nsources p)) ->
  (forall i, i < nsources p -> 0 < ps_input p pss i) ->
  forall i, i < nsources p -> ps_seed p pss order (ps_starts p pss i) = pss (user_source_ids p i).
Proof.
  intros PO POS i Hi. apply (scatter_map_in (ps_starts p pss) (fun i => pss (user_source_ids p i))); [apply (perm_seq_in _ _ _ PO); auto|].
  intros j Hj E. apply (perm_seq_in _ _ _ PO) in Hj. f_equal. f_equal.
  destruct (Nat.lt_trichotomy j i) as [C|[C|C]]; auto.
  - assert (X := starts_mono p pss (S j) i C). rewrite starts_S in X. specialize (POS j Hj). lia.
  - assert (X := starts_mono p pss (S i) j C). rewrite starts_S in X. specialize (POS i Hi). lia.
Qed.
Lemma seed_sequential p pss i : i < nsources p -> 0 < ps_input p pss i ->
  ps_seed p pss (seq 0 (nsources p)) (ps_starts p pss i) = pss (user_source_ids p i).
Proof.
  intros Hi Hp. unfold ps_seed. replace (nsources p) with (i + S (nsources p - S i)) by lia. rewrite seq_app, map_app, scatter_app.
  cbn [seq map plus]. change (?x :: ?l) with ([x] ++ l) at 1. rewrite scatter_app.
  rewrite (scatter_map_notin (ps_starts p pss) (fun i => pss (user_source_ids p i))).
  - unfold scatter at 1. cbn [fold_left fst snd]. rewrite Nat.eqb_refl. auto.
  - intros j Hj E. apply in_seq in Hj. assert (X := starts_mono p pss (S i) j ltac:(lia)). rewrite starts_S in X. lia.
Qed.
