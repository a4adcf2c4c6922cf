(** Pruning boxes after the level loop, on the device (BuildDeviceEnd.v): the arrays hold what
    [prune] of TreeBuild.v says. *)
From Coq Require Import List Arith ZArith NArith Lia Bool Permutation.
From Verif Require Import Base Tree Walk Traversal Fmm TreeBuild ArrayFacts Kernel Device DeviceRules DeviceFacts BuildDevice
  BuildDeviceEnd BuildInv BuildScan BuildIds BuildSort BuildAdvance BuildRenumber BuildStep BuildNext BuildLoop BuildDone
  BuildTerm BuildPrune BuildFull BuildView DevMorton DevTrip DevTake.
Import ListNotations.

Ltac not_written := solve [cbn beta; unfold scan_array; let E := fresh in intros E; decompose [or ex and] E; discriminate |
  cbn beta; intros ?; discriminate | cbn beta; intros []].
(** facts about [K] become facts about [K'] *)
Ltac refresh KE K K' :=
  repeat match goal with
  | H : has K ?b ?m ?n ?f |- _ =>
      let H' := fresh in
      (assert (H' : has K' b m n f) by (apply KE; [not_written|exact H])); clear H; rename H' into H
  | H : ?P -> has K ?b ?m ?n ?f |- _ =>
      let H' := fresh in
      (assert (H' : P -> has K' b m n f) by (intros ?X; apply KE; [not_written|apply H; assumption])); clear H; rename H' into H
  | H : forall x, x < ?c -> has K (@?b x) ?m ?n (@?f x) |- _ =>
      let H' := fresh in
      (assert (H' : forall x, x < c -> has K' (b x) m n (f x)) by (intros ? ?; apply KE; [not_written|apply H; assumption]));
      clear H; rename H' into H; cbn beta in H
  end.
(** a launch work item: one step *)
Ltac ld H := first [apply (item_load _ _ _ _ _ _ _ _ _ H)|apply (stores_load _ _ _ _ _ _ _ _ _ _ H)].

Lemma seq_parts m l0 x l' : seq 0 m = l0 ++ x :: l' -> x = length l0 /\ m = length l0 + S (length l').
Proof.
  intros E. assert (EL := f_equal (@length nat) E). rewrite seq_length, app_length in EL. cbn [length] in EL.
  split; [|lia]. assert (EN := f_equal (fun l => nth (length l0) l 0) E). cbn beta in EN. rewrite seq_nth in EN by lia.
  rewrite app_nth2, Nat.sub_diag in EN by lia. cbn [nth] in EN. lia.
Qed.
Lemma filter_rank (p : nat -> bool) n i : i < n -> p i = true ->
  nth (cnt p i) (filter p (seq 0 n)) 0 = i /\ cnt p i < length (filter p (seq 0 n)).
Proof.
  intros Hi Pi. rewrite (seq_split n i) by lia. replace (n - i) with (S (n - S i)) by lia.
  cbn [seq]. rewrite filter_app, app_length. unfold cnt. cbn [filter]. rewrite Pi. cbn [length].
  split; [|lia]. rewrite app_nth2, Nat.sub_diag by auto. reflexivity.
Qed.
Lemma cnt_S p n : cnt p (S n) = cnt p n + (if p n then 1 else 0).
Proof. unfold cnt. rewrite seq_S, filter_app, app_length. cbn [plus filter]. destruct (p n); auto. Qed.
Lemma seg_scan_flags {A} (s s' : nat -> bool) (op : A -> A -> A) f k :
  (forall i, S i <= k -> s (S i) = s' (S i)) -> seg_scan s op f k = seg_scan s' op f k.
Proof.
  induction k as [|k IH]; intros H; cbn [seg_scan]; auto. rewrite (H k) by lia. rewrite IH by (intros i Hi; apply H; lia). auto.
Qed.
Lemma scan_count_plain (p : nat -> bool) k :
  seg_scan (fun _ => false) Z.add (fun i => bool_z (p i)) k = z (cnt p (S k)).
Proof.
  transitivity (seg_scan (fun _ => false) Z.add (fun i => z (if p i then 1 else 0)) k).
  - apply seg_scan_ext_le; auto. intros i _. destruct (p i); auto.
  - rewrite seg_scan_z, seg_scan_count. rewrite (seg_begin_eq _ k 0) by (auto; lia). unfold cntr, cnt. rewrite Nat.sub_0_r. auto.
Qed.
Lemma z_eqb a b : (z a =? z b)%Z = (a =? b).
Proof. destruct (Nat.eqb_spec a b); [subst; apply Z.eqb_refl|apply Z.eqb_neq; lia]. Qed.
Lemma z_eqb0 a : (z a =? 0)%Z = (a =? 0).
Proof. apply (z_eqb a 0). Qed.

(** ** Reading an array *)
Lemma peek_all_ok {R} K a m (g : nat -> nat) (Q : R -> device parray -> Prop) : has K a m m (fun k => z (g k)) ->
  forall n k (next : list nat -> host parray R), n + k <= m -> okp K (next (map g (seq k n))) Q -> okp K (peek_all a n k next) Q.
Proof.
  intros H. induction n as [|n IH]; intros k next B O; cbn [peek_all]; auto.
  apply (ok_peek parray parray_eq _ _ _ (z m) (z (g k))); [apply H|lia|apply H; lia|].
  apply IH; [lia|]. rewrite Nat2Z.id. exact O.
Qed.

Section Prune.
Variable inp : input.
Variable st : state.
Variable pth : nat -> list nat.
Hypothesis F : fin inp st pth.
Notation np := (npart inp).
Notation nch := (nchild inp).
Notation nlm := (nlevels_max inp).
Notation g := (s_guess st).
Hypothesis NPOS : 0 < np.
Hypothesis FT : fits inp st.
Let I : inv inp st pth := f_inv inp st pth F.
Let Y : layout st := i_layout inp st pth I.
Notation N := (lst st (nlev st)).
Notation src := (src_boxes inp st).
Notation dst := (dst_boxes (src_boxes inp st)).
Notation old := (old inp st).
Notation keep := (keep inp st).
Notation n := (length (src_boxes inp st)).
Notation ps := (prune inp st).

(** ** What is known after the level loop *)
Record loop_facts (K : knownp) : Prop := {
  lf_user : has K (Kept UserIds) np np (fun i => z (s_user st i));
  lf_box : has K (Kept BoxIds) np np (fun i => z (s_box st i));
  lf_start : has K (Kept Starts) g g (fun b => z (s_start st b));
  lf_cumul : has K (Kept Counts) g g (fun b => z (s_cumul st b));
  lf_bin : have_extent inp = true -> has K (Kept (BoxBin (Cnt 0))) g g (fun b => z (s_bins st b 0));
  lf_parent : has K (Kept Parents) g g (fun b => z (s_parent st b));
  lf_level : has K (Kept Levels) g g (fun b => z (s_blevel st b));
  lf_marks : has K (Kept HasChildren) g g (fun b => bool_z (s_has_children st b));
  lf_child : forall m, m < nch -> has K (Kept (Children m)) g g (fun b => z (s_child st m b));
  lf_center : forall a, a < idim inp -> has K (Kept (Centers a)) g g (fun b => s_center st b a);
  lf_used : has K (Kept LevelUsed) nlm nlm (fun l => z (nth l (s_used st) 0));
  lf_lstart : has K (Kept LevelStarts) nlm 0 (fun _ => 0%Z);
  lf_coords : forall a, a < idim inp -> has K (Kept (Coords a)) np np (fun u => coord inp u a);
  lf_radii : have_extent inp = true -> has K (Kept Radii) np np (rad_of inp)
}.
(** lengths of the box arrays afterwards *)
Definition box_room : nat := if was_pruned inp then n else g.
Record pruned_facts (K : knownp) : Prop := {
  pf_user : has K (Kept UserIds) np np (fun i => z (p_user ps i));
  pf_box : has K (Kept BoxIds) np np (fun i => z (p_box ps i));
  pf_start : has K (Kept Starts) box_room n (fun b => z (p_start ps b));
  pf_cumul : has K (Kept Counts) box_room n (fun b => z (p_cumul ps b));
  pf_nonchild : have_extent inp = true -> has K Nonchild n n (fun b => z (p_nonchild ps b));
  pf_parent : has K (Kept Parents) box_room n (fun b => z (p_parent ps b));
  pf_level : has K (Kept Levels) box_room n (fun b => z (p_blevel ps b));
  pf_marks : has K (Kept HasChildren) box_room n (fun b => bool_z (p_has_children ps b));
  pf_child : forall m, m < nch -> has K (Kept (Children m)) box_room n (fun b => z (p_child ps m b));
  pf_center : forall a, a < idim inp -> has K (Kept (Centers a)) box_room n (fun b => p_center ps b a);
  pf_coords : forall a, a < idim inp -> has K (Kept (Coords a)) np np (fun u => coord inp u a);
  pf_radii : have_extent inp = true -> has K (Kept Radii) np np (rad_of inp)
}.

Lemma last_N : last (s_lstart st) 0 = N.
Proof. exact (nboxes_built_eq inp st pth F). Qed.
Lemma N_le : N <= g.
Proof. rewrite <- last_N. apply FT. Qed.
Lemma nlev_lt : S (nlev st) <= nlm.
Proof. rewrite <- (lay_len st Y). apply FT. Qed.
Lemma N_pos : 0 < N.
Proof. assert (X := used_lt st Y 0 (used_0 st Y)). lia. Qed.
Lemma n_le : n <= N.
Proof. rewrite (src_filter inp st pth F). assert (X := cnt_le (keep) N). exact X. Qed.
Lemma old_lt j : j < n -> old j < N.
Proof. intros Hj. apply (old_in inp st), (in_src inp st pth F NPOS) in Hj. tauto. Qed.
Lemma p_at {A} (ary : nat -> A) zero j : j < n -> pruned src ary zero j = ary (old j).
Proof. intros Hj. unfold pruned. rewrite kernel_map_lt by auto. auto. Qed.
Lemma child_lt m b : used st b -> m < nch -> s_child st m b < N.
Proof.
  intros U Hm. destruct (Nat.eq_dec (s_child st 0 b) 0) as [E|E].
  - rewrite (i_leaf _ _ _ I) by auto. apply N_pos.
  - apply (used_lt st Y). apply (i_split _ _ _ I); auto.
Qed.
Lemma parent_lt b : used st b -> s_parent st b < N.
Proof.
  intros U. destruct (Nat.eq_dec b 0) as [->|E]; [rewrite (i_root_parent _ _ _ I); apply N_pos|].
  apply (used_lt st Y). apply (i_parent _ _ _ I); auto.
Qed.

(** ** Non-child counts *)
Lemma extract_ok {R} K (next : host parray R) Q : loop_facts K ->
  (forall K', loop_facts K' -> (have_extent inp = true -> has K' Nonchild N N (fun b => z (nonchild_counts inp st b))) -> okp K' next Q) ->
  okp K (extract_program inp (s_lstart st) next) Q.
Proof.
  intros L O. unfold extract_program. rewrite last_N. destruct (have_extent inp) eqn:HE.
  2:{ apply O; auto. discriminate. }
  apply ok_alloc; [lia|]. set (K1 := k_alloc _ _ K Nonchild (z N)).
  assert (KE : keeps (fun x => x = Nonchild) K K1) by (apply keeps_alloc; auto).
  destruct L. refresh KE K K1. assert (lb := lf_bin0 HE). assert (NG := N_le).
  apply launch_only with (a := Nonchild) (m := N) (f := fun b => z (nonchild_counts inp st b)) (cov := N); auto.
  - intros i Hi. unfold extract_item, nonchild_counts. rewrite HE.
    assert (ST : item_ok K1 (only Nonchild (fun k => Some (z (nonchild_counts inp st k)))) (Store Nonchild (z i) (z (nonchild_counts inp st i)) Finish)).
    { apply item_store with (m := N) (f := fun k => Some (z (nonchild_counts inp st k))); auto. exact Logic.I. }
    unfold nonchild_counts in ST. rewrite HE in ST. rewrite (nboxes_built_eq inp st pth F) in *. rewrite kernel_map_lt in ST by auto.
    destruct (Nat.leb_spec (nth (length (s_lstart st) - 2) (s_lstart st) 0) i) as [C|C].
    + destruct (Z.leb_spec (z (nth (length (s_lstart st) - 2) (s_lstart st) 0)) (z i)); [|lia]. exact ST.
    + destruct (Z.leb_spec (z (nth (length (s_lstart st) - 2) (s_lstart st) 0)) (z i)); [lia|].
      ld lf_cumul0; auto; [lia|]. cbv beta. rewrite z_eqb0. destruct (s_cumul st i =? 0); [exact ST|].
      ld lb; auto. lia.
  - intros k Hk. left. exists k. split; auto. unfold extract_item.
    destruct (Z.leb_spec (z (nth (length (s_lstart st) - 2) (s_lstart st) 0)) (z k)); [apply stores_here|].
    ld lf_cumul0; [lia|]. destruct (z (s_cumul st k) =? 0)%Z; [apply stores_here|].
    ld lb; [lia|]. apply stores_here.
  - intros K2 E2 H2. refresh E2 K1 K2. apply O; [|auto]. constructor; auto.
Qed.

(** ** Which boxes stay *)
Definition new_ids_facts (K : knownp) : Prop :=
  has K SrcIds N n (fun j => z (old j)) /\ has K NewIds N N (fun b => z (dst b)).
Definition scan_or (W : parray -> Prop) (x : parray) : Prop := scan_array x \/ W x.
Lemma rank_dst b : b < N -> keep b = true -> dst b = cnt keep b /\ old (cnt keep b) = b /\ cnt keep b < n.
Proof.
  intros Hb Kb. destruct (filter_rank keep N b Hb Kb) as [A B]. rewrite <- (src_filter inp st pth F) in A, B.
  split; auto. rewrite <- A at 1. apply (dst_old inp st pth F NPOS); auto.
Qed.
Lemma rank_old j : j < n -> cnt keep (old j) = j.
Proof.
  intros Hj. assert (X := rank_dst (old j) (old_lt j Hj) (old_keep inp st pth F NPOS j Hj)).
  destruct X as [X _]. rewrite <- X. apply (dst_old inp st pth F NPOS); auto.
Qed.
Lemma dst_drop b : b < N -> keep b = false -> dst b = 0.
Proof. intros Hb Kb. apply (dst_out inp st NPOS). intros X. apply (in_src inp st pth F NPOS) in X. destruct X as [_ X]. congruence. Qed.

Definition prune_writes (x : parray) : option (nat -> option Z) :=
  match x with
  | NewIds => Some (fun b => Some (z (dst b)))
  | SrcIds => Some (fun j => if j <? n then Some (z (old j)) else None)
  | NPost => Some (fun _ => Some (z n))
  | _ => None
  end.
Definition found (x : parray) : Prop := scan_array x \/ x = SrcIds \/ x = NewIds \/ x = NPost.
Lemma found_by_scan {R} K (next : nat -> host parray R) Q : skip_prune inp = false ->
  has K (Kept Counts) g g (fun b => z (s_cumul st b)) ->
  (forall K', keeps found K K' -> new_ids_facts K' -> okp K' (next n) Q) ->
  okp K (find_pruned inp (s_lstart st) (s_used st) next) Q.
Proof.
  intros SK HC O. unfold find_pruned. rewrite last_N, SK. cbn [negb].
  do 3 (apply ok_alloc; [lia|]). set (K1 := k_alloc _ _ (k_alloc _ _ (k_alloc _ _ K SrcIds (z N)) NewIds (z N)) NPost 1%Z).
  assert (KE : keeps found K K1).
  { eapply keeps_trans; [apply keeps_alloc|eapply keeps_trans; [apply keeps_alloc|apply keeps_alloc]]; unfold found; auto. }
  assert (HC1 : has K1 (Kept Counts) g g (fun b => z (s_cumul st b))) by (apply KE; auto; unfold found; not_written).
  assert (NG := N_le). assert (NP := N_pos).
  assert (KP : forall b, keep b = negb (s_cumul st b =? 0)) by (intros b; unfold BuildPrune.keep; rewrite SK; auto).
  apply scan_plain with (f := fun i => bool_z (keep i)).
  - intros K' i E L Hi. assert (HC2 : has K' (Kept Counts) g g (fun b => z (s_cumul st b))) by (apply E; auto; not_written).
    unfold prune_input. split.
    + ld HC2; auto; [lia|]. cbv beta. rewrite z_eqb0, <- KP.
      apply item_store with (m := N) (f := fun k => Some (bool_z (keep k))); auto. exact Logic.I.
    + ld HC2; [lia|]. apply stores_here.
  - intros K2 E2 HO. assert (HC2 : has K2 (Kept Counts) g g (fun b => z (s_cumul st b))) by (apply E2; auto; not_written).
    assert (HS2 : has K2 SrcIds N N (fun _ => 0%Z)).
    { apply E2; [not_written|]. do 2 (apply has_alloc_other; [discriminate|]). apply has_alloc_same; auto. }
    assert (HN2 : has K2 NewIds N N (fun _ => 0%Z)).
    { apply E2; [not_written|]. apply has_alloc_other; [discriminate|]. apply has_alloc_same; auto. }
    assert (HP2 : has K2 NPost 1 1 (fun _ => 0%Z)) by (apply E2; [not_written|]; apply (has_alloc_same parray parray_eq _ NPost 1 1); auto).
    apply (has_ext _ _ _ _ _ _ (fun k => z (cnt keep (S k)))) in HO.
    2:{ intros k Hk. apply scan_count_plain. }
    apply ok_launch_items with (F := prune_writes).
    + intros i Hi. unfold prune_output. ld HO; auto. cbv zeta beta. ld HC2; auto; [lia|]. cbv beta. rewrite z_eqb0.
      assert (LA : item_ok K2 prune_writes (if (i + 1 =? N)%nat then Store NPost 0%Z (z (cnt keep (S i))) Finish else Finish)).
      { destruct (Nat.eqb_spec (i + 1) N) as [E|E]; [|exact Logic.I].
        apply (item_store _ _ _ _ 0 _ _ 1 (fun _ => Some (z n))); auto; [apply HP2| |exact Logic.I].
        replace (S i) with N by lia. rewrite (src_filter inp st pth F). reflexivity. }
      destruct (s_cumul st i =? 0) eqn:C; auto. assert (Kb : keep i = true) by (rewrite KP, C; auto).
      destruct (rank_dst i Hi Kb) as [A [B D]]. rewrite cnt_S, Kb.
      replace (z (cnt keep i + 1) - 1)%Z with (z (cnt keep i)) by lia.
      apply item_store with (m := N) (f := fun b => Some (z (dst b))); auto; [apply HN2|rewrite A; auto|].
      apply item_store with (m := N) (f := fun j => if j <? n then Some (z (old j)) else None); auto.
      * apply HS2.
      * assert (X := n_le). lia.
      * destruct (Nat.ltb_spec (cnt keep i) n); [|lia]. rewrite B. auto.
      * rewrite cnt_S, Kb in LA. exact LA.
    + intros a f m k w E L B V. destruct a; try discriminate; injection E as <-.
      * (* SrcIds *) left. destruct (Nat.ltb_spec k n) as [Hk|]; [|discriminate]. assert (OL := old_lt k Hk).
        assert (OK := old_keep inp st pth F NPOS k Hk). exists (old k). split; auto. unfold prune_output.
        ld HO; auto. cbv zeta beta. ld HC2; [lia|]. cbv beta. rewrite z_eqb0. rewrite KP in OK. apply negb_true_iff in OK. rewrite OK.
        apply stores_later. rewrite cnt_S. rewrite KP, OK. cbn [negb]. rewrite (rank_old k Hk).
        replace (z (k + 1) - 1)%Z with (z k) by lia. apply stores_here.
      * (* NewIds *) rewrite (has_len _ _ _ _ _ _ HN2) in L. injection L as <-. destruct (keep k) eqn:Kb.
        -- left. exists k. split; [lia|]. unfold prune_output. ld HO; [lia|]. cbv zeta beta. ld HC2; [lia|]. cbv beta.
           rewrite z_eqb0. rewrite KP in Kb. apply negb_true_iff in Kb. rewrite Kb. apply stores_here.
        -- right. injection V as <-. rewrite dst_drop by (auto; lia). apply HN2. lia.
      * (* NPost *) rewrite (has_len _ _ _ _ _ _ HP2) in L. injection L as <-. assert (k = 0) by lia. subst k. left.
        exists (N - 1). split; [lia|]. unfold prune_output. ld HO; [lia|]. cbv zeta beta. ld HC2; [lia|]. cbv beta.
        replace (N - 1 + 1 =? N) with true by (symmetry; apply Nat.eqb_eq; lia).
        destruct (_ =? 0)%Z; [apply (stores_here parray K2 NPost 0)|]. do 2 apply stores_later. apply (stores_here parray K2 NPost 0).
    + apply (ok_peek parray parray_eq _ NPost 0 1%Z (z n)); [apply HP2|lia|reflexivity|]. rewrite Nat2Z.id. apply O.
      * intros b m k f NW H. apply has_upd_none.
        -- destruct b; auto; exfalso; apply NW; unfold found; auto.
        -- apply E2; [intros X; apply NW; left; auto|]. apply KE; auto.
      * split.
        -- apply has_upd_some with (g := fun j => if j <? n then Some (z (old j)) else None); auto; [apply HS2|apply n_le|].
           intros k Hk. destruct (Nat.ltb_spec k n); [auto|lia].
        -- apply has_upd_some with (g := fun b => Some (z (dst b))); auto. apply HN2.
Qed.

(** with skip_prune, boxes that were reserved but not used are removed (level restriction) *)
Definition ns (l : nat) : nat := nth l (prefix_from 0 (s_used st)) 0.
Lemma ns_nth l : l <= nlev st -> ns l = nsum (firstn l (s_used st)).
Proof. intros Hl. apply prefix_from_nth. exact Hl. Qed.
Lemma ns_S l : l < nlev st -> ns (S l) = ns l + usd st l.
Proof.
  intros Hl. rewrite !ns_nth by lia. unfold usd.
  assert (X : forall (u : list nat) k, k < length u -> nsum (firstn (S k) u) = nsum (firstn k u) + nth k u 0).
  { induction u as [|x u IH]; intros k Hk; [cbn in Hk; lia|]. destruct k as [|k].
    - cbn. lia.
    - change (firstn (S (S k)) (x :: u)) with (x :: firstn (S k) u). change (firstn (S k) (x :: u)) with (x :: firstn k u).
      change (nsum (x :: firstn (S k) u)) with (x + nsum (firstn (S k) u)). change (nsum (x :: firstn k u)) with (x + nsum (firstn k u)).
      cbn [length] in Hk. rewrite IH by lia. cbn [nth]. lia. }
  apply X. exact Hl.
Qed.
Lemma seg_length k : k <= nlev st -> length (concat (map (fun l => seq (lst st l) (usd st l)) (seq 0 k))) = ns k.
Proof.
  induction k as [|k IH]; intros Hk; [rewrite ns_nth by lia; reflexivity|]. rewrite seq_S, map_app, concat_app, app_length, IH by lia.
  cbn [map concat plus]. rewrite app_nil_r, seq_length. symmetry. apply ns_S. lia.
Qed.
Lemma src_segments : skip_prune inp = true -> level_restrict inp = true ->
  src = concat (map (fun l => seq (lst st l) (usd st l)) (seq 0 (nlev st))).
Proof. intros SK LR. unfold src_boxes. rewrite SK, LR. reflexivity. Qed.
Lemma seg_old l t : skip_prune inp = true -> level_restrict inp = true -> l < nlev st -> t < usd st l ->
  old (ns l + t) = lst st l + t /\ ns l + t < n.
Proof.
  intros SK LR Hl Ht. unfold BuildPrune.old. rewrite (src_segments SK LR).
  assert (E : seq 0 (nlev st) = seq 0 l ++ l :: seq (S l) (nlev st - S l)).
  { rewrite (seq_split (nlev st) l) by lia. replace (nlev st - l) with (S (nlev st - S l)) by lia. reflexivity. }
  rewrite E, map_app, concat_app. cbn [map concat]. rewrite app_length, app_length, seq_length. rewrite (seg_length l) by lia.
  split; [|lia]. rewrite app_nth2 by (rewrite (seg_length l) by lia; lia). rewrite (seg_length l) by lia.
  rewrite app_nth1 by (rewrite seq_length; lia). rewrite seq_nth by lia. lia.
Qed.
Lemma n_ns : skip_prune inp = true -> level_restrict inp = true -> n = ns (nlev st).
Proof. intros SK LR. rewrite (src_segments SK LR). apply seg_length. auto. Qed.
Lemma ns_seg j k : k <= nlev st -> j < ns k -> exists l, l < k /\ ns l <= j < ns l + usd st l.
Proof.
  induction k as [|k IH]; intros Hk Hj; [rewrite ns_nth in Hj by lia; cbn in Hj; lia|]. rewrite ns_S in Hj by lia.
  destruct (Nat.lt_ge_cases j (ns k)) as [C|C].
  - destruct IH as [l [A B]]; try lia. exists l. split; [lia|auto].
  - exists k. split; lia.
Qed.
Lemma ns_mono a b : a <= b -> b <= nlev st -> ns a <= ns b.
Proof. intros H. induction H as [|b H IH]; intros B; auto. rewrite ns_S by lia. assert (X := IH ltac:(lia)). lia. Qed.
Lemma last_ns : last (prefix_from 0 (s_used st)) 0 = ns (nlev st).
Proof. rewrite last_nth, prefix_from_length. unfold ns. f_equal. unfold nlev. lia. Qed.

Lemma found_by_levels {R} K (next : nat -> host parray R) Q : skip_prune inp = true -> level_restrict inp = true ->
  (forall K', keeps found K K' -> new_ids_facts K' -> okp K' (next n) Q) ->
  okp K (find_pruned inp (s_lstart st) (s_used st) next) Q.
Proof.
  intros SK LR O. unfold find_pruned. rewrite last_N, SK. cbn [negb]. cbv zeta.
  do 2 (apply ok_alloc; [lia|]). set (K1 := k_alloc _ _ (k_alloc _ _ K SrcIds (z N)) NewIds (z N)).
  assert (NN := n_ns SK LR). assert (NL := n_le).
  apply ok_each_inv with (Inv := fun l' K' => let k := nlev st - length l' in keeps found K K' /\
    has K' SrcIds N N (fun j => if j <? ns k then z (old j) else 0%Z) /\
    has K' NewIds N N (fun b => if b <? lst st k then z (dst b) else 0%Z)).
  - cbv zeta. rewrite seq_length. change (length (s_used st)) with (nlev st). rewrite Nat.sub_diag. split.
    + eapply keeps_trans; apply keeps_alloc; unfold found; auto.
    + split.
      * apply has_alloc_other; [discriminate|]. apply (has_ext _ _ _ _ _ (fun _ => 0%Z)); [apply has_alloc_same; auto|].
        intros k Hk. rewrite ns_nth by lia. auto.
      * apply (has_ext _ _ _ _ _ (fun _ => 0%Z)); [apply has_alloc_same; auto|]. intros k Hk. rewrite (lay_0 st Y). auto.
  - intros l l' K' nx [l0 E] [KE [HS HN]] O'. apply seq_parts in E. change (length (s_used st)) with (nlev st) in E. destruct E as [-> E].
    cbn [length] in *. replace (nlev st - S (length l')) with (length l0) in * by lia.
    replace (nlev st - length l') with (S (length l0)) in O' by lia. set (l := length l0) in *.
    assert (Hl : l < nlev st) by lia. assert (NS := ns_S l Hl). assert (LU := lay_used st Y l Hl).
    assert (LN := lst_le st Y (S l) (nlev st) Hl (le_n _)). assert (NM := ns_mono (S l) (nlev st) Hl (le_n _)).
    change (nth l (s_lstart st) 0) with (lst st l). change (nth l (s_used st) 0) with (usd st l). change (nth l (prefix_from 0 (s_used st)) 0) with (ns l).
    apply (ok_assign parray parray_eq) with (n := z N); [apply HS|rewrite map_length, seq_length; lia|].
    apply (ok_assign parray parray_eq) with (n := z N); [apply HN|rewrite map_length, seq_length; lia|].
    assert (NTH : forall a t c, t < c -> nth t (map z (seq a c)) 0%Z = z (a + t)).
    { intros a t c Ht. change 0%Z with (z 0). rewrite map_nth, seq_nth by auto. auto. }
    apply O'. split; [|split].
    + eapply keeps_trans; [exact KE|]. eapply keeps_trans; apply keeps_assign; unfold found; auto.
    + apply has_assign_other; [discriminate|]. apply (has_assign_same parray parray_eq _ _ _ _ _ _ _ _ HS).
      intros k Hk. rewrite map_length, seq_length.
      destruct (Nat.leb_spec (ns l) k), (Nat.ltb_spec k (ns l + usd st l)), (Nat.ltb_spec k (ns (S l))), (Nat.ltb_spec k (ns l));
        cbn [andb]; try lia; auto.
      rewrite NTH by lia. destruct (seg_old l (k - ns l) SK LR Hl ltac:(lia)) as [A _].
      replace (ns l + (k - ns l)) with k in A by lia. rewrite A. auto.
    + apply (has_assign_same parray parray_eq _ _ _ _ _ _ (fun b => if b <? lst st l then z (dst b) else 0%Z)).
      { apply has_assign_other; [discriminate|exact HN]. }
      intros k Hk. rewrite map_length, seq_length.
      destruct (Nat.leb_spec (lst st l) k), (Nat.ltb_spec k (lst st l + usd st l)), (Nat.ltb_spec k (lst st (S l))), (Nat.ltb_spec k (lst st l));
        cbn [andb]; try lia; auto.
      * rewrite NTH by lia. destruct (seg_old l (k - lst st l) SK LR Hl ltac:(lia)) as [A B].
        replace (lst st l + (k - lst st l)) with k in A by lia. f_equal.
        assert (X := dst_old inp st pth F NPOS _ B). rewrite A in X. auto.
      * rewrite dst_drop; auto. unfold BuildPrune.keep. rewrite SK. apply not_true_is_false. intros X.
        apply (usedb_spec st Y) in X. apply (used_level st Y) in X. rewrite (lay_level st Y l k) in X by lia.
        destruct X as [_ X]. lia.
  - intros K' [KE [HS HN]]. cbn [length] in *. rewrite Nat.sub_0_r in *. rewrite last_ns, <- NN. apply O; auto. split.
    + apply (has_ext _ _ _ _ _ (fun j => if j <? ns (nlev st) then z (old j) else 0%Z)); [apply has_less with (n := N); auto|].
      intros k Hk. destruct (Nat.ltb_spec k (ns (nlev st))); [auto|lia].
    + apply (has_ext _ _ _ _ _ _ _ HN). intros k Hk. destruct (Nat.ltb_spec k N); [auto|lia].
Qed.

(** ** Copies of the box arrays *)
Lemma take_each_ok {R} K c (mk : nat -> parray) mapped (f : nat -> nat -> Z) (next : host parray R) Q :
  (forall m, mk m <> Pruned /\ mk m <> SrcIds /\ mk m <> NewIds) -> (forall a b, mk a = mk b -> a = b) ->
  has K SrcIds N n (fun j => z (old j)) -> has K NewIds N N (fun b => z (dst b)) ->
  (forall m, m < c -> has K (mk m) g g (f m)) ->
  (mapped = true -> forall m j, m < c -> j < n -> (0 <= f m (old j) < z N)%Z) ->
  (forall K', keeps (fun x => x = Pruned \/ exists m, x = mk m) K K' ->
     (forall m, m < c -> has K' (mk m) n n (fun j => if mapped then z (dst (Z.to_nat (f m (old j)))) else f m (old j))) ->
     okp K' next Q) ->
  okp K (each (seq 0 c) (fun m nx => take_program n (mk m) mapped nx) next) Q.
Proof.
  intros DI INJ HS HN HF HB O. assert (NL := n_le). assert (NG := N_le).
  apply ok_each_inv with (Inv := fun l' K' => let k := c - length l' in
    keeps (fun x => x = Pruned \/ exists m, x = mk m) K K' /\
    (forall m, m < k -> has K' (mk m) n n (fun j => if mapped then z (dst (Z.to_nat (f m (old j)))) else f m (old j))) /\
    (forall m, k <= m -> m < c -> has K' (mk m) g g (f m))).
  - cbv zeta. rewrite seq_length, Nat.sub_diag. split; [apply keeps_refl|]. split; [intros; lia|auto].
  - intros m l' K1 nx [l0 E] [KE [D U]] O'. apply seq_parts in E. destruct E as [-> E]. cbn [length] in *.
    replace (c - S (length l')) with (length l0) in * by lia. replace (c - length l') with (S (length l0)) in O' by lia.
    set (m := length l0) in *. destruct (DI m) as [D1 [D2 D3]].
    assert (NW : forall x, x = SrcIds \/ x = NewIds -> ~ (x = Pruned \/ exists m, x = mk m)).
    { intros x X [->|[q ->]]; [destruct X; discriminate|]. destruct (DI q) as [_ [A B]]. destruct X; auto. }
    apply take_ok with (N := N) (M := g) (old := old) (dst := dst) (m := g) (f := f m); [exact D1|exact D2|exact D3|lia| | | | |].
    + apply KE; auto.
    + apply U; lia.
    + intros j Hj. assert (X := old_lt j Hj). lia.
    + intros MP. split; [apply KE; auto|]. intros j Hj. apply HB; auto. lia.
    + intros K2 K2E H2. apply O'. split; [|split].
      * eapply keeps_trans; [exact KE|]. revert K2E. apply keeps_weaken. intros b [-> | ->]; [right; eauto|left; auto].
      * intros q Hq. destruct (Nat.eq_dec q m) as [->|Hn]; [exact H2|]. apply K2E; [|apply D; lia].
        intros [E2|E2]; [apply INJ in E2; auto|]. destruct (DI q); auto.
      * intros q Hq1 Hq2. apply K2E; [|apply U; lia]. intros [E2|E2]; [apply INJ in E2; lia|]. destruct (DI q); auto.
  - intros K1 [KE [D U]]. cbn [length] in *. rewrite Nat.sub_0_r in D. apply O; auto.
Qed.

Lemma remap_ok {R} K (next : host parray R) Q :
  has K (Kept BoxIds) np np (fun i => z (s_box st i)) -> has K NewIds N N (fun b => z (dst b)) ->
  (forall K', keeps (fun x => x = Kept BoxIds) K K' -> has K' (Kept BoxIds) np np (fun i => z (dst (s_box st i))) -> okp K' next Q) ->
  okp K (Launch np remap_item next) Q.
Proof.
  intros HB HN O.
  assert (BL : forall i, i < np -> s_box st i < N) by (intros i Hi; apply (used_lt st Y), (i_box _ _ _ I i Hi)).
  apply ok_launch_own with (F := only (Kept BoxIds) (fun i => Some (z (dst (s_box st i)))))
    (T := fun i => [Get (Kept BoxIds) i; Get NewIds (s_box st i); Put (Kept BoxIds) i (z (dst (s_box st i)))]).
  - intros i Hi. unfold remap_item. apply (ev_load parray K _ i (z np) (z (s_box st i))); [apply HB|lia|apply HB; auto|].
    assert (X := BL i Hi). apply (ev_load parray K _ _ (z N) (z (dst (s_box st i)))); [apply HN|lia|apply HN; auto|].
    apply (ev_store parray K _ _ (z np)); [apply HB|lia|constructor].
  - intros i j a k v Hi Hj D P G. cbn [In] in P, G. decompose [or] P; try discriminate; try contradiction.
    match goal with X : Put _ _ _ = Put _ _ _ |- _ => injection X as <- <- <- end.
    decompose [or] G; try discriminate; try contradiction. match goal with X : Get _ _ = Get _ _ |- _ => injection X as <- end. auto.
  - intros i x y a k v Hi E P. destruct x as [|t1 [|t2 [|t3 x]]]; cbn [app] in E; try (destruct P; fail).
    + injection E as <- E2. destruct P as [P|[]]; discriminate.
    + injection E as <- <- E2. destruct P as [P|[P|[]]]; discriminate.
    + injection E as _ _ _ E2. destruct x; discriminate.
  - intros i a k v Hi P. cbn [In] in P. decompose [or] P; try discriminate; try contradiction.
    match goal with X : Put _ _ _ = Put _ _ _ |- _ => injection X as <- <- <- end. eexists. split; [apply only_same|]. reflexivity.
  - intros a f m k w E L B V. unfold only in E. destruct (parray_eq a (Kept BoxIds)) as [->|]; [|discriminate]. injection E as <-.
    rewrite (has_len _ _ _ _ _ _ HB) in L. injection L as <-. left. exists k, (z (dst (s_box st k))). split; [lia|]. cbn [In]. auto.
  - apply O.
    + apply keeps_upd. intros b NB. apply only_other. auto.
    + apply has_upd_some with (g := fun i => Some (z (dst (s_box st i)))); auto. apply HB.
Qed.

(** ** Box counts of the levels *)
Notation lbc := (level_box_counts st n (p_blevel ps)).
Lemma level_of j : j < n -> p_blevel ps j < nlev st.
Proof.
  intros Hj. rewrite (pi_level _ _ _ _ (prune_pinv inp st pth F NPOS) j Hj). apply (pq_level_lt inp st pth F NPOS); auto.
Qed.
Lemma level_mono i j : i <= j -> j < n -> p_blevel ps i <= p_blevel ps j.
Proof.
  intros H Hj. assert (P := prune_pinv inp st pth F NPOS).
  rewrite (pi_level _ _ _ _ P i), (pi_level _ _ _ _ P j) by (cbn [prune p_nboxes]; lia). apply (pi_mono _ _ _ _ P); auto.
Qed.
Definition level_end (i : nat) : bool := (i + 1 =? n) || negb (p_blevel ps i =? p_blevel ps (i + 1)).
Definition run_length (i : nat) : nat :=
  seg_scan (fun j => negb (p_blevel ps j =? p_blevel ps (j - 1))) Nat.add (fun _ => 1) i.
Lemma lbc_end i : i < n -> level_end i = true -> lbc (p_blevel ps i) = run_length i.
Proof.
  intros Hi E. unfold level_box_counts. apply (scatter_map_in (fun i => p_blevel ps i) run_length).
  - apply filter_In. split; [apply in_seq; lia|exact E].
  - intros j Hj El. apply filter_In in Hj. destruct Hj as [Hj Ej]. apply in_seq in Hj. f_equal.
    unfold level_end in *. assert (EQ : forall a b, a < b -> b < n -> p_blevel ps a = p_blevel ps b -> level_end a = true -> False).
    { intros a b Hab Hb X Z. unfold level_end in Z. apply orb_true_iff in Z. destruct Z as [Z|Z]; [apply Nat.eqb_eq in Z; lia|].
      apply negb_true_iff, Nat.eqb_neq in Z. assert (M1 := level_mono a (a + 1) ltac:(lia) ltac:(lia)).
      assert (M2 := level_mono (a + 1) b ltac:(lia) Hb). lia. }
    destruct (Nat.lt_trichotomy j i) as [C|[C|C]]; auto; exfalso; [apply (EQ j i)|apply (EQ i j)]; auto; lia.
Qed.
Lemma lbc_cases l : (exists i, i < n /\ level_end i = true /\ p_blevel ps i = l) \/ lbc l = nth l (s_used st) 0.
Proof.
  unfold level_box_counts. destruct (scatter_cases (map (fun i => (p_blevel ps i, run_length i)) (filter level_end (seq 0 n)))
    (fun l => nth l (s_used st) 0) l) as [[v [J _]]|[_ E]]; [left|right; exact E].
  apply in_map_iff in J. destruct J as [i [E J]]. apply filter_In in J. destruct J as [J1 J2]. apply in_seq in J1.
  exists i. split; [lia|]. split; auto. injection E as <- _. auto.
Qed.
Lemma levels_ok {R} K (next : host parray R) Q :
  has K (Kept Levels) n n (fun b => z (p_blevel ps b)) ->
  has K (Kept LevelUsed) nlm nlm (fun l => z (nth l (s_used st) 0)) ->
  (forall K', keeps (fun x => scan_array x \/ x = Kept LevelUsed) K K' -> has K' (Kept LevelUsed) nlm nlm (fun l => z (lbc l)) ->
     okp K' next Q) ->
  okp K (scan_program n levels_input (levels_output n) next) Q.
Proof.
  intros HL HU O. set (fl := fun i => (i =? 0) || negb (p_blevel ps i =? p_blevel ps (i - 1))).
  apply scan_segmented with (f := fun _ => 1%Z) (fl := fl).
  - intros K' i E L1 L2 Hi. assert (HL1 : has K' (Kept Levels) n n (fun b => z (p_blevel ps b))) by (apply E; auto; not_written).
    unfold levels_input. set (FF := fun x => if parray_eq x In1 then _ else _).
    assert (ST : item_ok K' FF (Store Flag1 (z i) (bool_z (fl i)) (Store In1 (z i) 1%Z Finish))).
    { apply item_store with (m := n) (f := fun k => Some (bool_z (fl k))); auto.
      apply item_store with (m := n) (f := fun k => Some 1%Z); auto. exact Logic.I. }
    assert (SI : forall v, stores K' (Store Flag1 (z i) v (Store In1 (z i) 1%Z Finish)) In1 i) by (intros v; right; left; auto).
    assert (SF : forall v, stores K' (Store Flag1 (z i) v (Store In1 (z i) 1%Z Finish)) Flag1 i) by (intros v; left; auto).
    destruct i as [|i]; [cbn [Nat.eqb]; split; [exact ST|auto]|]. cbn [Nat.eqb].
    replace (z (S i) - 1)%Z with (z i) by lia. split; [|split].
    + ld HL1; auto. cbv beta. ld HL1; auto; [lia|]. cbv beta. rewrite z_eqb. unfold fl in ST. cbn [Nat.eqb orb] in ST.
      replace (S i - 1) with i in ST by lia. exact ST.
    + ld HL1; auto. ld HL1; [lia|]. apply SI.
    + ld HL1; auto. ld HL1; [lia|]. apply SF.
  - intros K1 KE HO. assert (HL1 : has K1 (Kept Levels) n n (fun b => z (p_blevel ps b))) by (apply KE; auto; not_written).
    assert (HU1 : has K1 (Kept LevelUsed) nlm nlm (fun l => z (nth l (s_used st) 0))) by (apply KE; auto; not_written).
    apply (has_ext _ _ _ _ _ _ (fun k => z (run_length k))) in HO.
    2:{ intros k Hk. change (fun _ : nat => 1%Z) with (fun _ : nat => z 1). rewrite seg_scan_z. f_equal. apply seg_scan_flags.
        intros i _. unfold fl. cbn [Nat.eqb orb]. auto. }
    assert (NV := nlev_lt).
    apply launch_only with (a := Kept LevelUsed) (m := nlm) (f := fun l => z (lbc l)) (cov := 0); [apply HU1|lia| | |].
    + intros i Hi. unfold levels_output. set (FF := only _ _).
      assert (ST : level_end i = true -> item_ok K1 FF (Load Out1 (z i) (fun it => Load (Kept Levels) (z i) (fun l => Store (Kept LevelUsed) l it Finish)))).
      { intros E. ld HO; auto. cbv beta. ld HL1; auto. cbv beta. assert (LV := level_of i Hi).
        apply item_store with (m := nlm) (f := fun l => Some (z (lbc l))); auto; [apply HU1|lia| |exact Logic.I].
        rewrite lbc_end; auto. }
      unfold level_end in ST. destruct (Nat.eqb_spec (i + 1) n) as [E|E]; [apply ST; auto|]. cbn [orb] in ST.
      ld HL1; auto. cbv beta. replace (z i + 1)%Z with (z (i + 1)) by lia. ld HL1; auto; [lia|]. cbv beta. rewrite z_eqb.
      destruct (p_blevel ps i =? p_blevel ps (i + 1)); [exact Logic.I|apply ST; auto].
    + intros l Hl. destruct (lbc_cases l) as [[i [Hi [E El]]]|E]; [left|right; rewrite E; apply HU1; auto].
      exists i. split; auto. unfold levels_output.
      assert (ST : stores K1 (Load Out1 (z i) (fun it => Load (Kept Levels) (z i) (fun l => Store (Kept LevelUsed) l it Finish))) (Kept LevelUsed) l).
      { ld HO; auto. ld HL1; auto. subst l. apply stores_here. }
      unfold level_end in E. destruct (Nat.eqb_spec (i + 1) n) as [E1|E1]; auto. cbn [orb] in E. apply negb_true_iff in E.
      ld HL1; auto. replace (z i + 1)%Z with (z (i + 1)) by lia. ld HL1; [lia|]. cbv beta. rewrite z_eqb, E. auto.
    + intros K2 E2 H2. apply O; auto. intros b m k f NW H. apply E2; [intros ->; apply NW; auto|]. apply KE; auto.
Qed.

(** ** All of it *)
Lemma p_child_at m j : m < nch -> j < n -> p_child ps m j = dst (s_child st m (old j)).
Proof. intros Hm Hj. cbn [prune p_child]. rewrite kernel_map_lt by auto. apply p_at; auto. Qed.
Lemma unpruned_src : was_pruned inp = false -> src = seq 0 N.
Proof.
  intros WP. unfold was_pruned in WP. apply orb_false_iff in WP. destruct WP as [SK LR]. apply negb_false_iff in SK.
  unfold src_boxes. rewrite SK, LR. cbn [negb]. rewrite (nboxes_built_eq inp st pth F). auto.
Qed.
Theorem prune_ok {R} K (next : nat -> list nat -> host parray R) Q : loop_facts K ->
  (forall K', pruned_facts K' -> okp K' (next n (p_lstart ps)) Q) ->
  okp K (extract_program inp (s_lstart st) (prune_program inp (s_lstart st) (s_used st) next)) Q.
Proof.
  intros L O. apply extract_ok; auto. clear K L. intros K L HX. unfold prune_program. fold (was_pruned inp).
  assert (NG := N_le). assert (NL := n_le). assert (NV := nlev_lt).
  destruct (was_pruned inp) eqn:WP.
  - set (body := fun n0 : nat => take_program n0 (Kept Starts) false _).
    assert (FD : (forall K', keeps found K K' -> new_ids_facts K' -> okp K' (body n) Q) -> okp K (find_pruned inp (s_lstart st) (s_used st) body) Q).
    { intros C. destruct (skip_prune inp) eqn:SK.
      - apply found_by_levels; auto. unfold was_pruned in WP. rewrite SK in WP. exact WP.
      - apply found_by_scan; auto. apply (lf_cumul K L). }
    apply FD. clear FD. intros K1 KE [HS HN]. unfold body. clear body.
    destruct L. unfold found in KE. refresh KE K K1. clear KE.
    assert (OL : forall j, j < n -> old j < g) by (intros j Hj; assert (X := old_lt j Hj); lia).
    apply (take_ok K1 n N g (Kept Starts) false old dst g (fun b => z (s_start st b))); auto; try discriminate.
    intros K2 KE H1. cbv beta in H1. refresh KE K1 K2. clear KE.
    apply (take_ok K2 n N g (Kept Counts) false old dst g (fun b => z (s_cumul st b))); auto; try discriminate.
    intros K3 KE H2. refresh KE K2 K3. clear KE.
    apply remap_ok; [assumption|assumption|]. intros K4 KE H3. refresh KE K3 K4. clear KE.
    apply (take_ok K4 n N g (Kept Parents) true old dst g (fun b => z (s_parent st b))); auto; try discriminate.
    { intros _. split; auto. intros j Hj. assert (X := parent_lt (old j) (old_used inp st pth F NPOS j Hj)). lia. }
    intros K5 KE H4. refresh KE K4 K5. clear KE.
    apply (take_ok K5 n N g (Kept Levels) false old dst g (fun b => z (s_blevel st b))); auto; try discriminate.
    intros K6 KE H5. refresh KE K5 K6. clear KE.
    set (rest := take_program n (Kept HasChildren) false _).
    assert (GO : forall K7, keeps (fun x => x = Nonchild \/ x = Pruned) K6 K7 ->
      (have_extent inp = true -> has K7 Nonchild n n (fun b => z (nonchild_counts inp st (old b)))) -> okp K7 rest Q).
    2:{ destruct (have_extent inp) eqn:HE.
        - apply (take_ok K6 n N N Nonchild false old dst N (fun b => z (nonchild_counts inp st b))); auto; try discriminate.
          apply old_lt.
        - apply GO; [apply keeps_refl|discriminate]. }
    clear HX. intros K7 KE H6. refresh KE K6 K7. clear KE. unfold rest. clear rest.
    apply (take_ok K7 n N g (Kept HasChildren) false old dst g (fun b => bool_z (s_has_children st b))); auto; try discriminate.
    intros K8 KE H7. refresh KE K7 K8. clear KE.
    apply (take_each_ok K8 nch (fun m => Kept (Children m)) true (fun m b => z (s_child st m b))); auto.
    { repeat split; discriminate. }
    { intros a b E. injection E as ->. auto. }
    { intros _ m j Hm Hj. assert (X := child_lt m (old j) (old_used inp st pth F NPOS j Hj) Hm). lia. }
    intros K9 KE H8. refresh KE K8 K9. clear KE.
    apply (take_each_ok K9 (idim inp) (fun m => Kept (Centers m)) false (fun a b => s_center st b a)); auto; try discriminate.
    { repeat split; discriminate. }
    { intros a b E. injection E as ->. auto. }
    intros K10 KE H9. refresh KE K9 K10. clear KE.
    assert (PB : has K10 (Kept Levels) n n (fun b => z (p_blevel ps b))).
    { apply (has_ext _ _ _ _ _ _ _ H5). intros k Hk. cbn [prune p_blevel]. rewrite p_at; auto. }
    clear H5. apply levels_ok; [assumption|assumption|]. intros K11 KE H10. refresh KE K10 K11. clear KE.
    apply (peek_all_ok K11 (Kept LevelUsed) nlm lbc); auto.
    { change (length (s_used st)) with (nlev st). lia. }
    cbv zeta.
    assert (PL : prefix_from 0 (map lbc (seq 0 (length (s_used st)))) = p_lstart ps) by (cbn [prune p_lstart]; rewrite WP; reflexivity).
    rewrite PL. apply (ok_assign parray parray_eq _ _ 0) with (n := z nlm); [apply lf_lstart0| |].
    { rewrite map_length, <- PL, prefix_from_length, map_length, seq_length. change (length (s_used st)) with (nlev st). lia. }
    assert (KE : keeps (fun x => x = Kept LevelStarts) K11 (k_assign parray parray_eq K11 (Kept LevelStarts) 0 (map z (p_lstart ps))))
      by (apply keeps_assign; auto).
    set (K12 := k_assign parray parray_eq K11 (Kept LevelStarts) 0 (map z (p_lstart ps))) in *. refresh KE K11 K12.
    apply O. constructor; unfold box_room; rewrite ?WP; auto.
    + apply (has_ext _ _ _ _ _ _ _ H3). intros k Hk. cbn [prune p_box]. rewrite kernel_map_lt; auto.
    + apply (has_ext _ _ _ _ _ _ _ H1). intros k Hk. cbn [prune p_start]. rewrite p_at; auto.
    + apply (has_ext _ _ _ _ _ _ _ H2). intros k Hk. cbn [prune p_cumul]. rewrite p_at; auto.
    + intros HE. apply (has_ext _ _ _ _ _ _ _ (H6 HE)). intros k Hk. cbn [prune p_nonchild]. rewrite p_at; auto.
    + apply (has_ext _ _ _ _ _ _ _ H4). intros k Hk. cbn [prune p_parent]. rewrite p_at, Nat2Z.id; auto.
    + apply (has_ext _ _ _ _ _ _ _ H7). intros k Hk. cbn [prune p_has_children]. rewrite p_at; auto.
    + intros m Hm. apply (has_ext _ _ _ _ _ _ _ (H8 m Hm)). intros k Hk. rewrite p_child_at, Nat2Z.id; auto.
    + intros a Ha. apply (has_ext _ _ _ _ _ _ _ (H9 a Ha)). intros k Hk. cbn [prune p_center]. rewrite p_at; auto.
  - assert (SB := unpruned_src WP). assert (NN : n = N) by (rewrite SB, seq_length; auto).
    assert (OJ : forall j, j < n -> old j = j) by (intros j Hj; unfold BuildPrune.old; rewrite SB, seq_nth; lia).
    assert (DJ : forall b, b < N -> dst b = b).
    { intros b Hb. rewrite <- (OJ b) at 1 by lia. apply (dst_old inp st pth F NPOS). lia. }
    rewrite last_N, <- NN. replace (s_lstart st) with (p_lstart ps) by (cbn [prune p_lstart]; rewrite WP; auto).
    apply O. destruct L. rewrite <- NN in NG.
    assert (BX : forall i, i < np -> s_box st i < N) by (intros i Hi; apply (used_lt st Y), (i_box _ _ _ I i Hi)).
    assert (US : forall j, j < n -> used st j) by (intros j Hj; rewrite <- (OJ j Hj); apply (old_used inp st pth F NPOS); auto).
    assert (LT : forall j, j < n -> j < N) by (intros; lia).
    constructor; unfold box_room; rewrite ?WP; auto.
    + apply (has_ext _ _ _ _ _ _ _ lf_box0). intros k Hk. cbn [prune p_box]. rewrite kernel_map_lt, DJ; auto.
    + apply (has_ext _ _ _ _ _ (fun b => z (s_start st b))); [apply has_less with (n := g); auto|].
      intros k Hk. cbn [prune p_start]. rewrite p_at, OJ; auto.
    + apply (has_ext _ _ _ _ _ (fun b => z (s_cumul st b))); [apply has_less with (n := g); auto|].
      intros k Hk. cbn [prune p_cumul]. rewrite p_at, OJ; auto.
    + intros HE. rewrite <- NN in HX. apply (has_ext _ _ _ _ _ _ _ (HX HE)). intros k Hk. cbn [prune p_nonchild]. rewrite p_at, OJ; auto.
    + apply (has_ext _ _ _ _ _ (fun b => z (s_parent st b))); [apply has_less with (n := g); auto|].
      intros k Hk. cbn [prune p_parent]. rewrite p_at, OJ, DJ; auto. apply parent_lt; auto.
    + apply (has_ext _ _ _ _ _ (fun b => z (s_blevel st b))); [apply has_less with (n := g); auto|].
      intros k Hk. cbn [prune p_blevel]. rewrite p_at, OJ; auto.
    + apply (has_ext _ _ _ _ _ (fun b => bool_z (s_has_children st b))); [apply has_less with (n := g); auto|].
      intros k Hk. cbn [prune p_has_children]. rewrite p_at, OJ; auto.
    + intros m Hm. apply (has_ext _ _ _ _ _ (fun b => z (s_child st m b))); [apply has_less with (n := g); auto|].
      intros k Hk. rewrite p_child_at, OJ, DJ; auto. apply child_lt; auto.
    + intros a Ha. apply (has_ext _ _ _ _ _ (fun b => s_center st b a)); [apply has_less with (n := g); auto|].
      intros k Hk. cbn [prune p_center]. rewrite p_at, OJ; auto.
Qed.
End Prune.
