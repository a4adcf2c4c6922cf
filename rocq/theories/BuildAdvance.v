(** Splitting boxes and renumbering particles keeps the invariant. *)
From Coq Require Import List Arith ZArith NArith Lia Bool Permutation.
From Verif Require Import Base Tree Walk Traversal Fmm TreeBuild ArrayFacts BuildInv BuildScan BuildIds BuildSort.
Import ListNotations.

Section Advance.
Variable inp : input.
Notation np := (npart inp).
Notation nch := (nchild inp).
Hypothesis WT : forall u, u < np -> (0 <= weight inp u <= INT_MAX)%Z.
Hypothesis MW : (0 <= max_weight inp)%Z.
Variable st : state.
Variable pth : nat -> list nat.
Hypothesis H : head inp st pth.
Let I := h_inv inp st pth H.
Let Y := i_layout inp st pth I.
Notation st1 := (scanned inp st).
Notation st2 := (marked inp st1).
Notation L := (nlev st).
Notation n := (lst st L).
Notation sp := (splits inp st1).
Notation ids := (split_box_ids inp st1).
Notation nu := (new_used st2 ids).
Variables (nl : list nat) (nbn : nat).
Hypothesis NB : n + nth L nu 0 <= nbn.
Hypothesis NR : forall l, l < L -> nth l nu 0 <= lst st (S l) - lst st l.
Notation st3 := (with_level_counts st2 (s_lstart st2 ++ [nbn]) nu nl).
Notation st4 := (splitter inp st3 nbn ids).
Notation mn := (morton_nrs inp st).
Notation bc := (bin_counts inp st mn).
Notation ti := (target_index inp st3 mn bc).
Notation nid := (nid inp st).
Notation moves := (moves inp st).
Definition st5 : state := advance inp st st2 ids nu nl nbn.

Lemma lst5 l : l <= L -> lst st5 l = lst st l.
Proof.
  intros Hl. unfold lst. change (s_lstart st5) with (s_lstart st ++ [nbn]).
  apply app_nth1. rewrite (lay_len st Y). lia.
Qed.
Lemma lst5_last : lst st5 (S L) = nbn.
Proof.
  unfold lst. change (s_lstart st5) with (s_lstart st ++ [nbn]). assert (X := lay_len st Y).
  rewrite app_nth2 by (rewrite X; auto). rewrite X. replace (S L - S L) with 0 by lia. auto.
Qed.
Lemma usd5 l : usd st5 l = nth l nu 0.
Proof. reflexivity. Qed.
Lemma nlev5 : nlev st5 = S L.
Proof. apply (nu_length inp st pth H). Qed.
Lemma L_pos : 0 < L.
Proof. apply (lay_pos st Y). Qed.

Lemma usd_le_nu l : l < L -> usd st l <= nth l nu 0.
Proof.
  intros Hl. destruct l as [|l].
  - rewrite nu_0, (lay_used_0 st Y). auto.
  - rewrite (nu_S inp st pth H) by lia. lia.
Qed.

Lemma moves_level b : moves b -> s_blevel st b < L /\ lst st (s_blevel st b) <= b < lst st (S (s_blevel st b)).
Proof. intros [Hb _]. apply (level_spec st Y b Hb). Qed.
Lemma nid_at b m : moves b -> m < nch -> used_at st5 (S (s_blevel st b)) (nid b m).
Proof.
  intros M Hm. destruct (moves_level b M) as [H1 H2]. split; [rewrite nlev5; lia|].
  rewrite lst5, usd5 by lia. assert (X := nid_range inp st pth H b m (proj1 M) (proj2 M) Hm). cbn zeta in X.
  unfold base in X. lia.
Qed.
Lemma layout_used5 l : l < S L -> lst st5 l + usd st5 l <= lst st5 (S l).
Proof.
  intros Hl. destruct (Nat.eq_dec l L) as [->|NE].
  - rewrite lst5, lst5_last, usd5 by lia. auto.
  - rewrite !lst5, usd5 by lia. assert (X := NR l ltac:(lia)). assert (X2 := h_strict inp st pth H l ltac:(lia)). lia.
Qed.
Lemma lst5_le l l' : l <= l' -> l' <= S L -> lst st5 l <= lst st5 l'.
Proof.
  intros Hl. induction Hl; intros Hm; auto. assert (X := layout_used5 m). lia.
Qed.
(** levels are disjoint *)
Lemma level_unique5 l l' x : l < S L -> l' < S L -> lst st5 l <= x < lst st5 (S l) ->
  lst st5 l' <= x < lst st5 (S l') -> l = l'.
Proof.
  intros Hl Hl' X X'. destruct (Nat.lt_trichotomy l l') as [C|[C|C]]; auto.
  - assert (Z := lst5_le (S l) l'). lia.
  - assert (Z := lst5_le (S l') l). lia.
Qed.
Lemma used_at5_range l x : used_at st5 l x -> l < S L /\ lst st5 l <= x < lst st5 (S l).
Proof. intros [A B]. rewrite nlev5 in A. assert (X := layout_used5 l A). lia. Qed.
Lemma nid_inj b m b' m' : moves b -> moves b' -> m < nch -> m' < nch -> nid b m = nid b' m' -> b = b' /\ m = m'.
Proof.
  intros M M' Hm Hm' E. assert (X := nid_at b m M Hm). assert (X' := nid_at b' m' M' Hm').
  rewrite <- E in X'. apply used_at5_range in X, X'.
  assert (EL : S (s_blevel st b) = S (s_blevel st b')) by (apply (level_unique5 _ _ (nid b m)); tauto).
  apply (nid_inj_level inp st pth H); auto; first [apply M|apply M'|lia].
Qed.
Lemma used_at_mono l x : used_at st l x -> used_at st5 l x.
Proof.
  intros [A B]. split; [rewrite nlev5; lia|]. rewrite lst5, usd5 by lia. assert (X := usd_le_nu l A). lia.
Qed.
Lemma nid_not_used b m : moves b -> m < nch -> ~ used st (nid b m).
Proof.
  intros M Hm [l U]. assert (U' := U). apply used_at_mono in U.
  assert (X := nid_at b m M Hm). assert (X0 := X). apply used_at5_range in X, U.
  assert (EL : S (s_blevel st b) = l) by (apply (level_unique5 _ _ (nid b m)); tauto).
  assert (R := nid_range inp st pth H b m (proj1 M) (proj2 M) Hm). cbn zeta in R. unfold base in R.
  destruct U' as [A B]. rewrite <- EL in B. lia.
Qed.
Lemma used5_iff x : used st5 x <-> used st x \/ exists b m, moves b /\ m < nch /\ x = nid b m.
Proof.
  split.
  - intros [l [A B]]. rewrite nlev5 in A. rewrite lst5, usd5 in B by lia.
    destruct l as [|l].
    + left. assert (U0 := used_0 st Y). rewrite nu_0, (lay_0 st Y) in B. replace x with 0 by lia. auto.
    + destruct (Nat.lt_ge_cases x (base st l)) as [C|C].
      * left. exists (S l). unfold base in C. destruct (Nat.lt_ge_cases (S l) L) as [C2|C2].
        -- split; [auto|lia].
        -- exfalso. unfold usd in C. rewrite nth_overflow in C by exact C2. lia.
      * right. destruct (nid_surj inp st pth H l x ltac:(lia) C ltac:(lia)) as [b [m [B1 [B2 [B3 [B4 B5]]]]]].
        exists b, m. split; [split; auto|auto].
  - intros [[l U]|[b [m [M [Hm ->]]]]].
    + exists l. apply used_at_mono; auto.
    + eexists. apply nid_at; auto.
Qed.
Lemma nid_lt b m : moves b -> m < nch -> nid b m < nbn.
Proof.
  intros M Hm. assert (X := nid_at b m M Hm). apply used_at5_range in X. destruct X as [X1 X2].
  assert (Z := lst5_le (S (S (s_blevel st b))) (S L)). rewrite lst5_last in Z. lia.
Qed.
Lemma n_le_nbn : n <= nbn.
Proof. lia. Qed.

(** ** The writes of the splitter *)
Lemma split_boxes_in b : In b (split_boxes inp st3 nbn) <-> moves b.
Proof.
  unfold split_boxes. rewrite filter_In, in_seq, (do_split_moves inp WT st pth H). unfold BuildSort.moves. intuition lia.
Qed.
Lemma split_writes_in {A} (w : nat -> nat -> A) x v :
  In (x, v) (split_writes inp st3 nbn (fun b m => (new_box_id inp ids b m, w b m))) <->
  exists b m, moves b /\ m < nch /\ x = nid b m /\ v = w b m.
Proof.
  unfold split_writes. rewrite in_concat_map. split.
  - intros [b [Hb Hin]]. apply split_boxes_in in Hb. apply in_map_iff in Hin. destruct Hin as [m [E Hm]].
    apply in_seq in Hm. inversion E. exists b, m. split; auto. split; [lia|].
    split; auto. apply (new_box_id_val inp st pth H); apply Hb.
  - intros [b [m [M [Hm [-> ->]]]]]. exists b. split; [apply split_boxes_in; auto|].
    apply in_map_iff. exists m. split; [|apply in_seq; lia]. f_equal. apply (new_box_id_val inp st pth H); apply M.
Qed.
Lemma scatter_new {A} (w : nat -> nat -> A) old b m : moves b -> m < nch ->
  scatter_in nbn (split_writes inp st3 nbn (fun b m => (new_box_id inp ids b m, w b m))) old (nid b m) = w b m.
Proof.
  intros M Hm. rewrite scatter_in_lt.
  - apply scatter_in_eq.
    + apply split_writes_in. exists b, m. auto.
    + intros v Hv. apply split_writes_in in Hv. destruct Hv as [b' [m' [M' [Hm' [E ->]]]]].
      apply nid_inj in E; auto. destruct E; subst. auto.
  - intros j v Hv. apply split_writes_in in Hv. destruct Hv as [b' [m' [M' [Hm' [-> _]]]]]. apply nid_lt; auto.
Qed.
Lemma scatter_other {A} (w : nat -> nat -> A) old x : (forall b m, moves b -> m < nch -> x <> nid b m) ->
  scatter_in nbn (split_writes inp st3 nbn (fun b m => (new_box_id inp ids b m, w b m))) old x = old x.
Proof.
  intros N. rewrite scatter_in_lt.
  - apply scatter_notin. intros v Hv. apply split_writes_in in Hv. destruct Hv as [b' [m' [M' [Hm' [-> _]]]]].
    apply (N b' m'); auto.
  - intros j v Hv. apply split_writes_in in Hv. destruct Hv as [b' [m' [M' [Hm' [-> _]]]]]. apply nid_lt; auto.
Qed.
Lemma used_not_new x : used st x -> forall b m, moves b -> m < nch -> x <> nid b m.
Proof. intros U b m M Hm ->. apply (nid_not_used b m M Hm); auto. Qed.

Lemma cumul5_new b m : moves b -> m < nch -> s_cumul st5 (nid b m) = kcount inp (pth b) (S m).
Proof.
  intros M Hm. change (s_cumul st5) with (s_cumul st4). cbn [splitter s_cumul].
  rewrite (scatter_new (fun b m => s_bins st3 b (S m))) by auto.
  apply (bins_val inp st pth H); [apply (moves_used inp MW st pth H); auto|lia].
Qed.
Lemma cumul5_old x : (forall b m, moves b -> m < nch -> x <> nid b m) -> s_cumul st5 x = s_cumul st x.
Proof.
  intros N. change (s_cumul st5) with (s_cumul st4). cbn [splitter s_cumul].
  rewrite (scatter_other (fun b m => s_bins st3 b (S m))) by auto. reflexivity.
Qed.
Lemma parent5_new b m : moves b -> m < nch -> s_parent st5 (nid b m) = b.
Proof.
  intros M Hm. change (s_parent st5) with (s_parent st4). cbn [splitter s_parent].
  rewrite (scatter_new (fun b m => b)) by auto. auto.
Qed.
Lemma parent5_old x : used st x -> s_parent st5 x = s_parent st x.
Proof.
  intros U. change (s_parent st5) with (s_parent st4). cbn [splitter s_parent].
  rewrite (scatter_other (fun b m => b)) by (apply used_not_new; auto). reflexivity.
Qed.
Lemma center5_new b m : moves b -> m < nch ->
  s_center st5 (nid b m) = kernel_map (idim inp) (new_center inp st3 b m) (fun _ => 0%Z).
Proof.
  intros M Hm. change (s_center st5) with (s_center st4). cbn [splitter s_center].
  rewrite (scatter_new (fun b m => kernel_map (idim inp) (new_center inp st3 b m) (fun _ => 0%Z))) by auto. auto.
Qed.
Lemma center5_old x : used st x -> s_center st5 x = s_center st x.
Proof.
  intros U. change (s_center st5) with (s_center st4). cbn [splitter s_center].
  rewrite (scatter_other (fun b m => kernel_map (idim inp) (new_center inp st3 b m) (fun _ => 0%Z)))
    by (apply used_not_new; auto). reflexivity.
Qed.
Lemma child5_new b m : moves b -> m < nch -> s_child st5 m b = nid b m.
Proof.
  intros M Hm. change (s_child st5) with (s_child st4). cbn [splitter s_child].
  rewrite kernel_map_lt by auto. rewrite scatter_in_lt.
  - rewrite (scatter_map_in (fun b => b) (fun b => new_box_id inp ids b m)).
    + apply (new_box_id_val inp st pth H); apply M.
    + apply split_boxes_in; auto.
    + intros y _ ->. auto.
  - intros j v Hv. apply in_map_iff in Hv. destruct Hv as [b' [E Hb']]. inversion E; subst.
    apply split_boxes_in in Hb'. assert (X := proj1 Hb'). lia.
Qed.
Lemma child5_old b m : ~ moves b -> m < nch -> s_child st5 m b = s_child st m b.
Proof.
  intros M Hm. change (s_child st5) with (s_child st4). cbn [splitter s_child].
  rewrite kernel_map_lt by auto. rewrite scatter_in_lt.
  - rewrite (scatter_map_notin (fun b => b) (fun b => new_box_id inp ids b m)); auto.
    intros y Hy ->. apply split_boxes_in in Hy. contradiction.
  - intros j v Hv. apply in_map_iff in Hv. destruct Hv as [b' [E Hb']]. inversion E; subst.
    apply split_boxes_in in Hb'. assert (X := proj1 Hb'). lia.
Qed.
(** starts and start flags *)
Lemma new_box_start_val b m : moves b -> m < nch -> new_box_start st3 b m = s_start st b + kless inp (pth b) (S m).
Proof.
  intros M Hm. unfold new_box_start. rewrite <- kless_sum. change (s_start st3 b) with (s_start st b). do 2 f_equal.
  apply map_ext_in. intros k Hk. apply in_seq in Hk.
  apply (bins_val inp st pth H); [apply (moves_used inp MW st pth H); auto|lia].
Qed.
Lemma nonempty_writes_in {A} (k : nat -> nat -> nat * A) p :
  In p (concat (map (fun b => map (fun m => k b m) (filter (fun m => 0 <? s_bins st3 b (S m)) (seq 0 nch)))
                    (split_boxes inp st3 nbn))) <->
  exists b m, moves b /\ m < nch /\ 0 < kcount inp (pth b) (S m) /\ p = k b m.
Proof.
  rewrite in_concat_map. split.
  - intros [b [Hb Hin]]. apply split_boxes_in in Hb. apply in_map_iff in Hin. destruct Hin as [m [E Hm]].
    apply filter_In in Hm. destruct Hm as [Hm K]. apply in_seq in Hm. apply Nat.ltb_lt in K.
    rewrite (bins_val inp st pth H) in K by (try lia; apply (moves_used inp MW st pth H); auto).
    exists b, m. repeat split; auto; try apply Hb. lia.
  - intros [b [m [M [Hm [K ->]]]]]. exists b. split; [apply split_boxes_in; auto|].
    apply in_map_iff. exists m. split; auto. apply filter_In. split; [apply in_seq; lia|]. apply Nat.ltb_lt.
    rewrite (bins_val inp st pth H); [auto|apply (moves_used inp MW st pth H); auto|lia].
Qed.
Lemma start_lt b m : moves b -> m < nch -> 0 < kcount inp (pth b) (S m) ->
  s_start st b + kless inp (pth b) (S m) + kcount inp (pth b) (S m) <= s_start st b + s_cumul st b /\
  s_start st b + s_cumul st b <= np /\ 0 < s_cumul st b.
Proof.
  intros M Hm K. assert (U := moves_used inp MW st pth H b M).
  assert (X := kless_le inp (pth b) (S (S m))). rewrite kless_S in X.
  rewrite <- (i_cumul inp st pth I b U) in X.
  assert (C : 0 < s_cumul st b) by lia. assert (X2 := i_range_np inp st pth I b U C). lia.
Qed.
Lemma start5_new b m : moves b -> m < nch -> 0 < kcount inp (pth b) (S m) ->
  s_start st5 (nid b m) = s_start st b + kless inp (pth b) (S m).
Proof.
  intros M Hm K. change (s_start st5) with (s_start st4). cbn [splitter s_start].
  rewrite scatter_in_lt.
  - apply scatter_in_eq.
    + apply nonempty_writes_in. exists b, m. repeat split; auto; try apply M. f_equal.
      * symmetry. apply (new_box_id_val inp st pth H); apply M.
      * symmetry. apply new_box_start_val; auto.
    + intros v Hv. apply nonempty_writes_in in Hv. destruct Hv as [b' [m' [M' [Hm' [K' E]]]]]. inversion E.
      rewrite (new_box_id_val inp st pth H) in H1 by apply M'. apply nid_inj in H1; auto. destruct H1; subst b' m'.
      apply new_box_start_val; auto.
  - intros j v Hv. apply nonempty_writes_in in Hv. destruct Hv as [b' [m' [M' [Hm' [K' E]]]]]. inversion E.
    rewrite (new_box_id_val inp st pth H) by apply M'. apply nid_lt; auto.
Qed.
Lemma start5_old x : used st x -> s_start st5 x = s_start st x.
Proof.
  intros U. change (s_start st5) with (s_start st4). cbn [splitter s_start].
  rewrite scatter_in_lt.
  - rewrite scatter_notin; [reflexivity|]. intros v Hv. apply nonempty_writes_in in Hv.
    destruct Hv as [b' [m' [M' [Hm' [K' E]]]]]. inversion E.
    rewrite (new_box_id_val inp st pth H) in H1 by apply M'. apply (used_not_new x U b' m'); auto.
  - intros j v Hv. apply nonempty_writes_in in Hv. destruct Hv as [b' [m' [M' [Hm' [K' E]]]]]. inversion E.
    rewrite (new_box_id_val inp st pth H) by apply M'. apply nid_lt; auto.
Qed.
Lemma flag5 i : i < np -> (s_start_flag st5 i = true <-> s_start_flag st i = true \/
  exists b m, moves b /\ m < nch /\ 0 < kcount inp (pth b) (S m) /\ i = s_start st b + kless inp (pth b) (S m)).
Proof.
  intros Hi. change (s_start_flag st5) with (s_start_flag st4). cbn [splitter s_start_flag].
  unfold scatter_in. rewrite kernel_map_lt by auto.
  match goal with |- scatter ?w ?o i = true <-> _ => destruct (scatter_cases w o i) as [[v [X1 X2]]|[X1 X2]]; rewrite X2 end.
  - apply nonempty_writes_in in X1. destruct X1 as [b' [m' [M' [Hm' [K' E]]]]]. inversion E. split; auto. intros _.
    right. exists b', m'. rewrite new_box_start_val by auto. auto.
  - split; [left; auto|]. intros [F|[b' [m' [M' [Hm' [K' E]]]]]]; auto. exfalso.
    apply (X1 true). apply nonempty_writes_in. exists b', m'. rewrite new_box_start_val by auto. subst i. auto.
Qed.
(** levels *)
Lemma level5_new b m : moves b -> m < nch -> s_blevel st4 (nid b m) = S (s_blevel st b).
Proof.
  intros M Hm. cbn [splitter s_blevel]. rewrite (scatter_new (fun b m => s_blevel st3 b + 1)) by auto.
  change (s_blevel st3 b) with (s_blevel st b). lia.
Qed.
Lemma level4_old x : (forall b m, moves b -> m < nch -> x <> nid b m) -> s_blevel st4 x = s_blevel st x.
Proof.
  intros N. cbn [splitter s_blevel]. rewrite (scatter_other (fun b m => s_blevel st3 b + 1)) by auto. reflexivity.
Qed.
Lemma blevel5 x : s_blevel st5 x = if (n + nth L nu 0 <=? x) && (x <? nbn) then L else s_blevel st4 x.
Proof.
  unfold st5, advance. cbn zeta. cbn [renumber_particles with_particles s_blevel].
  set (lu := nth (s_level st) (s_lstart (with_level_counts st2 (s_lstart st2 ++ [nbn]) nu nl)) 0 + nth (s_level st) nu 0).
  assert (E : lu = n + nth L nu 0).
  { unfold lu. rewrite (h_level inp st pth H). f_equal. apply (lst5 L). auto. }
  rewrite E. rewrite (h_level inp st pth H).
  destruct (Nat.leb_spec (n + nth L nu 0) x) as [C|C], (Nat.ltb_spec x nbn) as [C2|C2]; cbn [andb].
  - rewrite (scatter_map_in (fun b => b) (fun b => L)); auto. apply in_seq. lia.
  - rewrite (scatter_map_notin (fun b => b) (fun b => L)); auto. intros y Hy. apply in_seq in Hy. lia.
  - rewrite (scatter_map_notin (fun b => b) (fun b => L)); auto. intros y Hy. apply in_seq in Hy. lia.
  - rewrite (scatter_map_notin (fun b => b) (fun b => L)); auto. intros y Hy. apply in_seq in Hy. lia.
Qed.
Lemma layout5 : layout st5.
Proof.
  split.
  - rewrite nlev5. lia.
  - rewrite nlev5. change (s_lstart st5) with (s_lstart st ++ [nbn]). rewrite app_length, (lay_len st Y). cbn. lia.
  - rewrite lst5 by lia. apply (lay_0 st Y).
  - rewrite usd5. apply nu_0.
  - intros l Hl. rewrite nlev5 in Hl. apply layout_used5; auto.
  - intros l b Hl B1 B2. rewrite nlev5 in Hl. rewrite blevel5.
    destruct (Nat.lt_ge_cases b (lst st5 l + nth l nu 0)) as [C|C].
    + (* used *)
      assert (U : used st5 b) by (exists l; split; [rewrite nlev5; auto|rewrite usd5; lia]).
      assert (Z : (n + nth L nu 0 <=? b) && (b <? nbn) = false).
      { apply andb_false_iff. left. apply Nat.leb_gt.
        destruct (Nat.eq_dec l L) as [->|NE]; [rewrite lst5 in C by lia; lia|].
        assert (X := layout_used5 l Hl). rewrite usd5 in X. assert (X2 := lst5_le (S l) L ltac:(lia) ltac:(lia)).
        rewrite (lst5 L) in X2 by lia. lia. }
      rewrite Z. apply used5_iff in U. destruct U as [U|[b0 [m [M [Hm ->]]]]].
      * rewrite level4_old by (apply used_not_new; auto). apply (used_level st Y) in U.
        apply used_at_mono, used_at5_range in U. apply (level_unique5 _ _ b); auto; try tauto.
      * rewrite level5_new by auto. assert (X := nid_at b0 m M Hm). apply used_at5_range in X.
        apply (level_unique5 _ _ (nid b0 m)); auto; try tauto.
    + destruct (Nat.eq_dec l L) as [->|NE].
      * rewrite lst5, lst5_last in * by lia.
        replace ((n + nth L nu 0 <=? b) && (b <? nbn)) with true; auto. symmetry. apply andb_true_iff.
        split; [apply Nat.leb_le|apply Nat.ltb_lt]; lia.
      * assert (X2 := lst5_le (S l) L ltac:(lia) ltac:(lia)). rewrite (lst5 L) in X2 by lia.
        replace ((n + nth L nu 0 <=? b) && (b <? nbn)) with false.
        2:{ symmetry. apply andb_false_iff. left. apply Nat.leb_gt. lia. }
        rewrite level4_old.
        -- apply (lay_level st Y); [lia|rewrite <- lst5; lia|rewrite <- lst5; lia].
        -- intros b0 m M Hm ->. assert (X := nid_at b0 m M Hm). assert (X' := X). apply used_at5_range in X.
           assert (EL : S (s_blevel st b0) = l) by (apply (level_unique5 _ _ (nid b0 m)); tauto).
           destruct X' as [_ X']. rewrite EL, usd5 in X'. lia.
Qed.

(** ** Particles *)
Notation moves_ti := (ti_perm inp WT MW st pth H nl nbn).
Lemma user5 i : i < np -> s_user st5 (ti i) = s_user st i.
Proof.
  intros Hi. unfold st5, advance. cbn zeta. cbn [renumber_particles with_particles s_user].
  rewrite (scatter_map_in ti (s_user st3)); [reflexivity|apply in_seq; lia|].
  intros y Hy E. apply in_seq in Hy. apply (ti_inj inp WT MW st pth H) in E; try lia. subst; auto.
Qed.
Lemma box5 i : i < np -> s_box st5 (ti i) = target_box inp st3 ids mn i.
Proof.
  intros Hi. unfold st5, advance. cbn zeta. cbn [renumber_particles with_particles s_box].
  rewrite (scatter_map_in ti (target_box inp st3 ids mn)); [reflexivity|apply in_seq; lia|].
  intros y Hy E. apply in_seq in Hy. apply (ti_inj inp WT MW st pth H) in E; try lia. subst; auto.
Qed.
Lemma tb_stay i : ~ moves (s_box st i) -> target_box inp st3 ids mn i = s_box st i.
Proof.
  intros M. unfold target_box. change (s_box st3 i) with (s_box st i).
  destruct (do_split inp st3 (s_box st i)) eqn:D; auto. apply (do_split_moves inp WT st pth H) in D. contradiction.
Qed.
Lemma tb_moves i : moves (s_box st i) -> target_box inp st3 ids mn i =
  match mn i with 0 => s_box st i | S m => nid (s_box st i) m end.
Proof.
  intros M. unfold target_box. change (s_box st3 i) with (s_box st i).
  rewrite (proj2 (do_split_moves inp WT st pth H nl nbn (s_box st i)) M).
  destruct (mn i); auto. apply (new_box_id_val inp st pth H); apply M.
Qed.

(** paths after the split *)
Definition pth5 (x : nat) : list nat :=
  if usedb st x then pth x else pth (s_parent st5 x) ++ [x - nid (s_parent st5 x) 0].
Lemma pth5_old x : used st x -> pth5 x = pth x.
Proof. intros U. unfold pth5. apply (usedb_spec st Y) in U. rewrite U. auto. Qed.
Lemma pth5_new b m : moves b -> m < nch -> pth5 (nid b m) = pth b ++ [m].
Proof.
  intros M Hm. unfold pth5. destruct (usedb st (nid b m)) eqn:U.
  - apply (usedb_spec st Y) in U. exfalso. apply (nid_not_used b m M Hm U).
  - rewrite parent5_new by auto. do 2 f_equal. unfold BuildIds.nid. lia.
Qed.
Lemma moves_not_split b : used st b -> s_child st 0 b <> 0 -> ~ moves b.
Proof. intros U S M. apply (moves_leaf inp WT MW st pth H) in M. contradiction. Qed.

Lemma moves_nid_nonzero b m : moves b -> nid b m <> 0.
Proof.
  intros M. destruct (moves_level b M) as [C _].
  assert (X := h_strict inp st pth H (s_blevel st b) C). unfold BuildIds.nid, base. lia.
Qed.

Theorem advance_inv : inv inp st5 pth5.
Proof.
  assert (NP := nch_pos inp).
  split.
  - apply layout5.
  - intros b U. assert (X := used_level st5 layout5 b U). assert (X0 := X). apply used_at5_range in X.
    assert (Z : exists l, used_at st5 l b /\ length (pth5 b) = l).
    { apply used5_iff in U. destruct U as [U|[b0 [m [M [Hm ->]]]]].
      - exists (s_blevel st b). rewrite pth5_old by auto. split; [|apply (i_len inp st pth I); auto].
        apply used_at_mono. apply (used_level st Y); auto.
      - exists (S (s_blevel st b0)). rewrite pth5_new by auto. split; [apply nid_at; auto|].
        rewrite app_length, (i_len inp st pth I) by (apply (moves_used inp MW st pth H); auto). cbn. lia. }
    destruct Z as [l [Z1 Z2]]. rewrite Z2. symmetry. apply (used_at_level st5 layout5); auto.
  - intros b b' U U' E. apply used5_iff in U, U'.
    destruct U as [U|[b0 [m [M [Hm ->]]]]], U' as [U'|[b1 [m' [M' [Hm' ->]]]]].
    + rewrite !pth5_old in E by auto. apply (i_inj inp st pth I); auto.
    + exfalso. rewrite pth5_old, pth5_new in E by auto.
      destruct (prefix_split inp st pth I b1 b m' [] (moves_used inp MW st pth H b1 M') U E) as [S _].
      apply (moves_not_split b1); auto. apply (moves_used inp MW st pth H b1 M').
    + exfalso. rewrite (pth5_old b'), pth5_new in E by auto. symmetry in E.
      destruct (prefix_split inp st pth I b0 b' m [] (moves_used inp MW st pth H b0 M) U' E) as [S _].
      apply (moves_not_split b0); auto. apply (moves_used inp MW st pth H b0 M).
    + rewrite !pth5_new in E by auto. apply app_inj_tail in E. destruct E as [E ->].
      apply (i_inj inp st pth I) in E; try (apply (moves_used inp MW st pth H); auto). subst; auto.
  - intros b m U C Hm. apply used5_iff in U. destruct (moves_dec inp st b) as [M|M].
    + rewrite child5_new in C by auto. exfalso. apply (moves_nid_nonzero b 0 M C).
    + rewrite child5_old in * by auto. destruct U as [U|[b0 [m0 [M0 [Hm0 ->]]]]].
      * apply (i_leaf inp st pth I); auto.
      * apply (i_unused inp st pth I); auto. apply nid_not_used; auto.
  - intros b m U C Hm. apply used5_iff in U. destruct (moves_dec inp st b) as [M|M].
    + rewrite child5_new by auto. rewrite pth5_new, pth5_old by (auto; apply (moves_used inp MW st pth H); auto).
      split; auto. apply used5_iff. right. exists b, m. auto.
    + rewrite child5_old in * by auto. destruct U as [U|[b0 [m0 [M0 [Hm0 ->]]]]].
      * destruct (i_split inp st pth I b m U C Hm) as [U' E']. rewrite !pth5_old by auto. split; auto.
        apply used5_iff; auto.
      * exfalso. apply C. apply (i_unused inp st pth I); auto. apply nid_not_used; auto.
  - intros b U Hb. apply used5_iff in U. destruct U as [U|[b0 [m0 [M0 [Hm0 ->]]]]].
    + rewrite parent5_old by auto. destruct (i_parent inp st pth I b U Hb) as [U' [m [Hm [E1 E2]]]].
      split; [apply used5_iff; auto|]. exists m. split; auto. rewrite !pth5_old by auto. split; auto.
      rewrite child5_old; auto. apply moves_not_split; auto.
      intros Z. rewrite (i_leaf inp st pth I _ m U' Z Hm) in E2. congruence.
    + assert (U0 := moves_used inp MW st pth H b0 M0). rewrite parent5_new by auto.
      split; [apply used5_iff; auto|]. exists m0. split; auto.
      rewrite pth5_new, pth5_old, child5_new by auto. auto.
  - rewrite parent5_old by (apply used_0; auto). apply (i_root_parent inp st pth I).
  - (* permutation *)
    apply perm_of_inj.
    + intros j Hj. destruct (ti_surj inp WT MW st pth H nl nbn j Hj) as [i [Hi <-]]. rewrite user5 by auto.
      apply (perm_lt np); auto. apply (i_perm inp st pth I).
    + intros j j' Hj Hj' E. destruct (ti_surj inp WT MW st pth H nl nbn j Hj) as [i [Hi <-]].
      destruct (ti_surj inp WT MW st pth H nl nbn j' Hj') as [i' [Hi' <-]].
      rewrite !user5 in E by auto. f_equal. apply (perm_inj np (s_user st)); auto. apply (i_perm inp st pth I).
  - intros b U. apply used5_iff in U. destruct U as [U|[b0 [m0 [M0 [Hm0 ->]]]]].
    + rewrite cumul5_old, pth5_old by (auto; apply used_not_new; auto). apply (i_cumul inp st pth I); auto.
    + rewrite cumul5_new, pth5_new by auto. symmetry. apply rcount_snoc.
  - intros b j U C Hj. destruct (ti_surj inp WT MW st pth H nl nbn j Hj) as [i [Hi <-]]. rewrite user5 by auto.
    apply used5_iff in U. destruct U as [U|[b0 [m0 [M0 [Hm0 ->]]]]].
    + rewrite cumul5_old in * by (apply used_not_new; auto). rewrite start5_old, pth5_old by auto.
      apply (ti_used_range inp WT MW st pth H); auto.
    + rewrite cumul5_new in * by auto. rewrite start5_new, pth5_new by auto.
      apply (ti_child_range inp WT MW st pth H); auto.
  - intros b U C. apply used5_iff in U. destruct U as [U|[b0 [m0 [M0 [Hm0 ->]]]]].
    + rewrite cumul5_old in * by (apply used_not_new; auto). rewrite start5_old by auto.
      apply (i_range_np inp st pth I); auto.
    + rewrite cumul5_new in * by auto. rewrite start5_new by auto. assert (X := start_lt b0 m0 M0 Hm0 C). lia.
  - intros j Hj. destruct (ti_surj inp WT MW st pth H nl nbn j Hj) as [i [Hi <-]]. rewrite user5, box5 by auto.
    destruct (i_box inp st pth I i Hi) as [U [R D]].
    destruct (moves_dec inp st (s_box st i)) as [M|M].
    + rewrite tb_moves by auto. assert (K := mn_val inp st pth I i Hi).
      assert (Kle := mn_le inp st pth I i Hi). destruct (mn i) as [|m] eqn:Em.
      * split; [apply used5_iff; auto|]. rewrite pth5_old by auto. split; auto. intros _.
        unfold key in K. unfold dig. destruct (BuildInv.dig inp (s_user st i) (length (pth (s_box st i)))) eqn:ED; auto.
        discriminate.
      * split; [apply used5_iff; right; exists (s_box st i), m; split; auto|].
        rewrite pth5_new by (auto; lia). split.
        -- rewrite reach_snoc, R. cbn. apply Nat.eqb_eq. auto.
        -- intros C. exfalso. apply C. rewrite child5_old.
           ++ apply (i_unused inp st pth I); auto. apply nid_not_used; auto.
           ++ intros M'. apply (nid_not_used (s_box st i) m M Kle). apply (moves_used inp MW st pth H); auto.
           ++ auto.
    + rewrite tb_stay by auto. rewrite pth5_old by auto. split; [apply used5_iff; auto|]. split; auto.
      rewrite child5_old by auto. auto.
  - intros b m U C Hm CC. apply used5_iff in U. destruct (moves_dec inp st b) as [M|M].
    + rewrite (child5_new b m) in * by auto. assert (U0 := moves_used inp MW st pth H b M).
      rewrite (start5_old b), pth5_old by auto. rewrite cumul5_new in CC by auto. apply start5_new; auto.
    + rewrite (child5_old b 0) in C by auto. rewrite (child5_old b m) in * by auto.
      destruct U as [U|[b0 [m0 [M0 [Hm0 ->]]]]].
      * destruct (i_split inp st pth I b m U C Hm) as [U' E'].
        rewrite cumul5_old in CC by (apply used_not_new; auto). rewrite !start5_old, pth5_old by auto.
        apply (i_order inp st pth I); auto.
      * exfalso. apply C. apply (i_unused inp st pth I); auto. apply nid_not_used; auto.
  - intros j H0 Hj. rewrite flag5 by auto. split.
    + intros [F|[b [m [M [Hm [K E]]]]]].
      * apply (i_flag inp st pth I) in F; auto. destruct F as [b [U [C S]]]. exists b.
        split; [apply used5_iff; auto|]. rewrite cumul5_old by (apply used_not_new; auto). rewrite start5_old by auto. auto.
      * exists (nid b m). split; [apply used5_iff; right; exists b, m; auto|].
        rewrite cumul5_new, start5_new by auto. auto.
    + intros [b [U [C S]]]. apply used5_iff in U. destruct U as [U|[b0 [m0 [M0 [Hm0 ->]]]]].
      * left. apply (i_flag inp st pth I); auto. exists b. rewrite cumul5_old in C by (apply used_not_new; auto).
        rewrite start5_old in S by auto. auto.
      * right. exists b0, m0. rewrite cumul5_new in C by auto. rewrite start5_new in S by auto. auto.
  - intros b k U C Hk. change (s_bins st5) with (s_bins st1). apply used5_iff in U.
    destruct U as [U|[b0 [m0 [M0 [Hm0 ->]]]]].
    + rewrite pth5_old by auto. apply (scanned_bins inp st pth I); auto.
    + assert (U := nid_not_used b0 m0 M0 Hm0). destruct (scanned_unused inp st pth I _ U) as [E _]. rewrite E.
      destruct (i_unused inp st pth I _ U) as [Z1 [_ [_ [_ [B _]]]]]. rewrite B by auto.
      destruct C as [C|C].
      { exfalso. apply C. rewrite child5_old by (auto; intros M; apply U; apply (moves_used inp MW st pth H); auto). apply Z1; auto. }
      rewrite cumul5_new in C by auto. rewrite pth5_new by auto.
      assert (X := kcount_le inp (pth b0 ++ [m0]) k). rewrite rcount_snoc in X. lia.
  - intros b k U C Hk. change (s_wts st5) with (s_wts st1). apply used5_iff in U.
    destruct U as [U|[b0 [m0 [M0 [Hm0 ->]]]]].
    + rewrite pth5_old by auto. apply (scanned_wts inp WT st pth I); auto.
    + assert (U := nid_not_used b0 m0 M0 Hm0). destruct (scanned_unused inp st pth I _ U) as [_ E]. rewrite E.
      destruct (i_unused inp st pth I _ U) as [Z1 [_ [_ [_ [_ B]]]]]. rewrite B by auto.
      destruct C as [C|C].
      { exfalso. apply C. rewrite child5_old by (auto; intros M; apply U; apply (moves_used inp MW st pth H); auto). apply Z1; auto. }
      rewrite cumul5_new in C by auto. rewrite pth5_new by auto. unfold subweight.
      rewrite rweight_0; [auto|]. rewrite rcount_snoc.
      assert (X := kcount_le inp (pth b0 ++ [m0]) (S k)). rewrite rcount_snoc in X. lia.
  - intros b U. assert (U0 : ~ used st b) by (intros Z; apply U; apply used5_iff; auto).
    assert (N : forall b0 m0, moves b0 -> m0 < nch -> b <> nid b0 m0).
    { intros b0 m0 M0 Hm0 ->. apply U, used5_iff. right. exists b0, m0; auto. }
    assert (M : ~ moves b) by (intros M; apply U0; apply (moves_used inp MW st pth H); auto).
    destruct (i_unused inp st pth I _ U0) as [Z1 [Z2 [Z3 [Z4 [Z5 Z6]]]]].
    split; [intros; rewrite child5_old; auto|]. split; [rewrite cumul5_old; auto|].
    split; [change (s_has_children st5) with (s_has_children st2); rewrite (has_children2 inp st pth H), Z3;
            destruct (b <? n) eqn:E; auto; apply Nat.ltb_lt in E; cbn; destruct (sp b) eqn:S; auto; exfalso; apply M; split; auto|].
    split; [exact Z4|]. change (s_bins st5) with (s_bins st1). change (s_wts st5) with (s_wts st1).
    destruct (scanned_unused inp st pth I _ U0) as [E1 E2]. rewrite E1, E2. auto.
Qed.
End Advance.
