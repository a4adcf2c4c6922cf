(** Every (target box, source box) pair is covered exactly once by the lists. *)
From Coq Require Import List Arith ZArith NArith Lia Bool Permutation.
From Verif Require Import Base Tree Spec TreeFacts Walk WalkFacts Traversal GeomFacts
  SpecTraversal TraversalLists.
Import ListNotations.

(** ** Generic summation lemmas *)
Lemma first_sum (p : nat -> bool) a len :
  nsum (map (fun k => if forallb (fun j => negb (p j)) (seq a (k - a)) && p k then 1 else 0)
            (seq a len)) = if existsb p (seq a len) then 1 else 0.
Proof.
  induction len as [|len IH]; [reflexivity|].
  rewrite seq_S, map_app, nsum_app, IH, existsb_app.
  simpl (map _ [_]). simpl (existsb p [_]). rewrite orb_false_r.
  replace (a + len - a) with len by lia.
  assert (E : forallb (fun j => negb (p j)) (seq a len) = negb (existsb p (seq a len))).
  { generalize (seq a len). intros l. induction l; simpl; auto. rewrite IHl.
    destruct (p a0); auto. }
  rewrite E. destruct (existsb p (seq a len)), (p (a + len)); reflexivity.
Qed.

Lemma edge_sum (p : nat -> bool) a len :
  (forall k, a <= k -> S k < a + S len -> p k = true -> p (S k) = true) ->
  nsum (map (fun k => if p k && ((k =? a) || negb (p (k - 1))) then 1 else 0) (seq a (S len)))
  = if p (a + len) then 1 else 0.
Proof.
  induction len as [|len IH]; intros H.
  - simpl. rewrite Nat.eqb_refl. replace (a + 0) with a by lia. destruct (p a); reflexivity.
  - rewrite seq_S, map_app, nsum_app, IH by (intros; apply H; auto; lia).
    simpl (map _ [_]). destruct (Nat.eqb_spec (a + S len) a); [lia|].
    replace (a + S len - 1) with (a + len) by lia. simpl.
    destruct (p (a + len)) eqn:E; simpl.
    + replace (a + S len) with (S (a + len)) by lia. rewrite H by (auto; lia). reflexivity.
    + destruct (p (a + S len)); reflexivity.
Qed.

Lemma chain_sum (t : tree) (W : wf_tree t) f b : b < nboxes t ->
  nsum (map f (ancestors_or_self t b)) =
  nsum (map (fun k => f (anc t k b)) (seq 0 (S (box_level t b)))).
Proof.
  intros Hb. rewrite <- (map_map (fun k => anc t k b) f). apply nsum_perm, Permutation_map.
  apply NoDup_Permutation.
  - apply chain_NoDup; auto.
  - apply NoDup_map_inj; [|apply seq_NoDup]. intros j k Hj Hk E.
    apply in_seq in Hj, Hk. rewrite <- (anc_level t W j b), <- (anc_level t W k b) by lia. congruence.
  - intros a. rewrite in_chain, in_map_iff by auto. split.
    + intros [k [Hk ->]]. exists k. split; auto. apply in_seq; lia.
    + intros [k [<- Hk]]. apply in_seq in Hk. exists k. split; auto; lia.
Qed.

(** ** Reading CSR rows *)
Lemma entries_count boxes ll b x : NoDup boxes -> length ll = length boxes ->
  forall i, i < length boxes -> nth i boxes 0 = b ->
  count x (entries boxes (csr_of ll) b) = count x (nth i ll []).
Proof.
  intros ND HL i Hi Hb. unfold entries. rewrite count_concat, map_map.
  rewrite (nsum_map_single _ _ i).
  - rewrite Hb, Nat.eqb_refl, csr_get_of by lia. auto.
  - apply seq_NoDup.
  - apply in_seq; lia.
  - intros j Hj Hne. apply in_seq in Hj. destruct (Nat.eqb_spec (nth j boxes 0) b); auto.
    exfalso. apply Hne. apply (proj1 (NoDup_nth boxes 0) ND); try lia; congruence.
Qed.

Lemma entries_map boxes (g : nat -> list nat) b : NoDup boxes -> In b boxes ->
  forall x, count x (entries boxes (csr_of (map g boxes)) b) = count x (g b).
Proof.
  intros ND Hin x. apply (In_nth _ _ 0) in Hin. destruct Hin as [i [Hi E]].
  rewrite (entries_count boxes (map g boxes) b x ND ltac:(apply map_length) i Hi E).
  f_equal. rewrite (nth_indep _ [] (g 0)) by (rewrite map_length; auto).
  rewrite map_nth. congruence.
Qed.

Lemma entries_notin boxes c b : ~ In b boxes -> entries boxes c b = [].
Proof.
  intros H. unfold entries. apply concat_nil_Forall. apply Forall_forall.
  intros l Hl. apply in_map_iff in Hl. destruct Hl as [i [<- Hi]]. apply in_seq in Hi.
  destruct (Nat.eqb_spec (nth i boxes 0) b); auto.
  exfalso. apply H. subst. apply nth_In. lia.
Qed.

Lemma combine_map_r {A B} (l : list A) (g : A -> B) : combine l (map g l) = map (fun x => (x, g x)) l.
Proof. induction l; simpl; congruence. Qed.

Lemma filter_map_swap {A B} (f : A -> B) (p : B -> bool) l :
  filter p (map f l) = map f (filter (fun x => p (f x)) l).
Proof. induction l; simpl; auto. destruct (p (f a)); simpl; congruence. Qed.

Lemma entries_eliminate boxes (g : nat -> list nat) b : NoDup boxes -> In b boxes ->
  forall x, count x (entries (fst (eliminate_empty boxes (map g boxes)))
                            (snd (eliminate_empty boxes (map g boxes))) b) = count x (g b).
Proof.
  intros ND Hin x. unfold eliminate_empty. rewrite combine_map_r, filter_map_swap, !map_map. simpl.
  rewrite map_id.
  set (ne := filter (fun x0 => negb (length (g x0) =? 0)) boxes).
  assert (NDn : NoDup ne) by (apply NoDup_filter; auto).
  destruct (in_dec Nat.eq_dec b ne) as [Hi|Hi].
  - apply entries_map; auto.
  - rewrite entries_notin by auto. rewrite count_nil.
    assert (E : length (g b) = 0).
    { destruct (Nat.eqb_spec (length (g b)) 0); auto. exfalso. apply Hi. apply filter_In.
      split; auto. destruct (Nat.eqb_spec (length (g b)) 0); [congruence|reflexivity]. }
    destruct (g b); [reflexivity|discriminate].
Qed.

(** ** reverse_index *)
Lemma update_length {A} (l : list A) i v : length (update l i v) = length l.
Proof. revert i; induction l; intros [|i]; simpl; auto. Qed.
Lemma update_nth {A} (l : list A) i v j d : i < length l ->
  nth j (update l i v) d = if j =? i then v else nth j l d.
Proof.
  revert i j; induction l; intros [|i] [|j] H; simpl in *; auto; try lia.
  rewrite IHl by lia. auto.
Qed.

Lemma reverse_index_nth arr n i : NoDup arr -> (forall x, In x arr -> x < n) -> i < length arr ->
  nth (nth i arr 0) (reverse_index arr n) 0 = i.
Proof.
  intros ND Hr Hi. unfold reverse_index.
  assert (G : forall k, k <= length arr ->
    length (fold_left (fun r i0 => update r (nth i0 arr 0) i0) (seq 0 k) (repeat 0 n)) = n /\
    forall j, j < k -> nth (nth j arr 0)
      (fold_left (fun r i0 => update r (nth i0 arr 0) i0) (seq 0 k) (repeat 0 n)) 0 = j).
  { induction k as [|k IH]; intros Hk.
    - simpl. rewrite repeat_length. split; auto. lia.
    - rewrite seq_S, fold_left_app. simpl. destruct IH as [L IH]; [lia|].
      rewrite update_length. split; auto. intros j Hj.
      rewrite update_nth by (rewrite L; apply Hr, nth_In; lia).
      destruct (Nat.eqb_spec (nth j arr 0) (nth k arr 0)) as [E|E].
      + apply (proj1 (NoDup_nth arr 0) ND) in E; lia.
      + apply IH. destruct (Nat.eq_dec j k); [subst; congruence|lia]. }
  apply (G (length arr)); auto.
Qed.

(** ** What build_traversal returns *)
Section Build.
Variable t : tree.
Hypothesis W : wf_tree t.
Variable P : trav_params.
Let n := well_sep_is_n_away P.
Hypothesis Hn : 1 <= n.
Let ex := extents P.

Definition slnws_csr := csr_of (map (slnws_list t n) (seq 0 (nboxes t))).

Lemma slnws_csr_read b : b < nboxes t ->
  csr_read slnws_csr (Z.of_nat b) = Some (slnws_list t n b).
Proof.
  intros Hb. unfold slnws_csr. rewrite csr_read_of by (rewrite map_length, seq_length; auto).
  rewrite nth_map_seq; auto.
Qed.

Lemma tb_range b : In b (find_target_boxes t P) -> b < nboxes t.
Proof.
  unfold find_target_boxes, find_source_boxes. destruct (sources_are_targets P);
  rewrite filter_In, in_seq; intros [H _]; lia.
Qed.
Lemma ttpb_range b : In b (find_target_or_target_parent_boxes t) -> b < nboxes t.
Proof. unfold find_target_or_target_parent_boxes. rewrite filter_In, in_seq; intros [H _]; lia. Qed.
Lemma tb_NoDup : NoDup (find_target_boxes t P).
Proof.
  unfold find_target_boxes, find_source_boxes. destruct (sources_are_targets P);
  apply NoDup_filter, seq_NoDup.
Qed.
Lemma ttpb_NoDup : NoDup (find_target_or_target_parent_boxes t).
Proof. apply NoDup_filter, seq_NoDup. Qed.

Definition the_traversal : traversal :=
  let tb := find_target_boxes t P in
  let ttpb := find_target_or_target_parent_boxes t in
  let lev := extract_level_starts t (level_start_box_nrs P) in
  {|
      source_boxes := find_source_boxes t P; target_boxes := tb;
      source_parent_boxes := find_source_parent_boxes t P;
      target_or_target_parent_boxes := ttpb;
      level_start_source_box_nrs := lev (find_source_boxes t P);
      level_start_target_box_nrs := lev tb;
      level_start_source_parent_box_nrs := lev (find_source_parent_boxes t P);
      level_start_target_or_target_parent_box_nrs := lev ttpb;
      same_level_non_well_sep_boxes := slnws_csr;
      neighbor_source_boxes := csr_of (map (list1_list t) tb);
      from_sep_siblings := csr_of (map (list2_list t n) ttpb);
      from_sep_smaller_by_level :=
        map (fun l => eliminate_empty tb (map (fun b => pick true (list3_list t n ex (Some l) b)) tb))
            (seq 0 (nlevels t));
      from_sep_close_smaller :=
        if targets_have_extent ex
        then Some (csr_of (map (fun b => pick false (list3_list t n ex None b)) tb)) else None;
      from_sep_bigger := csr_of (map (fun b => pick true (list4_list t n ex b)) ttpb);
      from_sep_close_bigger :=
        if targets_have_extent ex then
          let rev := reverse_index ttpb (nboxes t) in
          Some (merge_lists (map (fun b => nth b rev 0) tb)
                 [csr_of (map (fun b => pick false (list4_list t n ex b)) ttpb)])
        else None
    |}.

Theorem build_traversal_eq : build_traversal t P = Some the_traversal.
Proof.
  unfold build_traversal. fold n. fold ex. cbv zeta.
  rewrite (run_all_map _ (slnws_list t n)).
  2:{ intros. eapply slnws_kernel_ok; eauto. }
  fold slnws_csr.
  rewrite (run_all_map (list1_kernel t) (list1_list t)).
  2:{ intros. eapply list1_kernel_ok; eauto. }
  rewrite (run_all_map (fun b => list2_kernel t n slnws_csr b (Z.of_nat (box_parent t b)))
             (list2_list t n)).
  2:{ intros b Hb. eapply list2_kernel_ok; eauto using slnws_csr_read, ttpb_range. }
  rewrite (run_all_map _ (fun l => map (list3_list t n ex (Some l)) (find_target_boxes t P))).
  2:{ intros l _. apply run_all_map. intros b Hb.
      eapply list3_kernel_ok; eauto using slnws_csr_read, tb_range. }
  rewrite (run_all_map (list3_kernel t ex slnws_csr None) (list3_list t n ex None)).
  2:{ intros b Hb. eapply list3_kernel_ok; eauto using slnws_csr_read, tb_range. }
  rewrite (run_all_map (list4_kernel t ex n slnws_csr) (list4_list t n ex)).
  2:{ intros b Hb. eapply list4_kernel_ok; eauto using slnws_csr_read, ttpb_range. }
  unfold the_traversal. fold n. fold ex. cbv zeta. rewrite !map_map. f_equal. f_equal.
  apply map_ext. intros l. rewrite map_map. auto.
Qed.

Let tr := the_traversal.
Let tb := find_target_boxes t P.
Let ttpb := find_target_or_target_parent_boxes t.

Lemma list1_of_count T x : In T tb -> count x (list1_of tr T) = count x (list1_list t T).
Proof. intros H. apply entries_map; auto using tb_NoDup. Qed.
Lemma list2_of_count A x : In A ttpb -> count x (list2_of tr A) = count x (list2_list t n A).
Proof. intros H. apply entries_map; auto using ttpb_NoDup. Qed.
Lemma list4_of_count A x : In A ttpb ->
  count x (list4_of tr A) = count x (pick true (list4_list t n ex A)).
Proof. intros H. apply (entries_map ttpb (fun b => pick true (list4_list t n ex b))); auto using ttpb_NoDup. Qed.
Lemma list3_level_of_count l T x : In T tb -> l < nlevels t ->
  count x (list3_level_of tr l T) = count x (pick true (list3_list t n ex (Some l) T)).
Proof.
  intros H Hl. unfold list3_level_of, tr, the_traversal. cbn [from_sep_smaller_by_level].
  rewrite nth_map_seq by auto.
  apply (entries_eliminate tb (fun b => pick true (list3_list t n ex (Some l) b))); auto using tb_NoDup.
Qed.
Lemma list3_of_count T x : In T tb ->
  count x (list3_of tr T) =
  nsum (map (fun l => count x (pick true (list3_list t n ex (Some l) T))) (seq 0 (nlevels t))).
Proof.
  intros H. unfold list3_of, tr, the_traversal. cbn [from_sep_smaller_by_level].
  rewrite map_map, count_concat, map_map. f_equal. apply map_ext. intros l.
  apply (entries_eliminate tb (fun b => pick true (list3_list t n ex (Some l) b))); auto using tb_NoDup.
Qed.
Lemma list3_close_of_count T x : In T tb -> 
  count x (list3_close_of tr T) =
  if targets_have_extent ex then count x (pick false (list3_list t n ex None T)) else 0.
Proof.
  intros H. unfold list3_close_of, tr, the_traversal. cbn [from_sep_close_smaller target_boxes].
  destruct (targets_have_extent ex); [|reflexivity].
  apply (entries_map tb (fun b => pick false (list3_list t n ex None b))); auto using tb_NoDup.
Qed.

Lemma tb_ttpb T : wf_params t P -> In T tb -> In T ttpb /\ is_target t T = true.
Proof.
  intros [_ WP] H. pose proof (tb_range _ H) as HT.
  assert (E : is_target t T = true).
  { unfold tb, find_target_boxes, find_source_boxes in H.
    destruct (sources_are_targets P); apply filter_In in H; destruct H as [_ H]; auto.
    rewrite WP; auto. }
  split; auto. apply filter_In. split; [apply in_seq; lia|].
  rewrite flag_lor. unfold is_target in E. rewrite E. apply orb_true_r.
Qed.

Lemma list4_close_of_count T x : wf_params t P -> In T tb ->
  count x (list4_close_of tr T) =
  if targets_have_extent ex then count x (pick false (list4_list t n ex T)) else 0.
Proof.
  intros WP H. unfold list4_close_of, tr, the_traversal. cbn [from_sep_close_bigger target_boxes].
  destruct (targets_have_extent ex); [|reflexivity]. cbv zeta.
  unfold merge_lists. rewrite map_map. fold tb. fold ttpb.
  erewrite map_ext_in with (g := fun b => pick false (list4_list t n ex b)).
  - apply (entries_map tb (fun b => pick false (list4_list t n ex b))); auto using tb_NoDup.
  - intros b Hb. destruct (tb_ttpb b WP Hb) as [Hb' _].
    apply (In_nth _ _ 0) in Hb'. destruct Hb' as [i [Hi E]].
    assert (R : nth b (reverse_index ttpb (nboxes t)) 0 = i).
    { rewrite <- E. apply reverse_index_nth; auto using ttpb_NoDup, ttpb_range. }
    rewrite R. simpl. rewrite app_nil_r. rewrite csr_get_of by (rewrite map_length; auto).
    rewrite (nth_indep _ [] (pick false (list4_list t n ex 0))) by (rewrite map_length; auto).
    rewrite (map_nth (fun b => pick false (list4_list t n ex b))). congruence.
Qed.

(** ancestors of target boxes carry lists 2 and 4 *)
Hypothesis F : wf_flags t.
Lemma anc_ttpb T k : wf_params t P -> In T tb -> k <= box_level t T -> In (anc t k T) ttpb.
Proof.
  intros WP H Hk. destruct (tb_ttpb T WP H) as [Ht E]. pose proof (tb_range _ H) as HT.
  destruct (Nat.eq_dec k (box_level t T)) as [->|NE]; [rewrite anc_self; auto|].
  apply filter_In. split; [apply in_seq; split; [lia|]; simpl; apply anc_lt; auto|].
  rewrite flag_lor. apply orb_true_iff. left. eapply htc_anc; eauto; lia.
Qed.
End Build.
