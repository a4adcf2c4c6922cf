(** Facts about the depth-first order, the segments and the masks of Partition.v. *)
From Coq Require Import List Arith ZArith NArith Lia Bool Permutation.
From Verif Require Import Base Tree Spec TreeFacts Traversal SpecTraversal Partition.
Import ListNotations.

(** ** Depth-first order *)
Section Dfs.
Variable t : tree.
Hypothesis W : wf_tree t.

(** boxes below and including [b], the last child first *)
Fixpoint pre (h b : nat) : list nat :=
  match h with 0 => [] | S h' => b :: concat (map (pre h') (rev (children t b))) end.

Lemma in_children b c : b < nboxes t -> (In c (children t b) <-> 0 < c /\ c < nboxes t /\ box_parent t c = b).
Proof.
  intros Hb. unfold children. rewrite filter_In, in_map_iff, Nat.ltb_lt. split.
  - intros [[m [<- Hm]] H]. apply in_seq in Hm. destruct (child_facts t W m b Hb ltac:(lia) ltac:(lia)) as [P [_ L]]. auto.
  - intros [C [L P]]. split; auto. destruct (wf_parent t W c C L) as [_ [m [Hm E]]]. exists m. rewrite <- P. split; auto. apply in_seq. lia.
Qed.
Lemma children_NoDup b : b < nboxes t -> NoDup (children t b).
Proof.
  intros Hb. unfold children.
  assert (G : forall l, NoDup l -> (forall m, In m l -> m < nchildren t) -> NoDup (filter (fun c => 0 <? c) (map (fun i => box_child t i b) l))).
  { induction l as [|m l IH]; intros ND R; [constructor|]. inversion ND; subst. cbn [map filter].
    destruct (Nat.ltb_spec 0 (box_child t m b)) as [P|]; [|apply IH; auto; intros; apply R; simpl; auto].
    constructor; [|apply IH; auto; intros; apply R; simpl; auto].
    rewrite filter_In, in_map_iff. intros [[k [E Hk]] _].
    assert (k = m). { apply (wf_child_inj t W k m b Hb); auto; try (apply R; simpl; auto). lia. } subst. auto. }
  apply G; [apply seq_NoDup|]. intros m Hm. apply in_seq in Hm. lia.
Qed.

Lemma pre_in h : forall b x, b < nboxes t -> nlevels t <= h + box_level t b ->
  (In x (pre h b) <-> x < nboxes t /\ In b (ancestors_or_self t x)).
Proof.
  induction h as [|h IH]; intros b x Hb Hh.
  { assert (X := wf_level_lt t W b Hb). lia. }
  cbn [pre In]. rewrite in_concat_map. split.
  - intros [<-|[c [Hc Hx]]].
    + split; auto. apply in_chain; auto. exists (box_level t b). rewrite anc_self. auto.
    + apply in_rev, in_children in Hc; auto. destruct Hc as [C0 [CL CP]].
      assert (LC := parent_level t W c CL C0). rewrite CP in LC.
      apply IH in Hx; [|auto|lia]. destruct Hx as [XL XC]. split; auto.
      apply in_chain in XC; auto. destruct XC as [k [Hk E]]. apply in_chain; auto.
      exists (box_level t b). assert (K : k = S (box_level t b)) by (rewrite <- LC, E, anc_level; auto; lia).
      split; [lia|]. rewrite <- CP at 1. rewrite E, K. apply parent_anc; auto; lia.
  - intros [XL XC]. apply in_chain in XC; auto. destruct XC as [k [Hk E]].
    assert (LB : box_level t b = k) by (rewrite E; apply anc_level; auto).
    destruct (Nat.eq_dec k (box_level t x)) as [->|NE]; [left; rewrite E, anc_self; auto|right].
    exists (anc t (S k) x). split.
    + apply -> in_rev. apply in_children; auto. repeat split; [apply anc_pos; auto; lia|apply anc_lt; auto|].
      rewrite parent_anc by (auto; lia). auto.
    + apply IH; [apply anc_lt; auto|rewrite anc_level by (auto; lia); lia|]. split; auto.
      apply in_chain; auto. exists (S k). split; auto. lia.
Qed.
Lemma pre_NoDup h : forall b, b < nboxes t -> nlevels t <= h + box_level t b -> NoDup (pre h b).
Proof.
  induction h as [|h IH]; intros b Hb Hh; [constructor|]. cbn [pre].
  assert (CH : forall c, In c (rev (children t b)) -> c < nboxes t /\ box_level t c = S (box_level t b) /\ box_parent t c = b).
  { intros c Hc. apply in_rev, in_children in Hc; auto. destruct Hc as [C0 [CL CP]].
    assert (LC := parent_level t W c CL C0). rewrite CP in LC. auto. }
  constructor.
  - rewrite in_concat_map. intros [c [Hc Hx]]. destruct (CH c Hc) as [CL [LC _]].
    apply pre_in in Hx; [|auto|lia]. destruct Hx as [_ XC]. apply in_chain in XC; auto. destruct XC as [k [Hk E]].
    rewrite E, anc_level in LC by auto. lia.
  - apply NoDup_concat_intro.
    + intros l Hl. apply in_map_iff in Hl. destruct Hl as [c [<- Hc]]. destruct (CH c Hc) as [CL [LC _]]. apply IH; auto. lia.
    + intros i j x Hi Hj NE Hx Hy. rewrite map_length in *. set (cs := rev (children t b)) in *.
      rewrite (nth_indep _ [] (pre h 0)), (map_nth (pre h)) in Hx by (rewrite map_length; auto).
      rewrite (nth_indep _ [] (pre h 0)), (map_nth (pre h)) in Hy by (rewrite map_length; auto).
      destruct (CH _ (nth_In cs 0 Hi)) as [C1 [C2 _]]. destruct (CH _ (nth_In cs 0 Hj)) as [D1 [D2 _]].
      apply pre_in in Hx; [|auto|lia]. apply pre_in in Hy; [|auto|lia]. destruct Hx as [XL Hx], Hy as [_ Hy].
      apply in_chain in Hx; auto. apply in_chain in Hy; auto. destruct Hx as [k [Hk Ek]], Hy as [l [Hl El]].
      rewrite Ek, anc_level in C2 by auto. rewrite El, anc_level in D2 by auto.
      apply NE. apply (proj1 (NoDup_nth cs 0)); auto; [|congruence].
      unfold cs. apply NoDup_rev, children_NoDup; auto.
Qed.

Lemma pre_enough h b : b < nboxes t -> nlevels t <= S h + box_level t b ->
  concat (map (pre (nlevels t)) (rev (children t b))) = concat (map (pre h) (rev (children t b))).
Proof.
  assert (G : forall h1 h2 b, b < nboxes t -> nlevels t <= h1 + box_level t b -> nlevels t <= h2 + box_level t b -> pre h1 b = pre h2 b).
  { induction h1 as [|h1 IH]; intros h2 b0 Hb H1 H2; assert (X := wf_level_lt t W b0 Hb); [lia|].
    destruct h2 as [|h2]; [lia|]. cbn [pre]. f_equal. f_equal. apply map_ext_in. intros c Hc.
    apply in_rev, in_children in Hc; auto. destruct Hc as [C0 [CL CP]]. assert (LC := parent_level t W c CL C0). rewrite CP in LC.
    apply IH; auto; lia. }
  intros Hb H. f_equal. apply map_ext_in. intros c Hc. apply in_rev, in_children in Hc; auto. destruct Hc as [C0 [CL CP]].
  assert (LC := parent_level t W c CL C0). rewrite CP in LC. apply G; auto; lia.
Qed.

Lemma dfs_loop_pre : forall room stack, (forall b, In b stack -> b < nboxes t) ->
  length (concat (map (pre (nlevels t)) stack)) <= room ->
  dfs_loop t room stack = Some (concat (map (pre (nlevels t)) stack)).
Proof.
  assert (N : exists h, nlevels t = S h).
  { assert (X := wf_level_lt t W 0 (wf_nboxes t W)). exists (nlevels t - 1). lia. }
  destruct N as [h Nh].
  induction room as [|room IH]; intros stack R L; destruct stack as [|b rest]; auto; cbn [map concat] in *.
  - exfalso. rewrite Nh in L. cbn in L. lia.
  - assert (Hb : b < nboxes t) by (apply R; simpl; auto).
    assert (EP : pre (nlevels t) b = b :: concat (map (pre (nlevels t)) (rev (children t b)))).
    { rewrite (pre_enough h b Hb) by lia. rewrite Nh. auto. }
    rewrite EP in *. cbn [app length] in L. cbn [dfs_loop].
    rewrite IH.
    + rewrite map_app, concat_app. reflexivity.
    + intros x Hx. apply in_app_iff in Hx. destruct Hx as [Hx|Hx]; [|apply R; simpl; auto].
      apply in_rev, in_children in Hx; auto. tauto.
    + rewrite map_app, concat_app. lia.
Qed.

Lemma dfs_order_pre : get_box_ids_dfs_order t = Some (pre (nlevels t) 0).
Proof.
  assert (ND := pre_NoDup (nlevels t) 0 (wf_nboxes t W) ltac:(lia)).
  unfold get_box_ids_dfs_order. rewrite dfs_loop_pre.
  - cbn [map concat]. rewrite app_nil_r. auto.
  - intros b [<-|[]]. apply (wf_nboxes t W).
  - cbn [map concat]. rewrite app_nil_r. apply NoDup_incl_length_seq; auto.
    intros x Hx. apply pre_in in Hx; [tauto|apply (wf_nboxes t W)|lia].
Qed.
Lemma pre_perm : Permutation (pre (nlevels t) 0) (seq 0 (nboxes t)).
Proof.
  apply NoDup_Permutation; [apply pre_NoDup; [apply (wf_nboxes t W)|lia]|apply seq_NoDup|].
  intros x. rewrite pre_in by (try apply (wf_nboxes t W); lia). rewrite in_seq. split; [lia|]. intros [_ H].
  split; auto. apply in_chain; auto. exists 0. rewrite anc_0 by auto. split; [lia|auto].
Qed.
Lemma pre_block h : forall b x, b < nboxes t -> nlevels t <= h + box_level t b -> In x (pre h b) ->
  exists l1 l3 h', pre h b = l1 ++ pre h' x ++ l3 /\ nlevels t <= h' + box_level t x.
Proof.
  induction h as [|h IH]; intros b x Hb Hh; [simpl; tauto|]. cbn [pre In]. intros [<-|H].
  - exists [], [], (S h). cbn [pre app]. rewrite app_nil_r. auto.
  - apply in_concat_map in H. destruct H as [c [Hc Hx]].
    assert (HC := Hc). apply in_rev, in_children in HC; auto. destruct HC as [C0 [CL CP]].
    assert (LC := parent_level t W c CL C0). rewrite CP in LC.
    destruct (IH c x CL ltac:(lia) Hx) as [l1 [l3 [h' [E Hh']]]].
    apply in_split in Hc. destruct Hc as [c1 [c2 Ec]].
    exists (b :: concat (map (pre h) c1) ++ l1), (l3 ++ concat (map (pre h) c2)), h'. split; auto.
    rewrite Ec, map_app, concat_app. cbn [map concat app]. rewrite E, <- !app_assoc. reflexivity.
Qed.
End Dfs.

(** ** Segments *)
(** consecutive non-empty intervals from [s] to [e] *)
Fixpoint chain_of (s : nat) (l : list (nat * nat)) (e : nat) : Prop :=
  match l with [] => s = e | (a, b) :: l' => a = s /\ a < b /\ chain_of b l' e end.

Lemma segment_chain n size total : forall costs i start seg work,
  seg < size -> start <= i -> i + length costs = n -> (costs = [] -> start = n) ->
  chain_of start (segment_loop n size total costs i start seg work) n /\
  length (segment_loop n size total costs i start seg work) <= size - seg.
Proof.
  induction costs as [|c costs IH]; intros i start seg work HS HI HN HE; cbn [segment_loop length] in *.
  - split; [cbn; auto|lia].
  - destruct (Nat.eqb_spec (seg + 1) size) as [E|NE]; [cbn; repeat split; try lia|].
    destruct (_ || _) eqn:C.
    + destruct (IH (i + 1) (i + 1) (seg + 1) (work + c)%Z) as [X1 X2]; try lia.
      { intros ->. cbn in HN. lia. }
      cbn [chain_of length]. repeat split; auto; lia.
    + destruct (IH (i + 1) start seg (work + c)%Z) as [X1 X2]; auto; try lia.
      intros ->. apply orb_false_iff in C. destruct C as [_ C]. apply Nat.eqb_neq in C. cbn in HN. lia.
Qed.

Lemma py_slice_join {A} (l : list A) s m e : s <= m -> m <= e -> py_slice l s m ++ py_slice l m e = py_slice l s e.
Proof.
  intros H1 H2. unfold py_slice. replace (e - s) with ((m - s) + (e - m)) by lia.
  assert (SK : skipn m l = skipn (m - s) (skipn s l)).
  { replace m with (s + (m - s)) at 1 by lia. generalize (m - s). clear. revert l. induction s as [|s IH]; intros l k; auto.
    destruct l as [|x l]; cbn; [rewrite !skipn_nil; auto|]. apply IH. }
  rewrite SK. generalize (skipn s l) as k. generalize (m - s) as a, (e - m) as b. clear. intros a b.
  induction a as [|a IH]; intros k; auto. destruct k as [|x k]; cbn; [rewrite firstn_nil; auto|]. f_equal. auto.
Qed.
Lemma chain_concat {A} (l : list A) : forall segs s e, chain_of s segs e ->
  s <= e /\ concat (map (fun p => py_slice l (fst p) (snd p)) segs) = py_slice l s e.
Proof.
  induction segs as [|[a b] segs IH]; intros s e C; cbn [chain_of] in C.
  - subst. split; auto. unfold py_slice. rewrite Nat.sub_diag. auto.
  - destruct C as [-> [L C]]. destruct (IH _ _ C) as [LE E]. split; [lia|]. cbn [map concat fst snd]. rewrite E. apply py_slice_join; lia.
Qed.

(** the last [m] boxes carry less than [m] shares of the work, for each m in 1..k *)
Definition room_for_all (size seg : nat) (total : Z) (costs : list Z) (work : Z) : Prop :=
  1 <= length costs /\
  forall m, 1 <= m -> m < size - seg ->
    m < length costs /\ (Z.of_nat (size - m) * total < (work + zsum (firstn (length costs - m) costs)) * Z.of_nat size)%Z.

Lemma zsum_firstn_nonneg costs k : (forall c, In c costs -> (0 <= c)%Z) -> (0 <= zsum (firstn k costs))%Z.
Proof.
  revert k; induction costs as [|c costs IH]; intros k H; destruct k; try (cbn; lia).
  cbn [firstn]. change (zsum (c :: firstn k costs)) with (c + zsum (firstn k costs))%Z.
  assert (0 <= c)%Z by (apply H; simpl; auto). assert (X := IH k ltac:(intros; apply H; simpl; auto)). lia.
Qed.

Lemma segments_all n size total : forall costs i start seg work,
  (forall c, In c costs -> (0 <= c)%Z) -> seg < size -> i + length costs = n ->
  (length (segment_loop n size total costs i start seg work) = size - seg <-> room_for_all size seg total costs work).
Proof.
  induction costs as [|c costs IH]; intros i start seg work NN HS HN; cbn [segment_loop].
  - unfold room_for_all. cbn [length]. split; lia.
  - destruct (Nat.eqb_spec (seg + 1) size) as [E|NE].
    { cbn [length]. unfold room_for_all. cbn [length]. split; [|lia]. intros _. split; [lia|]. intros m; lia. }
    assert (NN' : forall x, In x costs -> (0 <= x)%Z) by (intros; apply NN; simpl; auto).
    assert (Hc : (0 <= c)%Z) by (apply NN; simpl; auto).
    assert (FS : forall m, m < length (c :: costs) -> zsum (firstn (length (c :: costs) - m) (c :: costs)) = (c + zsum (firstn (length costs - m) costs))%Z).
    { intros m Hm. cbn [length] in *. replace (S (length costs) - m) with (S (length costs - m)) by lia. reflexivity. }
    destruct (_ || _) eqn:C.
    + cbn [length]. specialize (IH (i + 1) (i + 1) (seg + 1) (work + c)%Z NN' ltac:(lia) ltac:(cbn in HN; lia)).
      assert (X : room_for_all size seg total (c :: costs) work <-> room_for_all size (seg + 1) total costs (work + c)).
      { unfold room_for_all. split.
        - intros [_ H]. split.
          + destruct (H 1 ltac:(lia) ltac:(lia)) as [H1 _]. cbn in H1. lia.
          + intros m M1 M2. destruct (H m M1 ltac:(lia)) as [H1 H2]. destruct (H (m + 1) ltac:(lia) ltac:(lia)) as [H3 _].
            rewrite FS in H2 by auto. cbn in H3. split; [lia|]. rewrite <- Z.add_assoc. auto.
        - intros [L H]. split; [cbn; lia|]. intros m M1 M2.
          destruct (Nat.eq_dec m (size - seg - 1)) as [EM|NM].
          + assert (ML : m < length (c :: costs)).
            { cbn. destruct (Nat.eq_dec m 1); [lia|]. destruct (H (m - 1) ltac:(lia) ltac:(lia)). lia. }
            split; auto. rewrite FS by auto. apply orb_true_iff in C. destruct C as [C|C].
            * apply Z.ltb_lt in C. assert (Y := zsum_firstn_nonneg costs (length costs - m) NN').
              replace (size - m) with (seg + 1) by lia. nia.
            * apply Nat.eqb_eq in C. cbn in HN. lia.
          + destruct (H m M1 ltac:(lia)) as [H1 H2]. split; [cbn; lia|]. rewrite FS by (cbn; lia). rewrite Z.add_assoc. auto. }
      rewrite X, <- IH. lia.
    + apply orb_false_iff in C. destruct C as [C1 C2]. apply Z.ltb_ge in C1. apply Nat.eqb_neq in C2.
      specialize (IH (i + 1) start seg (work + c)%Z NN' HS ltac:(cbn in HN; lia)). rewrite IH.
      cbn [length] in HN. unfold room_for_all. split.
      * intros [L H]. split; [cbn; lia|]. intros m M1 M2. destruct (H m M1 M2) as [H1 H2]. split; [cbn; lia|].
        rewrite FS by (cbn; lia). rewrite Z.add_assoc. auto.
      * intros [_ H]. split; [cbn in C2; lia|]. intros m M1 M2. destruct (H m M1 M2) as [H1 H2]. cbn [length] in H1.
        rewrite FS in H2 by (cbn; lia).
        assert (MM : m < length costs).
        { destruct (H (size - seg - 1) ltac:(lia) ltac:(lia)) as [H3 H4]. cbn [length] in H3.
          destruct (Nat.eq_dec m (length costs)) as [EM|]; [|lia].
          assert (m = size - seg - 1) by lia. rewrite FS in H4 by (cbn; lia).
          replace (length costs - (size - seg - 1)) with 0 in H4 by lia. cbn in H4. replace (size - (size - seg - 1)) with (seg + 1) in H4 by lia. lia. }
        split; auto. rewrite <- Z.add_assoc. auto.
Qed.

(** ** Masks *)
Lemma fold_mark l : forall m b, fold_left mark l m b = m b || existsb (Nat.eqb b) l.
Proof.
  induction l as [|x l IH]; intros m b; cbn [fold_left existsb]; [rewrite orb_false_r; auto|].
  rewrite IH. unfold mark. destruct (Nat.eqb_spec b x); [rewrite orb_true_r; auto|]. auto.
Qed.
Lemma existsb_eqb b l : existsb (Nat.eqb b) l = true <-> In b l.
Proof.
  rewrite existsb_exists. split; [intros [x [H E]]; apply Nat.eqb_eq in E; subst; auto|].
  intros H. exists b. split; auto. apply Nat.eqb_refl.
Qed.
Lemma responsible_mask_spec l b : responsible_mask l b = true <-> In b l.
Proof. unfold responsible_mask. rewrite fold_mark. apply existsb_eqb. Qed.

Lemma in_entries boxes c b x : In x (entries boxes c b) <-> exists i, i < length boxes /\ nth i boxes 0 = b /\ In x (csr_get c i).
Proof.
  unfold entries. rewrite in_concat_map. split.
  - intros [i [Hi H]]. apply in_seq in Hi. destruct (Nat.eqb_spec (nth i boxes 0) b) as [E|]; [|destruct H]. exists i. split; [lia|auto].
  - intros [i [Hi [E H]]]. exists i. split; [apply in_seq; lia|]. rewrite E, Nat.eqb_refl. auto.
Qed.
Lemma add_interaction_spec boxes resp c : forall src b,
  add_interaction_list_boxes boxes resp c src b = true <->
  src b = true \/ exists A, resp A = true /\ In b (entries boxes c A).
Proof.
  intros src b. unfold add_interaction_list_boxes.
  assert (G : forall l s, fold_left (fun src i => if resp (nth i boxes 0) then fold_left mark (csr_get c i) src else src) l s b = true <->
     s b = true \/ exists i, In i l /\ resp (nth i boxes 0) = true /\ In b (csr_get c i)).
  { induction l as [|i l IH]; intros s; cbn [fold_left].
    - split; auto. intros [H|[i [[] _]]]; auto.
    - rewrite IH. destruct (resp (nth i boxes 0)) eqn:R.
      + rewrite fold_mark, orb_true_iff, existsb_eqb. split.
        * intros [[H|H]|[j [Hj H]]]; auto; right; [exists i|exists j]; simpl; auto.
        * intros [H|[j [[<-|Hj] [H1 H2]]]]; auto. right. exists j. auto.
      + split; intros [H|[j [Hj H]]]; auto; right; exists j; [simpl; auto|]. destruct Hj as [<-|Hj]; [|auto]. destruct H. congruence. }
  rewrite G. split; intros [H|H]; auto; right.
  - destruct H as [i [Hi [H1 H2]]]. apply in_seq in Hi. exists (nth i boxes 0). split; auto. apply in_entries. exists i. split; [lia|auto].
  - destruct H as [A [HA H]]. apply in_entries in H. destruct H as [i [Hi [E H]]]. exists i. rewrite E. split; [apply in_seq; lia|auto].
Qed.

Section Anc.
Variable t : tree.
Hypothesis W : wf_tree t.

Lemma add_parent_spec cur m b :
  add_parent_boxes t cur m b = true <-> m b = true \/ exists i, 0 < i /\ i < nboxes t /\ cur i = true /\ box_parent t i = b.
Proof.
  unfold add_parent_boxes.
  assert (G : forall l s, fold_left (fun parent i => if negb (i =? 0) && cur i then mark parent (box_parent t i) else parent) l s b = true <->
     s b = true \/ exists i, In i l /\ 0 < i /\ cur i = true /\ box_parent t i = b).
  { induction l as [|i l IH]; intros s; cbn [fold_left].
    - split; auto. intros [H|[i [[] _]]]; auto.
    - rewrite IH. destruct (negb (i =? 0) && cur i) eqn:R.
      + apply andb_true_iff in R. destruct R as [R1 R2]. apply negb_true_iff, Nat.eqb_neq in R1. unfold mark.
        destruct (Nat.eqb_spec b (box_parent t i)) as [E|NE].
        * split; [intros _|auto]. right. exists i. split; [simpl; auto|]. split; [lia|auto].
        * split; [intros [H|[j [Hj H]]]; auto; right; exists j; simpl; auto|].
          intros [H|[j [[<-|Hj] [H1 [H2 H3]]]]]; [auto|congruence|]. right. exists j. auto.
      + split; intros [H|[j [Hj H]]]; auto; right; exists j; [simpl; auto|]. destruct Hj as [<-|Hj]; [|auto].
        destruct H as [H1 [H2 H3]]. rewrite H2, andb_true_r in R. apply negb_false_iff, Nat.eqb_eq in R. lia. }
  rewrite G. split; intros [H|[i [H1 H2]]]; auto; right; exists i.
  - apply in_seq in H1. destruct H2 as [H2 [H3 H4]]. repeat split; auto; lia.
  - destruct H2 as [H2 [H3 H4]]. repeat split; auto. apply in_seq. lia.
Qed.

(** [b] lies strictly above [x] *)
Definition strictly_above (b x : nat) : Prop := exists k, k < box_level t x /\ b = anc t k x.

Lemma above_parent b x : x < nboxes t -> strictly_above b x -> b = box_parent t x \/ strictly_above b (box_parent t x).
Proof.
  intros Hx [k [Hk ->]]. assert (X0 : 0 < x). { destruct x; [rewrite (wf_root_level t W) in Hk; lia|lia]. }
  assert (L := parent_level t W x Hx X0).
  destruct (Nat.eq_dec k (box_level t x - 1)) as [->|NE]; [left; symmetry; apply parent_is_anc; auto|right].
  exists k. split; [lia|]. rewrite anc_parent by (auto; lia). auto.
Qed.
Lemma parent_above x : x < nboxes t -> 0 < x -> strictly_above (box_parent t x) x.
Proof. intros Hx X0. assert (L := level_pos t W x Hx X0). exists (box_level t x - 1). split; [lia|]. apply parent_is_anc; auto. Qed.
Lemma above_trans b y x : x < nboxes t -> strictly_above b y -> strictly_above y x -> strictly_above b x.
Proof.
  intros Hx [j [Hj ->]] [k [Hk ->]]. rewrite anc_level in Hj by (auto; lia). exists j. split; [lia|]. rewrite anc_anc by (auto; lia). auto.
Qed.

Lemma ancestor_loop_ok resp : forall fuel anc0 last,
  (forall b, anc0 b = true -> b < nboxes t /\ exists x, x < nboxes t /\ resp x = true /\ strictly_above b x) ->
  (forall y, y < nboxes t -> 0 < y -> resp y = true \/ anc0 y = true -> anc0 (box_parent t y) = true \/ last y = true) ->
  (forall y, y < nboxes t -> last y = true -> box_level t y < fuel /\ (resp y = true \/ anc0 y = true)) ->
  exists m, ancestor_loop t fuel anc0 last = Some m /\
    forall b, m b = true <-> exists x, x < nboxes t /\ resp x = true /\ strictly_above b x.
Proof.
  induction fuel as [|fuel IH]; intros anc0 last I1 I2 I3; cbn [ancestor_loop].
  all: destruct (existsb last (seq 0 (nboxes t))) eqn:EX.
  1: { exfalso. apply existsb_exists in EX. destruct EX as [y [Hy L]]. apply in_seq in Hy. destruct (I3 y ltac:(lia) L). lia. }
  all: try (exists anc0; split; auto; intros b; split; [intros H; apply I1; auto|]; intros [x [Hx [Rx A]]];
    assert (NL : forall y, y < nboxes t -> last y = false) by
      (intros y Hy; destruct (last y) eqn:L; auto; assert (existsb last (seq 0 (nboxes t)) = true) by (apply existsb_exists; exists y; split; auto; apply in_seq; lia); congruence);
    assert (G : forall n y, box_level t y <= n -> y < nboxes t -> resp y = true \/ anc0 y = true -> strictly_above b y -> anc0 b = true) by
     (induction n as [|n IHn]; intros y Ly Hy Ry Ay; destruct Ay as [k [Hk E]]; [lia|];
      assert (Y0 : 0 < y) by (destruct y; [rewrite (wf_root_level t W) in Hk; lia|lia]);
      assert (P := I2 y Hy Y0 Ry); rewrite (NL y Hy) in P; destruct P as [P|P]; [|discriminate];
      assert (LP := parent_level t W y Hy Y0);
      destruct (above_parent b y Hy ltac:(exists k; auto)) as [->|Ab]; auto;
      apply (IHn (box_parent t y)); auto; [lia|apply parent_lt; auto]);
    apply (G (box_level t x) x); auto).
  set (new := fun b => add_parent_boxes t last no_boxes b && negb (anc0 b)).
  assert (NS : forall b, new b = true <-> (exists i, 0 < i /\ i < nboxes t /\ last i = true /\ box_parent t i = b) /\ anc0 b = false).
  { intros b. unfold new. rewrite andb_true_iff, add_parent_spec, negb_true_iff. unfold no_boxes. intuition congruence. }
  apply IH; unfold either.
  - intros b H. apply orb_true_iff in H. destruct H as [H|H]; auto. apply NS in H. destruct H as [[i [H1 [H2 [H3 H4]]]] _].
    rewrite <- H4. split; [apply parent_lt; auto|]. destruct (I3 i H2 H3) as [_ [R|A]].
    + exists i. repeat split; auto. apply parent_above; auto.
    + destruct (I1 i A) as [_ [x [Hx [Rx Ax]]]]. exists x. repeat split; auto. eapply above_trans; eauto. apply parent_above; auto.
  - intros y Hy Y0 H.
    assert (OR : (resp y = true \/ anc0 y = true) \/ new y = true) by (destruct H as [H|H]; auto; apply orb_true_iff in H; tauto).
    clear H. destruct OR as [OR|N]; auto. destruct (I2 y Hy Y0 OR) as [P|L]; [left; rewrite P; auto|].
    left. apply orb_true_iff. destruct (anc0 (box_parent t y)) eqn:A; auto. right. apply NS. split; auto. exists y. auto.
  - intros y Hy N. split; [|rewrite N, orb_true_r; auto]. apply NS in N. destruct N as [[i [H1 [H2 [H3 H4]]]] _].
    destruct (I3 i H2 H3) as [L _]. assert (LP := parent_level t W i H2 H1). rewrite H4 in LP. lia.
Qed.
Lemma ancestor_mask_ok resp :
  exists m, get_ancestor_boxes_mask t resp = Some m /\
    forall b, m b = true <-> exists x, x < nboxes t /\ resp x = true /\ strictly_above b x.
Proof.
  unfold get_ancestor_boxes_mask. apply ancestor_loop_ok.
  - unfold no_boxes. discriminate.
  - unfold no_boxes. intros y _ _ [H|H]; [auto|discriminate].
  - intros y Hy L. split; auto. apply wf_level_lt; auto.
Qed.
End Anc.

Lemma multipole_mask_spec tr resp anc b :
  get_multipole_src_boxes_mask tr resp anc b = true <->
  (exists A, (resp A = true \/ anc A = true) /\ In b (list2_of tr A)) \/ (exists T, resp T = true /\ In b (list3_of tr T)).
Proof.
  unfold get_multipole_src_boxes_mask.
  assert (G : forall ll m, fold_left (fun m lc => add_interaction_list_boxes (fst lc) resp (snd lc) m) ll m b = true <->
     m b = true \/ exists T, resp T = true /\ In b (concat (map (fun p => entries (fst p) (snd p) T) ll))).
  { induction ll as [|lc ll IH]; intros m; cbn [fold_left map concat].
    - split; auto. intros [H|[T [_ []]]]; auto.
    - rewrite IH, add_interaction_spec. split.
      + intros [[H|[T [R H]]]|[T [R H]]]; auto; right; exists T; split; auto; apply in_app_iff; auto.
      + intros [H|[T [R H]]]; auto. apply in_app_iff in H. destruct H as [H|H]; [left; right|right]; exists T; auto. }
  rewrite G, add_interaction_spec. unfold no_boxes, either, list2_of, list3_of. split.
  - intros [[H|[A [R H]]]|H]; [discriminate| |auto]. left. exists A. apply orb_true_iff in R. auto.
  - intros [[A [R H]]|H]; auto. left. right. exists A. split; auto. apply orb_true_iff; auto.
Qed.
Lemma point_mask_spec tr have resp anc b :
  get_point_src_boxes_mask tr have resp anc b = true <->
  resp b = true \/ (exists T, resp T = true /\ In b (list1_of tr T)) \/
  (exists A, (resp A = true \/ anc A = true) /\ In b (list4_of tr A)) \/
  (have = true /\ exists T, resp T = true /\ In b (list3_close_of tr T)) \/
  (have = true /\ exists A, (resp A = true \/ anc A = true) /\ In b (list4_close_of tr A)).
Proof.
  unfold get_point_src_boxes_mask, list3_close_of, list4_close_of.
  set (s1 := add_interaction_list_boxes (target_boxes tr) resp (neighbor_source_boxes tr) resp).
  set (s2 := add_interaction_list_boxes (target_or_target_parent_boxes tr) (either resp anc) (from_sep_bigger tr) s1).
  assert (E1 : s1 b = true <-> resp b = true \/ (exists T, resp T = true /\ In b (list1_of tr T))) by apply add_interaction_spec.
  assert (E2 : s2 b = true <-> s1 b = true \/ (exists A, (resp A = true \/ anc A = true) /\ In b (list4_of tr A))).
  { unfold s2. rewrite add_interaction_spec. unfold either. setoid_rewrite orb_true_iff. reflexivity. }
  assert (X : forall c s, add_interaction_list_boxes (target_boxes tr) (either resp anc) c s b = true <->
     s b = true \/ (exists A, (resp A = true \/ anc A = true) /\ In b (entries (target_boxes tr) c A))).
  { intros c s. rewrite add_interaction_spec. unfold either. setoid_rewrite orb_true_iff. reflexivity. }
  assert (N : (exists T, resp T = true /\ In b []) <-> False) by (split; [intros [T [_ []]]|tauto]).
  assert (N2 : (exists T, (resp T = true \/ anc T = true) /\ In b []) <-> False) by (split; [intros [T [_ []]]|tauto]).
  destruct have.
  - destruct (from_sep_close_smaller tr) as [c3|], (from_sep_close_bigger tr) as [c4|]; rewrite ?X, ?add_interaction_spec, E2, E1; tauto.
  - rewrite E2, E1. intuition discriminate.
Qed.
