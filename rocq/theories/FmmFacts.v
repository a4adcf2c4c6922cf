(** Proofs about the FMM driver model: what every target receives. *)
From Coq Require Import List Arith ZArith Lia Bool Permutation.
From Verif Require Import Base Tree Spec TreeFacts Traversal SpecTraversal Fmm Coverage.
Import ListNotations.

(** ** Array updates *)
Lemma add_at_eq a i v j : add_at a i v j = (a j + (if Nat.eqb j i then v else 0))%Z.
Proof. unfold add_at, set_at. destruct (Nat.eqb_spec j i); subst; lia. Qed.

Definition covers (start cnt i : nat) : bool := (start <=? i) && (i <? start + cnt).

Lemma slice_set_eq a start cnt v j :
  slice_set a start cnt v j = if covers start cnt j then v else a j.
Proof.
  unfold slice_set, covers. revert a start. induction cnt as [|cnt IH]; intros a start; simpl.
  - destruct (Nat.leb_spec start j), (Nat.ltb_spec j (start + 0)); simpl; auto; lia.
  - rewrite IH. unfold set_at.
    destruct (Nat.leb_spec (S start) j), (Nat.ltb_spec j (S start + cnt)), (Nat.eqb_spec j start),
      (Nat.leb_spec start j), (Nat.ltb_spec j (start + S cnt)); simpl; auto; lia.
Qed.
Lemma slice_add_eq a start cnt v j :
  slice_add a start cnt v j = (a j + if covers start cnt j then v else 0)%Z.
Proof.
  unfold slice_add, covers. revert a start. induction cnt as [|cnt IH]; intros a start; simpl.
  - destruct (Nat.leb_spec start j), (Nat.ltb_spec j (start + 0)); simpl; lia.
  - rewrite IH, add_at_eq.
    destruct (Nat.leb_spec (S start) j), (Nat.ltb_spec j (S start + cnt)), (Nat.eqb_spec j start),
      (Nat.leb_spec start j), (Nat.ltb_spec j (start + S cnt)); simpl; lia.
Qed.

Lemma fold_add_at {A} (l : list A) (f : A -> nat) (v : A -> Z) a j :
  fold_left (fun a x => add_at a (f x) (v x)) l a j =
  (a j + zsum (map (fun x => if Nat.eqb j (f x) then v x else 0%Z) l))%Z.
Proof.
  revert a. induction l as [|x l IH]; intros a; simpl; [lia|]. rewrite IH, add_at_eq. lia.
Qed.
Lemma fold_slice_add {A} (l : list A) (s c : A -> nat) (v : A -> Z) a j :
  fold_left (fun a x => slice_add a (s x) (c x) (v x)) l a j =
  (a j + zsum (map (fun x => if covers (s x) (c x) j then v x else 0%Z) l))%Z.
Proof.
  revert a. induction l as [|x l IH]; intros a; simpl; [lia|]. rewrite IH, slice_add_eq. lia.
Qed.
Lemma fold_slice_set {A} (l : list A) (s c : A -> nat) (v : A -> Z) a j :
  (forall x y, In x l -> In y l -> covers (s x) (c x) j = true -> covers (s y) (c y) j = true ->
     v x = v y) ->
  forall x, In x l -> covers (s x) (c x) j = true ->
  fold_left (fun a x => slice_set a (s x) (c x) (v x)) l a j = v x.
Proof.
  intros H x Hx Hc.
  assert (G : forall l' a', incl l' l -> (a' j = v x \/ In x l') ->
     fold_left (fun a x => slice_set a (s x) (c x) (v x)) l' a' j = v x).
  { induction l' as [|y l' IH]; intros a' Hi Ha; simpl.
    - destruct Ha; auto. contradiction.
    - apply IH; [intros z Hz; apply Hi; right; auto|]. rewrite slice_set_eq.
      destruct (covers (s y) (c y) j) eqn:E.
      + left. apply H; auto. apply Hi. left. auto.
      + destruct Ha as [Ha|[->|Ha]]; auto. congruence. }
  apply G; auto using incl_refl.
Qed.

(** ** Sums over list-of-list entries *)
Lemma zsum_map_concat {A} (f : A -> Z) ll : zsum (map f (concat ll)) = zsum (map (fun l => zsum (map f l)) ll).
Proof. induction ll; simpl; auto. rewrite map_app, zsum_app. lia. Qed.
Lemma entries_sum boxes c b (f : nat -> Z) :
  zsum (map f (entries boxes c b)) =
  zsum (map (fun i => if Nat.eqb (nth i boxes 0) b then zsum (map f (csr_get c i)) else 0%Z) (seq 0 (length boxes))).
Proof.
  unfold entries. rewrite zsum_map_concat, map_map. f_equal. apply map_ext. intros i.
  destruct (_ =? _); auto.
Qed.

(** ** Evaluation stages at a target particle owned by box T *)
Section At.
Variable t : tree.
Hypothesis W : wf_tree t.
Variable p : particles.
Variables i T : nat.
Hypothesis owner : forall b, b < nboxes t ->
  (covers (box_target_starts p b) (box_target_counts_nonchild p b) i = true <-> b = T).

Lemma eval_direct_at tb c w : NoDup tb -> (forall b, In b tb -> b < nboxes t) -> In T tb ->
  eval_direct p tb c w i = zsum (map (source_slice_sum p w) (entries tb c T)).
Proof.
  intros ND Hr HT. rewrite entries_sum. unfold eval_direct.
  destruct (In_nth _ _ 0 HT) as [k [Hk Ek]].
  assert (HTr : T < nboxes t) by auto.
  assert (K : forall x, In x (seq 0 (length tb)) ->
     covers (box_target_starts p (nth x tb 0)) (box_target_counts_nonchild p (nth x tb 0)) i = true ->
     x = k).
  { intros x Hx Hc. apply in_seq in Hx. apply owner in Hc; [|apply Hr, nth_In; lia].
    apply (proj1 (NoDup_nth tb 0) ND); first [lia | congruence]. }
  transitivity (zsum (map (source_slice_sum p w) (csr_get c k))).
  apply (fold_slice_set _ (fun x => box_target_starts p (nth x tb 0))
     (fun x => box_target_counts_nonchild p (nth x tb 0))
     (fun x => zsum (map (source_slice_sum p w) (csr_get c x))) zeros i) with (x := k).
  4:{ symmetry. rewrite (zsum_map_single _ (seq 0 (length tb)) k).
    + rewrite Ek, Nat.eqb_refl. reflexivity.
    + apply seq_NoDup.
    + apply in_seq. lia.
    + intros x Hx Hne. apply in_seq in Hx. destruct (Nat.eqb_spec (nth x tb 0) T); auto.
      exfalso. apply Hne. apply (proj1 (NoDup_nth tb 0) ND); first [lia | congruence]. }
  - intros x y Hx Hy Cx Cy. rewrite (K x), (K y); auto.
  - apply in_seq. lia.
  - rewrite Ek. apply owner; auto.
Qed.

Lemma eval_multipoles_at bl M : (forall lc b, In lc bl -> In b (fst lc) -> b < nboxes t) ->
  eval_multipoles p bl M i = zsum (map M (concat (map (fun lc => entries (fst lc) (snd lc) T) bl))).
Proof.
  intros Hr. unfold eval_multipoles.
  assert (G : forall a, fold_left (fun pot lc =>
    fold_left (fun pot i =>
        let b := nth i (fst lc) 0%nat in
        slice_add pot (box_target_starts p b) (box_target_counts_nonchild p b)
          (zsum (map M (csr_get (snd lc) i))))
      (seq 0 (length (fst lc))) pot) bl a i =
    (a i + zsum (map M (concat (map (fun lc => entries (fst lc) (snd lc) T) bl))))%Z).
  { induction bl as [|lc bl IH]; intros a; simpl; [lia|]. rewrite IH.
    2:{ intros. eapply Hr; simpl; eauto. }
    rewrite (fold_slice_add _ (fun x => box_target_starts p (nth x (fst lc) 0))
     (fun x => box_target_counts_nonchild p (nth x (fst lc) 0))).
    rewrite map_app, zsum_app, entries_sum.
    assert (E : map (fun x => if covers (box_target_starts p (nth x (fst lc) 0))
       (box_target_counts_nonchild p (nth x (fst lc) 0)) i then zsum (map M (csr_get (snd lc) x)) else 0%Z)
       (seq 0 (length (fst lc))) =
      map (fun i => if Nat.eqb (nth i (fst lc) 0) T then zsum (map M (csr_get (snd lc) i)) else 0%Z)
       (seq 0 (length (fst lc)))).
    { apply map_ext_in. intros x Hx. apply in_seq in Hx.
      pose proof (owner (nth x (fst lc) 0)) as O.
      destruct (covers _ _ i), (Nat.eqb_spec (nth x (fst lc) 0) T) as [e|e]; auto.
      - exfalso. apply e, O; auto. eapply Hr; [left; eauto|]. apply nth_In. lia.
      - exfalso. apply O in e; [discriminate|]. eapply Hr; [left; eauto|]. apply nth_In. lia. }
    rewrite E. lia. }
  apply G.
Qed.

Lemma eval_locals_at tb loc : NoDup tb -> (forall b, In b tb -> b < nboxes t) -> In T tb ->
  eval_locals p tb loc i = loc T.
Proof.
  intros ND Hr HT. unfold eval_locals. rewrite fold_slice_add. unfold zeros. simpl.
  rewrite (zsum_map_single _ _ T); auto.
  - rewrite (proj2 (owner T (Hr T HT))); auto.
  - intros x Hx Hne. pose proof (owner x (Hr x Hx)). destruct (covers _ _ i); auto.
    exfalso. apply Hne, H; auto.
Qed.
End At.

(** ** Local expansions *)
Lemma local_at ttpb c (f : nat -> Z) b :
  fold_left (fun loc i => add_at loc (nth i ttpb 0%nat) (zsum (map f (csr_get c i))))
    (seq 0 (length ttpb)) zeros b = zsum (map f (entries ttpb c b)).
Proof.
  rewrite (fold_add_at _ (fun i => nth i ttpb 0)), entries_sum. unfold zeros. simpl.
  f_equal. apply map_ext. intros x. rewrite Nat.eqb_sym. auto.
Qed.
Lemma m2l_at ttpb c M b : multipole_to_local ttpb c M b = zsum (map M (entries ttpb c b)).
Proof. apply local_at. Qed.
Lemma form_locals_at p ttpb c w b :
  form_locals p ttpb c w b = zsum (map (source_slice_sum p w) (entries ttpb c b)).
Proof. apply local_at. Qed.

(** a slice between level starts is the sublist of one level *)
Definition level_delimited (t : tree) (ls bl : list nat) : Prop :=
  forall l, l < nlevels t ->
    slice bl (nth l ls 0) (nth (l + 1) ls 0) = filter (fun b => box_level t b =? l) bl.

Lemma fold_inv_list {A B} (f : A -> B -> A) l a b :
  (forall a', f a' b = a') -> fold_left f (b :: l) a = fold_left f l a.
Proof. intros H. simpl. rewrite H. auto. Qed.

(** writes to distinct boxes, reading only boxes that are not written *)
Lemma fold_add_read (l : list nat) (rd : array -> nat -> Z) a :
  NoDup l ->
  (forall a a' x, In x l -> (forall j, ~ In j l -> a j = a' j) -> rd a x = rd a' x) ->
  forall j, fold_left (fun a x => add_at a x (rd a x)) l a j =
    if in_dec Nat.eq_dec j l then (a j + rd a j)%Z else a j.
Proof.
  intros ND H.
  assert (G : forall done todo a', l = done ++ todo ->
    (forall j, ~ In j done -> a' j = a j) ->
    (forall j, In j done -> a' j = a j + rd a j)%Z ->
    forall j, fold_left (fun a x => add_at a x (rd a x)) todo a' j =
    if in_dec Nat.eq_dec j l then (a j + rd a j)%Z else a j).
  { intros done todo. revert done. induction todo as [|x todo IH]; intros done a' E H1 H2 j; simpl.
    - rewrite app_nil_r in E. subst done. destruct (in_dec _ _ _); auto.
    - apply (IH (done ++ [x])).
      + rewrite <- app_assoc. auto.
      + intros k Hk. rewrite add_at_eq. destruct (Nat.eqb_spec k x) as [->|].
        * exfalso. apply Hk. apply in_app_iff. right. left. auto.
        * rewrite H1; [lia|]. intros Hin. apply Hk. apply in_app_iff. auto.
      + intros k Hk. rewrite add_at_eq. apply in_app_iff in Hk.
        assert (Nx : ~ In x done).
        { rewrite E in ND. apply NoDup_remove_2 in ND. intros Hin. apply ND. apply in_app_iff. auto. }
        assert (Hx : In x l) by (rewrite E; apply in_app_iff; right; left; auto).
        destruct (Nat.eqb_spec k x) as [->|NE].
        * rewrite H1 by auto. rewrite (H a' a x Hx); auto.
          intros k Hk2. apply H1. intros Hin. apply Hk2. rewrite E. apply in_app_iff. auto.
        * destruct Hk as [Hk|[->|[]]]; [|congruence]. rewrite H2 by auto. lia. }
  intros j. apply (G [] l a); auto. intros ? [].
Qed.

Section Locals.
Variable t : tree.
Hypothesis W : wf_tree t.

Lemma in_level_slice ls bl l b : level_delimited t ls bl -> l < nlevels t ->
  (In b (slice bl (nth l ls 0) (nth (l + 1) ls 0)) <-> In b bl /\ box_level t b = l).
Proof. intros H Hl. rewrite H by auto. rewrite filter_In, Nat.eqb_eq. tauto. Qed.

Lemma refine_locals_at ls ttpb loc b :
  NoDup ttpb -> (forall x, In x ttpb -> x < nboxes t) ->
  (forall x, In x ttpb -> In (box_parent t x) ttpb) ->
  level_delimited t ls ttpb -> In b ttpb ->
  refine_locals t ls ttpb loc b = zsum (map loc (ancestors_or_self t b)).
Proof.
  intros ND Hr Hp LD Hb. unfold refine_locals.
  assert (G : forall k, k <= nlevels t - 1 -> forall x, In x ttpb ->
     fold_left (fun loc target_lev =>
      fold_left (fun loc ibox => add_at loc ibox (loc (box_parent t ibox)))
        (slice ttpb (nth target_lev ls 0%nat) (nth (target_lev + 1) ls 0%nat)) loc)
       (seq 1 k) loc x =
     if box_level t x <=? k then zsum (map loc (ancestors_or_self t x)) else loc x).
  { induction k as [|k IH]; intros Hk x Hx.
    - simpl. destruct (Nat.leb_spec (box_level t x) 0) as [L|L]; auto.
      unfold ancestors_or_self. replace (box_level t x) with 0 by lia. simpl. lia.
    - rewrite seq_S, fold_left_app. cbn [fold_left]. set (a := fold_left _ (seq 1 k) loc) in *.
      rewrite (fold_add_read _ (fun a x => a (box_parent t x))).
      2:{ rewrite LD by lia. apply NoDup_filter; auto. }
      2:{ intros a1 a2 y Hy HH. apply HH. rewrite in_level_slice by (auto; lia).
          apply in_level_slice in Hy; auto; [|lia]. destruct Hy as [Hy L]. intros [_ L2].
          rewrite parent_level_pred in L2 by auto. lia. }
      destruct (in_dec _ _ _) as [i|i]; rewrite in_level_slice in i by (auto; lia).
      + destruct i as [_ L]. rewrite !IH by (auto; lia).
        rewrite parent_level_pred by auto. rewrite L.
        destruct (Nat.leb_spec (1 + k) k); [lia|]. destruct (Nat.leb_spec (1 + k - 1) k); [|lia].
        destruct (Nat.leb_spec (1 + k) (S k)); [|lia].
        unfold ancestors_or_self at 2. rewrite L.
        change (chain_fuel t (1 + k) x) with (x :: chain_fuel t k (box_parent t x)).
        unfold ancestors_or_self. rewrite parent_level_pred by auto. rewrite L.
        replace (1 + k - 1) with k by lia. simpl. lia.
      + rewrite IH by (auto; lia).
        destruct (Nat.leb_spec (box_level t x) k), (Nat.leb_spec (box_level t x) (S k)); auto; [lia|].
        exfalso. apply i. split; auto; lia. }
  rewrite G by auto. pose proof (wf_level_lt t W b (Hr b Hb)).
  destruct (Nat.leb_spec (box_level t b) (nlevels t - 1)); auto. lia.
Qed.

(** ** Multipole expansions *)
(** total weight in the subtree of b, given the weight [w] each box owns *)
Definition subtree_sum (w : nat -> Z) (b : nat) : Z :=
  zsum (map (fun s => Z.of_nat (count b (ancestors_or_self t s)) * w s)%Z (seq 0 (nboxes t))).

Lemma chain_count_rec b s : b < nboxes t -> s < nboxes t ->
  count b (ancestors_or_self t s) =
  (if Nat.eqb b s then 1 else 0) +
  nsum (map (fun m => let c := box_child t m b in if Nat.eqb c 0 then 0 else count c (ancestors_or_self t s))
            (seq 0 (nchildren t))).
Proof.
  intros Hb Hs. pose proof (chain_NoDup t W s Hs) as ND.
  destruct (in_dec Nat.eq_dec b (ancestors_or_self t s)) as [i|i].
  - rewrite (count_NoDup_In _ _ ND i). apply in_chain in i; auto. destruct i as [k [Hk Ek]].
    assert (Lk : box_level t b = k) by (rewrite Ek; apply anc_level; auto).
    destruct (Nat.eq_dec k (box_level t s)) as [e|ne].
    + rewrite e, anc_self in Ek. subst s. rewrite Nat.eqb_refl. rewrite nsum_map_0; [lia|].
      intros m Hm. apply in_seq in Hm. cbv zeta. destruct (Nat.eqb_spec (box_child t m b) 0); auto.
      apply count_notIn. intros Hin. apply in_chain in Hin; auto. destruct Hin as [j [Hj Ej]].
      destruct (child_facts t W m b Hb ltac:(lia) n) as [_ [L _]]. rewrite Ej in L.
      rewrite anc_level in L by auto. lia.
    + destruct (Nat.eqb_spec b s) as [->|_]; [lia|].
      set (c := anc t (S k) s).
      assert (Hc : c < nboxes t) by (apply anc_lt; auto).
      assert (Hc0 : 0 < c) by (apply anc_pos; auto; lia).
      assert (Pc : box_parent t c = b) by (unfold c; rewrite parent_anc by (auto; lia); auto).
      destruct (wf_parent t W c Hc0 Hc) as [_ [m [Hm Em]]]. rewrite Pc in Em.
      rewrite (nsum_map_single _ _ m).
      * cbv zeta. rewrite Em. destruct (Nat.eqb_spec c 0); [lia|].
        rewrite count_NoDup_In; auto. apply in_chain; auto. exists (S k). split; auto. lia.
      * apply seq_NoDup.
      * apply in_seq. lia.
      * intros m' Hm' NE. apply in_seq in Hm'. cbv zeta.
        destruct (Nat.eqb_spec (box_child t m' b) 0) as [e|ne']; auto.
        apply count_notIn. intros Hin. apply in_chain in Hin; auto. destruct Hin as [j [Hj Ej]].
        destruct (child_facts t W m' b Hb ltac:(lia) ne') as [_ [L _]].
        assert (j = S k). { rewrite Ej in L. rewrite anc_level in L by auto. lia. } subst j.
        apply NE. apply (wf_child_inj t W m' m b); auto; first [lia|rewrite Em, Ej; reflexivity].
  - rewrite (proj1 (count_notIn _ _) i).
    destruct (Nat.eqb_spec b s) as [->|_].
    { exfalso. apply i. unfold ancestors_or_self. destruct (box_level t s); simpl; auto. }
    rewrite nsum_map_0; auto. intros m Hm. apply in_seq in Hm. cbv zeta.
    destruct (Nat.eqb_spec (box_child t m b) 0) as [e|ne]; auto.
    apply count_notIn. intros Hin. apply i. apply in_chain in Hin; auto. destruct Hin as [j [Hj Ej]].
    destruct (child_facts t W m b Hb ltac:(lia) ne) as [Pc [L _]].
    apply in_chain; auto. assert (j = S (box_level t b)).
    { rewrite Ej in L. rewrite anc_level in L by auto. lia. }
    exists (box_level t b). split; [lia|]. rewrite <- Pc at 1. rewrite Ej. subst j.
    apply parent_anc; auto.
Qed.

Lemma zsum_map_ext {A} (f g : A -> Z) l : (forall x, In x l -> f x = g x) -> zsum (map f l) = zsum (map g l).
Proof. intros. f_equal. apply map_ext_in. auto. Qed.

Lemma of_nat_nsum l : Z.of_nat (nsum l) = zsum (map Z.of_nat l).
Proof. induction l; simpl; auto. rewrite Nat2Z.inj_add, IHl. auto. Qed.

Lemma subtree_sum_rec w b : b < nboxes t ->
  subtree_sum w b = (w b + zsum (map (fun m => let c := box_child t m b in
                      if Nat.eqb c 0 then 0 else subtree_sum w c) (seq 0 (nchildren t))))%Z.
Proof.
  intros Hb. unfold subtree_sum.
  rewrite (zsum_map_ext _ (fun s => (if Nat.eqb b s then w s else 0) +
    zsum (map (fun m => let c := box_child t m b in
       if Nat.eqb c 0 then 0 else Z.of_nat (count c (ancestors_or_self t s)) * w s) (seq 0 (nchildren t))))%Z).
  - rewrite zsum_map_add. f_equal.
    + rewrite (zsum_map_single _ _ b); [rewrite Nat.eqb_refl; auto|apply seq_NoDup|apply in_seq; lia|].
      intros x _ Hx. destruct (Nat.eqb_spec b x); congruence.
    + rewrite zsum_swap. apply zsum_map_ext. intros m _. cbv zeta.
      destruct (_ =? 0); auto. apply zsum_map_0. auto.
  - intros s Hs. apply in_seq in Hs. rewrite chain_count_rec by (auto; lia).
    rewrite Nat2Z.inj_add, of_nat_nsum, map_map, Z.mul_add_distr_r. f_equal.
    + destruct (b =? s); lia.
    + rewrite Z.mul_comm, <- zsum_map_mul. apply zsum_map_ext. intros m _. cbv zeta.
      destruct (_ =? 0); simpl; lia.
Qed.

Lemma coarsen_box_eq a b : b < nboxes t -> forall j,
  coarsen_box t a b j = add_at a b (zsum (map (fun m => let c := box_child t m b in
                      if Nat.eqb c 0 then 0 else a c) (seq 0 (nchildren t)))%Z) j.
Proof.
  intros Hb. unfold coarsen_box.
  assert (G : forall l a', (forall m, In m l -> m < nchildren t) -> forall j,
    fold_left (fun mpoles m => let child := box_child t m b in
               if (child =? 0)%nat then mpoles else add_at mpoles b (mpoles child)) l a' j =
    add_at a' b (zsum (map (fun m => let c := box_child t m b in if Nat.eqb c 0 then 0 else a' c) l))%Z j).
  { induction l as [|m l IH]; intros a' Hl j; cbn [fold_left map zsum fold_right].
    - rewrite add_at_eq. destruct (_ =? _); lia.
    - rewrite IH by (intros; apply Hl; right; auto). cbv zeta.
      destruct (Nat.eqb_spec (box_child t m b) 0) as [e|ne].
      + rewrite !add_at_eq. destruct (_ =? _); unfold zsum; lia.
      + rewrite !add_at_eq. destruct (Nat.eqb_spec j b); [|lia].
        rewrite <- Z.add_assoc. f_equal. f_equal. fold (zsum (map (fun m0 : nat => if (box_child t m0 b =? 0)%nat then 0%Z else a' (box_child t m0 b)) l)).
        apply zsum_map_ext. intros m' Hm'. destruct (Nat.eqb_spec (box_child t m' b) 0) as [e'|ne']; auto.
        rewrite add_at_eq. destruct (Nat.eqb_spec (box_child t m' b) b) as [e2|]; [|lia].
        exfalso. destruct (child_facts t W m' b Hb (Hl _ (or_intror Hm')) ne') as [_ [L _]].
        rewrite e2 in L. lia. }
  apply G. intros m Hm. apply in_seq in Hm. lia.
Qed.

Lemma fold_left_ext_fun {A} (f g : array -> A -> array) l a a' :
  (forall j, a j = a' j) ->
  (forall x u v, In x l -> (forall j, u j = v j) -> forall j, f u x j = g v x j) ->
  forall j, fold_left f l a j = fold_left g l a' j.
Proof.
  revert a a'. induction l as [|x l IH]; intros a a' H1 H2 j; simpl; auto.
  apply IH; auto.
  - intros k. apply H2; simpl; auto.
  - intros. apply H2; simpl; auto.
Qed.

(** Which boxes are coarsened into: [spb] *)
Lemma coarsen_multipoles_at ls spb (w : nat -> Z) a b :
  NoDup spb -> (forall x, In x spb -> x < nboxes t) -> level_delimited t ls spb ->
  (forall x, x < nboxes t -> a x = w x) ->
  (* boxes not coarsened into have nothing below *)
  (forall x m, x < nboxes t -> 2 <= box_level t x -> ~ In x spb -> m < nchildren t -> box_child t m x <> 0 ->
     subtree_sum w (box_child t m x) = 0%Z) ->
  b < nboxes t ->
  coarsen_multipoles t ls spb a b = if 2 <=? box_level t b then subtree_sum w b else w b.
Proof.
  intros ND Hr LD Ha Hn Hb. unfold coarsen_multipoles.
  set (step := fun mpoles source_level => _ : array).
  assert (G : forall k, k <= nlevels t - 3 -> forall x, x < nboxes t ->
    fold_left step (rev (seq (nlevels t - k) k)) a x =
    if (nlevels t - 1 - k <=? box_level t x) && (2 <=? box_level t x) then subtree_sum w x else w x).
  { induction k as [|k IH]; intros Hk x Hx.
    - cbn [seq rev fold_left]. rewrite Ha by auto. pose proof (wf_level_lt t W x Hx).
      destruct (Nat.leb_spec (nlevels t - 1 - 0) (box_level t x)); [|auto]. rewrite andb_true_l.
      destruct (2 <=? box_level t x); [|auto].
      rewrite subtree_sum_rec by auto. rewrite zsum_map_0; [lia|].
      intros m Hm. apply in_seq in Hm. cbv zeta. destruct (Nat.eqb_spec (box_child t m x) 0) as [e|ne]; auto.
      destruct (child_facts t W m x Hx ltac:(lia) ne) as [_ [L1 L2]].
      pose proof (wf_level_lt t W _ L2). lia.
    - replace (nlevels t - S k) with (nlevels t - k - 1) by lia.
      assert (ES : seq (nlevels t - k - 1) (S k) = (nlevels t - k - 1) :: seq (nlevels t - k) k).
      { simpl. f_equal. f_equal. lia. }
      rewrite ES. cbn [rev]. rewrite fold_left_app. cbn [fold_left].
      set (a1 := fold_left step _ a) in *. unfold step at 1.
      set (tl := nlevels t - k - 1 - 1). set (bs := slice _ _ _).
      assert (Hbs : forall y, In y bs <-> In y spb /\ box_level t y = tl).
      { intros y. apply in_level_slice; auto. unfold tl. lia. }
      assert (NDb : NoDup bs).
      { unfold bs. rewrite LD by (unfold tl; lia). apply NoDup_filter; auto. }
      rewrite (fold_left_ext_fun (coarsen_box t)
        (fun a x => add_at a x (zsum (map (fun m => let c := box_child t m x in
                      if Nat.eqb c 0 then 0 else a c) (seq 0 (nchildren t)))%Z)) bs a1 a1).
      2: auto.
      2:{ intros y u v Hy Huv j. rewrite coarsen_box_eq by (apply Hr; apply Hbs in Hy; tauto).
          rewrite !add_at_eq, Huv. destruct (j =? y); auto. f_equal. apply zsum_map_ext.
          intros m _. cbv zeta. rewrite Huv. auto. }
      rewrite (fold_add_read bs (fun a x => zsum (map (fun m => let c := box_child t m x in
                      if Nat.eqb c 0 then 0 else a c) (seq 0 (nchildren t)))%Z)).
      2: auto.
      2:{ intros u v y Hy Huv. apply zsum_map_ext. intros m Hm. apply in_seq in Hm. cbv zeta.
          destruct (Nat.eqb_spec (box_child t m y) 0) as [e|ne]; auto. apply Huv.
          rewrite Hbs. apply Hbs in Hy. destruct Hy as [Hy L]. intros [_ L2].
          destruct (child_facts t W m y (Hr _ Hy) ltac:(lia) ne) as [_ [L3 _]]. lia. }
      assert (SUB : box_level t x = tl -> In x spb ->
        (a1 x + zsum (map (fun m => let c := box_child t m x in
                      if Nat.eqb c 0 then 0 else a1 c) (seq 0 (nchildren t))))%Z = subtree_sum w x).
      { intros L Hs. rewrite subtree_sum_rec by auto. unfold a1. rewrite IH by (auto; lia).
        destruct (Nat.leb_spec (nlevels t - 1 - k) (box_level t x)); [unfold tl in *; lia|]. rewrite andb_false_l. f_equal.
        apply zsum_map_ext. intros m Hm. apply in_seq in Hm. cbv zeta.
        destruct (Nat.eqb_spec (box_child t m x) 0) as [e|ne]; auto.
        destruct (child_facts t W m x Hx ltac:(lia) ne) as [_ [L3 L4]]. rewrite IH by (auto; lia).
        rewrite L3, L. destruct (Nat.leb_spec (nlevels t - 1 - k) (S tl)); [|unfold tl in *; lia].
        destruct (Nat.leb_spec 2 (S tl)); [auto|unfold tl in *; lia]. }
      destruct (in_dec _ _ _) as [i|i].
      + apply Hbs in i. destruct i as [i L]. rewrite SUB by auto. rewrite L.
        destruct (Nat.leb_spec (nlevels t - 1 - S k) tl); [|unfold tl in *; lia].
        destruct (Nat.leb_spec 2 tl); [auto|unfold tl in *; lia].
      + unfold a1. rewrite IH by (auto; lia).
        destruct (Nat.leb_spec 2 (box_level t x)) as [L2|]; [|rewrite !andb_false_r; auto].
        rewrite !andb_true_r.
        destruct (Nat.leb_spec (nlevels t - 1 - k) (box_level t x)),
                 (Nat.leb_spec (nlevels t - 1 - S k) (box_level t x)); auto; [lia|].
        assert (L : box_level t x = tl) by (unfold tl; lia).
        assert (NI : ~ In x spb) by (intros Hs; apply i, Hbs; auto).
        rewrite subtree_sum_rec by auto. rewrite zsum_map_0; [lia|].
        intros m Hm. apply in_seq in Hm. cbv zeta.
        destruct (Nat.eqb_spec (box_child t m x) 0) as [e|ne]; auto. apply Hn; auto; lia. }
  destruct (Nat.le_gt_cases 3 (nlevels t)) as [L3|L3].
  - replace (seq 3 (nlevels t - 3)) with (seq (nlevels t - (nlevels t - 3)) (nlevels t - 3)) by (f_equal; lia).
    rewrite G by auto. destruct (Nat.leb_spec 2 (box_level t b)); [|rewrite andb_false_r; auto].
    destruct (Nat.leb_spec (nlevels t - 1 - (nlevels t - 3)) (box_level t b)); auto. lia.
  - replace (nlevels t - 3) with 0 by lia. cbn [seq rev fold_left]. rewrite Ha by auto.
    pose proof (wf_level_lt t W b Hb). destruct (Nat.leb_spec 2 (box_level t b)); auto. lia.
Qed.
End Locals.

Lemma form_multipoles_at p sb w b : NoDup sb ->
  form_multipoles p sb w b = if in_dec Nat.eq_dec b sb then source_slice_sum p w b else 0%Z.
Proof.
  intros ND. unfold form_multipoles. rewrite (fold_add_at _ (fun x => x)). unfold zeros. simpl.
  destruct (in_dec _ _ _) as [i|i].
  - rewrite (zsum_map_single _ _ b); auto; [rewrite Nat.eqb_refl; auto|].
    intros x _ H. destruct (Nat.eqb_spec b x); congruence.
  - apply zsum_map_0. intros x Hx. destruct (Nat.eqb_spec b x); congruence.
Qed.
