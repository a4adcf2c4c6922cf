(** What each traversal kernel outputs, in terms of [adj], [adj_n] and ancestors. *)
From Coq Require Import List Arith ZArith NArith Lia Bool.
From Verif Require Import Base Tree Spec TreeFacts Walk WalkFacts Traversal GeomFacts.
Import ListNotations.

(** ** Generic *)
Lemma run_all_map {A B} (f : A -> option B) (g : A -> B) l :
  (forall x, In x l -> f x = Some (g x)) -> run_all f l = Some (map g l).
Proof. induction l; simpl; intros H; auto. rewrite H, IHl by auto. auto. Qed.

Lemma csr_get_of ll i : i < length ll -> csr_get (csr_of ll) i = nth i ll [].
Proof.
  intros H. unfold csr_get, csr_of. cbn [starts lists].
  rewrite !prefix_from_nth by (rewrite map_length; lia). rewrite !Nat.add_0_l.
  rewrite nsum_firstn_S by (rewrite map_length; lia).
  rewrite skipn_concat_nth by lia.
  rewrite (skipn_nth_cons ll i []) by auto. simpl.
  change (nth i (map (@length nat) ll) 0) with (nth i (map (@length nat) ll) (@length nat [])).
  rewrite map_nth.
  replace (nsum (firstn i (map (@length nat) ll)) + length (nth i ll [])
           - nsum (firstn i (map (@length nat) ll))) with (length (nth i ll [])) by lia.
  rewrite firstn_app, firstn_all, Nat.sub_diag. simpl. apply app_nil_r.
Qed.

Lemma csr_read_of ll i : i < length ll -> csr_read (csr_of ll) (Z.of_nat i) = Some (nth i ll []).
Proof.
  intros H. unfold csr_read, csr_of at 1. simpl. rewrite prefix_from_length, map_length.
  destruct (Z.leb_spec 0 (Z.of_nat i)); [|lia].
  destruct (Z.ltb_spec (Z.of_nat i + 1) (Z.of_nat (S (length ll)))); [|lia].
  simpl. rewrite Nat2Z.id. f_equal. apply csr_get_of; auto.
Qed.

Lemma flag_lor f m1 m2 : flag f (N.lor m1 m2) = flag f m1 || flag f m2.
Proof.
  unfold flag. rewrite N.land_lor_distr_r.
  destruct (N.eqb_spec (N.land f m1) 0) as [->|H1]; simpl.
  - reflexivity.
  - destruct (N.eqb_spec (N.lor (N.land f m1) (N.land f m2)) 0) as [E|]; auto.
    apply N.lor_eq_0_iff in E. tauto.
Qed.

(** outputs of a walk come from visited boxes *)
Lemma dfs_in {A} (t : tree) (W : wf_tree t) (visit : nat -> nat -> list A * bool) h : forall p depth y,
  p < nboxes t -> In y (dfs t visit h p depth) ->
  exists c d, c < nboxes t /\ c <> 0 /\ In y (fst (visit c d)).
Proof.
  induction h; intros p depth y Hp Hin; simpl in Hin; [tauto|].
  apply in_concat_map in Hin. destruct Hin as [m [Hm Hin]]. apply in_seq in Hm.
  destruct (Nat.eqb_spec (box_child t m p) 0) as [|Hc]; [simpl in Hin; tauto|].
  assert (Hcl : box_child t m p < nboxes t) by (apply wf_child_lt; auto; lia).
  destruct (visit (box_child t m p) depth) as [o d] eqn:E.
  apply in_app_iff in Hin. destruct Hin as [Hin|Hin].
  - exists (box_child t m p), depth. rewrite E. auto.
  - destruct d; [|simpl in Hin; tauto]. eauto.
Qed.

Section Lists.
Variable t : tree.
Hypothesis W : wf_tree t.
Variable n : nat.
Hypothesis Hn : 1 <= n.

Lemma cap_ok l : nlevels t <= max_levels t + l.
Proof.
  unfold max_levels. pose proof (Nat.div_mod (nlevels t + 4) 5 ltac:(lia)).
  pose proof (Nat.mod_upper_bound (nlevels t + 4) 5 ltac:(lia)). lia.
Qed.

Lemma run_walk_ok {A} (visit : nat -> nat -> list A * bool) start : start < nboxes t ->
  run_walk t visit (max_levels t) start =
  Some (dfs t visit (nlevels t - box_level t start) start 0).
Proof. intros. apply run_walk_correct; auto. apply cap_ok. Qed.

(** monotonicity of the boolean tests along ancestor chains *)
Lemma adj_n_anc_r a b k : a < nboxes t -> b < nboxes t ->
  adj_n t n a b = true -> adj_n t n a (anc t k b) = true.
Proof.
  intros Ha Hb. rewrite !adj_n_near by (auto using anc_lt). apply near_anc_r; auto.
Qed.
Lemma adj_anc_r a b k : a < nboxes t -> b < nboxes t ->
  adj t a b = true -> adj t a (anc t k b) = true.
Proof. intros Ha Hb. rewrite !adj_near by (auto using anc_lt). apply near_anc_r; auto. Qed.
Lemma adj_anc_l a b k : a < nboxes t -> b < nboxes t ->
  adj t a b = true -> adj t (anc t k a) b = true.
Proof. intros Ha Hb. rewrite !adj_near by (auto using anc_lt). apply near_anc_l; auto. Qed.

(** ** Same-level non-well-separated boxes *)
Definition slnws_list (b : nat) : list nat :=
  if b =? 0 then [] else dfs t (slnws_visit t n b) (nlevels t) 0 0.

Lemma slnws_kernel_ok b : slnws_kernel t n b = Some (slnws_list b).
Proof.
  unfold slnws_kernel, slnws_list. destruct (b =? 0); auto.
  rewrite run_walk_ok by apply (wf_nboxes t W). rewrite (wf_root_level t W), Nat.sub_0_r. auto.
Qed.

Lemma slnws_in_range b x : In x (slnws_list b) -> x < nboxes t.
Proof.
  unfold slnws_list. destruct (b =? 0); [simpl; tauto|]. intros H.
  apply dfs_in in H; auto using (wf_nboxes t W). destruct H as [c [d [H1 [H2 H3]]]].
  unfold slnws_visit in H3. destruct (adj_n t n b c); [|simpl in H3; tauto].
  destruct (_ && _); simpl in H3; intuition congruence.
Qed.

Lemma slnws_count b x : b < nboxes t -> x < nboxes t ->
  count x (slnws_list b) =
  if (box_level t x =? box_level t b) && negb (x =? b) && adj_n t n b x then 1 else 0.
Proof.
  intros Hb Hx. unfold slnws_list. destruct (Nat.eqb_spec b 0) as [->|H0].
  { rewrite count_nil, (wf_root_level t W).
    destruct (Nat.eqb_spec (box_level t x) 0) as [E|]; auto.
    apply level_0 in E; auto. subst. reflexivity. }
  pose proof (level_pos t W b Hb ltac:(lia)) as Lb.
  pose proof (dfs_count nat t W (slnws_visit t n b) 0 (count x) eq_refl (count_app x) x Hx) as DC.
  specialize (DC ltac:(
    intros c Hc Hl Hne; unfold visit_at, slnws_visit; destruct (adj_n t n b c); auto;
    destruct (_ && _); auto; simpl; rewrite count_cons, count_nil;
    destruct (Nat.eqb_spec x c); [congruence|reflexivity])).
  specialize (DC (nlevels t) 0 (wf_nboxes t W)).
  rewrite (wf_root_level t W) in DC. simpl in DC.
  rewrite DC by lia. clear DC.
  rewrite (anc_0 t W x Hx). rewrite Nat.eqb_refl, andb_true_r.
  unfold visit_at.
  destruct (Nat.ltb_spec 0 (box_level t x)) as [Lx|Lx]; simpl.
  2:{ destruct (Nat.eqb_spec (box_level t x) (box_level t b)); [lia|reflexivity]. }
  assert (OUT : fst (slnws_visit t n b x (box_level t x - 0 - 1)) =
    if (box_level t x =? box_level t b) && negb (x =? b) && adj_n t n b x then [x] else []).
  { unfold slnws_visit. replace (box_level t x - 0 - 1 + 1) with (box_level t x) by lia.
    destruct (adj_n t n b x); [|rewrite andb_false_r; auto]. rewrite andb_true_r.
    destruct (_ && _); auto. }
  rewrite OUT. clear OUT.
  destruct (Nat.eqb_spec (box_level t x) (box_level t b)) as [EL|NL]; simpl.
  2:{ destruct (forallb _ _); reflexivity. }
  destruct (x =? b) eqn:Exb; simpl. { destruct (forallb _ _); reflexivity. }
  destruct (adj_n t n b x) eqn:EA; simpl. 2:{ destruct (forallb _ _); reflexivity. }
  match goal with |- (if ?f then _ else _) = _ => assert (F : f = true) end.
  { apply forallb_forall. intros k Hk. apply in_seq in Hk.
    unfold slnws_visit. rewrite adj_n_anc_r by auto.
    rewrite anc_level by (auto; lia).
    replace (k - 0 - 1 + 1) with k by lia.
    destruct (Nat.eqb_spec k (box_level t b)); [lia|]. reflexivity. }
  rewrite F, count_cons, Nat.eqb_refl. reflexivity.
Qed.

Lemma slnws_NoDup b : b < nboxes t -> NoDup (slnws_list b).
Proof.
  intros Hb. apply NoDup_count. intros x.
  destruct (in_dec Nat.eq_dec x (slnws_list b)) as [Hin|Hni].
  - pose proof (slnws_in_range _ _ Hin). rewrite slnws_count by auto.
    destruct (_ && _); lia.
  - apply count_notIn in Hni. lia.
Qed.

Lemma slnws_in b x : b < nboxes t -> (In x (slnws_list b) <->
  x < nboxes t /\ box_level t x = box_level t b /\ x <> b /\ near t n b x).
Proof.
  intros Hb. split.
  - intros Hin. pose proof (slnws_in_range _ _ Hin) as Hx. apply count_In in Hin.
    rewrite slnws_count in Hin by auto.
    destruct (Nat.eqb_spec (box_level t x) (box_level t b)); simpl in *; [|lia].
    destruct (Nat.eqb_spec x b); simpl in *; [lia|].
    destruct (adj_n t n b x) eqn:E; [|lia]. apply adj_n_near in E; auto.
  - intros [Hx [L [N A]]]. apply count_In. rewrite slnws_count by auto.
    apply adj_n_near in A; auto. rewrite A, L, Nat.eqb_refl.
    destruct (Nat.eqb_spec x b); [congruence|]. simpl. lia.
Qed.

(** ** Flags along ancestor chains *)
Hypothesis F : wf_flags t.

Lemma hsc_parent x : x < nboxes t -> 0 < x ->
  is_source t x = true \/ has_source_child t x = true -> has_source_child t (box_parent t x) = true.
Proof.
  intros Hx H0 H. destruct (wf_parent t W x H0 Hx) as [Hp [m [Hm Hc]]].
  apply (wf_has_source_child t F m); auto; rewrite Hc; auto. lia.
Qed.
Lemma htc_parent x : x < nboxes t -> 0 < x ->
  is_target t x = true \/ has_target_child t x = true -> has_target_child t (box_parent t x) = true.
Proof.
  intros Hx H0 H. destruct (wf_parent t W x H0 Hx) as [Hp [m [Hm Hc]]].
  apply (wf_has_target_child t F m); auto; rewrite Hc; auto. lia.
Qed.
Lemma hsc_anc x k : x < nboxes t -> k < box_level t x ->
  is_source t x = true \/ has_source_child t x = true -> has_source_child t (anc t k x) = true.
Proof.
  intros Hx Hk H. unfold anc. assert (J : 0 < box_level t x - k) by lia.
  assert (J2 : box_level t x - k <= box_level t x) by lia.
  revert J J2. generalize (box_level t x - k) as j. induction j as [|j IH]; [lia|].
  intros _ Hj. simpl. apply hsc_parent.
  - apply up_lt; auto.
  - fold (up t j x). destruct (up t j x) eqn:E; [|lia].
    assert (box_level t (up t j x) = box_level t x - j) by (apply up_level; auto).
    rewrite E, (wf_root_level t W) in *. lia.
  - destruct j; [auto|]. right. apply IH; lia.
Qed.
Lemma htc_anc x k : x < nboxes t -> k < box_level t x ->
  is_target t x = true \/ has_target_child t x = true -> has_target_child t (anc t k x) = true.
Proof.
  intros Hx Hk H. unfold anc. assert (J : 0 < box_level t x - k) by lia.
  assert (J2 : box_level t x - k <= box_level t x) by lia.
  revert J J2. generalize (box_level t x - k) as j. induction j as [|j IH]; [lia|].
  intros _ Hj. simpl. apply htc_parent.
  - apply up_lt; auto.
  - fold (up t j x). destruct (up t j x) eqn:E; [|lia].
    assert (box_level t (up t j x) = box_level t x - j) by (apply up_level; auto).
    rewrite E, (wf_root_level t W) in *. lia.
  - destruct j; [auto|]. right. apply IH; lia.
Qed.

(** ** List 1 *)
Definition list1_list (b : nat) : list nat :=
  (if is_source t 0 then [0] else []) ++ dfs t (list1_visit t b) (nlevels t) 0 0.

Lemma list1_kernel_ok b : list1_kernel t b = Some (list1_list b).
Proof.
  unfold list1_kernel, list1_list. rewrite run_walk_ok by apply (wf_nboxes t W).
  rewrite (wf_root_level t W), Nat.sub_0_r. auto.
Qed.

Lemma list1_in_range b x : In x (list1_list b) -> x < nboxes t.
Proof.
  unfold list1_list. rewrite in_app_iff. intros [H|H].
  - destruct (is_source t 0); simpl in H; [|tauto]. destruct H as [<-|[]]. apply (wf_nboxes t W).
  - apply dfs_in in H; auto using (wf_nboxes t W). destruct H as [c [d [H1 [H2 H3]]]].
    unfold list1_visit in H3. destruct (adj t b c); [|simpl in H3; tauto].
    simpl in H3. destruct (is_source t c); simpl in H3; intuition congruence.
Qed.

Lemma adj_root b : b < nboxes t -> adj t b 0 = true.
Proof.
  intros Hb. apply adj_near; auto using (wf_nboxes t W). apply near_sym.
  pose proof (near_anc_self t W 1 b 0 (le_n 1) Hb) as H. rewrite (anc_0 t W b Hb) in H. exact H.
Qed.

Lemma list1_count b x : b < nboxes t -> x < nboxes t ->
  count x (list1_list b) = if is_source t x && adj t b x then 1 else 0.
Proof.
  intros Hb Hx. unfold list1_list. rewrite count_app.
  pose proof (dfs_count nat t W (list1_visit t b) 0 (count x) eq_refl (count_app x) x Hx) as DC.
  specialize (DC ltac:(
    intros c Hc Hl Hne; unfold visit_at, list1_visit; destruct (adj t b c); auto;
    simpl; destruct (is_source t c); auto; rewrite count_cons, count_nil;
    destruct (Nat.eqb_spec x c); [congruence|reflexivity])).
  specialize (DC (nlevels t) 0 (wf_nboxes t W)).
  rewrite (wf_root_level t W) in DC. simpl in DC.
  rewrite DC by lia. clear DC.
  rewrite (anc_0 t W x Hx). rewrite Nat.eqb_refl, andb_true_r.
  destruct (Nat.eq_dec x 0) as [->|Hx0].
  { rewrite (wf_root_level t W). simpl. rewrite adj_root, andb_true_r by auto.
    destruct (is_source t 0); reflexivity. }
  assert (E0 : count x (if is_source t 0 then [0] else []) = 0).
  { destruct (is_source t 0); auto. rewrite count_cons, count_nil.
    destruct (Nat.eqb_spec x 0); [congruence|reflexivity]. }
  rewrite E0. clear E0.
  pose proof (level_pos t W x Hx ltac:(lia)) as Lx.
  rewrite (proj2 (Nat.ltb_lt 0 _) Lx). simpl. unfold visit_at.
  unfold list1_visit at 2.
  destruct (adj t b x) eqn:EA; [|rewrite andb_false_r; destruct (forallb _ _); reflexivity].
  rewrite andb_true_r. simpl. destruct (is_source t x) eqn:ES; [|destruct (forallb _ _); reflexivity].
  match goal with |- (if ?f then _ else _) = _ => assert (FF : f = true) end.
  { apply forallb_forall. intros k Hk. apply in_seq in Hk.
    unfold list1_visit. rewrite adj_anc_r by auto. simpl. apply hsc_anc; auto; lia. }
  rewrite FF, count_cons, Nat.eqb_refl. reflexivity.
Qed.

(** ** List 2 *)
Section WithSlnws.
Variable slnws : csr.
Hypothesis Hslnws : forall b, b < nboxes t -> csr_read slnws (Z.of_nat b) = Some (slnws_list b).

Definition list2_list (b : nat) : list nat :=
  if b =? 0 then [] else
  concat (map (fun parent_nf =>
    concat (map (fun m =>
      let sib := box_child t m parent_nf in
      if sib =? 0 then [] else
      if negb (adj_n t n b sib) then [sib] else []) (seq 0 (nchildren t))))
    (slnws_list (box_parent t b))).

Lemma parent_neq b : b < nboxes t -> 0 < b -> box_parent t b <> b.
Proof. intros Hb H0 E. pose proof (parent_level t W b Hb H0). rewrite E in *. lia. Qed.

Lemma list2_kernel_ok b : b < nboxes t ->
  list2_kernel t n slnws b (Z.of_nat (box_parent t b)) = Some (list2_list b).
Proof.
  intros Hb. unfold list2_kernel, list2_list. destruct (Nat.eqb_spec b 0) as [->|H0].
  - rewrite (wf_root_parent t W). reflexivity.
  - destruct (Z.eqb_spec (Z.of_nat (box_parent t b)) (Z.of_nat b)) as [E|].
    + apply Nat2Z.inj in E. apply parent_neq in E; [tauto|auto|lia].
    + rewrite Hslnws by (apply parent_lt; auto). reflexivity.
Qed.

Lemma list2_in_range b x : b < nboxes t -> In x (list2_list b) -> x < nboxes t /\ x <> 0.
Proof.
  intros Hb. unfold list2_list. destruct (b =? 0); [simpl; tauto|].
  rewrite in_concat_map. intros [p [Hp H]]. apply slnws_in_range in Hp.
  apply in_concat_map in H. destruct H as [m [Hm H]]. apply in_seq in Hm. cbv zeta in H.
  destruct (Nat.eqb_spec (box_child t m p) 0); [simpl in H; tauto|].
  destruct (negb _); simpl in H; [|tauto]. destruct H as [<-|[]]. split; auto.
  apply wf_child_lt; auto; lia.
Qed.

Lemma list2_count b x : b < nboxes t -> x < nboxes t ->
  count x (list2_list b) =
  if negb (b =? 0) && negb (x =? 0) && negb (adj_n t n b x)
  then count (box_parent t x) (slnws_list (box_parent t b)) else 0.
Proof.
  intros Hb Hx. unfold list2_list. destruct (Nat.eqb_spec b 0) as [->|H0]; [reflexivity|]. simpl.
  assert (SLOT : forall p m, p < nboxes t -> m < nchildren t ->
    count x (let sib := box_child t m p in
      if sib =? 0 then [] else if negb (adj_n t n b sib) then [sib] else []) =
    if negb (x =? 0) && (box_child t m p =? x) && negb (adj_n t n b x) then 1 else 0).
  { intros p m Hp Hm. cbv zeta. destruct (Nat.eqb_spec (box_child t m p) 0) as [E|E].
    - rewrite E. destruct x; reflexivity.
    - destruct (Nat.eqb_spec (box_child t m p) x) as [EQ|NE]; simpl.
      + rewrite EQ in E |- *. destruct (Nat.eqb_spec x 0); [congruence|]. simpl.
        destruct (negb _); auto. rewrite count_cons, Nat.eqb_refl. reflexivity.
      + rewrite andb_false_r. simpl. destruct (negb _); auto.
        rewrite count_cons. destruct (Nat.eqb_spec x (box_child t m p)); [congruence|reflexivity]. }
  assert (ONE : forall p, p < nboxes t ->
    count x (concat (map (fun m => let sib := box_child t m p in
      if sib =? 0 then [] else if negb (adj_n t n b sib) then [sib] else []) (seq 0 (nchildren t)))) =
    if negb (x =? 0) && negb (adj_n t n b x) then (if p =? box_parent t x then 1 else 0) else 0).
  { intros p Hp. rewrite count_concat, map_map.
    destruct (negb (x =? 0) && negb (adj_n t n b x)) eqn:C.
    - apply andb_true_iff in C. destruct C as [C1 C2].
      destruct (Nat.eqb_spec p (box_parent t x)) as [->|NE].
      + destruct (wf_parent t W x) as [_ [m [Hm Hc]]]; auto.
        { destruct x; simpl in C1; [discriminate|lia]. }
        rewrite (nsum_map_single _ _ m).
        * rewrite SLOT by auto. rewrite C1, C2, Hc, Nat.eqb_refl. reflexivity.
        * apply seq_NoDup.
        * apply in_seq; lia.
        * intros m' Hm' Hne. apply in_seq in Hm'. rewrite SLOT by (auto; lia).
          destruct (Nat.eqb_spec (box_child t m' (box_parent t x)) x) as [E|]; [|rewrite andb_false_r; auto].
          exfalso. apply Hne. apply (wf_child_inj t W m' m (box_parent t x)); auto; try lia.
          rewrite E. destruct x; simpl in C1; [discriminate|lia].
      + apply nsum_map_0. intros m Hm. apply in_seq in Hm. rewrite SLOT by (auto; lia).
        destruct (Nat.eqb_spec (box_child t m p) x) as [E|]; [|rewrite andb_false_r; auto].
        exfalso. apply NE. destruct (wf_child t W m p Hp) as [P _]; try lia.
        * rewrite E. destruct x; simpl in C1; [discriminate|lia].
        * congruence.
    - apply nsum_map_0. intros m Hm. apply in_seq in Hm. rewrite SLOT by (auto; lia).
      destruct (negb (x =? 0)), (negb (adj_n t n b x)); simpl in *; try discriminate;
      rewrite ?andb_false_r; auto. }
  rewrite count_concat, map_map.
  rewrite (map_ext_in _ (fun p => if negb (x =? 0) && negb (adj_n t n b x)
       then (if p =? box_parent t x then 1 else 0) else 0)).
  2:{ intros p Hp. apply ONE. eapply slnws_in_range; eauto. }
  destruct (negb (x =? 0) && negb (adj_n t n b x)).
  - generalize (slnws_list (box_parent t b)) as l. induction l; simpl; auto.
    rewrite count_cons, IHl, Nat.eqb_sym. reflexivity.
  - apply nsum_map_0. auto.
Qed.

(** ** List 3 *)
Variable ex : extent_info.
Definition is_far (tgt c : nat) : bool :=
  (if targets_have_extent ex then meets_sep_smaller t ex tgt c else true) &&
  negb (if targets_have_extent ex
        then box_source_counts_cumul ex c <? from_sep_smaller_min_nsources_cumul ex else false).

(** the chain of ancestors stops at c: c becomes a from_sep_smaller entry *)
Definition stop (tgt c : nat) : bool := negb (adj t tgt c) && is_far tgt c.

Definition list3_list (slev : option nat) (tgt : nat) : list (bool * nat) :=
  concat (map (fun nws => dfs t (list3_visit t ex tgt slev) (nlevels t - box_level t nws) nws 0)
              (slnws_list tgt)).

Lemma list3_kernel_ok slev tgt : tgt < nboxes t ->
  list3_kernel t ex slnws slev tgt = Some (list3_list slev tgt).
Proof.
  intros H. unfold list3_kernel. rewrite Hslnws by auto.
  rewrite (run_all_map _ (fun nws => dfs t (list3_visit t ex tgt slev)
                                (nlevels t - box_level t nws) nws 0)).
  - reflexivity.
  - intros nws Hin. apply slnws_in in Hin; auto. destruct Hin as [H1 [_ [H2 _]]].
    destruct (Nat.eqb_spec nws tgt); [congruence|]. apply run_walk_ok; auto.
Qed.

Lemma pick_app tag l1 l2 : pick tag (l1 ++ l2) = pick tag l1 ++ pick tag l2.
Proof. unfold pick. rewrite filter_app, map_app. auto. Qed.

Lemma pick_concat tag ll : pick tag (concat ll) = concat (map (pick tag) ll).
Proof. induction ll; simpl; auto. rewrite pick_app, IHll. auto. Qed.

Lemma list3_visit_out slev tgt c d p :
  In p (fst (list3_visit t ex tgt slev c d)) -> snd p = c.
Proof.
  unfold list3_visit. destruct (flag _ _); [|simpl; tauto].
  destruct (adj t tgt c). { destruct (has_source_child t c); [|simpl; tauto]. destruct slev; [destruct (_ <=? _)|]; simpl; tauto. }
  destruct (_ && _).
  - simpl. destruct slev; [destruct (_ =? _)|]; simpl; intuition; subst; auto.
  - destruct (targets_have_extent ex); [|simpl; tauto]. simpl. destruct (_ && _); simpl; intuition; subst; auto.
Qed.

Lemma list3_in_range slev tgt p : tgt < nboxes t -> In p (list3_list slev tgt) ->
  snd p < nboxes t.
Proof.
  intros Ht. unfold list3_list. rewrite in_concat_map. intros [nws [H1 H2]].
  apply slnws_in_range in H1. apply dfs_in in H2; auto. destruct H2 as [c [d [H3 [H4 H5]]]].
  apply list3_visit_out in H5. congruence.
Qed.

Lemma list3_count_raw tag slev tgt x : tgt < nboxes t -> x < nboxes t ->
  count x (pick tag (list3_list slev tgt)) =
  if (box_level t tgt <? box_level t x) &&
     forallb (fun k => snd (list3_visit t ex tgt slev (anc t k x) 0))
             (seq (S (box_level t tgt)) (box_level t x - S (box_level t tgt)))
  then count (anc t (box_level t tgt) x) (slnws_list tgt) *
       count x (pick tag (fst (list3_visit t ex tgt slev x 0)))
  else 0.
Proof.
  intros Ht Hx. unfold list3_list. rewrite pick_concat, map_map, count_concat, map_map.
  assert (ONE : forall nws, In nws (slnws_list tgt) ->
    count x (pick tag (dfs t (list3_visit t ex tgt slev) (nlevels t - box_level t nws) nws 0)) =
    if (box_level t tgt <? box_level t x) && (anc t (box_level t tgt) x =? nws) &&
       forallb (fun k => snd (list3_visit t ex tgt slev (anc t k x) 0))
             (seq (S (box_level t tgt)) (box_level t x - S (box_level t tgt)))
    then count x (pick tag (fst (list3_visit t ex tgt slev x 0))) else 0).
  { intros nws Hin. apply slnws_in in Hin; auto. destruct Hin as [H1 [H2 [H3 _]]].
    pose proof (dfs_count (bool*nat) t W (list3_visit t ex tgt slev) (box_level t nws)
                  (fun l => count x (pick tag l)) eq_refl) as DC.
    rewrite <- H2. 
    specialize (DC ltac:(intros; cbv beta; rewrite pick_app, count_app; auto) x Hx).
    specialize (DC ltac:(
      intros c Hc Hl Hne; apply count_notIn; unfold pick; rewrite in_map_iff;
      intros [p [E1 E2]]; apply filter_In in E2; destruct E2 as [E2 _];
      apply list3_visit_out in E2; congruence)).
    specialize (DC (nlevels t - box_level t nws) nws H1 ltac:(lia) eq_refl).
    rewrite Nat.sub_diag in DC. rewrite DC. reflexivity. }
  rewrite (map_ext_in _ _ _ ONE). clear ONE.
  destruct (box_level t tgt <? box_level t x); simpl; [|apply nsum_map_0; auto].
  destruct (forallb _ _).
  - generalize (slnws_list tgt) as l. induction l as [|a l IHl]; [reflexivity|].
    simpl. rewrite count_cons, IHl. rewrite andb_true_r.
    destruct (_ =? a); simpl; lia.
  - apply nsum_map_0. intros. rewrite andb_false_r. auto.
Qed.

(** which boxes the walk descends into, for boxes above a source box *)
Lemma list3_desc slev tgt c : has_source_child t c = true ->
  (match slev with Some l => box_level t c <= l | None => True end) ->
  snd (list3_visit t ex tgt slev c 0) = negb (stop tgt c).
Proof.
  intros HS HL. unfold list3_visit. rewrite flag_lor.
  unfold has_source_child in *. rewrite HS. rewrite orb_true_r.
  unfold stop, is_far. destruct (adj t tgt c); simpl.
  - destruct slev; auto. rewrite (proj2 (Nat.leb_le _ _) HL). auto.
  - destruct (targets_have_extent ex); simpl.
    + destruct (meets_sep_smaller t ex tgt c && _); auto.
    + auto.
Qed.

Lemma list3_far_out l tgt c : is_source t c = true \/ has_source_child t c = true ->
  pick true (fst (list3_visit t ex tgt (Some l) c 0)) =
  if stop tgt c && (l =? box_level t c) then [c] else [].
Proof.
  intros HS. unfold list3_visit. rewrite flag_lor.
  unfold is_source, has_source_child in *.
  assert (E : flag (box_flags t c) IS_SOURCE_BOX || flag (box_flags t c) HAS_SOURCE_CHILD_BOXES = true)
    by (apply orb_true_iff; tauto).
  rewrite E. unfold stop, is_far. destruct (adj t tgt c); simpl.
  - destruct (flag _ HAS_SOURCE_CHILD_BOXES); auto. destruct (_ <=? _); auto.
  - destruct (targets_have_extent ex); simpl.
    + destruct (meets_sep_smaller t ex tgt c && _); simpl.
      * destruct (l =? box_level t c); auto.
      * rewrite andb_false_r. auto.
    + destruct (l =? box_level t c); auto.
Qed.

Lemma list3_close_out tgt c : is_source t c = true ->
  pick false (fst (list3_visit t ex tgt None c 0)) =
  if negb (adj t tgt c) && negb (is_far tgt c) then [c] else [].
Proof.
  intros HS. unfold list3_visit. rewrite flag_lor.
  unfold is_source, has_source_child in *. rewrite HS. simpl.
  unfold is_far. destruct (adj t tgt c); simpl.
  - destruct (flag _ HAS_SOURCE_CHILD_BOXES); auto.
  - destruct (targets_have_extent ex); simpl; auto.
    destruct (meets_sep_smaller t ex tgt c && _); simpl; auto.
Qed.

(** ** List 4 *)
Fixpoint list4_levels (tgt wl cur : nat) : list (bool * nat) :=
  match wl with
  | 0 => []
  | S wl' => concat (map (list4_entry t ex n tgt wl) (slnws_list cur))
             ++ list4_levels tgt wl' (box_parent t cur)
  end.
Definition list4_list (tgt : nat) : list (bool * nat) :=
  if box_level t tgt =? 0 then []
  else if n =? 1 then list4_levels tgt (box_level t tgt - 1) (box_parent t tgt)
  else list4_levels tgt (box_level t tgt) tgt.

Lemma list4_loop_ok tgt wl : forall cur, cur < nboxes t ->
  list4_loop t ex n slnws tgt wl cur = Some (list4_levels tgt wl cur).
Proof.
  induction wl; intros cur Hc; simpl; auto. rewrite Hslnws by auto.
  rewrite IHwl by (apply parent_lt; auto). auto.
Qed.

Lemma list4_kernel_ok tgt : tgt < nboxes t ->
  list4_kernel t ex n slnws tgt = Some (list4_list tgt).
Proof.
  intros H. unfold list4_kernel, list4_list. destruct (_ =? 0); auto.
  destruct (n =? 1); apply list4_loop_ok; auto. apply parent_lt; auto.
Qed.

Lemma list4_entry_out tgt wl b p : In p (list4_entry t ex n tgt wl b) -> snd p = b.
Proof.
  unfold list4_entry. destruct (is_source t b); [|simpl; tauto].
  destruct (negb _); [|simpl; tauto].
  destruct (_ && _).
  - destruct (is_target t tgt); simpl; intuition; subst; auto.
  - destruct (_ && _); [|simpl; intuition; subst; auto].
    destruct (targets_have_extent ex); [|simpl; tauto].
    destruct (negb _); simpl; intuition; subst; auto.
Qed.

Lemma list4_levels_count tag tgt x wl : forall cur,
  tgt < nboxes t -> x < nboxes t -> cur < nboxes t -> box_level t cur = wl ->
  count x (pick tag (list4_levels tgt wl cur)) =
  if (1 <=? box_level t x) && (box_level t x <=? wl)
  then count x (slnws_list (anc t (box_level t x) cur)) *
       count x (pick tag (list4_entry t ex n tgt (box_level t x) x))
  else 0.
Proof.
  induction wl as [|wl IH]; intros cur Ht Hx Hc Hl.
  - change (pick tag (list4_levels tgt 0 cur)) with (@nil nat). rewrite count_nil.
    destruct (Nat.leb_spec 1 (box_level t x)), (Nat.leb_spec (box_level t x) 0); simpl; auto. lia.
  - simpl list4_levels. rewrite pick_app, count_app.
    assert (P : 0 < cur) by (destruct cur; [rewrite (wf_root_level t W) in Hl|]; lia).
    rewrite IH; auto; [|apply parent_lt; auto|rewrite (parent_level t W cur) in Hl by auto; lia].
    assert (H1 : count x (pick tag (concat (map (list4_entry t ex n tgt (S wl)) (slnws_list cur)))) =
      count x (slnws_list cur) * count x (pick tag (list4_entry t ex n tgt (S wl) x))).
    { rewrite pick_concat, map_map, count_concat, map_map.
      generalize (slnws_list cur) as l. induction l as [|a l IHl]; [reflexivity|].
      simpl. rewrite IHl, count_cons.
      destruct (Nat.eqb_spec x a) as [->|NE]; [lia|].
      assert (Z0 : count x (pick tag (list4_entry t ex n tgt (S wl) a)) = 0).
      { apply count_notIn. unfold pick. rewrite in_map_iff. intros [p [E1 E2]].
        apply filter_In in E2. destruct E2 as [E2 _]. apply list4_entry_out in E2. congruence. }
      rewrite Z0. lia. }
    rewrite H1. rewrite slnws_count by auto. rewrite Hl.
    destruct (Nat.leb_spec 1 (box_level t x)) as [L1|L1]; simpl.
    + destruct (Nat.eqb_spec (box_level t x) (S wl)) as [E|E].
      * rewrite E. destruct (Nat.leb_spec (S wl) wl); [lia|].
        rewrite Nat.leb_refl. rewrite <- Hl, anc_self.
        rewrite slnws_count by auto. rewrite E, Hl, Nat.eqb_refl. simpl. lia.
      * simpl. destruct (Nat.leb_spec (box_level t x) wl) as [L2|L2].
        -- destruct (Nat.leb_spec (box_level t x) (S wl)); [|lia].
           rewrite anc_parent by (auto; lia). lia.
        -- destruct (Nat.leb_spec (box_level t x) (S wl)); [lia|auto].
    + destruct (Nat.eqb_spec (box_level t x) (S wl)); [lia|]. simpl. auto.
Qed.

(** near boxes on the target's own level contribute nothing for n = 1 *)
Lemma list4_count tag tgt x : tgt < nboxes t -> x < nboxes t ->
  count x (pick tag (list4_list tgt)) =
  if (1 <=? box_level t x) && (box_level t x <=? box_level t tgt)
  then count x (slnws_list (anc t (box_level t x) tgt)) *
       count x (pick tag (list4_entry t ex n tgt (box_level t x) x))
  else 0.
Proof.
  intros Ht Hx. unfold list4_list.
  destruct (Nat.eqb_spec (box_level t tgt) 0) as [E|E].
  { rewrite E. change (pick tag []) with (@nil nat). rewrite count_nil.
    destruct (Nat.leb_spec 1 (box_level t x)), (Nat.leb_spec (box_level t x) 0); simpl; auto. lia. }
  assert (P : 0 < tgt) by (destruct tgt; [rewrite (wf_root_level t W) in E|]; lia).
  destruct (Nat.eqb_spec n 1) as [N1|N1].
  - rewrite list4_levels_count; auto; [|apply parent_lt; auto|apply parent_level_pred; auto].
    destruct (Nat.leb_spec 1 (box_level t x)); simpl; auto.
    destruct (Nat.leb_spec (box_level t x) (box_level t tgt - 1)).
    + destruct (Nat.leb_spec (box_level t x) (box_level t tgt)); [|lia].
      rewrite anc_parent by (auto; lia). auto.
    + destruct (Nat.leb_spec (box_level t x) (box_level t tgt)); auto.
      assert (EL : box_level t x = box_level t tgt) by lia.
      rewrite EL, anc_self. rewrite slnws_count by auto.
      destruct (adj_n t n tgt x) eqn:EA; [|rewrite andb_false_r; auto].
      assert (Z0 : list4_entry t ex n tgt (box_level t tgt) x = []).
      { unfold list4_entry. destruct (is_source t x); auto.
        unfold adj_n in EA. rewrite N1, EL in EA. unfold is_adj. rewrite EA. auto. }
      rewrite Z0. change (pick tag []) with (@nil nat). rewrite count_nil. lia.
  - rewrite list4_levels_count; auto.
Qed.
End WithSlnws.
End Lists.
