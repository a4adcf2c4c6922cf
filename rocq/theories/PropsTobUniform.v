(** Property C115: refining only, coarsening only, uniform refinement. *)
From Coq Require Import List Arith ZArith NArith Lia Bool Permutation.
From Verif Require Import Base Tree TreeOfBoxes SpecTob TobFacts TobCoarsen TobThm ExampleTob PropsTob TobWrappers.
Import ListNotations.
Local Open Scope nat_scope.

Lemma nothing_removed t rf path : ~ removed t rf no_flags path.
Proof. intros [q [m [_ [_ [[m' [b [_ [_ E]]]] _]]]]]. discriminate. Qed.
Lemma nothing_created t path : ~ created t no_flags path.
Proof. intros [q [m [b [_ [_ [_ E]]]]]]. discriminate. Qed.
Lemma nothing_ignored t rf : ~ coarsening_ignored t rf no_flags.
Proof. intros [p [m [m' [_ [_ [_ [_ [E _]]]]]]]]. discriminate. Qed.

(** ** Refining only *)
Theorem C115_refine s L t rf order : S L < s -> reachable s L t -> fine_unit (S L) t ->
  let r := refine_tree_of_boxes s order rf t in
  (r = ValueError <-> exists b, b < tn t /\ rf b = true /\ ~ leaf t b) /\
  r <> RuntimeError /\
  forall u t', unsorted_result s rf no_flags true t = Ok u -> argsort_ok (tn u) (tlevel u) order -> r = Ok t' ->
    forall path, has_box t' path <-> has_box t path \/ created t rf path.
Proof.
  intros LS R F r. unfold r, refine_tree_of_boxes, coarsen_tree_of_boxes. clear r. destruct (C14_invalid_requests_rejected s L t rf no_flags true order LS R F) as [V [E _]].
  split; [|split].
  - rewrite V. split.
    + intros [b [Hb [[_ D]|[H|[[D _]|[D _]]]]]]; try discriminate. exists b. auto.
    + intros [b [Hb H]]. exists b. auto.
  - intros X. apply E in X. destruct X as [_ [_ X]]. apply (nothing_ignored _ _ X).
  - intros u t' U A K path. rewrite (C48_request_effect s L t rf no_flags true u order t' path LS R F U A K).
    pose proof (nothing_removed t rf path). tauto.
Qed.

(** ** Coarsening only *)
Theorem C115_coarsen s L t cf err order : S L < s -> reachable s L t -> fine_unit (S L) t ->
  let r := coarsen_tree_of_boxes s order cf err t in
  (r = ValueError <-> exists b, b < tn t /\ cf b = true /\ (~ leaf t b \/ b = 0)) /\
  (r = RuntimeError <-> err = true /\ (forall b, b < tn t -> cf b = true -> leaf t b /\ b <> 0) /\
     exists p m m', p < tn t /\ m < 2 ^ tdim t /\ m' < 2 ^ tdim t /\ tchild t m p <> 0 /\ cf (tchild t m p) = true /\ ~ leaf t (tchild t m' p)) /\
  forall u t', unsorted_result s no_flags cf err t = Ok u -> argsort_ok (tn u) (tlevel u) order -> r = Ok t' ->
    forall path, has_box t' path <-> has_box t path /\ ~ removed t no_flags cf path.
Proof.
  intros LS R F r. unfold r, refine_tree_of_boxes, coarsen_tree_of_boxes. clear r. destruct (C14_invalid_requests_rejected s L t no_flags cf err order LS R F) as [V [E _]].
  pose proof (fine_mono L (S L) t ltac:(lia) F) as F0. destruct (reachable_inv s L t ltac:(lia) R F0) as [W _].
  assert (BAD : bad_request t no_flags cf <-> exists b, b < tn t /\ cf b = true /\ (~ leaf t b \/ b = 0)).
  { split.
    - intros [b [Hb [[D _]|[[D _]|[[H1 H2]|[H1 H2]]]]]]; try discriminate; exists b; auto.
    - intros [b [Hb [H1 [H2|H2]]]]; exists b; auto 6. }
  split; [rewrite V; exact BAD|]. split.
  - rewrite E, BAD. split.
    + intros [N [H1 [p [m [m' [P1 [P2 [P3 [P4 [P5 [P6|D]]]]]]]]]]]; [|discriminate]. split; auto. split.
      * intros b Hb C. destruct (leaf_dec _ _ _ b W Hb) as [X|X]; [|exfalso; apply N; exists b; auto].
        split; auto. intros ->. apply N. exists 0. auto.
      * exists p, m, m'. repeat split; auto.
    + intros [H1 [N [p [m [m' [P1 [P2 [P3 [P4 [P5 P6]]]]]]]]]]. split; [|split; auto].
      * intros [b [Hb [C [X|X]]]]; destruct (N b Hb C); auto.
      * exists p, m, m'. repeat split; auto.
  - intros u t' U A K path. rewrite (C48_request_effect s L t no_flags cf err u order t' path LS R F U A K).
    pose proof (nothing_created t path). tauto.
Qed.

(** ** Uniform refinement: every leaf gets children, nothing else changes; it is always possible *)
Theorem C115_uniform_step s L t order : S L < s -> reachable s L t -> fine_unit (S L) t ->
  exists t', uniformly_refine s order t = Ok t' /\
  forall u, unsorted_result s (is_leaf t) no_flags true t = Ok u -> argsort_ok (tn u) (tlevel u) order ->
    forall path, has_box t' path <->
      has_box t path \/ exists q m b, path = q ++ [m] /\ m < 2 ^ tdim t /\ box_at t q = Some b /\ leaf t b.
Proof.
  intros LS R F. pose proof (fine_mono L (S L) t ltac:(lia) F) as F0. destruct (reachable_inv s L t ltac:(lia) R F0) as [W _].
  destruct (C115_refine s L t (is_leaf t) order LS R F) as [V [E P]].
  change (uniformly_refine s order t) with (refine_tree_of_boxes s order (is_leaf t) t).
  destruct (refine_tree_of_boxes s order (is_leaf t) t) as [t'| |] eqn:K.
  - exists t'. split; auto. intros u U A path. rewrite (P u t' U A eq_refl path). unfold created.
    split; (intros [H|[q [m [b [H1 [H2 [H3 H4]]]]]]]; [left; auto|right; exists q, m, b; repeat split; auto]);
      apply (is_leaf_spec _ _ _ _ b W) in H4; auto; destruct (follow_live _ _ _ _ W _ _ H3); auto.
  - destruct (proj1 V eq_refl) as [b [Hb [H1 H2]]]. apply (is_leaf_spec _ _ _ _ b W Hb) in H1. contradiction.
  - congruence.
Qed.

Lemma reachable_mono s L L' t : L <= L' -> reachable s L t -> reachable s L' t.
Proof.
  intros H. induction 1 as [d lo hi t Hd E|t t1 t' rf cf err order Re IH HL U A OK].
  - eapply reach_root; eauto.
  - eapply reach_step; eauto. intros b Hb Hr. specialize (HL b Hb Hr). lia.
Qed.
Lemma uniform_reachable s L t t' : forall n, uniformly_refined s n t t' -> L + n < s -> reachable s L t -> fine_unit (L + n) t ->
  reachable s (L + n) t' /\ textent t' = textent t /\ tdim t' = tdim t.
Proof.
  intros n H. induction H as [t|n t t1 u order t' H IH U A K]; intros LS R F; [rewrite Nat.add_0_r in *; auto|].
  destruct IH as [R1 [E1 D1]]; auto; [lia|apply (fine_mono _ (L + S n)); auto; lia|].
  assert (F1 : fine_unit (L + S n) t1) by (unfold fine_unit in *; rewrite E1; auto).
  destruct (reachable_inv s (L + n) t1 ltac:(lia) R1 (fine_mono (L + n) (L + S n) t1 ltac:(lia) F1)) as [W _].
  assert (HL : forall b, b < tn t1 -> is_leaf t1 b = true -> tlevel t1 b < L + S n).
  { intros b Hb _. pose proof (wl_level _ _ _ _ W b Hb eq_refl). lia. }
  pose proof (wl_mono _ _ (L + S n) _ W ltac:(lia) F1) as W'.
  destruct (step_dim _ _ _ _ _ _ _ _ _ W' LS HL U A K) as [D [E _]].
  split; [|split; congruence]. apply (reach_step s (L + S n) t1 u t' (is_leaf t1) no_flags true order); auto.
  apply (reachable_mono s (L + n)); auto. lia.
Qed.
(** any number of uniform refinements can be made *)
Theorem C115_uniform_possible s t L n t1 order : L + S n < s -> reachable s L t -> fine_unit (L + S n) t ->
  uniformly_refined s n t t1 -> exists t', uniformly_refine s order t1 = Ok t'.
Proof.
  intros LS R F H. destruct (uniform_reachable s L t t1 n H ltac:(lia) R (fine_mono (L + n) (L + S n) _ ltac:(lia) F)) as [R1 [E1 _]].
  destruct (C115_uniform_step s (L + n) t1 order ltac:(lia) R1) as [t' [K _]]; [|eauto].
  replace (S (L + n)) with (L + S n) by lia. unfold fine_unit in *. rewrite E1. auto.
Qed.

(** ** From the root: a complete tree *)
Fixpoint words (k n : nat) : list (list nat) :=
  match n with
  | 0 => [[]]
  | S n' => flat_map (fun m => map (cons m) (words k n')) (seq 0 k)
  end.
Lemma words_length k n : length (words k n) = k ^ n.
Proof.
  induction n as [|n IH]; cbn [words Nat.pow]; auto. rewrite <- IH. generalize (words k n) as w. clear IH. intros w. generalize 0 as i.
  induction k as [|k IH]; intros i; cbn [seq flat_map]; auto. rewrite app_length, map_length, IH. lia.
Qed.
Lemma words_in k n p : In p (words k n) <-> length p = n /\ Forall (fun m => m < k) p.
Proof.
  revert p. induction n as [|n IH]; intros p; cbn [words].
  - split; [intros [<-|[]]; auto|]. intros [H _]. destruct p; [left; auto|discriminate].
  - rewrite in_flat_map. split.
    + intros [m [Hm Hp]]. apply in_map_iff in Hp. destruct Hp as [q [<- Hq]]. apply IH in Hq. destruct Hq as [<- Hq].
      apply in_seq in Hm. split; auto. constructor; auto. lia.
    + intros [H1 H2]. destruct p as [|m q]; [discriminate|]. apply Forall_cons_iff in H2. destruct H2 as [H2 H3].
      exists m. split; [apply in_seq; lia|]. apply in_map. apply IH. cbn in H1. auto.
Qed.
Lemma NoDup_app_iff_ {A} (l l' : list A) : NoDup l /\ NoDup l' /\ (forall x, In x l -> ~ In x l') -> NoDup (l ++ l').
Proof.
  intros [H1 [H2 H3]]. induction H1 as [|x l N H1 IH]; cbn [app]; auto. constructor.
  - rewrite in_app_iff. intros [H|H]; [contradiction|]. apply (H3 x); cbn; auto.
  - apply IH. intros y Hy. apply H3. cbn. auto.
Qed.
Lemma nodup_map_ {A B} (f : A -> B) l : (forall x y, In x l -> In y l -> f x = f y -> x = y) -> NoDup l -> NoDup (map f l).
Proof.
  intros H. induction 1 as [|x l N H1 IH]; cbn [map]; constructor.
  - intros X. apply in_map_iff in X. destruct X as [y [E Hy]]. apply H in E; cbn; auto. subst. auto.
  - apply IH. intros a b Ha Hb. apply H; cbn; auto.
Qed.
Lemma words_nodup k n : NoDup (words k n).
Proof.
  induction n as [|n IH]; cbn [words]; [constructor; [intros []|constructor]|].
  assert (G : forall l, NoDup l -> NoDup (flat_map (fun m => map (cons m) (words k n)) l)); [|apply G, seq_NoDup].
  induction l as [|m l IL]; intros ND; cbn [flat_map]; [constructor|]. apply NoDup_cons_iff in ND. destruct ND as [N1 N2].
  apply NoDup_app_iff_. repeat split; auto.
  - apply FinFun.Injective_map_NoDup; auto. intros a b E. congruence.
  - intros x Hx Hy. apply in_map_iff in Hx. destruct Hx as [q [<- _]]. apply in_flat_map in Hy. destruct Hy as [m' [Hm' Hy]].
    apply in_map_iff in Hy. destruct Hy as [q' [E _]]. congruence.
Qed.

Lemma uniform_paths s d lo hi t0 t' : forall n, 1 <= d -> make_root d lo hi = Some t0 -> n < s -> fine_unit n t0 ->
  uniformly_refined s n t0 t' ->
  tdim t' = d /\ forall path, has_box t' path <-> length path <= n /\ Forall (fun m => m < 2 ^ d) path.
Proof.
  intros n Hd E0 LS F H. assert (R0 : reachable s 0 t0) by (eapply reach_root; eauto).
  assert (D0 : tdim t0 = d) by (unfold make_root in E0; destruct forallb; inversion E0; auto).
  revert LS F. induction H as [t|n t t1 u order t' H IH U A K]; intros LS F.
  - split; auto. intros path. unfold make_root in E0. destruct forallb; inversion E0. clear. split.
    + intros [b Hb]. destruct path as [|m p]; [split; auto|]. exfalso. unfold box_at in Hb. cbn in Hb. rewrite andb_false_r in Hb. discriminate.
    + intros [L _]. destruct path; [|cbn in L; lia]. exists 0. reflexivity.
  - specialize (IH E0 R0 D0 ltac:(lia) (fine_mono n (S n) t ltac:(lia) F)). destruct IH as [D1 IH].
    destruct (uniform_reachable s 0 t t1 n H ltac:(lia) R0 (fine_mono (0 + n) (S n) _ ltac:(lia) F)) as [R1 [E1 _]].
    destruct (uniform_reachable s 0 t t' (S n) (uniform_more _ _ _ _ _ _ _ H U A K) LS R0 F) as [_ [_ D2]].
    split; [congruence|]. cbn [Nat.add] in R1.
    assert (F1 : fine_unit (S n) t1) by (unfold fine_unit in *; rewrite E1; auto).
    destruct (C115_uniform_step s n t1 order LS R1 F1) as [t2 [K2 P]]. rewrite K in K2. injection K2 as <-.
    intros path. rewrite (P u U A path), IH, D1. split.
    + intros [[H1 H2]|[q [m [b [-> [Hm [Hb _]]]]]]]; [split; auto; lia|].
      destruct (proj1 (IH q) (ex_intro _ b Hb)) as [Q1 Q2]. rewrite app_length. cbn [length]. split; [lia|].
      apply Forall_app. auto.
    + intros [H1 H2]. destruct (le_lt_dec (length path) n) as [L|L]; [left; auto|right].
      destruct (exists_last (l := path)) as [q [m ->]]; [intros ->; cbn in L; lia|].
      rewrite app_length in L, H1. cbn [length] in L, H1. apply Forall_app in H2. destruct H2 as [H2 H3]. apply Forall_inv in H3.
      assert (LQ : length q <= n) by lia. destruct (proj2 (IH q) (conj LQ H2)) as [b Hb]. exists q, m, b. repeat split; auto.
      intros m' Hm'. destruct (Nat.eq_dec (tchild t1 m' b) 0) as [|NE]; auto. exfalso.
      assert (X : has_box t1 (q ++ [m'])) by (exists (tchild t1 m' b); apply follow_snoc_iff; exists b; auto).
      apply IH in X. rewrite app_length in X. cbn [length] in X. lia.
Qed.

Theorem C115_complete_tree s d lo hi t0 n t' : 1 <= d -> make_root d lo hi = Some t0 -> n < s -> fine_unit n t0 ->
  uniformly_refined s n t0 t' ->
  wf_tob t' /\
  (forall b, b < tn t' -> tlevel t' b <= n /\ (leaf t' b <-> tlevel t' b = n)) /\
  (forall k, k <= n -> length (filter (fun b => tlevel t' b =? k) (seq 0 (tn t'))) = (2 ^ d) ^ k).
Proof.
  intros Hd E0 LS F H. assert (R0 : reachable s 0 t0) by (eapply reach_root; eauto).
  destruct (uniform_reachable s 0 t0 t' n H LS R0 F) as [R [E D]]. cbn [Nat.add] in R.
  assert (F' : fine_unit n t') by (unfold fine_unit in *; rewrite E; auto).
  destruct (reachable_inv s n t' LS R F') as [W SO].
  destruct (uniform_paths s d lo hi t0 t' n Hd E0 LS F H) as [Dd P].
  split; [eapply inv_wf; eauto|]. split.
  - intros b Hb. destruct (live_path _ _ _ _ W b Hb eq_refl) as [p Hp]. destruct (follow_live _ _ _ _ W _ _ Hp) as [_ [_ L]].
    destruct (proj1 (P p) (ex_intro _ b Hp)) as [Q1 Q2]. split; [lia|]. split.
    + intros LF. destruct (Nat.eq_dec (tlevel t' b) n) as [|NE]; auto. exfalso.
      assert (T : 0 < 2 ^ d) by (apply Nat.neq_0_lt_0, Nat.pow_nonzero; lia).
      destruct (proj2 (P (p ++ [0]))) as [c Hc].
      { rewrite app_length. cbn [length]. split; [lia|]. apply Forall_app. auto. }
      apply follow_snoc_iff in Hc. destruct Hc as [r [Hr [Hm [Hc _]]]]. rewrite Hr in Hp. injection Hp as ->. apply Hc, LF, Hm.
    + intros LE m Hm. destruct (Nat.eq_dec (tchild t' m b) 0) as [|NE]; auto. exfalso.
      assert (X : has_box t' (p ++ [m])) by (exists (tchild t' m b); apply follow_snoc_iff; exists b; auto).
      apply P in X. rewrite app_length in X. cbn [length] in X. lia.
  - intros k Hk. rewrite <- words_length.
    set (f := fun p => match box_at t' p with Some b => b | None => 0 end).
    assert (G : forall p, In p (words (2 ^ d) k) -> box_at t' p = Some (f p)).
    { intros p Hp. apply words_in in Hp. destruct Hp as [H1 H2]. assert (LQ : length p <= n) by lia. destruct (proj2 (P p) (conj LQ H2)) as [b Hb]. unfold f. rewrite Hb. auto. }
    rewrite <- (map_length f (words (2 ^ d) k)). apply Permutation_length, NoDup_Permutation.
    + apply NoDup_filter, seq_NoDup.
    + apply nodup_map_; [|apply words_nodup]. intros x y Hx Hy EQ. pose proof (G x Hx) as Gx. pose proof (G y Hy) as Gy.
      rewrite EQ in Gx. apply (follow_inj _ _ _ _ W _ _ _ Gx Gy).
    + intros b. rewrite filter_In, in_seq, in_map_iff, Nat.eqb_eq. split.
      * intros [Hb LE]. destruct (live_path _ _ _ _ W b ltac:(lia) eq_refl) as [p Hp]. destruct (follow_live _ _ _ _ W _ _ Hp) as [_ [_ L]].
        exists p. split; [unfold f, box_at; rewrite Hp; auto|]. apply words_in. destruct (proj1 (P p) (ex_intro _ b Hp)). split; auto. lia.
      * intros [p [<- Hp]]. pose proof (G p Hp) as Gp. destruct (follow_live _ _ _ _ W _ _ Gp) as [B [_ L]]. apply words_in in Hp.
        split; lia.
Qed.

(** ** The hypotheses can be met: the unit of the example is fine enough for two uniform refinements of a square *)
Definition unsorted (t : tob) : tob := get_ok t (unsorted_result 127 (is_leaf t) no_flags true t).
Definition once (t : tob) : tob := get_ok t (uniformly_refine 127 (isort (tn (unsorted t)) (tlevel (unsorted t))) t).
Example ex_uniform : make_root 2 (fun _ => 0%Z) (fun _ => 64%Z) = Some exr /\ fine_unit 2 exr /\
  uniformly_refined 127 2 exr (once (once exr)) /\ tn (once (once exr)) = 21 /\
  reachable 127 1 ext1 /\ fine_unit 2 ext1.
Proof.
  split; [reflexivity|]. split; [split; [reflexivity|exists 8%Z; reflexivity]|]. split; [|split; [vm_compute; reflexivity|]].
  - assert (G : forall n t, uniformly_refined 127 n exr t ->
      is_ok (unsorted_result 127 (is_leaf t) no_flags true t) = true ->
      check_order (tn (unsorted t)) (tlevel (unsorted t)) (isort (tn (unsorted t)) (tlevel (unsorted t))) = true ->
      is_ok (uniformly_refine 127 (isort (tn (unsorted t)) (tlevel (unsorted t))) t) = true ->
      uniformly_refined 127 (S n) exr (once t)).
    { intros n t H H1 H2 H3.
      apply (uniform_more 127 n exr t (unsorted t) (isort (tn (unsorted t)) (tlevel (unsorted t))) (once t) H (get_ok_eq t _ H1) (check_order_ok _ _ _ H2) (get_ok_eq t _ H3)). }
    apply G; try (vm_compute; reflexivity). apply G; try (vm_compute; reflexivity). apply uniform_none.
  - split; [|split; [reflexivity|exists 8%Z; reflexivity]]. apply (step_reachable 127 1 [0] [] exr); [|vm_compute; reflexivity].
    apply (reach_root 127 1 2 (fun _ => 0%Z) (fun _ => 64%Z)); [lia|reflexivity].
Qed.

Print Assumptions C115_refine.
Print Assumptions C115_coarsen.
Print Assumptions C115_uniform_step.
Print Assumptions C115_uniform_possible.
Print Assumptions C115_complete_tree.
