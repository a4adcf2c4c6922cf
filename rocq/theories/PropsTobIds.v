(** Property C117: box numbers that requests keep. *)
From Coq Require Import List Arith ZArith NArith Lia Bool Permutation.
From Verif Require Import Base Tree TreeOfBoxes SpecTob TobFacts TobCoarsen TobThm ExampleTob PropsTob TobWrappers PropsTobUniform PropsTobCount.
Import ListNotations.
Local Open Scope nat_scope.

(** ** Boxes on the deepest level only *)
Definition deepest (t : tob) (b : nat) : Prop := forall b', b' < tn t -> tlevel t b' <= tlevel t b.

Lemma no_stale s L live t : wl s L live t -> L < s -> (forall b, b < tn t -> live b = true) ->
  filter (fun b => tlevel t b =? s) (seq 0 (tn t)) = [].
Proof.
  intros W LS AL. destruct (filter _ _) as [|b l] eqn:E; auto. exfalso.
  assert (I : In b (b :: l)) by (left; auto). rewrite <- E in I. apply filter_In in I. destruct I as [I1 I2].
  apply in_seq in I1. apply Nat.eqb_eq in I2. pose proof (wl_level _ _ _ _ W b ltac:(lia) (AL b ltac:(lia))). lia.
Qed.
Lemma coarsen_nothing s n err t : apply_coarsen s (resized n false no_flags) err t = Ok t.
Proof.
  assert (N : forall b, resized n false no_flags b = false) by (intros b; unfold resized, no_flags; destruct (_ <? _); auto).
  assert (X : forall f, any (tn t) (fun b => resized n false no_flags b && f b) = false)
    by (intros f; apply any_false; intros b _; rewrite N; auto).
  unfold apply_coarsen. rewrite !X. unfold flagged.
  replace (filter (resized n false no_flags) (seq 0 (tn t))) with (@nil nat); [reflexivity|].
  induction (seq 0 (tn t)) as [|b l IH]; cbn [filter]; auto. rewrite N. auto.
Qed.

(** Refining only boxes of the deepest level renumbers nothing, whatever np.argsort would return: all boxes keep
    their numbers, and the children of the j-th flagged box come behind, in order. *)
Theorem C117_deepest_level_keeps_numbers s L t rf order : S L < s -> reachable s L t -> fine_unit (S L) t ->
  (forall b, b < tn t -> rf b = true -> leaf t b /\ deepest t b) ->
  exists t', refine_tree_of_boxes s order rf t = Ok t' /\
    tdim t' = tdim t /\ textent t' = textent t /\ tn t' = tn t + 2 ^ tdim t * number t rf /\
    (forall b, b < tn t -> tlevel t' b = tlevel t b /\ tparent t' b = tparent t b /\ (forall a, tcenter t' b a = tcenter t b a) /\
       (rf b = false -> forall m, tchild t' m b = tchild t m b)) /\
    (forall j p m, nth_error (filter rf (seq 0 (tn t))) j = Some p -> m < 2 ^ tdim t -> tchild t' m p = tn t + 2 ^ tdim t * j + m).
Proof.
  intros LS R F D. pose proof (fine_mono L (S L) t ltac:(lia) F) as F0.
  destruct (reachable_inv s L t ltac:(lia) R F0) as [W0 SO].
  assert (HL : forall b, b < tn t -> rf b = true -> tlevel t b < S L).
  { intros b Hb _. pose proof (wl_level _ _ _ _ W0 b Hb eq_refl). lia. }
  pose proof (wl_mono _ _ (S L) _ W0 ltac:(lia) F) as W.
  assert (RE : exists t1, apply_refine rf t = Ok t1).
  { unfold apply_refine. destruct (any _ _) eqn:E.
    - exfalso. unfold any in E. apply existsb_exists in E. destruct E as [b [Hb E]]. apply in_seq in Hb. apply andb_true_iff in E. destruct E as [E1 E2].
      destruct (D b ltac:(lia) E1) as [LF _]. apply (is_leaf_spec _ _ _ _ b W ltac:(lia)) in LF. rewrite LF in E2. discriminate.
    - destruct (_ =? 0); eauto. }
  destruct RE as [t1 RE]. pose proof (refine_wl s (S L) t t1 rf W HL RE) as W1.
  destruct (refine_dim s (S L) t t1 rf W HL RE) as [D1 [D2 D3]].
  assert (S1 : sorted_levels t1).
  { intros i j IJ Hj. destruct (lt_dec j (tn t)) as [Hjt|Hjt].
    - assert (Hi : i < tn t) by lia. rewrite (proj1 (refine_old s (S L) t t1 rf W HL RE i Hi)), (proj1 (refine_old s (S L) t t1 rf W HL RE j Hjt)). auto.
    - destruct (new_box s (S L) t t1 rf W HL RE j) as [k [m [Hk [Hm ->]]]]; [lia|].
      destruct (refine_new s (S L) t t1 rf W HL RE k m Hk Hm) as [P1 [P2 [_ [_ [_ [P6 _]]]]]]. rewrite P6.
      destruct (D _ P1 P2) as [_ DP]. destruct (lt_dec i (tn t)) as [Hi|Hi].
      + rewrite (proj1 (refine_old s (S L) t t1 rf W HL RE i Hi)). specialize (DP i Hi). lia.
      + destruct (new_box s (S L) t t1 rf W HL RE i) as [k' [m' [Hk' [Hm' ->]]]]; [lia|].
        destruct (refine_new s (S L) t t1 rf W HL RE k' m' Hk' Hm') as [Q1 [_ [_ [_ [_ [Q6 _]]]]]]. rewrite Q6. specialize (DP _ Q1). lia. }
  assert (HD : has_descent (tn t1) (tlevel t1) = false).
  { unfold has_descent. destruct (existsb _ _) eqn:E; auto. exfalso. apply existsb_exists in E. destruct E as [i [Hi E]].
    apply in_seq in Hi. apply Nat.ltb_lt in E. specialize (S1 i (S i) ltac:(lia) ltac:(lia)). lia. }
  exists (sort_and_prune s order t1). split.
  { unfold refine_tree_of_boxes, refine_and_coarsen.
    assert (X : any (tn t) (fun b => rf b && no_flags b) = false) by (apply any_false; intros b _; unfold no_flags; apply andb_false_r).
    rewrite X, RE. cbn [bind]. rewrite coarsen_nothing. reflexivity. }
  unfold sort_and_prune, sort_by_level. rewrite HD. cbn [negb]. cbv zeta. cbn [tdim textent tn tlevel tparent tcenter tchild].
  rewrite (no_stale s (S L) everything t1 W1 LS (fun _ _ => eq_refl)). cbn [length].
  split; auto. split; auto. split; [rewrite D3; change (number t rf) with (length (flagged (tn t) rf)); lia|]. split.
  - intros b Hb. apply (refine_old s (S L) t t1 rf W HL RE b Hb).
  - intros j p m Hj Hm. assert (LJ : j < length (flagged (tn t) rf)) by (apply nth_error_Some; unfold flagged; congruence).
    destruct (refine_new s (S L) t t1 rf W HL RE j m LJ Hm) as [_ [_ [E _]]].
    rewrite (nth_error_nth (flagged (tn t) rf) j 0 Hj) in E. auto.
Qed.

(** ** A request without flags changes nothing *)
Theorem C117_empty_request s L t order err : S L < s -> reachable s L t -> fine_unit (S L) t ->
  exists t', refine_and_coarsen s order no_flags no_flags err t = Ok t' /\
    tdim t' = tdim t /\ textent t' = textent t /\ tn t' = tn t /\
    forall b, b < tn t -> tlevel t' b = tlevel t b /\ tparent t' b = tparent t b /\ (forall a, tcenter t' b a = tcenter t b a) /\
      (forall m, tchild t' m b = tchild t m b) /\ tflags t' b = tflags t b.
Proof.
  intros LS R F. destruct (C117_deepest_level_keeps_numbers s L t no_flags order LS R F) as [t' [K [E1 [E2 [E3 [E4 _]]]]]]; [discriminate|].
  pose proof (fine_mono L (S L) t ltac:(lia) F) as F0. destruct (reachable_inv s L t ltac:(lia) R F0) as [W0 _].
  assert (N : number t no_flags = 0).
  { unfold number. induction (seq 0 (tn t)) as [|b l IH]; auto. }
  exists t'. split.
  { revert K. unfold refine_tree_of_boxes, refine_and_coarsen. destruct (any _ _); auto.
    destruct (apply_refine no_flags t) as [t1| |]; cbn [bind]; auto. rewrite !coarsen_nothing. auto. }
  rewrite N in E3. split; auto. split; auto. split; [lia|].
  intros b Hb. destruct (E4 b Hb) as [A1 [A2 [A3 A4]]]. specialize (A4 eq_refl). repeat split; auto.
  assert (FL : tflags t' b = compute_flags (tdim t') (tchild t') b).
  { revert K. unfold refine_tree_of_boxes, refine_and_coarsen. destruct (any _ _); [discriminate|].
    destruct (apply_refine no_flags t) as [t1| |]; cbn [bind]; try discriminate. rewrite coarsen_nothing. cbn [bind].
    intros X. injection X as <-. unfold sort_and_prune. cbv zeta. cbn [tflags tdim tchild]. reflexivity. }
  rewrite FL, (wl_flags _ _ _ _ W0) by auto. rewrite E1. unfold compute_flags.
  assert (Z : all_zero (tdim t) (tchild t') b = all_zero (tdim t) (tchild t) b).
  { unfold all_zero. induction (seq 0 (2 ^ tdim t)) as [|m l IH]; cbn [forallb]; auto. rewrite A4, IH. auto. }
  rewrite Z. auto.
Qed.

(** ** Coarsening all leaves undoes a uniform refinement *)
Theorem C117_coarsening_all_leaves_undoes_uniform_refinement s L t order u t1 : S L < s -> reachable s L t -> fine_unit (S L) t ->
  unsorted_result s (is_leaf t) no_flags true t = Ok u -> argsort_ok (tn u) (tlevel u) order ->
  uniformly_refine s order t = Ok t1 ->
  exists u2, unsorted_result s no_flags (is_leaf t1) true t1 = Ok u2 /\
  forall order2, argsort_ok (tn u2) (tlevel u2) order2 ->
  exists t2, coarsen_tree_of_boxes s order2 (is_leaf t1) true t1 = Ok t2 /\ same_boxes t t2.
Proof.
  intros LS R F U A K. pose proof (fine_mono L (S L) t ltac:(lia) F) as F0.
  destruct (reachable_inv s L t ltac:(lia) R F0) as [W0 _].
  assert (HL : forall b, b < tn t -> is_leaf t b = true -> tlevel t b < S L).
  { intros b Hb _. pose proof (wl_level _ _ _ _ W0 b Hb eq_refl). lia. }
  pose proof (wl_mono _ _ (S L) _ W0 ltac:(lia) F) as W.
  destruct (step_inv _ _ _ _ _ _ _ _ _ W LS HL U A K) as [W1 _].
  destruct (step_dim _ _ _ _ _ _ _ _ _ W LS HL U A K) as [D1 _].
  destruct (C115_uniform_step s L t order LS R F) as [t1' [K' P]]. rewrite K in K'. injection K' as <-. specialize (P u U A).
  apply (C15_coarsening_undoes_refinement s L t (is_leaf t) (is_leaf t1) true true order u t1 LS R F U A K).
  intros p b Hp. destruct (follow_live _ _ _ _ W1 _ _ Hp) as [Hb _]. rewrite (is_leaf_spec _ _ _ _ b W1 Hb).
  assert (Z : 0 < 2 ^ tdim t1) by (pose proof (pow2_nz (tdim t1)); lia).
  split.
  - intros LF [c Hc]. destruct (follow_live _ _ _ _ W _ _ Hc) as [Hcn _].
    assert (X : has_box t1 (p ++ [0])).
    { apply P. destruct (wl_full _ _ _ _ W c Hcn eq_refl) as [G|G].
      - right. exists p, 0, c. rewrite <- D1. auto.
      - left. exists (tchild t 0 c). apply follow_snoc_iff. exists c. rewrite <- D1 in *. auto 6. }
    destruct X as [e He]. apply follow_snoc_iff in He. destruct He as [r [Hr [Hm [Hn _]]]]. unfold box_at in Hp. rewrite Hp in Hr. injection Hr as <-.
    apply Hn, LF, Hm.
  - intros N m Hm. destruct (Nat.eq_dec (tchild t1 m b) 0) as [|NE]; auto. exfalso.
    assert (X : has_box t1 (p ++ [m])) by (exists (tchild t1 m b); apply follow_snoc_iff; exists b; auto).
    apply P in X. destruct X as [[c Hc]|[q [m' [c [EQ [_ [Hc _]]]]]]].
    + apply follow_snoc_iff in Hc. destruct Hc as [r [Hr _]]. apply N. exists r. exact Hr.
    + apply app_inj_tail in EQ. destruct EQ as [-> _]. apply N. exists c. exact Hc.
Qed.

(** ** The hypotheses can be met: the first and the last box of the deepest level of a tree with 13 boxes *)
Example ex_deepest : reachable 127 2 ext2 /\ fine_unit 3 ext2 /\ tn ext2 = 13 /\
  forall b, b < tn ext2 -> flags_of [5; 12] b = true -> leaf ext2 b /\ deepest ext2 b.
Proof.
  destruct ex_count as [R [F [_ [_ [N _]]]]]. split; auto. split; auto. split; auto.
  intros b Hb FB. unfold flags_of in FB. apply existsb_exists in FB. destruct FB as [x [Hx E]]. apply Nat.eqb_eq in E. subst x.
  assert (X : forallb (fun b => (all_zero 2 (tchild ext2) b) && forallb (fun b' => tlevel ext2 b' <=? tlevel ext2 b) (seq 0 13)) [5; 12] = true)
    by (vm_compute; reflexivity).
  rewrite forallb_forall in X. specialize (X b Hx). apply andb_true_iff in X. destruct X as [X1 X2]. split.
  - assert (D2 : tdim ext2 = 2) by (vm_compute; reflexivity). unfold leaf. rewrite D2. exact (proj1 (all_zero_spec 2 (tchild ext2) b) X1).
  - intros b' Hb'. rewrite forallb_forall in X2. apply Nat.leb_le. apply X2. apply in_seq. lia.
Qed.

Print Assumptions C117_deepest_level_keeps_numbers.
Print Assumptions C117_empty_request.
Print Assumptions C117_coarsening_all_leaves_undoes_uniform_refinement.
