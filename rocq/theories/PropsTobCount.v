(** Property C116: how many boxes a request adds and removes. *)
From Coq Require Import List Arith ZArith NArith Lia Bool Permutation.
From Verif Require Import Base Tree TreeOfBoxes SpecTob TobFacts TobCoarsen TobThm ExampleTob PropsTob TobWrappers PropsTobUniform.
Import ListNotations.
Local Open Scope nat_scope.

(** [p] loses its children: one of them is flagged for coarsening, and all of them are leaves that stay leaves *)
Definition loses_children (t : tob) (rf cf : nat -> bool) (p : nat) : Prop :=
  p < tn t /\ (exists m, m < 2 ^ tdim t /\ tchild t m p <> 0 /\ cf (tchild t m p) = true) /\
  forall m, m < 2 ^ tdim t -> tchild t m p <> 0 /\ leaf t (tchild t m p) /\ rf (tchild t m p) = false.
(** number of boxes flagged *)
Definition number (t : tob) (flags : nat -> bool) : nat := length (filter flags (seq 0 (tn t))).

Lemma filter_map_ {A B} (f : A -> B) (g : B -> bool) l : length (filter g (map f l)) = length (filter (fun x => g (f x)) l).
Proof. induction l as [|x l IH]; cbn [map filter]; auto. destruct (g (f x)); cbn [length]; lia. Qed.
Lemma perm_filter {A} (f : A -> bool) l l' : Permutation l l' -> length (filter f l) = length (filter f l').
Proof. induction 1; cbn [filter]; auto; [destruct (f x); cbn [length]; auto|destruct (f x), (f y); auto|lia]. Qed.
Lemma map_nth_order (l : list nat) : map (fun i => nth i l 0) (seq 0 (length l)) = l.
Proof.
  induction l as [|x l IH]; cbn [length seq map]; auto. f_equal. rewrite <- seq_shift, map_map. exact IH.
Qed.
Lemma sort_count s order t : argsort_ok (tn t) (tlevel t) order -> tn (sort_by_level order t) = tn t /\
  length (filter (fun b => tlevel (sort_by_level order t) b =? s) (seq 0 (tn t))) = length (filter (fun b => tlevel t b =? s) (seq 0 (tn t))).
Proof.
  intros [P _]. unfold sort_by_level. destruct (negb _); auto. cbn [tn tlevel]. split; auto.
  rewrite <- (filter_map_ (fun i => nth i order 0) (fun b => tlevel t b =? s)).
  apply perm_filter. assert (LO : length order = tn t) by (rewrite (Permutation_length P), seq_length; auto).
  rewrite <- LO at 1. rewrite map_nth_order. auto.
Qed.
Lemma filter_le {A} (f : A -> bool) l : length (filter f l) <= length l.
Proof. induction l as [|x l IH]; cbn [filter length]; auto. destruct (f x); cbn [length]; lia. Qed.

Section step.
Variables (s L : nat) (t t1 : tob) (rf cf : nat -> bool).
Hypothesis W : wl s L everything t.
Hypothesis HL : forall b, b < tn t -> rf b = true -> tlevel t b < L.
Hypothesis RE : apply_refine rf t = Ok t1.
Let W1 := refine_wl s L t t1 rf W HL RE.

Lemma trimmed_loses q : trimmed t1 (resized (tn t) false cf) q <-> loses_children t rf cf q.
Proof.
  destruct (refine_dim s L t t1 rf W HL RE) as [D1 [_ D3]]. unfold trimmed, loses_children. rewrite D1. split.
  - intros [Hq [[m [Hm [Hc Hcf]]] All]]. unfold resized in Hcf. destruct (Nat.ltb_spec (tchild t1 m q) (tn t)) as [Lt|]; [|discriminate].
    assert (Hqt : q < tn t).
    { destruct (lt_dec q (tn t)) as [|N]; auto. exfalso. destruct (new_box s L t t1 rf W HL RE q) as [j [m' [Hj [Hm' ->]]]]; [lia|].
      destruct (refine_new s L t t1 rf W HL RE j m' Hj Hm') as [_ [_ [_ [_ [_ [_ [E _]]]]]]]. apply Hc, E. }
    assert (Hrf : rf q = false).
    { destruct (rf q) eqn:Erf; auto. exfalso. destruct (R_index t rf q Hqt Erf) as [j [Hj E]].
      destruct (refine_new s L t t1 rf W HL RE j m Hj Hm) as [_ [_ [E2 _]]]. rewrite E in E2. lia. }
    assert (K : forall k, tchild t1 k q = tchild t k q) by (apply (refine_old s L t t1 rf W HL RE q Hqt); auto).
    split; auto. split; [exists m; rewrite <- K; auto|].
    intros k Hk. destruct (All k Hk) as [A1 A2]. rewrite K in A1, A2. split; auto.
    destruct (wl_child _ _ _ _ W k q Hqt eq_refl Hk A1) as [A3 _].
    apply (refine_leaf_iff s L t t1 rf W HL RE) in A2; [|lia]. destruct A2 as [[_ [? ?]]|?]; [auto|lia].
  - intros [Hq [[m [Hm [Hc Hcf]]] All]].
    assert (Hrf : rf q = false).
    { destruct (rf q) eqn:Erf; auto. exfalso. apply Hc. apply (refine_leaf s L t t1 rf W RE q Hq Erf m Hm). }
    assert (K : forall k, tchild t1 k q = tchild t k q) by (apply (refine_old s L t t1 rf W HL RE q Hq); auto).
    split; [lia|]. split.
    + exists m. rewrite K. split; auto. split; auto. unfold resized.
      destruct (wl_child _ _ _ _ W m q Hq eq_refl Hm Hc) as [A3 _]. destruct (Nat.ltb_spec (tchild t m q) (tn t)); [auto|lia].
    + intros k Hk. destruct (All k Hk) as [A1 [A2 A4]]. rewrite K. split; auto.
      destruct (wl_child _ _ _ _ W k q Hq eq_refl Hk A1) as [A3 _]. apply (refine_leaf_iff s L t t1 rf W HL RE); [lia|]. left. auto.
Qed.
End step.

Lemma length_children {A B} (f : A -> B -> nat) (l : list A) (r : list B) : length (flat_map (fun q => map (f q) r) l) = length l * length r.
Proof. induction l as [|x l IH]; cbn [flat_map length Nat.mul]; auto. rewrite app_length, map_length, IH. auto. Qed.

Theorem C116_number_of_boxes s L t rf cf err u order t' : S L < s -> reachable s L t -> fine_unit (S L) t ->
  unsorted_result s rf cf err t = Ok u -> argsort_ok (tn u) (tlevel u) order ->
  refine_and_coarsen s order rf cf err t = Ok t' ->
  exists losers, NoDup losers /\ (forall p, In p losers <-> loses_children t rf cf p) /\
    length losers <= number t cf /\
    tn t' + 2 ^ tdim t * length losers = tn t + 2 ^ tdim t * number t rf.
Proof.
  intros LS R F U A K. pose proof (fine_mono L (S L) t ltac:(lia) F) as F0.
  destruct (reachable_inv s L t ltac:(lia) R F0) as [W0 _].
  assert (HL : forall b, b < tn t -> rf b = true -> tlevel t b < S L).
  { intros b Hb _. pose proof (wl_level _ _ _ _ W0 b Hb eq_refl). lia. }
  pose proof (wl_mono _ _ (S L) _ W0 ltac:(lia) F) as W.
  destruct (step_split s t t' rf cf err order u U K) as [t1 [RE [CO E]]].
  pose proof (refine_wl s (S L) t t1 rf W HL RE) as W1.
  destruct (refine_dim s (S L) t t1 rf W HL RE) as [D1 [_ D3]].
  set (cf1 := resized (tn t) false cf) in *.
  destruct (coarsen_fields s (S L) t1 u cf1 err W1 LS CO) as [_ [_ [N2 _]]].
  set (losers := nodup Nat.eq_dec (map (fun b => Z.to_nat (tparent t1 b))
     (filter (fun b => forallb (fun m => is_leaf t1 (tchild t1 m (Z.to_nat (tparent t1 b)))) (seq 0 (tnch t1))) (flagged (tn t1) cf1)))).
  assert (IL : forall q, In q losers <-> trimmed t1 cf1 q).
  { intros q. unfold losers. rewrite nodup_In. apply (parents_iff s (S L) t1 u cf1 err W1 LS CO). }
  assert (ND : NoDup losers) by apply NoDup_nodup.
  exists losers. split; auto. split; [|split].
  - intros p. rewrite IL. apply (trimmed_loses s (S L) t t1 rf cf W HL RE).
  - transitivity (length (flagged (tn t1) cf1)).
    + unfold losers. etransitivity; [apply NoDup_incl_length; [apply NoDup_nodup|intros x Hx; apply nodup_In in Hx; exact Hx]|].
      rewrite map_length. apply filter_le.
    + apply NoDup_incl_length; [apply flagged_NoDup|]. intros b Hb. apply in_flagged in Hb. destruct Hb as [_ Hb].
      unfold cf1, resized in Hb. destruct (Nat.ltb_spec b (tn t)); [|discriminate]. apply filter_In. split; auto. apply in_seq. lia.
  - set (kids := flat_map (fun q => map (fun m => tchild t1 m q) (seq 0 (2 ^ tdim t))) losers).
    assert (LK : length kids = length losers * 2 ^ tdim t) by (unfold kids; rewrite (length_children (fun q m => tchild t1 m q)), seq_length; auto).
    assert (IK : forall b, In b kids <-> gone t1 cf1 b).
    { intros b. rewrite gone_trimmed, D1. unfold kids. rewrite in_flat_map. split.
      - intros [q [Hq Hb]]. apply in_map_iff in Hb. destruct Hb as [m [<- Hm]]. apply in_seq in Hm. exists q, m. split; [apply IL; auto|]. split; auto. lia.
      - intros [q [m [Hq [Hm ->]]]]. exists q. split; [apply IL; auto|]. apply in_map_iff. exists m. split; auto. apply in_seq. lia. }
    assert (NK : NoDup kids).
    { unfold kids. assert (T : forall q, In q losers -> trimmed t1 cf1 q) by (intros; apply IL; auto). clear LK IK IL kids.
      clearbody losers. induction losers as [|q l IH]; cbn [flat_map]; [constructor|]. apply NoDup_cons_iff in ND. destruct ND as [Nq ND].
      destruct (T q (or_introl eq_refl)) as [Tq [_ Tc]]. rewrite D1 in Tc.
      apply NoDup_app_iff_. split; [|split].
      - apply nodup_map_; [|apply seq_NoDup]. intros m m' Hm Hm' EQ. apply in_seq in Hm. apply in_seq in Hm'.
        apply (wl_inj _ _ _ _ W1 m m' q Tq eq_refl); rewrite ?D1; try lia. apply Tc. lia.
      - apply IH; auto. intros p Hp. apply T. right. auto.
      - intros b Hb Hb'. apply in_map_iff in Hb. destruct Hb as [m [<- Hm]]. apply in_flat_map in Hb'. destruct Hb' as [q' [Hq' Hb']].
        apply in_map_iff in Hb'. destruct Hb' as [m' [EQ Hm']]. apply in_seq in Hm. apply in_seq in Hm'.
        destruct (T q' (or_intror Hq')) as [Tq' [_ Tc']]. rewrite D1 in Tc'.
        destruct (wl_child _ _ _ _ W1 m q Tq eq_refl) as [_ [_ [P1 _]]]; [rewrite D1; lia|apply Tc; lia|].
        destruct (wl_child _ _ _ _ W1 m' q' Tq' eq_refl) as [_ [_ [P2 _]]]; [rewrite D1; lia|apply Tc'; lia|].
        rewrite EQ in P2. assert (q = q') by lia. subst q'. contradiction. }
    assert (ST : length (filter (fun b => tlevel u b =? s) (seq 0 (tn u))) = length kids).
    { apply Permutation_length, NoDup_Permutation; [apply NoDup_filter, seq_NoDup|auto|]. intros b. rewrite filter_In, in_seq, IK, N2.
      split.
      - intros [Hb EQ]. pose proof (kept_iff s (S L) t1 u cf1 err W1 LS CO b ltac:(lia)) as X. unfold kept in X. rewrite EQ in X. cbn [negb] in X.
        destruct (in_dec Nat.eq_dec b kids) as [I|I]; [apply IK, I|]. exfalso. rewrite IK in I. apply X in I. discriminate.
      - intros G. assert (Hb : b < tn t1).
        { destruct G as [q [m [Hq [Hm [-> [_ All]]]]]]. apply (wl_child _ _ _ _ W1 m q Hq eq_refl Hm). apply All, Hm. }
        split; [lia|]. pose proof (kept_iff s (S L) t1 u cf1 err W1 LS CO b Hb) as X. unfold kept in X.
        destruct (tlevel u b =? s); auto. exfalso. apply X; auto. }
    destruct (sort_count s order u A) as [N3 C3]. rewrite E. cbn [pruned tn]. rewrite N3, C3.
    pose proof (filter_le (fun b => tlevel u b =? s) (seq 0 (tn u))) as LE. rewrite seq_length in LE.
    change (number t rf) with (length (flagged (tn t) rf)). rewrite ST in *. rewrite N2, D3, LK in *. lia.
Qed.

(** the change of the number of boxes is bounded per box flagged (docstring of refine_and_coarsen_tree_of_boxes) *)
Theorem C116_bounded_change s L t rf cf err u order t' : S L < s -> reachable s L t -> fine_unit (S L) t ->
  unsorted_result s rf cf err t = Ok u -> argsort_ok (tn u) (tlevel u) order ->
  refine_and_coarsen s order rf cf err t = Ok t' ->
  tn t' <= tn t + 2 ^ tdim t * number t rf /\ tn t <= tn t' + 2 ^ tdim t * number t cf.
Proof.
  intros LS R F U A K. destruct (C116_number_of_boxes s L t rf cf err u order t' LS R F U A K) as [l [_ [_ [H1 H2]]]].
  pose proof (Nat.mul_le_mono_l _ _ (2 ^ tdim t) H1). lia.
Qed.

(** ** A case with both kinds of flags: two boxes refined, one family of four removed *)
Example ex_count : reachable 127 2 ext2 /\ fine_unit 3 ext2 /\
  number ext2 (flags_of [7; 2]) = 2 /\ number ext2 (flags_of [9]) = 1 /\ tn ext2 = 13 /\ tn ext3 = 17 /\
  step_ok 127 3 [7; 2] [9] ext2 = true.
Proof.
  split; [|split; [split; [reflexivity|exists 4%Z; reflexivity]|repeat split; vm_compute; reflexivity]].
  apply step_reachable; [|vm_compute; reflexivity]. apply step_reachable; [|vm_compute; reflexivity].
  apply (reach_root 127 2 2 (fun _ => 0%Z) (fun _ => 64%Z)); [lia|reflexivity].
Qed.

Print Assumptions C116_number_of_boxes.
Print Assumptions C116_bounded_change.
