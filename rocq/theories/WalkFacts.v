(** Which entries a walk outputs, and how often. *)
From Coq Require Import List Arith ZArith Lia Bool.
From Verif Require Import Base Tree Spec TreeFacts Walk.
Import ListNotations.

Section Count.
Variable A : Type.
Variable t : tree.
Hypothesis W : wf_tree t.
Variable visit : nat -> nat -> list A * bool.
Variable l0 : nat.                    (* level of the start box *)
Variable cnt : list A -> nat.
Hypothesis cnt_nil : cnt [] = 0.
Hypothesis cnt_app : forall l1 l2, cnt (l1 ++ l2) = cnt l1 + cnt l2.
Variable x : nat.
Hypothesis Hx : x < nboxes t.

Definition visit_at (c : nat) := visit c (box_level t c - l0 - 1).

Hypothesis others : forall c, c < nboxes t -> l0 < box_level t c -> c <> x -> cnt (fst (visit_at c)) = 0.

Lemma cnt_concat ll : cnt (concat ll) = nsum (map cnt ll).
Proof. induction ll; simpl; auto. rewrite cnt_app. lia. Qed.

Lemma child_of_anc p : p < nboxes t -> box_level t p < box_level t x ->
  anc t (box_level t p) x = p ->
  exists m, m < nchildren t /\ box_child t m p = anc t (S (box_level t p)) x.
Proof.
  intros Hp Hl Ha.
  destruct (wf_parent t W (anc t (S (box_level t p)) x)) as [H1 [m [Hm Hc]]].
  - apply anc_pos; auto; lia.
  - apply anc_lt; auto.
  - rewrite parent_anc, Ha in Hc by auto. eauto.
Qed.

Lemma dfs_count h : forall p,
  p < nboxes t -> l0 <= box_level t p -> h = nlevels t - box_level t p ->
  cnt (dfs t visit h p (box_level t p - l0)) =
  if (box_level t p <? box_level t x) && (anc t (box_level t p) x =? p) &&
     forallb (fun k => snd (visit_at (anc t k x)))
             (seq (S (box_level t p)) (box_level t x - S (box_level t p)))
  then cnt (fst (visit_at x)) else 0.
Proof.
  induction h as [|h IH]; intros p Hp Hl Hh.
  { pose proof (wf_level_lt t W p Hp). lia. }
  simpl. rewrite cnt_concat, map_map.
  pose proof (wf_level_lt t W x Hx) as Hxl.
  (* value of one slot *)
  assert (SLOT : forall m, m < nchildren t -> box_child t m p <> 0 ->
    cnt (let c := box_child t m p in
         if c =? 0 then [] else
         let '(o, d) := visit c (box_level t p - l0) in
         o ++ (if d then dfs t visit h c (S (box_level t p - l0)) else [])) =
    cnt (fst (visit_at (box_child t m p))) +
    if snd (visit_at (box_child t m p))
    then (if (S (box_level t p) <? box_level t x) &&
             (anc t (S (box_level t p)) x =? box_child t m p) &&
             forallb (fun k => snd (visit_at (anc t k x)))
               (seq (S (S (box_level t p))) (box_level t x - S (S (box_level t p))))
          then cnt (fst (visit_at x)) else 0)
    else 0).
  { intros m Hm Hc. cbv zeta. destruct (Nat.eqb_spec (box_child t m p) 0); [congruence|].
    destruct (child_facts t W m p Hp Hm Hc) as [C1 [C2 C3]].
    unfold visit_at at 1 2. rewrite C2.
    replace (S (box_level t p) - l0 - 1) with (box_level t p - l0) by lia.
    destruct (visit (box_child t m p) (box_level t p - l0)) as [o d]. simpl.
    rewrite cnt_app. f_equal. destruct d; auto.
    rewrite <- C2. replace (S (box_level t p - l0)) with (box_level t (box_child t m p) - l0) by lia.
    apply IH; auto; lia. }
  destruct (Nat.ltb_spec (box_level t p) (box_level t x)) as [Hlt|Hge]; simpl.
  2:{ apply nsum_map_0. intros m Hm. apply in_seq in Hm.
      destruct (Nat.eq_dec (box_child t m p) 0) as [E|Hc]; [rewrite E; simpl; auto|].
      rewrite SLOT by (auto; lia).
      destruct (child_facts t W m p Hp ltac:(lia) Hc) as [C1 [C2 C3]].
      rewrite others; auto; try lia.
      - destruct (Nat.ltb_spec (S (box_level t p)) (box_level t x)); [lia|].
        simpl. destruct (snd _); auto.
      - intros E. rewrite E in C2. lia. }
  destruct (Nat.eqb_spec (anc t (box_level t p) x) p) as [Ha|Ha]; simpl.
  2:{ apply nsum_map_0. intros m Hm. apply in_seq in Hm.
      destruct (Nat.eq_dec (box_child t m p) 0) as [E|Hc]; [rewrite E; simpl; auto|].
      rewrite SLOT by (auto; lia).
      destruct (child_facts t W m p Hp ltac:(lia) Hc) as [C1 [C2 C3]].
      assert (Hne : anc t (S (box_level t p)) x <> box_child t m p).
      { intros E. apply Ha. rewrite <- parent_anc by auto. rewrite E. auto. }
      rewrite others; auto; try lia.
      - destruct (Nat.eqb_spec (anc t (S (box_level t p)) x) (box_child t m p)); [congruence|].
        rewrite andb_false_r. simpl. destruct (snd _); auto.
      - intros E. apply Hne. rewrite E. rewrite E in C2.
        replace (S (box_level t p)) with (box_level t x) by lia. apply anc_self. }
  destruct (child_of_anc p Hp Hlt Ha) as [m [Hm Hc]].
  assert (Hy0 : 0 < anc t (S (box_level t p)) x) by (apply anc_pos; auto; lia).
  rewrite (nsum_map_single _ _ m).
  2: apply seq_NoDup. 2: apply in_seq; lia.
  2:{ intros m' Hm' Hne. apply in_seq in Hm'.
      destruct (Nat.eq_dec (box_child t m' p) 0) as [E|Hc']; [rewrite E; simpl; auto|].
      assert (Hd : anc t (S (box_level t p)) x <> box_child t m' p).
      { intros E. apply Hne. symmetry. apply (wf_child_inj t W m m' p); auto; lia. }
      rewrite SLOT by (auto; lia).
      destruct (child_facts t W m' p Hp ltac:(lia) Hc') as [C1 [C2 C3]].
      rewrite others; auto; try lia.
      - destruct (Nat.eqb_spec (anc t (S (box_level t p)) x) (box_child t m' p)); [congruence|].
        rewrite andb_false_r. simpl. destruct (snd _); auto.
      - intros E. apply Hd. rewrite E. rewrite E in C2.
        replace (S (box_level t p)) with (box_level t x) by lia. apply anc_self. }
  rewrite SLOT by (auto; lia). rewrite Hc, Nat.eqb_refl, andb_true_r.
  destruct (Nat.ltb_spec (S (box_level t p)) (box_level t x)) as [Hlt2|Hge2]; simpl.
  - rewrite others.
    + replace (box_level t x - S (box_level t p)) with (S (box_level t x - S (S (box_level t p)))) by lia.
      simpl. destruct (snd (visit_at (anc t (S (box_level t p)) x))); simpl; auto.
    + apply anc_lt; auto.
    + rewrite anc_level; auto; lia.
    + intros E. assert (box_level t (anc t (S (box_level t p)) x) = S (box_level t p)) by (apply anc_level; auto; lia).
      rewrite E in *. lia.
  - assert (E : S (box_level t p) = box_level t x) by lia.
    replace (box_level t x - S (box_level t p)) with 0 by lia. simpl.
    rewrite E, anc_self. destruct (snd _); lia.
Qed.
End Count.
