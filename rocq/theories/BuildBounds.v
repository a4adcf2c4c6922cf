(** Bounding boxes of the boxes of the particle tree. *)
From Coq Require Import List Arith ZArith NArith Lia Bool Permutation.
From Verif Require Import Base Tree Walk Traversal Fmm TreeBuild ArrayFacts BuildInv BuildScan BuildSort BuildAdvance BuildRenumber BuildStep BuildNext BuildLoop BuildDone BuildTerm
  BuildPrune BuildFull BuildSplit BuildFinish.
Import ListNotations.

Section Pick.
Variable pick : Z -> Z -> Z.
Variable le : Z -> Z -> Prop.
Hypothesis LR : forall x, le x x.
Hypothesis LT : forall x y z, le x y -> le y z -> le x z.
Hypothesis PL : forall x y, le (pick x y) x.
Hypothesis PR : forall x y, le (pick x y) y.
Hypothesis PC : forall x y, pick x y = x \/ pick x y = y.
Lemma pick_fold {A} (f : A -> option Z) l : forall acc,
  let v := fold_left (fun acc i => match f i with Some x => pick acc x | None => acc end) l acc in
  le v acc /\ (forall i x, In i l -> f i = Some x -> le v x) /\ (v = acc \/ exists i, In i l /\ f i = Some v).
Proof.
  induction l as [|i l IH]; intros acc; cbn [fold_left].
  - cbn zeta. split; auto. split; auto. intros i x [].
  - destruct (f i) as [x|] eqn:F.
    + destruct (IH (pick acc x)) as [A1 [A2 A3]]. cbn zeta in *. set (v := fold_left _ l _) in *.
      split; [apply LT with (pick acc x); auto|]. split.
      * intros j y [->|Hj] Fy; [|eauto]. assert (x = y) by congruence. subst. apply LT with (pick acc y); auto.
      * destruct A3 as [A3|[j [Hj Fj]]]; [|right; exists j; split; auto; right; auto].
        destruct (PC acc x) as [E|E]; [left; congruence|right; exists i; split; [left; auto|congruence]].
    + destruct (IH acc) as [A1 [A2 A3]]. cbn zeta in *. set (v := fold_left _ l _) in *. split; auto. split.
      * intros j y [->|Hj] Fy; [congruence|eauto].
      * destruct A3 as [A3|[j [Hj Fj]]]; auto. right. exists j. split; auto. right. auto.
Qed.

Section Bounds.
Variable inp : input.
Variable ps : pstate.
Variable q : nat -> list nat.
Variable sp : nat -> bool.
Hypothesis P : pinv inp ps q sp.
Notation n := (p_nboxes ps).
Notation nch := (nchild inp).
Variable K : nat.
Hypothesis LSlen : length (p_lstart ps) = S K.
Hypothesis LS : forall l j, l <= K -> j < n -> (nth l (p_lstart ps) 0 <= j <-> l <= length (q j)).
Hypothesis LSn : forall l, l <= K -> nth l (p_lstart ps) 0 <= n.
Hypothesis QK : forall j, j < n -> length (q j) < K.
Variable val : nat -> nat -> Z.
Variables (pstart pcount : nat -> nat).
Variable cum : nat -> nat -> Prop.
Hypothesis OWN : forall j i, j < n -> In i (seq (pstart j) (pcount j)) -> cum j i.
Hypothesis CH : forall j m i, j < n -> m < nch -> p_child ps m j <> 0 -> cum (p_child ps m j) i -> cum j i.
Hypothesis PART : forall j i, j < n -> cum j i -> In i (seq (pstart j) (pcount j)) \/
  exists m, m < nch /\ p_child ps m j <> 0 /\ cum (p_child ps m j) i.

(** [v] is the extreme value among the particles in the subtree of [j] and the centers of its
    boxes *)
Definition extreme (j a : nat) (v : Z) : Prop :=
  (forall i, cum j i -> le v (val i a)) /\
  (forall x r, x < n -> q x = q j ++ r -> le v (p_center ps x a)) /\
  ((exists i, cum j i /\ v = val i a) \/ (exists x r, x < n /\ q x = q j ++ r /\ v = p_center ps x a)).
Lemma box_extent_extreme bb j a : j < n ->
  (forall m, m < nch -> p_child ps m j <> 0 -> extreme (p_child ps m j) a (bb (p_child ps m j) a)) ->
  extreme j a (box_extent inp ps pick val pstart pcount bb j a).
Proof.
  intros Hj IH. unfold box_extent.
  set (own := fold_left (fun acc i => pick acc (val i a)) (seq (pstart j) (pcount j)) (p_center ps j a)).
  destruct (pick_fold (fun i => Some (val i a)) (seq (pstart j) (pcount j)) (p_center ps j a)) as [A1 [A2 A3]]. fold own in A1, A2, A3.
  cbn zeta in *.
  set (g := fun m => if p_child ps m j =? 0 then None else Some (bb (p_child ps m j) a)).
  assert (FE : forall l acc, fold_left (fun acc m => let c := p_child ps m j in if c =? 0 then acc else pick acc (bb c a)) l acc
     = fold_left (fun acc m => match g m with Some x => pick acc x | None => acc end) l acc).
  { induction l as [|m l IHl]; intros acc; cbn [fold_left]; auto. rewrite IHl. f_equal. unfold g. destruct (p_child ps m j =? 0); auto. }
  rewrite FE. clear FE.
  destruct (pick_fold g (seq 0 nch) own) as [B1 [B2 B3]]. cbn zeta in *. set (v := fold_left _ (seq 0 nch) own) in *.
  assert (BC : forall m, m < nch -> p_child ps m j <> 0 -> le v (bb (p_child ps m j) a)).
  { intros m Hm C. apply (B2 m); [apply in_seq; lia|]. unfold g. apply Nat.eqb_neq in C. rewrite C. auto. }
  split; [|split].
  - intros i Hi. destruct (PART j i Hj Hi) as [O|[m [Hm [C O]]]].
    + apply LT with own; auto. apply (A2 i); auto.
    + apply LT with (bb (p_child ps m j) a); auto. destruct (IH m Hm C) as [E1 _]. apply E1; auto.
  - intros x r Hx E. destruct r as [|m r].
    + rewrite app_nil_r in E. assert (x = j) by (apply (pi_inj _ _ _ _ P); auto). subst. apply LT with own; auto.
    + destruct (q_child inp ps q sp P j x m r Hj Hx E) as [Hm [C [_ E2]]].
      apply LT with (bb (p_child ps m j) a); auto. destruct (IH m Hm C) as [_ [E3 _]]. apply E3 with r; auto.
      rewrite E2, <- app_assoc. auto.
  - destruct B3 as [B3|[m [Hm B3]]].
    + destruct A3 as [A3|[i [Hi A3]]].
      * right. exists j, []. rewrite app_nil_r. split; auto. split; auto. congruence.
      * left. exists i. split; [apply OWN; auto|]. inversion A3. congruence.
    + apply in_seq in Hm. unfold g in B3. destruct (Nat.eqb_spec (p_child ps m j) 0) as [C|C]; [discriminate|].
      inversion B3 as [B4]. destruct (IH m ltac:(lia) C) as [_ [_ [[i [Hi E]]|[x [r [Hx [E1 E2]]]]]]].
      * left. exists i. split; auto. apply CH with m; auto. lia.
      * right. exists x, (m :: r). split; auto. split; auto. rewrite E1, (pi_child _ _ _ _ P m j Hj ltac:(lia) C), <- app_assoc. auto.
Qed.
Lemma extents_level_get bb l x : l < K -> 
  extents_level inp ps pick val pstart pcount bb l x =
  if (x <? n) && (length (q x) =? l) then kernel_map (idim inp) (box_extent inp ps pick val pstart pcount bb x) (fun _ => 0%Z) else bb x.
Proof.
  intros Hl. unfold extents_level. set (first := nth l (p_lstart ps) 0).
  assert (IN : In x (seq first (nth (l + 1) (p_lstart ps) 0 - first)) <-> x < n /\ length (q x) = l).
  { rewrite in_seq. replace (l + 1) with (S l) by lia. assert (N1 := LSn (S l) ltac:(lia)). split.
    - intros X. assert (Hx : x < n) by lia. assert (A := LS l x ltac:(lia) Hx). assert (B := LS (S l) x ltac:(lia) Hx). fold first in A. split; auto; lia.
    - intros [Hx Hq]. assert (A := LS l x ltac:(lia) Hx). assert (B := LS (S l) x ltac:(lia) Hx). fold first in A. lia. }
  destruct ((x <? n) && (length (q x) =? l)) eqn:C.
  - apply andb_true_iff in C. destruct C as [C1 C2]. apply Nat.ltb_lt in C1. apply Nat.eqb_eq in C2.
    rewrite scatter_in_eq with (v := kernel_map (idim inp) (box_extent inp ps pick val pstart pcount bb x) (fun _ => 0%Z)); auto.
    + apply in_map_iff. exists x. split; auto. apply IN. auto.
    + intros v Hv. apply in_map_iff in Hv. destruct Hv as [y [E _]]. inversion E; subst. auto.
  - rewrite scatter_notin; auto. intros v Hv. apply in_map_iff in Hv. destruct Hv as [y [E Hy]]. inversion E; subst.
    apply IN in Hy. destruct Hy as [H1 H2]. apply Nat.ltb_lt in H1. apply Nat.eqb_eq in H2. rewrite H1, H2 in C. discriminate.
Qed.
Lemma levels_extreme a : a < idim inp -> forall k bb, k <= K ->
  (forall j, j < n -> k <= length (q j) -> extreme j a (bb j a)) ->
  forall j, j < n -> extreme j a (fold_left (extents_level inp ps pick val pstart pcount) (rev (seq 0 k)) bb j a).
Proof.
  intros Ha. induction k as [|k IH]; intros bb Hk B j Hj; [apply B; auto; lia|].
  rewrite seq_S, rev_app_distr. cbn [rev app fold_left Nat.add]. apply IH; auto; [lia|].
  intros x Hx Hq. rewrite extents_level_get by lia.
  destruct ((x <? n) && (length (q x) =? k)) eqn:C.
  - apply andb_true_iff in C. destruct C as [_ C]. apply Nat.eqb_eq in C. rewrite kernel_map_lt by auto.
    apply box_extent_extreme; auto. intros m Hm NZ. apply B; [apply (pi_child_lt _ _ _ _ P); auto|].
    rewrite (pi_child _ _ _ _ P m x Hx Hm NZ), app_length. cbn [length]. lia.
  - apply B; auto. apply Nat.ltb_lt in Hx. rewrite Hx in C. cbn [andb] in C. apply Nat.eqb_neq in C. lia.
Qed.
Theorem box_extents_extreme j a : j < n -> a < idim inp -> extreme j a (box_extents inp ps pick val pstart pcount j a).
Proof.
  intros Hj Ha. unfold box_extents. rewrite LSlen. replace (S K - 1) with K by lia. apply levels_extreme; auto.
  intros x Hx C. exfalso. assert (X := QK x Hx). lia.
Qed.
End Bounds.
End Pick.

(** particles in the cumulative ranges *)
Section Ranges.
Variable inp : input.
Variable ps : pstate.
Variable q : nat -> list nat.
Variable sp : nat -> bool.
Hypothesis P : pinv inp ps q sp.
Hypothesis PEND : forall j, j < p_nboxes ps -> p_has_children ps j = true -> sp j = true.
Hypothesis NS : nsrc inp <= npart inp.
Hypothesis SAME : same inp = true -> nsrc inp = npart inp.
Notation n := (p_nboxes ps).
Notation nch := (nchild inp).
Notation R := (the_split inp ps).
Notation snc := (info_source_nonchild inp ps R).
Notation tnc := (info_target_nonchild inp ps R).
Definition src_cum (j i : nat) : Prop := i < nsrc inp /\ reach inp (sp_source_ids R i) (q j) = true.
Definition tgt_cum (j i : nat) : Prop := i < ntgt inp /\ reach inp (sp_target_ids R i) (q j) = true.
Lemma in_perm_seq (l : list nat) m x : Permutation l (seq 0 m) -> (In x l <-> x < m).
Proof.
  intros H. split.
  - intros I. apply (Permutation_in _ H) in I. apply in_seq in I. lia.
  - intros I. apply (Permutation_in _ (Permutation_sym H)). apply in_seq. lia.
Qed.
Lemma reach_app_l u p r : reach inp u (p ++ r) = true -> reach inp u p = true.
Proof.
  induction r as [|m r IH] using rev_ind; intros H; [rewrite app_nil_r in H; auto|].
  rewrite app_assoc, reach_snoc in H. apply andb_true_iff in H. apply IH, H.
Qed.
Section One.
Variables (pstart pcount ids : nat -> nat) (m : nat) (pos : nat -> bool).
Hypothesis OWNED : Permutation (concat (map (fun b => seq (pstart b) (pcount b)) (seq 0 n))) (seq 0 m).
Hypothesis BOX : forall x k, x < n -> pstart x <= k < pstart x + pcount x ->
  exists i, i < npart inp /\ pos i = true /\ ids k = p_user ps i /\ p_box ps i = x.
Notation cum j i := (i < m /\ reach inp (ids i) (q j) = true).
Lemma one_own j i : j < n -> In i (seq (pstart j) (pcount j)) -> cum j i.
Proof.
  intros Hj Hi. split.
  - apply (in_perm_seq _ _ i OWNED). apply in_concat. exists (seq (pstart j) (pcount j)). split; auto.
    apply in_map_iff. exists j. split; auto. apply in_seq. lia.
  - apply in_seq in Hi. destruct (BOX j i Hj Hi) as [k [Hk [_ [E B]]]]. rewrite E.
    destruct (pi_box _ _ _ _ P k Hk) as [_ [X _]]. rewrite B in X. auto.
Qed.
Lemma one_child j k i : j < n -> k < nch -> p_child ps k j <> 0 -> cum (p_child ps k j) i -> cum j i.
Proof.
  intros Hj Hk C [H1 H2]. split; auto. rewrite (pi_child _ _ _ _ P k j Hj Hk C) in H2. apply reach_app_l in H2. auto.
Qed.
Lemma one_part j i : j < n -> cum j i -> In i (seq (pstart j) (pcount j)) \/
  exists k, k < nch /\ p_child ps k j <> 0 /\ cum (p_child ps k j) i.
Proof.
  intros Hj [H1 H2]. apply (in_perm_seq _ _ i OWNED) in H1. apply in_concat in H1. destruct H1 as [l [Hl Hi]].
  apply in_map_iff in Hl. destruct Hl as [x [<- Hx]]. apply in_seq in Hx. assert (Hx' : x < n) by lia.
  assert (Hi' := Hi). apply in_seq in Hi'. destruct (BOX x i Hx' Hi') as [k [Hk [_ [E B]]]].
  destruct (pi_box _ _ _ _ P k Hk) as [_ [X D]]. rewrite E in H2. destruct (D j Hj H2) as [r Er]. rewrite B in Er, X.
  destruct r as [|mm r].
  - left. rewrite app_nil_r in Er. assert (x = j) by (apply (pi_inj _ _ _ _ P); auto). subst. auto.
  - right. destruct (q_child inp ps q sp P j x mm r Hj Hx' Er) as [Hm [C [_ E2]]]. exists mm. split; auto. split; auto.
    split.
    + apply (in_perm_seq _ _ i OWNED). apply in_concat. exists (seq (pstart x) (pcount x)). split; auto.
      apply in_map_iff. exists x. split; auto. apply in_seq. lia.
    + rewrite E. rewrite E2. rewrite Er in X. change (mm :: r) with ([mm] ++ r) in X. rewrite app_assoc in X. apply reach_app_l in X. auto.
Qed.
End One.
Section Both.
Variable K : nat.
Hypothesis LSlen : length (p_lstart ps) = S K.
Hypothesis LS : forall l j, l <= K -> j < n -> (nth l (p_lstart ps) 0 <= j <-> l <= length (q j)).
Hypothesis LSn : forall l, l <= K -> nth l (p_lstart ps) 0 <= n.
Hypothesis QK : forall j, j < n -> length (q j) < K.
Theorem source_extreme (pick : Z -> Z -> Z) (le : Z -> Z -> Prop) (val : nat -> nat -> Z) j a : (forall x, le x x) -> (forall x y z, le x y -> le y z -> le x z) ->
  (forall x y, le (pick x y) x) -> (forall x y, le (pick x y) y) -> (forall x y, pick x y = x \/ pick x y = y) ->
  j < n -> a < idim inp ->
  extreme le ps q val src_cum j a (box_extents inp ps pick val (sp_source_starts R) snc j a).
Proof.
  intros L1 L2 L3 L4 L5 Hj Ha. 
  assert (OW := sources_owned inp ps q sp P PEND NS SAME).
  assert (BX := source_own inp ps q sp P PEND NS SAME).
  apply (box_extents_extreme pick le L1 L2 L3 L4 L5 inp ps q sp P K LSlen LS LSn QK); auto.
  - intros x i Hx Hi. apply (one_own (sp_source_starts R) snc (sp_source_ids R) (nsrc inp) (src_pos inp ps)) ; auto.
  - intros x k i Hx Hk C D. apply (one_child (sp_source_ids R) (nsrc inp) x k); auto.
  - intros x i Hx D. apply (one_part (sp_source_starts R) snc (sp_source_ids R) (nsrc inp) (src_pos inp ps)) in D; auto.
Qed.
Theorem target_extreme (pick : Z -> Z -> Z) (le : Z -> Z -> Prop) (val : nat -> nat -> Z) j a : (forall x, le x x) -> (forall x y z, le x y -> le y z -> le x z) ->
  (forall x y, le (pick x y) x) -> (forall x y, le (pick x y) y) -> (forall x y, pick x y = x \/ pick x y = y) ->
  j < n -> a < idim inp ->
  extreme le ps q val tgt_cum j a (box_extents inp ps pick val (sp_target_starts R) tnc j a).
Proof.
  intros L1 L2 L3 L4 L5 Hj Ha. 
  assert (OW := targets_owned inp ps q sp P PEND NS SAME).
  assert (BX := target_own inp ps q sp P PEND NS SAME).
  apply (box_extents_extreme pick le L1 L2 L3 L4 L5 inp ps q sp P K LSlen LS LSn QK); auto.
  - intros x i Hx Hi. apply (one_own (sp_target_starts R) tnc (sp_target_ids R) (ntgt inp) (tgt_pos inp ps)) ; auto.
  - intros x k i Hx Hk C D. apply (one_child (sp_target_ids R) (ntgt inp) x k); auto.
  - intros x i Hx D. apply (one_part (sp_target_starts R) tnc (sp_target_ids R) (ntgt inp) (tgt_pos inp ps)) in D; auto.
Qed.
End Both.
End Ranges.
