(** Transposition of the area query and the space invader query. *)
From Coq Require Import List Arith ZArith NArith Lia Bool Permutation.
From Verif Require Import Base Tree Spec SpecArea TreeFacts Walk Traversal GeomFacts TraversalLists Tools ToolsFacts AreaQuery AreaFacts.
Import ListNotations.

(** ** Area queries over all balls *)
Lemma run_all_some {A B} (f : A -> option B) l : (forall x, In x l -> exists y, f x = Some y) ->
  exists ys, run_all f l = Some ys /\ length ys = length l /\ forall i d d', i < length l -> f (nth i l d) = Some (nth i ys d').
Proof.
  induction l as [|x l IH]; intros H.
  - exists []. cbn. repeat split; auto. intros; lia.
  - destruct (H x (or_introl eq_refl)) as [y Y]. destruct IH as [ys [E [L N]]]; [intros; apply H; right; auto|].
    exists (y :: ys). cbn. rewrite Y, E. repeat split; auto. intros [|i] d d' Hi; auto. apply N. lia.
Qed.

Section All.
Variable t : tree.
Hypothesis W : wf_tree t.
Variable bmin : nat -> Z.
Hypothesis BM : lower_corner t bmin.
Variable balls : list ball.
Notation nb := (length balls).
Definition no_ball : ball := (fun _ => 0%Z, 0%Z).

Lemma leaves_some c r : exists l, leaves_of_ball t bmin c r (all_peers t) = Some l.
Proof. destruct (leaves_ok t W bmin BM c r) as [g [_ [_ [_ E]]]]. eauto. Qed.

Lemma area_query_rows : exists ll, length ll = nb /\ area_query t bmin balls = Some (csr_of ll) /\
  forall j, j < nb -> leaves_of_ball t bmin (fst (nth j balls no_ball)) (snd (nth j balls no_ball)) (all_peers t) = Some (nth j ll []).
Proof.
  destruct (run_all_some (fun b => leaves_of_ball t bmin (fst b) (snd b) (all_peers t)) balls) as [ll [E [L N]]].
  - intros b _. apply leaves_some.
  - exists ll. split; auto. split.
    + unfold area_query. rewrite find_peers_ok by auto. rewrite E. auto.
    + intros j Hj. apply (N j no_ball [] Hj).
Qed.

(** ** The starts expander *)
Definition owners (ll : list (list nat)) : list nat :=
  concat (map (fun j => repeat j (length (nth j ll []))) (seq 0 (length ll))).
Definition total (ll : list (list nat)) (i : nat) : nat := nsum (firstn i (map (@length nat) ll)).
Lemma total_S ll i : i < length ll -> total ll (S i) = total ll i + length (nth i ll []).
Proof.
  intros H. unfold total. rewrite nsum_firstn_S by (rewrite map_length; auto). f_equal.
  change 0 with (@length nat []). apply map_nth.
Qed.
Lemma total_mono ll i j : i <= j -> j <= length ll -> total ll i <= total ll j.
Proof. intros H Hj. induction H; auto. rewrite total_S by lia. specialize (IHle ltac:(lia)). lia. Qed.
Lemma total_all ll : total ll (length ll) = length (concat ll).
Proof.
  unfold total. rewrite <- (map_length (@length nat)), firstn_all.
  induction ll as [|l ll IH]; auto. cbn [map concat]. rewrite app_length, <- IH. reflexivity.
Qed.
Lemma owners_length ll : length (owners ll) = length (concat ll).
Proof.
  unfold owners. rewrite <- (total_all ll).
  assert (K : forall n, n <= length ll -> length (concat (map (fun j => repeat j (length (nth j ll []))) (seq 0 n))) = total ll n).
  { induction n as [|n IH]; intros Hn. { reflexivity. }
    rewrite seq_S, map_app, concat_app, app_length, IH by lia. cbn [map concat]. rewrite app_nil_r, repeat_length, total_S by lia. auto. }
  apply K. auto.
Qed.
Lemma owners_nth ll i j : j < length ll -> total ll j <= i < total ll (S j) -> nth i (owners ll) 0 = j.
Proof.
  intros Hj. unfold owners.
  assert (K : forall n, n <= length ll -> length (concat (map (fun j => repeat j (length (nth j ll []))) (seq 0 n))) = total ll n).
  { induction n as [|n IH]; intros Hn. { reflexivity. }
    rewrite seq_S, map_app, concat_app, app_length, IH by lia. cbn [map concat]. rewrite app_nil_r, repeat_length, total_S by lia. auto. }
  intros H. replace (length ll) with (j + S (length ll - S j)) by lia. rewrite seq_app, map_app, concat_app.
  rewrite app_nth2; rewrite K by lia; [|lia]. cbn [seq map concat]. rewrite Nat.add_0_l, total_S in * by auto.
  rewrite app_nth1 by (rewrite repeat_length; lia).
  assert (Q : forall n k, k < n -> nth k (repeat j n) 0 = j).
  { induction n as [|n IH]; intros k Hk; [lia|]. destruct k; cbn; auto. apply IH. lia. }
  apply Q. lia.
Qed.
Lemma starts_nth ll i : i <= length ll -> nth i (starts (csr_of ll)) 0 = total ll i.
Proof. intros H. cbn [csr_of starts]. rewrite prefix_from_nth by (rewrite map_length; auto). auto. Qed.
Lemma starts_length ll : length (starts (csr_of ll)) = S (length ll).
Proof. cbn [csr_of starts]. rewrite prefix_from_length, map_length. auto. Qed.

Lemma list_eq_nth {A} (l1 l2 : list A) d : length l1 = length l2 -> (forall i, i < length l1 -> nth i l1 d = nth i l2 d) -> l1 = l2.
Proof.
  revert l2. induction l1 as [|x l1 IH]; intros [|y l2] L H; cbn in L; try lia; auto.
  f_equal; [apply (H 0); cbn; lia|]. apply IH; [lia|]. intros i Hi. apply (H (S i)). cbn. lia.
Qed.
Lemma expand_ok ll : expand_starts (csr_of ll) = Some (owners ll).
Proof.
  unfold expand_starts. rewrite (run_all_map _ (fun i => nth i (owners ll) 0)).
  - f_equal. apply (list_eq_nth _ _ 0).
    + rewrite map_length, seq_length, owners_length. reflexivity.
    + intros i Hi. rewrite map_length, seq_length in Hi. rewrite nth_map_seq by auto. auto.
  - intros i Hi. apply in_seq in Hi. cbn [lists csr_of] in Hi.
    set (arr := fun j => Z.of_nat (nth j (starts (csr_of ll)) 0)).
    destruct (bsearch_correct arr (length (starts (csr_of ll))) (Z.of_nat i)) as [[_ H]|[j [E [H1 [H2 H3]]]]].
    + rewrite starts_length. lia.
    + exfalso. unfold arr in H. rewrite starts_nth in H by lia. cbn in H. lia.
    + rewrite E. f_equal. symmetry. rewrite starts_length in *.
      assert (J : j < length ll).
      { destruct (Nat.eq_dec j (length ll)) as [->|N]; [|lia]. unfold arr in H2. rewrite starts_nth, total_all in H2 by lia. lia. }
      apply owners_nth; auto. unfold arr in *. rewrite starts_nth in H2, H3 by lia. lia.
Qed.

(** ** Transposition *)
Lemma combine_app_eq {A B} (a1 a2 : list A) (b1 b2 : list B) : length a1 = length b1 ->
  combine (a1 ++ a2) (b1 ++ b2) = combine a1 b1 ++ combine a2 b2.
Proof. revert b1. induction a1 as [|x a1 IH]; intros [|y b1] L; cbn in *; try lia; auto. f_equal. apply IH. lia. Qed.
Lemma pairs_count ll b j n : n <= length ll ->
  count j (map snd (filter (fun kv => fst kv =? b)
     (combine (concat (firstn n ll)) (concat (map (fun j => repeat j (length (nth j ll []))) (seq 0 n)))))) =
  if j <? n then count b (nth j ll []) else 0.
Proof.
  induction n as [|n IH]; intros Hn. { cbn. reflexivity. }
  assert (FS : firstn (S n) ll = firstn n ll ++ [nth n ll []]).
  { clear - Hn. revert n Hn. induction ll as [|l ll IH]; intros n Hn; cbn in Hn; [lia|]. destruct n as [|n]; cbn; auto.
    f_equal. apply IH. lia. }
  assert (LEN : length (concat (firstn n ll)) = length (concat (map (fun j => repeat j (length (nth j ll []))) (seq 0 n)))).
  { clear IH FS. induction n as [|n IH]; auto.
    assert (FS : firstn (S n) ll = firstn n ll ++ [nth n ll []]).
    { clear - Hn. revert Hn. generalize n. induction ll as [|l ll IH]; intros m Hm; cbn in Hm; [lia|]. destruct m as [|m]; cbn; auto.
      f_equal. apply IH. lia. }
    rewrite FS, seq_S, map_app, !concat_app, !app_length, IH by lia. cbn [map concat]. rewrite !app_nil_r, repeat_length. auto. }
  rewrite FS, seq_S, map_app, !concat_app, combine_app_eq by exact LEN.
  rewrite filter_app, map_app, count_app, IH by lia. clear IH FS LEN. cbn [map concat]. rewrite !app_nil_r. rewrite Nat.add_0_l.
  assert (K : forall l, count j (map snd (filter (fun kv => fst kv =? b) (combine l (repeat n (length l))))) = if j =? n then count b l else 0).
  { induction l as [|x l IH]; [cbn; destruct (j =? n); auto|]. cbn [length repeat combine filter fst].
    destruct (Nat.eqb_spec x b) as [->|N]; cbn [map snd]; rewrite ?count_cons, ?IH.
    - rewrite Nat.eqb_refl. destruct (j =? n); auto.
    - destruct (j =? n); auto. destruct (Nat.eqb_spec b x); [congruence|auto]. }
  rewrite K. destruct (Nat.ltb_spec j n), (Nat.ltb_spec j (S n)), (Nat.eqb_spec j n); subst; lia.
Qed.
Lemma transpose_ok : exists aq lbl, area_query t bmin balls = Some aq /\ leaves_to_balls t bmin balls = Some lbl /\
  forall b j, b < nboxes t -> count j (csr_get lbl b) = if j <? nb then count b (csr_get aq j) else 0.
Proof.
  destruct area_query_rows as [ll [L [E N]]]. exists (csr_of ll). eexists. split; auto.
  unfold leaves_to_balls. rewrite E, expand_ok. cbn [option_map lists csr_of]. split; [reflexivity|].
  intros b j Hb. unfold key_value_sort. rewrite csr_get_of by (rewrite map_length, seq_length; auto).
  rewrite nth_map_seq by auto.
  pose proof (pairs_count ll b j (length ll) (le_n _)) as P. rewrite firstn_all in P. unfold owners. rewrite P, <- L.
  destruct (Nat.ltb_spec j (length ll)); auto. change (mkCsr (prefix_from 0 (map (@length nat) ll)) (concat ll)) with (csr_of ll).
  rewrite csr_get_of by auto. auto.
Qed.

(** ** Space invaders *)
Lemma run_updates_split l : forall a b,
  fold_left atomic_max l a b = fold_left Z.max (map snd (filter (fun u => fst u =? b) l)) (a b).
Proof.
  induction l as [|u l IH]; intros a b; cbn [fold_left filter map]; auto. rewrite IH. unfold atomic_max at 1.
  rewrite (Nat.eqb_sym b). destruct (fst u =? b); auto.
Qed.
Lemma fold_zmax_ge l a : (a <= fold_left Z.max l a)%Z.
Proof. revert a. induction l as [|x l IH]; intros a; cbn; [lia|]. specialize (IH (Z.max a x)). lia. Qed.
Lemma fold_zmax_in l a x : In x l -> (x <= fold_left Z.max l a)%Z.
Proof.
  revert a. induction l as [|y l IH]; intros a; cbn; [tauto|]. intros [->|H]; auto.
  pose proof (fold_zmax_ge l (Z.max a x)). lia.
Qed.
Lemma fold_zmax_attained l a : fold_left Z.max l a = a \/ In (fold_left Z.max l a) l.
Proof.
  revert a. induction l as [|y l IH]; intros a; cbn; auto. destruct (IH (Z.max a y)) as [E|E]; auto.
  rewrite E. destruct (Z.max_spec a y) as [[_ ->]|[_ ->]]; auto.
Qed.

Lemma invader_rows f32 : exists ups, invader_updates t bmin f32 balls = Some ups /\
  forall u, In u ups <-> exists j l, j < nb /\
    leaves_of_ball t bmin (fst (nth j balls no_ball)) (snd (nth j balls no_ball)) (all_peers t) = Some l /\ In (fst u) l /\
    snd u = f32 (linf_dist (dim t) (fst (nth j balls no_ball)) (box_center t (fst u))).
Proof.
  set (g := fun b : ball => option_map (map (fun leaf => (leaf, f32 (linf_dist (dim t) (fst b) (box_center t leaf)))))
                  (leaves_of_ball t bmin (fst b) (snd b) (all_peers t))).
  destruct (run_all_some g balls) as [ll [E [L N]]].
  { intros b _. unfold g. destruct (leaves_some (fst b) (snd b)) as [l ->]. cbn. eauto. }
  exists (concat ll). split.
  { unfold invader_updates. rewrite find_peers_ok by auto. replace (run_all _ balls) with (Some ll) by (symmetry; exact E). auto. }
  intros u. rewrite in_concat. split.
  - intros [x [Hx Hu]]. apply (In_nth _ _ []) in Hx. destruct Hx as [j [Hj <-]]. rewrite L in Hj.
    specialize (N j no_ball [] Hj). unfold g in N.
    destruct (leaves_some (fst (nth j balls no_ball)) (snd (nth j balls no_ball))) as [l El]. rewrite El in N.
    cbn in N. inversion N as [N']. rewrite <- N' in Hu. apply in_map_iff in Hu. destruct Hu as [leaf [<- Hl]].
    exists j, l. auto.
  - intros [j [l [Hj [El [H1 H2]]]]]. exists (nth j ll []). split; [apply nth_In; lia|].
    specialize (N j no_ball [] Hj). unfold g in N. rewrite El in N. cbn in N. inversion N as [N'].
    apply in_map_iff. exists (fst u). split; auto. destruct u; cbn in *. congruence.
Qed.
End All.
