(** Where partition_work cuts. *)
From Coq Require Import List Arith ZArith Lia Bool.
From Verif Require Import Base Tree Partition PartitionFacts.
Import ListNotations.

(** cost of the first [k] boxes *)
Definition prefix (costs : list Z) (k : nat) : Z := zsum (firstn k costs).
Lemma prefix_S costs k c rest : skipn k costs = c :: rest -> prefix costs (k + 1) = (prefix costs k + c)%Z /\ skipn (k + 1) costs = rest.
Proof.
  intros E. assert (A : costs = firstn k costs ++ c :: rest) by (rewrite <- E, firstn_skipn; auto).
  assert (L : length (firstn k costs) = k).
  { apply firstn_length_le. assert (length (skipn k costs) = length costs - k) by apply skipn_length. rewrite E in H. cbn in H. lia. }
  unfold prefix. split.
  - rewrite A at 1. rewrite firstn_app, L. rewrite firstn_all2 by lia. replace (k + 1 - k) with 1 by lia. cbn [firstn]. rewrite zsum_app.
    change (zsum [c]) with (c + 0)%Z. lia.
  - rewrite A at 1. rewrite skipn_app, L, skipn_all2 by lia. replace (k + 1 - k) with 1 by lia. reflexivity.
Qed.
Lemma segments_cut all size total : (forall c, In c all -> (0 <= c)%Z) -> forall costs i start seg,
  costs = skipn i all -> i <= length all -> start <= i -> seg < size -> (seg + 1 = size -> start = i) ->
  (Z.of_nat seg * total <= prefix all start * Z.of_nat size)%Z ->
  (start < i -> (prefix all i * Z.of_nat size <= Z.of_nat (seg + 1) * total)%Z) ->
  forall k a b, nth_error (segment_loop (length all) size total costs i start seg (prefix all i)) k = Some (a, b) ->
  (Z.of_nat (seg + k) * total <= prefix all a * Z.of_nat size)%Z /\ a < b /\ b <= length all /\
  (seg + k + 1 < size -> (a < b - 1 -> (prefix all (b - 1) * Z.of_nat size <= Z.of_nat (seg + k + 1) * total)%Z) /\
                         (b < length all -> (Z.of_nat (seg + k + 1) * total < prefix all b * Z.of_nat size)%Z)) /\
  (seg + k + 1 = size -> b = length all).
Proof.
  intros NN. induction costs as [|c costs IH]; intros i start seg EC HI HS HG HL LO UP k a b H; cbn [segment_loop] in H; [destruct k; discriminate|].
  destruct (prefix_S all i c costs (eq_sym EC)) as [P1 P2].
  assert (IL : i < length all).
  { assert (X : length (skipn i all) = length all - i) by apply skipn_length. rewrite <- EC in X. cbn in X. lia. }
  destruct (Nat.eqb_spec (seg + 1) size) as [E|NE].
  - destruct k as [|k]; [|destruct k; discriminate]. cbn in H. injection H as <- <-. rewrite Nat.add_0_r. split; auto. split; [rewrite (HL E); auto|]. split; [lia|]. split; [lia|auto].
  - cbv zeta in H. rewrite <- P1 in H. destruct (_ || _) eqn:C.
    + destruct k as [|k].
      * cbn in H. injection H as <- <-. rewrite !Nat.add_0_r. split; auto. split; [lia|]. split; [lia|]. split; [|lia]. intros _. split.
        -- replace (i + 1 - 1) with i by lia. auto.
        -- intros B. apply orb_true_iff in C. destruct C as [C|C]; [apply Z.ltb_lt in C; lia|apply Nat.eqb_eq in C; lia].
      * cbn [nth_error] in H. replace (seg + S k) with (seg + 1 + k) by lia.
        destruct costs as [|c2 costs]; [destruct k; discriminate|].
        assert (C' : (Z.of_nat (seg + 1) * total < prefix all (i + 1) * Z.of_nat size)%Z).
        { apply orb_true_iff in C. destruct C as [C|C]; [apply Z.ltb_lt in C; auto|]. apply Nat.eqb_eq in C.
          assert (X : length (skipn (i + 1) all) = length all - (i + 1)) by apply skipn_length. rewrite P2 in X. cbn in X. lia. }
        apply (IH (i + 1) (i + 1) (seg + 1)); auto; try lia.
    + apply orb_false_iff in C. destruct C as [C1 C2]. apply Z.ltb_ge in C1.
      apply (IH (i + 1) start seg); auto; try lia.
Qed.
Lemma slice_cost (z : nat -> Z) order a b : a <= b -> b <= length order ->
  (zsum (map z (py_slice order a b)) = prefix (map z order) b - prefix (map z order) a)%Z.
Proof.
  intros AB BL. assert (F : forall k, zsum (map z (py_slice order 0 k)) = prefix (map z order) k).
  { intros k. unfold py_slice, prefix. rewrite Nat.sub_0_r. cbn [skipn]. rewrite firstn_map. reflexivity. }
  rewrite <- !F, <- (py_slice_join order 0 a b) by lia. rewrite map_app, zsum_app. lia.
Qed.
Lemma slice_last (order : list nat) a b : a < b -> b <= length order -> exists x, py_slice order a b = py_slice order a (b - 1) ++ [x].
Proof.
  intros AB BL. rewrite <- (py_slice_join order a (b - 1) b) by lia. unfold py_slice at 2.
  replace (b - (b - 1)) with 1 by lia. assert (X : length (skipn (b - 1) order) = length order - (b - 1)) by apply skipn_length.
  destruct (skipn (b - 1) order) as [|x rest]; [cbn in X; lia|]. exists x. reflexivity.
Qed.
Lemma chain_prefix {A} (l : list A) : forall segs s e r a b, chain_of s segs e -> nth_error segs r = Some (a, b) ->
  s <= a /\ a < b /\ b <= e /\ concat (map (fun p => py_slice l (fst p) (snd p)) (firstn (S r) segs)) = py_slice l s b.
Proof.
  induction segs as [|[x y] segs IH]; intros s e r a b C H; [destruct r; discriminate|]. cbn [chain_of] in C. destruct C as [-> [XY C]].
  destruct (chain_concat l segs y e C) as [YE _].
  destruct r as [|r].
  - cbn in H. injection H as <- <-. cbn. rewrite app_nil_r. repeat split; auto.
  - cbn [nth_error] in H. destruct (IH y e r a b C H) as [H1 [H2 [H3 H4]]]. split; [lia|]. split; [lia|]. split; [lia|].
    cbn [firstn map concat fst snd]. cbn [firstn] in H4. rewrite H4. apply py_slice_join; lia.
Qed.
