(** merge_close_lists keeps every interaction. *)
From Coq Require Import List Arith ZArith NArith Lia Bool.
From Verif Require Import Base Tree Spec TreeFacts Traversal SpecTraversal TraversalLists Coverage.
Import ListNotations.

Lemma merge_row len inputs i : i < len ->
  csr_get (merge_lists (seq 0 len) inputs) i = concat (map (fun c => csr_get c i) inputs).
Proof.
  intros Hi. unfold merge_lists. rewrite csr_get_of by (rewrite map_length, seq_length; auto).
  rewrite nth_map_seq; auto.
Qed.

Lemma merge_entries_count boxes a b c T x :
  count x (entries boxes (merge_lists (seq 0 (length boxes)) [a; b; c]) T) =
  count x (entries boxes a T) + count x (entries boxes b T) + count x (entries boxes c T).
Proof.
  unfold entries. rewrite !count_concat, !map_map. rewrite <- !nsum_map_add. f_equal.
  apply map_ext_in. intros i Hi. apply in_seq in Hi.
  destruct (_ =? _); [|reflexivity].
  rewrite merge_row by lia. simpl. rewrite app_nil_r, !count_app. lia.
Qed.

Lemma merge_coverage t tr tr' T s : merge_close_lists tr = Some tr' ->
  coverage t tr' T s = coverage t tr T s.
Proof.
  unfold merge_close_lists. destruct (from_sep_close_smaller tr) as [cs|] eqn:E1; [|discriminate].
  destruct (from_sep_close_bigger tr) as [cb|] eqn:E2; [|discriminate].
  intros H. injection H as <-. unfold coverage, list1_of, list3_close_of, list4_close_of,
    list2_of, list3_of, list4_of. simpl. rewrite E1, E2.
  rewrite merge_entries_count. rewrite !count_nil. lia.
Qed.
