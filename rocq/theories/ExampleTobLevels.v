(** Histories with levels of 8 binary digits. *)
From Coq Require Import List Arith ZArith NArith Lia Bool Permutation.
From Verif Require Import Base Tree TreeOfBoxes SpecTob TobFacts TobCoarsen ExampleTob TobLevels SpecTobLevels.
Import ListNotations.

Definition step_in (w s : nat) (rf cf : list nat) (t : tob) : tob :=
  let u := get_ok t (unsorted_result_in w s (flags_of rf) (flags_of cf) true t) in
  get_ok t (refine_and_coarsen_in w s (isort (tn u) (tlevel u)) (flags_of rf) (flags_of cf) true t).
Definition step_in_ok (w s L : nat) (rf cf : list nat) (t : tob) : bool :=
  let u := get_ok t (unsorted_result_in w s (flags_of rf) (flags_of cf) true t) in
  forallb (fun b => negb (flags_of rf b) || (tlevel t b <? L)) (seq 0 (tn t)) &&
  is_ok (unsorted_result_in w s (flags_of rf) (flags_of cf) true t) &&
  check_order (tn u) (tlevel u) (isort (tn u) (tlevel u)) &&
  is_ok (refine_and_coarsen_in w s (isort (tn u) (tlevel u)) (flags_of rf) (flags_of cf) true t).
Lemma step_in_reachable w s L rf cf t : reachable_in w s L t -> step_in_ok w s L rf cf t = true ->
  reachable_in w s L (step_in w s rf cf t).
Proof.
  unfold step_in_ok. rewrite !andb_true_iff, forallb_forall. intros R [[[H1 H2] H3] H4].
  set (u := get_ok t (unsorted_result_in w s (flags_of rf) (flags_of cf) true t)) in *.
  apply (reach_in_step w s L t u _ (flags_of rf) (flags_of cf) true (isort (tn u) (tlevel u))); auto.
  - intros b Hb Hrf. specialize (H1 b ltac:(apply in_seq; lia)). rewrite Hrf in H1. simpl in H1.
    apply Nat.ltb_lt; auto.
  - apply get_ok_eq; eauto.
  - apply check_order_ok; eauto.
  - apply get_ok_eq; auto.
Qed.

(** a root on [0,128)^2, refined towards one corner, one box per level *)
Definition root8 : tob := match make_root 2 (fun _ => 0%Z) (fun _ => 128%Z) with Some t => t | None => exr end.
Definition chain1 := step_in 8 127 [0] [] root8.
Definition chain2 := step_in 8 127 [1] [] chain1.
Definition chain3 := step_in 8 127 [5; 2] [] chain2.
Definition chain4 := step_in 8 127 [9] [] chain3.
Definition chain5 := step_in 8 127 [17] [] chain4.
Definition chain6 := step_in 8 127 [21] [] chain5.
Definition chain7 := step_in 8 127 [25] [] chain6.
Lemma root8_reachable L : reachable_in 8 127 L root8.
Proof. apply (reach_in_root 8 127 L 2 (fun _ => 0%Z) (fun _ => 128%Z)); [lia|reflexivity]. Qed.
Lemma chain6_reachable L : 5 <= L -> reachable_in 8 127 L chain6.
Proof.
  intros HL. assert (M : forall rf cf t, step_in_ok 8 127 5 rf cf t = true -> step_in_ok 8 127 L rf cf t = true).
  { intros rf cf t. unfold step_in_ok. rewrite !andb_true_iff, !forallb_forall. intros [[[H1 H2] H3] H4]. repeat split; auto.
    intros b Hb. specialize (H1 b Hb). apply orb_true_iff in H1. apply orb_true_iff. destruct H1 as [H|H]; auto.
    right. apply Nat.ltb_lt in H. apply Nat.ltb_lt. lia. }
  unfold chain6, chain5, chain4, chain3, chain2, chain1.
  repeat (apply step_in_reachable; [|apply M; vm_compute; reflexivity]). apply root8_reachable.
Qed.
Lemma chain7_reachable : reachable_in 8 127 6 chain7.
Proof. apply step_in_reachable; [apply chain6_reachable; lia|vm_compute; reflexivity]. Qed.

(** modepy's order: the first axis varies fastest *)
Definition square_nodes : list (nat -> Z) :=
  map (fun p a => nth a p 0%Z) [[-1; -1]; [1; -1]; [-1; 1]; [1; 1]]%Z.
Lemma square_nodes_ok : corner_signs 2 square_nodes.
Proof.
  split; [reflexivity|]. split.
  - intros p [<-|[<-|[<-|[<-|[]]]]] [|[|a]] Ha; simpl; auto; lia.
  - intros f. exists ((if f 0 then 1 else 0) + (if f 1 then 2 else 0)). split; [destruct (f 0), (f 1); simpl; lia|].
    intros [|[|a]] Ha; destruct (f 0), (f 1); try reflexivity; lia.
Qed.
