(** The traversal built with rounding. *)
From Coq Require Import List Arith ZArith Bool Reals Lra Lia.
From Flocq Require Import Core.
From Verif Require Import Base Tree Spec TreeFacts Traversal GeomFacts SpecTraversal Coverage TravRounded CoverBy TravAgree Floats TravFloat SpecRounding TravFloatFacts.
Import ListNotations.

Section Thm.
Variable prec : Z.
Hypothesis Hprec : (24 <= prec)%Z.
Variable t : tree.
Hypothesis W : wf_tree t.
Variable G : float_geometry R.
Hypothesis GO : geometry_ok prec G.

Lemma precise_one n : 1 <= n -> precise_enough prec t n G -> precise_enough prec t 1 G.
Proof.
  intros Hn [K [H1 [H2 H3]]]. exists K. split; [auto|]. split; [auto|]. destruct GO as [_ [P _]].
  eapply Rle_lt_trans; [|exact H3]. apply Rmult_le_compat_r.
  - assert (B := bpow_gt_0 radix2 (- prec)). apply Rmult_le_pos; lra.
  - apply le_INR in Hn. change (INR 1) with 1%R in *. lra.
Qed.
Lemma adjacent_exact n a b : 1 <= n -> precise_enough prec t n G -> a < nboxes t -> b < nboxes t ->
  f_adjacent (rounded_trav prec) t G n a (box_level t a) b (box_level t b) = adj_n t n a b.
Proof. intros Hn [K [H1 [H2 H3]]] Ha Hb. destruct GO as [F [P S]]. eapply f_adjacent_exact; eauto. Qed.

Variable P : trav_params.
Hypothesis WP : wf_params t P.
Hypothesis PE : precise_enough prec t (well_sep_is_n_away P) G.
Notation D := (float_decisions (rounded_trav prec) t G (from_sep_smaller_crit (extents P))).
Lemma build_in_eq : build_traversal_in (rounded_trav prec) G t P = Some (the_traversal_w (far_smaller D) (far_bigger D) t P).
Proof.
  destruct WP as [Hn _]. unfold build_traversal_in. apply build_traversal_by_eq; auto.
  - intros a b Ha Hb. apply adjacent_exact; auto. eapply precise_one; eauto.
  - intros a b Ha Hb. apply adjacent_exact; auto.
Qed.
Lemma build_in_points : targets_have_extent (extents P) = false -> build_traversal_in (rounded_trav prec) G t P = build_traversal t P.
Proof.
  intros X. rewrite build_in_eq, <- build_traversal_by_exact.
  destruct WP as [Hn _]. rewrite (build_traversal_by_eq (exact_decisions t (extents P)) t W P Hn).
  - f_equal. apply the_traversal_w_points. exact X.
  - intros a b _ _. reflexivity.
  - intros a b _ _. reflexivity.
Qed.
Lemma build_in_coverage (F : wf_flags t) tr T s : build_traversal_in (rounded_trav prec) G t P = Some tr ->
  In T (target_boxes tr) -> s < nboxes t -> is_source t s = true -> coverage t tr T s = 1.
Proof.
  rewrite build_in_eq. intros E HT Hs Ss. injection E as <-. apply CoverBy.coverage_one; auto.
  intros _ a b Ha Hb H0. cbn [far_bigger float_decisions]. destruct PE as [K [H1 [H2 H3]]]. destruct GO as [Fm [Pp So]].
  destruct WP as [Hn _]. apply (f_far_bigger_mono prec Hprec t W G Fm Pp (well_sep_is_n_away P) Hn K H2 H1 H3 So a b Ha Hb H0).
Qed.
End Thm.
