(** If the outcomes of the adjacency test are the exact ones, the traversal built with arbitrary
    outcomes of the separation tests is the one whose coverage CoverBy.v computes. *)
From Coq Require Import List Arith ZArith NArith Lia Bool.
From Verif Require Import Base Tree Spec TreeFacts Walk WalkFacts Traversal GeomFacts SpecTraversal TraversalLists Coverage TravRounded CoverBy.
Import ListNotations.

Lemma dfs_ext {A} (t : tree) (W : wf_tree t) (v w : nat -> nat -> list A * bool) :
  (forall c d, c < nboxes t -> v c d = w c d) ->
  forall h p depth, p < nboxes t -> dfs t v h p depth = dfs t w h p depth.
Proof.
  intros E. induction h as [|h IH]; intros p depth Hp; cbn [dfs]; auto.
  f_equal. apply map_ext_in. intros m Hm. apply in_seq in Hm. cbv zeta.
  destruct (Nat.eqb_spec (box_child t m p) 0) as [|Hc]; auto.
  assert (Hcl : box_child t m p < nboxes t) by (apply wf_child_lt; auto; lia).
  rewrite E by auto. destruct (w _ _) as [o d]. destruct d; auto. rewrite IH by auto. auto.
Qed.
Lemma run_walk_ext {A} (t : tree) (W : wf_tree t) (v w : nat -> nat -> list A * bool) p :
  (forall c d, c < nboxes t -> v c d = w c d) -> p < nboxes t ->
  run_walk t v (max_levels t) p = run_walk t w (max_levels t) p.
Proof. intros E Hp. rewrite !(run_walk_ok t W 1 (le_n 1)) by auto. f_equal. apply dfs_ext; auto. Qed.

Section Agree.
Variable D : decisions.
Variable t : tree.
Hypothesis W : wf_tree t.
Variable P : trav_params.
Let n := well_sep_is_n_away P.
Let ex := extents P.
Hypothesis Hn : 1 <= n.
Definition agrees k := forall a b, a < nboxes t -> b < nboxes t ->
  adjacent D k a (box_level t a) b (box_level t b) = adj_n t k a b.
Hypothesis A1 : agrees 1.
Hypothesis AN : agrees n.
Let fS := far_smaller D.
Let fB := far_bigger D.

Lemma slnws_by b : b < nboxes t -> slnws_kernel_by D t n b = Some (slnws_list t n b).
Proof.
  intros Hb. rewrite <- (slnws_kernel_ok t W n Hn b). unfold slnws_kernel_by, slnws_kernel.
  destruct (b =? 0); auto. apply run_walk_ext; auto using (wf_nboxes t W).
  intros c d Hc. unfold slnws_visit_by, slnws_visit. rewrite AN by auto. auto.
Qed.
Lemma list1_by b : b < nboxes t -> list1_kernel_by D t b = Some (list1_list t b).
Proof.
  intros Hb. rewrite <- (list1_kernel_ok t W n Hn b). unfold list1_kernel_by, list1_kernel. f_equal.
  apply run_walk_ext; auto using (wf_nboxes t W).
  intros c d Hc. unfold list1_visit_by, list1_visit. rewrite A1 by auto. auto.
Qed.
Lemma list2_by b : b < nboxes t ->
  list2_kernel_by D t n (slnws_csr t P) b (Z.of_nat (box_parent t b)) = Some (list2_list t n b).
Proof.
  intros Hb. rewrite <- (list2_kernel_ok t W n Hn (slnws_csr t P) (slnws_csr_read t P) b Hb).
  unfold list2_kernel_by, list2_kernel. destruct (_ =? _)%Z; auto.
  rewrite (slnws_csr_read t P) by (apply parent_lt; auto). cbn [option_map]. f_equal. f_equal.
  apply map_ext_in. intros p Hp. apply (slnws_in_range t W) in Hp. f_equal. apply map_ext_in. intros m Hm. apply in_seq in Hm.
  cbv zeta. destruct (Nat.eqb_spec (box_child t m p) 0); auto.
  rewrite AN; auto. apply wf_child_lt; auto; lia.
Qed.
Lemma list3_by slev b : b < nboxes t ->
  list3_kernel_by D t ex (slnws_csr t P) slev b = Some (list3_list_w fS t n ex slev b).
Proof.
  intros H. unfold list3_kernel_by. rewrite (slnws_csr_read t P) by auto.
  rewrite (run_all_map _ (fun nws => dfs t (list3_visit_w fS t ex b slev) (nlevels t - box_level t nws) nws 0)).
  - unfold list3_list_w. reflexivity.
  - intros x Hx. apply (slnws_in t W) in Hx; auto. destruct Hx as [Hx [_ [Hne _]]].
    destruct (Nat.eqb_spec x b); [congruence|].
    rewrite (run_walk_ext t W _ (list3_visit_w fS t ex b slev)); [apply (run_walk_ok t W 1 (le_n 1)); auto| |auto].
    intros c d Hc. unfold list3_visit_by, list3_visit_w. cbv zeta. rewrite A1 by auto. reflexivity.
Qed.
Lemma list4_entry_by_w b wl s : b < nboxes t -> 0 < b -> s < nboxes t -> box_level t s = wl ->
  list4_entry_by D t ex n b wl s = list4_entry_w fB t ex n b wl s.
Proof.
  intros Hb H0 Hs <-. unfold list4_entry_by, list4_entry_w. cbv zeta. rewrite (A1 b s) by auto.
  assert (Hp := parent_lt t W b Hb). assert (E := A1 (box_parent t b) s Hp Hs).
  assert (L := parent_level t W b Hb H0). replace (box_level t (box_parent t b)) with (box_level t b - 1) in E by lia. rewrite E.
  unfold adj_n. replace (box_level t (box_parent t b)) with (box_level t b - 1) by lia. reflexivity.
Qed.
Lemma list4_loop_by_w b : b < nboxes t -> 0 < b -> forall wl cur, cur < nboxes t -> box_level t cur = wl ->
  list4_loop_by D t ex n (slnws_csr t P) b wl cur = Some (list4_levels_w fB t n ex b wl cur).
Proof.
  intros Hb H0. induction wl as [|wl IH]; intros cur Hc Hl; [reflexivity|].
  cbn [list4_loop_by list4_levels_w]. rewrite (slnws_csr_read t P) by auto.
  assert (C0 : 0 < cur). { destruct cur; [rewrite (wf_root_level t W) in Hl; discriminate|lia]. }
  rewrite IH; [|apply parent_lt; auto|assert (L := parent_level t W cur Hc C0); lia].
  cbn [option_map]. do 3 f_equal. apply map_ext_in. intros s Hs.
  apply (slnws_in t W) in Hs; auto. destruct Hs as [Hs [Ls _]]. apply list4_entry_by_w; auto. congruence.
Qed.
Lemma list4_by b : b < nboxes t -> list4_kernel_by D t ex n (slnws_csr t P) b = Some (list4_list_w fB t n ex b).
Proof.
  intros Hb. unfold list4_kernel_by, list4_list_w. destruct (Nat.eqb_spec (box_level t b) 0) as [|NE]; auto.
  assert (H0 : 0 < b). { destruct b; [rewrite (wf_root_level t W) in NE; congruence|lia]. }
  destruct (n =? 1); apply list4_loop_by_w; auto; [apply parent_lt; auto|].
  assert (L := parent_level t W b Hb H0). lia.
Qed.
Theorem build_traversal_by_eq : build_traversal_by D t P = Some (the_traversal_w fS fB t P).
Proof.
  unfold build_traversal_by. fold n. fold ex. cbv zeta.
  rewrite (run_all_map _ (slnws_list t n)).
  2:{ intros x Hx. apply in_seq in Hx. apply slnws_by. lia. }
  fold (slnws_csr t P).
  rewrite (run_all_map (list1_kernel_by D t) (list1_list t)).
  2:{ intros x Hx. apply list1_by. eapply (tb_range t P); eauto. }
  rewrite (run_all_map (fun b => list2_kernel_by D t n (slnws_csr t P) b (Z.of_nat (box_parent t b))) (list2_list t n)).
  2:{ intros b Hb. apply list2_by. eapply (ttpb_range t P); eauto. }
  rewrite (run_all_map _ (fun l => map (list3_list_w fS t n ex (Some l)) (find_target_boxes t P))).
  2:{ intros l _. apply run_all_map. intros b Hb. apply list3_by. eapply (tb_range t P); eauto. }
  rewrite (run_all_map (list3_kernel_by D t ex (slnws_csr t P) None) (list3_list_w fS t n ex None)).
  2:{ intros b Hb. apply list3_by. eapply (tb_range t P); eauto. }
  rewrite (run_all_map (list4_kernel_by D t ex n (slnws_csr t P)) (list4_list_w fB t n ex)).
  2:{ intros b Hb. apply list4_by. eapply (ttpb_range t P); eauto. }
  unfold the_traversal_w. fold n. fold ex. cbv zeta. rewrite !map_map. f_equal. f_equal.
  apply map_ext. intros l. rewrite map_map. auto.
Qed.
End Agree.

(** Without extents the separation tests are not consulted. *)
Lemma the_traversal_w_points fS fB fS' fB' t P : targets_have_extent (extents P) = false ->
  the_traversal_w fS fB t P = the_traversal_w fS' fB' t P.
Proof.
  intros X.
  assert (V : forall tgt slev c d, list3_visit_w fS t (extents P) tgt slev c d = list3_visit_w fS' t (extents P) tgt slev c d).
  { intros. unfold list3_visit_w. rewrite X. reflexivity. }
  assert (D : forall tgt slev h p d, dfs t (list3_visit_w fS t (extents P) tgt slev) h p d = dfs t (list3_visit_w fS' t (extents P) tgt slev) h p d).
  { intros tgt slev. induction h as [|h IH]; intros p d; cbn [dfs]; auto. f_equal. apply map_ext. intros m. cbv zeta.
    rewrite V. destruct (_ =? 0); auto. destruct (list3_visit_w fS' _ _ _ _ _ _) as [o dd]. destruct dd; auto. rewrite IH. auto. }
  assert (L3 : forall n slev tgt, list3_list_w fS t n (extents P) slev tgt = list3_list_w fS' t n (extents P) slev tgt).
  { intros. unfold list3_list_w. f_equal. apply map_ext. intros. apply D. }
  assert (V4 : forall n tgt wl s, list4_entry_w fB t (extents P) n tgt wl s = list4_entry_w fB' t (extents P) n tgt wl s).
  { intros. unfold list4_entry_w. rewrite X. reflexivity. }
  assert (G4 : forall n tgt wl cur, list4_levels_w fB t n (extents P) tgt wl cur = list4_levels_w fB' t n (extents P) tgt wl cur).
  { intros n tgt. induction wl as [|wl IH]; intros cur; cbn [list4_levels_w]; auto. rewrite IH. f_equal. f_equal. apply map_ext. intros. apply V4. }
  assert (L4 : forall n tgt, list4_list_w fB t n (extents P) tgt = list4_list_w fB' t n (extents P) tgt).
  { intros. unfold list4_list_w. rewrite !G4. reflexivity. }
  unfold the_traversal_w. cbv zeta. rewrite X. f_equal.
  - apply map_ext. intros l. f_equal. apply map_ext. intros b. rewrite L3. auto.
  - f_equal. apply map_ext. intros b. rewrite L4. auto.
Qed.
