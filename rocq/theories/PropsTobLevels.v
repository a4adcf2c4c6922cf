(** Trees of boxes with levels of fixed width (C97) and the mesh of their leaves (C98). *)
From Coq Require Import List Arith ZArith NArith Lia Bool Permutation Sorted.
From Verif Require Import Base Tree Traversal TreeOfBoxes SpecTob TobLevels SpecTobLevels TobLevelsFacts TobLevelsThm ExampleTob ExampleTobLevels.
Import ListNotations.

(** C97: with level numbers of [w] binary digits, the guarantees of C12 and C13 hold as long as no box is
    deeper than level w - 3 (29 for the default of 32 digits). *)
Theorem C97_levels_within_width w s L t : L + 3 <= w -> L < s -> reachable_in w s L t -> fine_unit L t ->
  wf_tob t /\
  (forall x, in_box t 0 x -> exists l, (l < tn t /\ leaf t l /\ in_box t l x) /\
     forall l', l' < tn t /\ leaf t l' /\ in_box t l' x -> l' = l) /\
  (forall b x, b < tn t -> in_box t b x -> in_box t 0 x).
Proof. intros H1 H2 H3 H4. destruct (run_facts w s L t H1 H2 H3 H4) as [W [_ [T I]]]. auto. Qed.

(** One level further, every new child has the center that belongs to the opposite child. *)
Theorem C97_children_mirrored w rf t u b m a :
  3 <= w -> (2 ^ Z.of_nat (w - 1) | textent t)%Z -> apply_refine_in w rf t = Ok u ->
  b < tn t -> rf b = true -> tlevel t b = w - 3 -> m < 2 ^ tdim t -> a < tdim t ->
  tchild u m b <> 0 /\ tlevel u (tchild u m b) = w - 2 /\
  tcenter u (tchild u m b) a = (tcenter t b a - morton_sign (tdim t) m a * (textent t / 2 ^ Z.of_nat (w - 1)))%Z.
Proof. intros. eapply refine_top; eauto. Qed.

(** ... so the bound is sharp: 8 digits, one box on level 5 refined. *)
Theorem C97_refuted : exists t, reachable_in 8 127 6 t /\ fine_unit 6 t /\ ~ wf_tob t.
Proof.
  exists chain7. split; [apply chain7_reachable|]. split; [split; [reflexivity|exists 1%Z; reflexivity]|].
  intros W. assert (H : 25 < tn chain7 /\ 0 < 2 ^ tdim chain7 /\ tchild chain7 0 25 <> 0).
  { split; [apply Nat.ltb_lt; vm_compute; reflexivity|]. split; [apply Nat.ltb_lt; vm_compute; reflexivity|].
    intros E. assert (X : (tchild chain7 0 25 =? 0) = true) by (apply Nat.eqb_eq; exact E). vm_compute in X. discriminate X. }
  destruct H as [H1 [H2 H3]]. destruct (wt_child chain7 W 0 25 H1 H2 H3) as [_ [_ [_ H4]]].
  specialize (H4 0 ltac:(apply Nat.ltb_lt; vm_compute; reflexivity)). vm_compute in H4. discriminate H4.
Qed.

(** C98: the mesh made from the leaves.  The returned map lists the leaves in increasing order, element e
    has exactly the corners of the e-th leaf as vertices, no vertex number is shared, and the elements
    tile the root box. *)
Theorem C98_mesh_of_leaves w s L t nodes M boxes :
  L + 3 <= w -> L < s -> reachable_in w s L t -> fine_unit L t -> corner_signs (tdim t) nodes ->
  mesh_from_leaves w nodes t = (M, boxes) ->
  (* the map from elements to boxes *)
  StronglySorted lt boxes /\ (forall b, In b boxes <-> b < tn t /\ leaf t b) /\
  length (vertex_indices M) = length boxes /\
  (* every vertex is used exactly once *)
  concat (vertex_indices M) = seq 0 (length (vertices M)) /\
  (* the corners *)
  (forall e, e < length boxes ->
     let b := nth e boxes 0 in
     let lo a := (tcenter t b a - textent t / 2 ^ Z.of_nat (tlevel t b + 1))%Z in
     let hi a := (tcenter t b a + textent t / 2 ^ Z.of_nat (tlevel t b + 1))%Z in
     length (element M e) = 2 ^ tdim t /\
     (forall v, In v (element M e) -> forall a, a < tdim t -> v a = lo a \/ v a = hi a) /\
     (forall f : nat -> bool, exists v, In v (element M e) /\ forall a, a < tdim t -> v a = if f a then hi a else lo a)).
Proof.
  intros H1 H2 H3 H4 H5 E. injection E as EM <-. assert (EM' : fst (mesh_from_leaves w nodes t) = M) by exact EM.
  subst M. split; [apply (leaf_boxes_sorted w s L t H1 H2)|]. split; [intros b; apply (leaf_boxes_spec w s L t H1 H2 H3 H4)|].
  split; [apply (indices_len w t nodes)|].
  split; [apply (indices_concat w s L t H1 H2 nodes H5)|].
  intros e He. apply (element_corners w s L t H1 H2 H3 H4 nodes H5 e He).
Qed.

Theorem C98_elements_tile_root w s L t nodes M boxes :
  L + 3 <= w -> L < s -> reachable_in w s L t -> fine_unit L t -> corner_signs (tdim t) nodes ->
  mesh_from_leaves w nodes t = (M, boxes) ->
  (forall x, in_box t 0 x -> exists e, (e < length boxes /\ spanned (tdim t) (element M e) x) /\
     forall e', e' < length boxes /\ spanned (tdim t) (element M e') x -> e' = e) /\
  (forall e x, e < length boxes -> spanned (tdim t) (element M e) x -> in_box t 0 x).
Proof.
  intros H1 H2 H3 H4 H5 E. injection E as EM <-. assert (EM' : fst (mesh_from_leaves w nodes t) = M) by exact EM.
  subst M. split; [apply (mesh_tiles w s L t H1 H2 H3 H4 nodes H5)|].
  intros e x He Sp. apply (element_spans w s L t H1 H2 H3 H4 nodes H5) in Sp; auto.
  apply (proj2 (proj2 (proj2 (run_facts w s L t H1 H2 H3 H4))) (nth e (leaf_boxes t) 0)); auto.
  apply (leaf_boxes_spec w s L t H1 H2 H3 H4). apply nth_In; auto.
Qed.

(** The hypotheses are met by a tree with leaves on five levels. *)
Example tob_levels_example :
  5 + 3 <= 8 /\ 5 < 127 /\ reachable_in 8 127 5 chain6 /\ fine_unit 5 chain6 /\
  corner_signs (tdim chain6) square_nodes /\ tn chain6 = 29 /\
  map (tlevel chain6) (snd (mesh_from_leaves 8 square_nodes chain6)) = [1; 1; 2; 2; 2; 2; 2; 2; 3; 3; 3; 3; 3; 3; 3; 4; 4; 4; 5; 5; 5; 5] /\
  map (fun v => (v 0%nat, v 1%nat)) (element (fst (mesh_from_leaves 8 square_nodes chain6)) 18) = [(0, 64); (4, 64); (0, 68); (4, 68)]%Z.
Proof.
  split; [lia|]. split; [apply Nat.ltb_lt; vm_compute; reflexivity|]. split; [apply chain6_reachable; lia|].
  split; [split; [reflexivity|exists 2%Z; reflexivity]|]. split; [apply square_nodes_ok|].
  split; [vm_compute; reflexivity|]. split; vm_compute; reflexivity.
Qed.
(** the mirrored children meet the hypotheses of the second theorem *)
Example mirrored_example :
  (2 ^ Z.of_nat (8 - 1) | textent chain6)%Z /\ is_ok (apply_refine_in 8 (flags_of [25]) chain6) = true /\
  25 < tn chain6 /\ tlevel chain6 25 = 8 - 3.
Proof. split; [exists 1%Z; reflexivity|]. split; [vm_compute; reflexivity|]. split; [apply Nat.ltb_lt|]; vm_compute; reflexivity. Qed.

Print Assumptions C97_levels_within_width.
Print Assumptions C97_children_mirrored.
Print Assumptions C97_refuted.
Print Assumptions C98_mesh_of_leaves.
Print Assumptions C98_elements_tile_root.
