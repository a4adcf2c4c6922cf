(** Trees of boxes: C12-C16, C47, C48. *)
From Coq Require Import List Arith ZArith NArith Lia Bool Permutation.
From Verif Require Import Base Tree Traversal Coverage TreeOfBoxes SpecTob TobFacts TobCoarsen TobThm ExampleTob.
Import ListNotations.

(** Every theorem is about any tree reachable by any number of accepted refine/coarsen
    calls, with any outcome of argsort among ties, that never refines beyond level [L], where
    the level dtype can represent L + 1 and the unit of length is fine enough. *)

(** C12 *)
Theorem C12_tob_well_formed s L t :
  L < s -> reachable s L t -> fine_unit L t -> wf_tob t.
Proof. intros LS R F. destruct (reachable_inv s L t LS R F). eapply inv_wf; eauto. Qed.

(** C12 (level_start_box_nrs): the attribute is lost by every call, and it has only one entry for
    the root, although it is documented to have nlevels + 1 entries. *)
Theorem C12_level_starts_refuted :
  (forall s order rf cf err t t', refine_and_coarsen s order rf cf err t = Ok t' -> tlevel_starts t' = None) /\
  (forall d lo hi t, make_root d lo hi = Some t ->
     exists l, tlevel_starts t = Some l /\ length l <> tob_nlevels t + 1).
Proof.
  split.
  - intros s order rf cf err t t'. unfold refine_and_coarsen. destruct (any _ _); [discriminate|].
    destruct (apply_refine rf t); simpl; try discriminate. destruct (apply_coarsen _ _ _ _); simpl; try discriminate.
    intros E; inversion E; reflexivity.
  - intros d lo hi t. unfold make_root. destruct forallb; [|discriminate]. intros E; inversion E; subst.
    exists [0]. split; [reflexivity|]. simpl. discriminate.
Qed.

(** C13 *)
Theorem C13_leaves_tile_root s L t x :
  L < s -> reachable s L t -> fine_unit L t -> in_box t 0 x ->
  exists l, (l < tn t /\ leaf t l /\ in_box t l x) /\
            forall l', l' < tn t /\ leaf t l' /\ in_box t l' x -> l' = l.
Proof. intros LS R F. apply (tiles s L t). apply reachable_inv; auto. Qed.

(** no box sticks out of the root box, and the root box of a new tree is the given bounding box *)
Theorem C13_boxes_inside_root s L t b x :
  L < s -> reachable s L t -> fine_unit L t -> b < tn t -> in_box t b x -> in_box t 0 x.
Proof. intros LS R F. apply (in_root_of s L t). apply reachable_inv; auto. Qed.

Theorem C13_root_is_bbox d lo hi t x : make_root d lo hi = Some t -> fine_unit 0 t ->
  (in_box t 0 x <-> forall a, a < d -> (lo a <= x a < hi a)%Z).
Proof.
  unfold make_root. destruct forallb eqn:E; [|discriminate]. intros E' [F1 F2]. inversion E'; subst. clear E'.
  unfold in_box. cbn [tdim tcenter tlevel textent] in *. rewrite forallb_forall in E.
  change (2 ^ Z.of_nat (0 + 1))%Z with 2%Z in *. destruct F2 as [k Hk].
  assert (C : forall a, a < d -> ((lo a + hi a) / 2 - (hi 0%nat - lo 0%nat) / 2 = lo a /\
                                  (lo a + hi a) / 2 + (hi 0%nat - lo 0%nat) / 2 = hi a)%Z).
  { intros a Ha. specialize (E a ltac:(apply in_seq; lia)). apply Z.eqb_eq in E.
    replace (lo a + hi a)%Z with ((lo a + k) * 2)%Z by lia. rewrite Z.div_mul, Hk, Z.div_mul by lia. lia. }
  split; intros H a Ha; specialize (H a Ha); destruct (C a Ha); lia.
Qed.

(** C14 *)
Theorem C14_invalid_requests_rejected s L t rf cf err order :
  S L < s -> reachable s L t -> fine_unit (S L) t ->
  let r := refine_and_coarsen s order rf cf err t in
  (r = ValueError <-> bad_request t rf cf) /\
  (r = RuntimeError <-> ~ bad_request t rf cf /\ err = true /\ coarsening_ignored t rf cf) /\
  ((exists t', r = Ok t') <-> ~ bad_request t rf cf /\ ~ (err = true /\ coarsening_ignored t rf cf)).
Proof.
  intros LS R F r. pose proof (fine_mono L (S L) t ltac:(lia) F) as F0.
  destruct (reachable_inv s L t ltac:(lia) R F0) as [W _].
  assert (HL : forall b, b < tn t -> rf b = true -> tlevel t b < S L).
  { intros b Hb _. pose proof (wl_level _ _ _ _ W b Hb eq_refl). lia. }
  pose proof (wl_mono _ _ (S L) _ W ltac:(lia) F) as W'.
  destruct (outcome s (S L) t rf cf err order W' HL) as [H1 H2]. fold r in H1, H2.
  destruct (outcome_dec s (S L) t rf cf W' HL) as [B|B].
  - specialize (H1 B). rewrite H1. split; [tauto|]. split; split; try discriminate; try tauto.
    intros [t' ?]; discriminate.
  - destruct (H2 B) as [H3 H4]. destruct (ignored_dec s (S L) t rf cf W') as [I|I].
    + destruct err.
      * specialize (H3 eq_refl I). rewrite H3. split; [split; [discriminate|tauto]|].
        split; [tauto|]. split; [intros [t' ?]; discriminate|]. intros [_ N]. tauto.
      * destruct H4 as [t' E]; [intros [? _]; discriminate|]. rewrite E.
        split; [split; [discriminate|tauto]|]. split; [split; [discriminate|intros [_ [? _]]; discriminate]|].
        split; [intros _; split; [auto|intros [? _]; discriminate]|eauto].
    + destruct H4 as [t' E]; [tauto|]. rewrite E.
      split; [split; [discriminate|tauto]|]. split; [split; [discriminate|tauto]|].
      split; [intros _; split; [auto|tauto]|eauto].
Qed.

(** C15 *)
Theorem C15_coarsening_undoes_refinement s L t rf cf err err2 o1 u1 t1 :
  S L < s -> reachable s L t -> fine_unit (S L) t ->
  unsorted_result s rf (fun _ => false) err t = Ok u1 -> argsort_ok (tn u1) (tlevel u1) o1 ->
  refine_and_coarsen s o1 rf (fun _ => false) err t = Ok t1 ->
  (* flag exactly the boxes that did not exist before *)
  (forall path b, box_at t1 path = Some b -> (cf b = true <-> ~ has_box t path)) ->
  exists u2, unsorted_result s (fun _ => false) cf err2 t1 = Ok u2 /\
  forall o2, argsort_ok (tn u2) (tlevel u2) o2 ->
  exists t2, refine_and_coarsen s o2 (fun _ => false) cf err2 t1 = Ok t2 /\ same_boxes t t2.
Proof.
  intros LS R F U1 A1 OK1 CF. pose proof (fine_mono L (S L) t ltac:(lia) F) as F0.
  destruct (reachable_inv s L t ltac:(lia) R F0) as [W _].
  eapply (undo_ok s (S L)); eauto.
  - apply (wl_mono _ L); auto.
  - intros b Hb _. pose proof (wl_level _ _ _ _ W b Hb eq_refl). lia.
Qed.

(** C16 *)
Theorem C16_argsort_ties_irrelevant s L t rf cf err u o1 o2 t1 t2 :
  S L < s -> reachable s L t -> fine_unit (S L) t ->
  unsorted_result s rf cf err t = Ok u ->
  argsort_ok (tn u) (tlevel u) o1 -> argsort_ok (tn u) (tlevel u) o2 ->
  refine_and_coarsen s o1 rf cf err t = Ok t1 -> refine_and_coarsen s o2 rf cf err t = Ok t2 ->
  same_boxes t1 t2 /\ wf_tob t1 /\ wf_tob t2.
Proof.
  intros LS R F U A1 A2 K1 K2. pose proof (fine_mono L (S L) t ltac:(lia) F) as F0.
  destruct (reachable_inv s L t ltac:(lia) R F0) as [W _].
  assert (HL : forall b, b < tn t -> rf b = true -> tlevel t b < S L).
  { intros b Hb _. pose proof (wl_level _ _ _ _ W b Hb eq_refl). lia. }
  pose proof (wl_mono _ _ (S L) _ W ltac:(lia) F) as W'.
  destruct (step_inv _ _ _ _ _ _ _ _ _ W' LS HL U A1 K1) as [V1 S1].
  destruct (step_inv _ _ _ _ _ _ _ _ _ W' LS HL U A2 K2) as [V2 S2].
  destruct (step_dim _ _ _ _ _ _ _ _ _ W' LS HL U A1 K1) as [D1 [E1 C1]].
  destruct (step_dim _ _ _ _ _ _ _ _ _ W' LS HL U A2 K2) as [D2 [E2 C2]].
  split; [|split; eapply inv_wf; eauto].
  apply (same_boxes_intro s (S L) t1 t2 V1 V2).
  - congruence.
  - congruence.
  - intros a _. rewrite C1, C2. auto.
  - intros p. rewrite (step_paths _ _ _ _ _ _ _ _ _ W' LS HL U A1 K1).
    rewrite (step_paths _ _ _ _ _ _ _ _ _ W' LS HL U A2 K2). tauto.
Qed.

(** C48: what a request does, exactly *)
Theorem C48_request_effect s L t rf cf err u o t' path :
  S L < s -> reachable s L t -> fine_unit (S L) t ->
  unsorted_result s rf cf err t = Ok u -> argsort_ok (tn u) (tlevel u) o ->
  refine_and_coarsen s o rf cf err t = Ok t' ->
  (has_box t' path <-> (has_box t path \/ created t rf path) /\ ~ removed t rf cf path).
Proof.
  intros LS R F U A K. pose proof (fine_mono L (S L) t ltac:(lia) F) as F0.
  destruct (reachable_inv s L t ltac:(lia) R F0) as [W _].
  assert (HL : forall b, b < tn t -> rf b = true -> tlevel t b < S L).
  { intros b Hb _. pose proof (wl_level _ _ _ _ W b Hb eq_refl). lia. }
  pose proof (wl_mono _ _ (S L) _ W ltac:(lia) F) as W'.
  apply (step_paths _ _ _ _ _ _ _ _ _ W' LS HL U A K).
Qed.
(** every box of a tree has a path, and only one; the level is its length *)
Theorem C48_paths_name_boxes s L t : L < s -> reachable s L t -> fine_unit L t ->
  (forall b, b < tn t -> exists path, box_at t path = Some b) /\
  (forall path b, box_at t path = Some b -> b < tn t /\ tlevel t b = length path) /\
  (forall path path' b, box_at t path = Some b -> box_at t path' = Some b -> path = path').
Proof.
  intros LS R F. destruct (reachable_inv s L t LS R F) as [W _]. split; [|split].
  - intros b Hb. apply (live_path _ _ _ _ W); auto.
  - intros p b Hp. destruct (follow_live _ _ _ _ W _ _ Hp). tauto.
  - intros p p' b. apply (follow_inj _ _ _ _ W).
Qed.

(** C47: the traversal's list 2 kernel, run on a tree of boxes, reads same-level starts at the
    root's parent id -1: for every reachable tree the work item of the root fails. *)
Theorem C47_traversal_of_tob_reads_out_of_range_refuted s L t n P slnws :
  L < s -> reachable s L t -> fine_unit L t ->
  In 0 (find_target_or_target_parent_boxes (tree_of_tob t 0)) /\
  list2_kernel (tree_of_tob t P) n slnws 0 (tparent t 0) = None.
Proof.
  intros LS R F. destruct (reachable_inv s L t LS R F) as [W S]. split.
  - unfold find_target_or_target_parent_boxes. apply filter_In. split.
    + apply in_seq. simpl. pose proof (wl_n _ _ _ _ W). lia.
    + cbn [tree_of_tob box_flags]. rewrite (wl_flags _ _ _ _ W) by apply (wl_n _ _ _ _ W).
      unfold compute_flags. destruct (all_zero _ _ _); reflexivity.
  - unfold list2_kernel. rewrite (wl_parent0 _ _ _ _ W). reflexivity.
Qed.
(** with the convention of the particle trees (the root is its own parent), every tree of boxes
    meets the hypotheses of all traversal theorems *)
Theorem C47_tob_with_root_parent_0 s L t : L < s -> reachable s L t -> fine_unit L t ->
  wf_tree (tree_of_tob t 0) /\ wf_flags (tree_of_tob t 0).
Proof. intros LS R F. apply (tree_of_tob_ok s L). apply reachable_inv; auto. Qed.

(** ** A concrete history: root, refine the root, refine two children, then refine a level-2 box and a
    level-1 box while coarsening four level-2 boxes, with an argsort that reverses ties *)
Example ex_reachable : reachable 127 3 ext3 /\ fine_unit 4 ext3 /\ 4 < 127 /\ tn ext3 = 17.
Proof.
  split; [|split; [split; [reflexivity|exists 2%Z; reflexivity]|split; [lia|vm_compute; reflexivity]]].
  apply step_reachable; [|vm_compute; reflexivity]. apply step_reachable; [|vm_compute; reflexivity].
  apply step_reachable; [|vm_compute; reflexivity].
  apply (reach_root 127 3 2 (fun _ => 0%Z) (fun _ => 64%Z)); [lia|reflexivity].
Qed.
(** the last step created 8 and removed 4 boxes *)
Example ex_effect : tn ext2 = 13 /\
  created ext2 (flags_of [7; 2]) [1; 0] /\ removed ext2 (flags_of [7; 2]) (flags_of [9]) [2; 2] /\
  box_at ext3 [2; 2] = None /\ box_at ext3 [1; 0] = Some 8.
Proof.
  split; [vm_compute; reflexivity|].
  split; [exists [1], 0, 2; split; [reflexivity|]; split; [vm_compute; lia|]; split; vm_compute; reflexivity|].
  split; [|split; vm_compute; reflexivity].
  exists [2], 2. split; [reflexivity|]. split; [vm_compute; lia|].
  split.
  - exists 0, 9. split; [vm_compute; lia|]. split; vm_compute; reflexivity.
  - intros m Hm. change (2 ^ tdim ext2) with 4 in Hm.
    exists (9 + m).
    assert (Hlf : forall b, all_zero 2 (tchild ext2) b = true -> leaf ext2 b) by (intros b H; exact (proj1 (all_zero_spec 2 (tchild ext2) b) H)).
    destruct m as [|[|[|[|m]]]]; try lia; (split; [vm_compute; reflexivity|]; split; [|reflexivity]); apply Hlf; vm_compute; reflexivity.
Qed.
(** all three outcomes occur *)
Example ex_outcomes :
  refine_and_coarsen 127 [] (flags_of [3]) (flags_of [3]) true ext3 = ValueError /\
  refine_and_coarsen 127 [] (flags_of []) (flags_of [9]) true ext3 = RuntimeError /\
  is_ok (refine_and_coarsen 127 [] (flags_of []) (flags_of [9]) false ext3) = true.
Proof. repeat split; vm_compute; reflexivity. Qed.
(** the hypothesis of C15 is satisfiable: ext1 -> ext2 and back *)
Example ex_undo : exists cf, forall path b, box_at ext2 path = Some b -> (cf b = true <-> ~ has_box ext1 path).
Proof.
  exists (fun b => 5 <=? b). intros p b Hp.
  assert (R2 : reachable 127 3 ext2).
  { apply step_reachable; [|vm_compute; reflexivity]. apply step_reachable; [|vm_compute; reflexivity].
    apply (reach_root 127 3 2 (fun _ => 0%Z) (fun _ => 64%Z)); [lia|reflexivity]. }
  assert (F : fine_unit 3 ext2) by (split; [reflexivity|exists 4%Z; reflexivity]).
  destruct (C48_paths_name_boxes 127 3 ext2 ltac:(lia) R2 F) as [_ [H _]].
  destruct (H p b Hp) as [Hb Hl]. change (tn ext2) with 13 in Hb.
  assert (E : forall q, length q <= 1 -> box_at ext2 q <> None -> has_box ext1 q).
  { intros [|m [|? ?]] Hq; simpl in Hq; try lia; intros G; [exists 0; reflexivity|].
    destruct m as [|[|[|[|m]]]]; [eexists; reflexivity|eexists; reflexivity|eexists; reflexivity|eexists; reflexivity|].
    exfalso. apply G. reflexivity. }
  assert (E' : forall q, 2 <= length q -> ~ has_box ext1 q).
  { intros [|m [|k q]] Hq; simpl in Hq; try lia. intros G.
    assert (G' : has_box ext1 [m; k]) by (apply (has_box_prefix ext1 [m; k] q); auto). destruct G' as [c G'].
    destruct m as [|[|[|[|m]]]]; try discriminate; destruct k as [|[|[|[|k]]]]; discriminate. }
  destruct (le_lt_dec 2 (length p)) as [Hp2|Hp2].
  - split; intros _; [apply E'; auto|]. apply Nat.leb_le. rewrite <- Hl in Hp2.
    do 5 (destruct b as [|b]; [vm_compute in Hp2; lia|]). lia.
  - split.
    + intros G. apply Nat.leb_le in G. exfalso. rewrite <- Hl in Hp2. clear -G Hb Hp2.
      do 5 (destruct b as [|b]; [lia|]). do 8 (destruct b as [|b]; [vm_compute in Hp2; lia|]). lia.
    + intros G. exfalso. apply G. apply E; [lia|congruence].
Qed.

Print Assumptions C12_tob_well_formed.
Print Assumptions C12_level_starts_refuted.
Print Assumptions C13_leaves_tile_root.
Print Assumptions C13_boxes_inside_root.
Print Assumptions C13_root_is_bbox.
Print Assumptions C14_invalid_requests_rejected.
Print Assumptions C15_coarsening_undoes_refinement.
Print Assumptions C16_argsort_ties_irrelevant.
Print Assumptions C48_request_effect.
Print Assumptions C48_paths_name_boxes.
Print Assumptions C47_traversal_of_tob_reads_out_of_range_refuted.
Print Assumptions C47_tob_with_root_parent_0.
