(** The masks of boxes of a rank, computed on its device, are those of Partition.v. *)
From Coq Require Import List Arith ZArith NArith Lia Bool Permutation.
From Verif Require Import Base Tree Walk Traversal TraversalLists Coverage Fmm FmmThm Spec Partition PartitionFacts LocalTree LocalFacts Kernel Device DeviceRules DeviceFacts
  DistDevice SpecDistDevice DevDist.
Import ListNotations.

Lemma elementwise1_ok {R} K n out a f fa (next : dhost R) Q : out <> a -> has K a n n fa ->
  (forall K', keeps (fun x => x = out) K K' -> has K' out n n (fun k => f [fa k]) -> okd K' next Q) -> okd K (elementwise n out [a] f next) Q.
Proof.
  intros N H O. apply elementwise_ok with (vals := fun _ => fa); auto.
  - intros [E|[]]. auto.
  - intros x [<-|[]]. auto.
Qed.
Lemma elementwise2_ok {R} K n out a b f fa fb (next : dhost R) Q : out <> a -> out <> b -> a <> b -> has K a n n fa -> has K b n n fb ->
  (forall K', keeps (fun x => x = out) K K' -> has K' out n n (fun k => f [fa k; fb k]) -> okd K' next Q) -> okd K (elementwise n out [a; b] f next) Q.
Proof.
  intros N1 N2 N3 H1 H2 O. apply elementwise_ok with (vals := fun x => if darr_eq x a then fa else fb).
  - intros [E|[E|[]]]; auto.
  - intros x [<-|[<-|[]]]; [destruct (darr_eq a a); [auto|contradiction]|destruct (darr_eq b a); [congruence|auto]].
  - intros K' KE H. apply O; auto. apply has_ext with (1 := H). intros k _. cbn [map].
    destruct (darr_eq a a); [|contradiction]. destruct (darr_eq b a); [congruence|auto].
Qed.
Lemma elementwise3_ok {R} K n out a b c f fa fb fc (next : dhost R) Q : out <> a -> out <> b -> out <> c -> a <> b -> a <> c -> b <> c ->
  has K a n n fa -> has K b n n fb -> has K c n n fc ->
  (forall K', keeps (fun x => x = out) K K' -> has K' out n n (fun k => f [fa k; fb k; fc k]) -> okd K' next Q) -> okd K (elementwise n out [a; b; c] f next) Q.
Proof.
  intros N1 N2 N3 N4 N5 N6 H1 H2 H3 O. apply elementwise_ok with (vals := fun x => if darr_eq x a then fa else if darr_eq x b then fb else fc).
  - intros [E|[E|[E|[]]]]; auto.
  - intros x [<-|[<-|[<-|[]]]].
    + destruct (darr_eq a a); [auto|contradiction].
    + destruct (darr_eq b a); [congruence|]. destruct (darr_eq b b); [auto|contradiction].
    + destruct (darr_eq c a); [congruence|]. destruct (darr_eq c b); [congruence|auto].
  - intros K' KE H. apply O; auto. apply has_ext with (1 := H). intros k _. cbn [map].
    destruct (darr_eq a a); [|contradiction]. destruct (darr_eq b a); [congruence|]. destruct (darr_eq b b); [|contradiction].
    destruct (darr_eq c a); [congruence|]. destruct (darr_eq c b); [congruence|auto].
Qed.

(** ** The lists of a traversal fit the tree *)
Record trav_fits (t : tree) (tr : traversal) : Prop := {
  tf_neighbors : list_fits (nboxes t) (target_boxes tr) (neighbor_source_boxes tr);
  tf_siblings : list_fits (nboxes t) (target_or_target_parent_boxes tr) (from_sep_siblings tr);
  tf_bigger : list_fits (nboxes t) (target_or_target_parent_boxes tr) (from_sep_bigger tr);
  tf_nsmaller : length (from_sep_smaller_by_level tr) = nlevels t;
  tf_smaller : forall lev, lev < nlevels t ->
    list_fits (nboxes t) (fst (nth lev (from_sep_smaller_by_level tr) ([], csr_of []))) (snd (nth lev (from_sep_smaller_by_level tr) ([], csr_of [])));
  tf_close_smaller : forall c, from_sep_close_smaller tr = Some c -> list_fits (nboxes t) (target_boxes tr) c;
  tf_close_bigger : forall c, from_sep_close_bigger tr = Some c -> list_fits (nboxes t) (target_boxes tr) c
}.

Definition is_input (a : darr) : bool :=
  match a with
  | RespBoxes | ParentIds | Flags | TargetList | TargetOrParentList | SmallerList _ | ListStarts _ | ListEntries _
  | PStarts _ | PCounts _ | PCumul _ | PCoord _ _ | PRadii _ => true
  | _ => false
  end.
Definition mask_array (a : darr) : Prop :=
  match a with RespMask | AncMask | AncLast | AncNew | BothMask | PointMask | MpoleMask | Result => True | _ => False end.

Section Masks.
Variable t : tree.
Hypothesis W : wf_tree t.
Variable p : particles.
Variable cumul : side -> nat -> nat.
Variable have_extent : bool.
Variable tr : traversal.
Hypothesis TF : trav_fits t tr.
Variable boxes : list nat.
Hypothesis BR : forall b, In b boxes -> b < nboxes t.
Variable coords : side -> nat -> nat -> Z.
Variable radii : nat -> Z.
Variable d0 : device darr.
Hypothesis G : device_has_global t p cumul have_extent tr boxes coords radii d0.
Notation D := (dist_arguments t p have_extent tr boxes).
Notation nb := (nboxes t).

Definition inputs (K : knownd) : Prop := forall a n f, is_input a = true -> array_holds d0 a n f -> has K a n n f.
Lemma inputs_keep (V : darr -> Prop) K K' : inputs K -> keeps V K K' -> (forall a, V a -> is_input a = false) -> inputs K'.
Proof. intros I KE N a n f IA H. apply KE; auto. intros X. rewrite (N a X) in IA. discriminate. Qed.
Lemma inputs_list K a l : inputs K -> is_input a = true -> list_holds d0 a l -> has K a (length l) (length l) (fun k => z (nth k l 0)).
Proof. intros I N H. apply I; auto. Qed.

Definition knows (K : knownd) (a : darr) (m : nat -> bool) : Prop := has K a nb nb (fun b => bit (m b)).
Lemma knows_keep V K K' a m : knows K a m -> keeps V K K' -> ~ V a -> knows K' a m.
Proof. intros H KE N. apply KE; auto. Qed.

(** partition.py:174-194 *)
Definition anc_array (a : darr) : Prop := match a with AncMask | AncLast | AncNew | Result => True | _ => False end.
Lemma rounds_ok {R} (stuck next : dhost R) Q m fuel : forall K anc last, inputs K -> knows K AncMask anc -> knows K AncLast last ->
  ancestor_loop t fuel anc last = Some m ->
  (forall K', keeps anc_array K K' -> knows K' AncMask m -> okd K' next Q) -> okd K (ancestor_rounds D fuel stuck next) Q.
Proof.
  induction fuel as [|fuel IH]; intros K anc last I HA HL E O; cbn [ancestor_rounds ancestor_loop] in *;
    change (ds_nboxes D) with nb; (apply any_ok with (m := last); [exact HL| |]; intros X; rewrite X in E).
  - discriminate.
  - injection E as <-. apply O; auto. apply keeps_refl.
  - apply ok_alloc; [lia|]. set (K1 := k_alloc darr darr_eq K AncNew (z nb)).
    assert (KE1 : keeps anc_array K K1) by (apply keeps_alloc; exact Logic.I).
    assert (I1 : inputs K1) by (apply (inputs_keep _ K K1 I KE1); intros []; intros []; auto).
    assert (HL1 : knows K1 AncLast last) by (apply has_alloc_other; [discriminate|auto]).
    assert (HA1 : knows K1 AncMask anc) by (apply has_alloc_other; [discriminate|auto]).
    apply (add_parents_ok t K1 last no_boxes); auto; [apply I1; [reflexivity|apply G]|apply has_alloc_same; auto|].
    intros K2 KE2 HN2. set (pm := add_parent_boxes t last no_boxes) in *.
    assert (HA2 : knows K2 AncMask anc) by (apply KE2; [discriminate|auto]).
    apply elementwise2_ok with (fa := fun b => bit (pm b)) (fb := fun b => bit (anc b)); try discriminate; auto.
    intros K3 KE3 H3. apply ok_move. set (K4 := k_move darr darr_eq K3 Result AncNew).
    set (new := fun b => pm b && negb (anc b)) in *.
    assert (HN4 : knows K4 AncNew new).
    { apply has_move_same. apply has_ext with (1 := H3). intros k _. unfold and_not. cbn [nth]. apply bit_and_not. }
    assert (HA4 : knows K4 AncMask anc) by (apply has_move_other; try discriminate; apply KE3; [discriminate|auto]).
    apply elementwise2_ok with (fa := fun b => bit (anc b)) (fb := fun b => bit (new b)); try discriminate; auto.
    intros K5 KE5 H5. apply ok_move. apply ok_move. set (K6 := k_move darr darr_eq (k_move darr darr_eq K5 Result AncMask) AncNew AncLast).
    assert (HN5 : knows K5 AncNew new) by (apply KE5; [discriminate|auto]).
    assert (KE6 : keeps anc_array K K6).
    { eapply keeps_trans; [exact KE1|]. eapply keeps_trans; [eapply keeps_weaken; [|exact KE2]; intros b ->; exact Logic.I|].
      eapply keeps_trans; [eapply keeps_weaken; [|exact KE3]; intros b ->; exact Logic.I|].
      eapply keeps_trans; [apply (keeps_move anc_array K3 Result AncNew); exact Logic.I|].
      eapply keeps_trans; [eapply keeps_weaken; [|exact KE5]; intros b ->; exact Logic.I|].
      eapply keeps_trans; apply keeps_move; exact Logic.I. }
    apply (IH K6 (either anc new) new).
    + apply (inputs_keep _ K K6 I KE6). intros []; intros []; auto.
    + apply has_move_other; try discriminate. apply has_move_same. apply has_ext with (1 := H5).
      intros k _. unfold either_of, either. cbn [nth]. apply bit_or.
    + apply has_move_same. apply has_move_other; try discriminate. exact HN5.
    + exact E.
    + intros K' KE' H'. apply O; auto. eapply keeps_trans; eauto.
  - injection E as <-. apply O; auto. apply keeps_refl.
Qed.
Lemma ancestor_ok {R} (stuck next : dhost R) Q K resp m : inputs K -> knows K RespMask resp -> get_ancestor_boxes_mask t resp = Some m ->
  (forall K', keeps anc_array K K' -> knows K' AncMask m -> okd K' next Q) -> okd K (ancestor_program D stuck next) Q.
Proof.
  intros I HR E O. unfold ancestor_program. change (ds_nboxes D) with nb. apply ok_alloc; [lia|].
  set (K1 := k_alloc darr darr_eq K AncMask (z nb)).
  assert (HR1 : knows K1 RespMask resp) by (apply has_alloc_other; [discriminate|auto]).
  apply elementwise1_ok with (fa := fun b => bit (resp b)); [discriminate|exact HR1|]. intros K2 KE2 H2.
  assert (KE : keeps anc_array K K2).
  { eapply keeps_trans; [apply keeps_alloc with (a := AncMask); exact Logic.I|]. eapply keeps_weaken; [|exact KE2]. intros b ->; exact Logic.I. }
  apply rounds_ok with (m := m) (anc := no_boxes) (last := resp); auto.
  - apply (inputs_keep _ K K2 I KE). intros []; intros []; auto.
  - apply KE2; [discriminate|]. apply has_alloc_same. auto.
  - intros K' KE' H'. apply O; auto. eapply keeps_trans; eauto.
Qed.

(** a list added to a mask *)
Section Add.
Variable K : knownd.
Hypothesis I : inputs K.
Variable resp anc m : nat -> bool.
Hypothesis HR : knows K RespMask resp.
Variable box_list dst : darr.
Variable l : dlist.
Variable bx : list nat.
Variable c : csr.
Hypothesis LF : list_fits nb bx c.
Hypothesis NB : is_input box_list = true.
Hypothesis HB : list_holds d0 box_list bx.
Hypothesis HC : lists_hold d0 l c.
Hypothesis ND : dst = PointMask \/ dst = MpoleMask.
Hypothesis HD : knows K dst m.
Lemma dst_not : is_input dst = false /\ dst <> RespMask /\ dst <> AncMask /\ dst <> BothMask.
Proof. destruct ND as [->| ->]; repeat split; discriminate. Qed.
Lemma add_ok {R} (next : dhost R) Q :
  (forall K', keeps (fun x => x = dst) K K' -> knows K' dst (add_interaction_list_boxes bx resp c m) -> okd K' next Q) ->
  okd K (add_boxes (length bx) box_list RespMask l dst next) Q.
Proof.
  intros O. destruct dst_not as [N1 [N2 _]]. apply (add_boxes_ok nb bx c LF K box_list RespMask dst l resp m); auto; try congruence.
  - apply (inputs_list K (ListStarts l) (starts c)); auto. apply HC.
  - apply (inputs_list K (ListEntries l) (lists c)); auto. apply HC.
  - intros ->. discriminate.
  - intros ->. discriminate.
Qed.
Hypothesis HA : knows K AncMask anc.
Lemma add_both_ok {R} (next : dhost R) Q :
  (forall K', keeps (fun x => x = BothMask \/ x = dst) K K' -> knows K' dst (add_interaction_list_boxes bx (either resp anc) c m) -> okd K' next Q) ->
  okd K (add_boxes_both D (length bx) box_list l dst next) Q.
Proof.
  intros O. destruct dst_not as [N1 [N2 [N3 N4]]]. unfold add_boxes_both. change (ds_nboxes D) with nb.
  apply elementwise2_ok with (fa := fun b => bit (resp b)) (fb := fun b => bit (anc b)); try discriminate; auto.
  intros K1 KE1 H1. assert (I1 : inputs K1) by (apply (inputs_keep _ K K1 I KE1); intros a ->; auto).
  apply (add_boxes_ok nb bx c LF K1 box_list BothMask dst l (either resp anc) m); auto; try congruence.
  - apply has_ext with (1 := H1). intros k _. unfold either_of, either. cbn [nth]. apply bit_or.
  - apply (inputs_list K1 (ListStarts l) (starts c)); auto. apply HC.
  - apply (inputs_list K1 (ListEntries l) (lists c)); auto. apply HC.
  - intros ->. discriminate.
  - intros ->. discriminate.
  - intros K' KE' H'. apply O; auto. eapply keeps_trans; (eapply keeps_weaken; [|eassumption]); intros b ->; auto.
Qed.
End Add.

Definition point_array (a : darr) : Prop := match a with BothMask | PointMask => True | _ => False end.
Definition mpole_array (a : darr) : Prop := match a with BothMask | MpoleMask => True | _ => False end.
(** partition.py:197-252 *)
Lemma point_ok {R} (next : dhost R) Q K resp anc : inputs K -> knows K RespMask resp -> knows K AncMask anc ->
  (forall K', keeps point_array K K' -> knows K' PointMask (get_point_src_boxes_mask tr have_extent resp anc) -> okd K' next Q) ->
  okd K (point_program D next) Q.
Proof.
  intros I HR HA O. unfold point_program. change (ds_nboxes D) with nb. change (ds_ntargets_boxes D) with (length (target_boxes tr)).
  change (ds_nparents_boxes D) with (length (target_or_target_parent_boxes tr)).
  apply elementwise1_ok with (fa := fun b => bit (resp b)); [discriminate|exact HR|]. intros K1 KE1 H1.
  assert (P1 : keeps point_array K K1) by (eapply keeps_weaken; [|exact KE1]; intros b ->; exact Logic.I).
  assert (INP : forall K', keeps point_array K K' -> inputs K' /\ knows K' RespMask resp /\ knows K' AncMask anc).
  { intros K' P. split; [apply (inputs_keep _ K K' I P); intros []; intros []; auto|]. split; apply P; cbn; auto. }
  destruct (INP K1 P1) as [I1 [HR1 HA1]].
  apply (add_ok K1 I1 resp resp HR1 TargetList PointMask Neighbors (target_boxes tr) (neighbor_source_boxes tr)); auto; try apply TF; try apply G.
  intros K2 KE2 H2. assert (P2 : keeps point_array K K2) by (eapply keeps_trans; [exact P1|]; eapply keeps_weaken; [|exact KE2]; intros b ->; exact Logic.I).
  destruct (INP K2 P2) as [I2 [HR2 HA2]]. set (m2 := add_interaction_list_boxes (target_boxes tr) resp (neighbor_source_boxes tr) resp) in *.
  apply (add_both_ok K2 I2 resp anc m2 HR2 TargetOrParentList PointMask Bigger (target_or_target_parent_boxes tr) (from_sep_bigger tr)); auto; try apply TF; try apply G.
  intros K3 KE3 H3.
  assert (P3 : keeps point_array K K3) by (eapply keeps_trans; [exact P2|]; eapply keeps_weaken; [|exact KE3]; intros b [->| ->]; exact Logic.I).
  set (m3 := add_interaction_list_boxes (target_or_target_parent_boxes tr) (either resp anc) (from_sep_bigger tr) m2) in *.
  unfold get_point_src_boxes_mask in O. fold m2 in O. fold m3 in O. cbv zeta in O. clearbody m2 m3. cbv zeta.
  change (ds_have_extent D) with have_extent. destruct have_extent eqn:EX; [|apply O; auto].
  assert (CB : forall K4 m4, keeps point_array K K4 -> knows K4 PointMask m4 ->
    (forall K', keeps point_array K K' -> knows K' PointMask (match from_sep_close_bigger tr with Some c => add_interaction_list_boxes (target_boxes tr) (either resp anc) c m4 | None => m4 end) -> okd K' next Q) ->
    okd K4 (if ds_close_bigger D then add_boxes_both D (length (target_boxes tr)) TargetList CloseBigger PointMask next else next) Q).
  { intros K4 m4 P4 H4 O4. unfold dist_arguments. cbn [ds_close_bigger]. fold (dist_arguments t p have_extent tr boxes).
    destruct (from_sep_close_bigger tr) as [cb|] eqn:E; [|apply O4; auto]. destruct (INP K4 P4) as [I4 [HR4 HA4]].
    apply (add_both_ok K4 I4 resp anc m4 HR4 TargetList PointMask CloseBigger (target_boxes tr) cb); auto; try apply (tf_close_bigger t tr TF); try apply G; auto.
    intros K5 KE5 H5. apply O4; auto. eapply keeps_trans; [exact P4|]; eapply keeps_weaken; [|exact KE5]; intros b [->| ->]; exact Logic.I. }
  rewrite EX in CB.
  unfold dist_arguments at 1. cbn [ds_close_smaller]. destruct (from_sep_close_smaller tr) as [cs|] eqn:E; [|apply (CB K3 m3); auto].
  destruct (INP K3 P3) as [I3 [HR3 HA3]].
  apply (add_ok K3 I3 resp m3 HR3 TargetList PointMask CloseSmaller (target_boxes tr) cs); auto; try apply (tf_close_smaller t tr TF); try apply G; auto.
  intros K4 KE4 H4. apply (CB K4 (add_interaction_list_boxes (target_boxes tr) resp cs m3)); auto.
  eapply keeps_trans; [exact P3|]; eapply keeps_weaken; [|exact KE4]; intros b ->; exact Logic.I.
Qed.
(** partition.py:255-297 *)
Lemma multipole_ok {R} (next : dhost R) Q K resp anc : inputs K -> knows K RespMask resp -> knows K AncMask anc ->
  (forall K', keeps mpole_array K K' -> knows K' MpoleMask (get_multipole_src_boxes_mask tr resp anc) -> okd K' next Q) ->
  okd K (multipole_program D next) Q.
Proof.
  intros I HR HA O. unfold multipole_program. change (ds_nboxes D) with nb. change (ds_nparents_boxes D) with (length (target_or_target_parent_boxes tr)).
  change (ds_nlevels D) with (nlevels t).
  apply ok_alloc; [lia|]. set (K1 := k_alloc darr darr_eq K MpoleMask (z nb)).
  assert (P1 : keeps mpole_array K K1) by (apply keeps_alloc; exact Logic.I).
  assert (INP : forall K', keeps mpole_array K K' -> inputs K' /\ knows K' RespMask resp /\ knows K' AncMask anc).
  { intros K' P. split; [apply (inputs_keep _ K K' I P); intros []; intros []; auto|]. split; apply P; cbn; auto. }
  destruct (INP K1 P1) as [I1 [HR1 HA1]].
  apply (add_both_ok K1 I1 resp anc no_boxes HR1 TargetOrParentList MpoleMask Siblings (target_or_target_parent_boxes tr) (from_sep_siblings tr)); auto; try apply TF; try apply G.
  { apply has_alloc_same. auto. }
  intros K2 KE2 H2. assert (P2 : keeps mpole_array K K2) by (eapply keeps_trans; [exact P1|]; eapply keeps_weaken; [|exact KE2]; intros b [->| ->]; exact Logic.I).
  unfold get_multipole_src_boxes_mask in O. cbv zeta in O.
  set (m2 := add_interaction_list_boxes (target_or_target_parent_boxes tr) (either resp anc) (from_sep_siblings tr) no_boxes) in *. clearbody m2.
  set (row := fun lev => nth lev (from_sep_smaller_by_level tr) ([], csr_of [])).
  set (step := fun m lc => add_interaction_list_boxes (fst lc) resp (snd lc) m) in *.
  assert (ER : from_sep_smaller_by_level tr = map row (seq 0 (nlevels t))).
  { rewrite <- (tf_nsmaller t tr TF). unfold row. clear. induction (from_sep_smaller_by_level tr) as [|x l IH]; auto. cbn [length seq map nth]. f_equal.
    rewrite <- seq_shift, map_map. exact IH. }
  apply ok_each_inv with (Inv := fun ls K' => keeps mpole_array K K' /\ exists m', knows K' MpoleMask m' /\
      fold_left step (from_sep_smaller_by_level tr) m2 = fold_left step (map row ls) m').
  - split; auto. exists m2. rewrite ER. auto.
  - intros lev ls K3 nx [l0 EL] [P3 [m3 [H3 E3]]] NX. destruct (INP K3 P3) as [I3 [HR3 HA3]].
    assert (HL : lev < nlevels t). { assert (X : In lev (seq 0 (nlevels t))) by (rewrite EL; apply in_app_iff; right; left; auto). apply in_seq in X. lia. }
    destruct (g_smaller _ _ _ _ _ _ _ _ _ G lev HL) as [G1 G2].
    change (ds_nsmaller D lev) with (length (fst (row lev))).
    apply (add_ok K3 I3 resp m3 HR3 (SmallerList lev) MpoleMask (Smaller lev) (fst (row lev)) (snd (row lev))); auto; [apply (tf_smaller t tr TF lev HL)|].
    intros K4 KE4 H4. apply NX. split; [eapply keeps_trans; [exact P3|]; eapply keeps_weaken; [|exact KE4]; intros b ->; exact Logic.I|].
    exists (step m3 (row lev)). split; auto.
  - intros K' [P' [m' [H' E']]]. apply O; auto. cbn [map fold_left] in E'. rewrite E'. auto.
Qed.
(** partition.py:335-357 *)
Lemma masks_ok {R} (stuck next : dhost R) Q K bm : inputs K -> get_box_masks t tr have_extent boxes = Some bm ->
  (forall K', keeps mask_array K K' -> knows K' RespMask (bm_responsible bm) -> knows K' AncMask (bm_ancestor bm) ->
     knows K' PointMask (bm_point_src bm) -> knows K' MpoleMask (bm_multipole_src bm) -> okd K' next Q) ->
  okd K (masks_program D stuck next) Q.
Proof.
  intros I E O. unfold get_box_masks in E. destruct (get_ancestor_boxes_mask t (responsible_mask boxes)) as [anc|] eqn:EA; [|discriminate].
  injection E as <-. cbn [bm_responsible bm_ancestor bm_point_src bm_multipole_src] in O. set (resp := responsible_mask boxes) in *.
  unfold masks_program. change (ds_nboxes D) with nb. change (ds_nresp D) with (length boxes). apply ok_alloc; [lia|].
  set (K1 := k_alloc darr darr_eq K RespMask (z nb)).
  assert (P1 : keeps mask_array K K1) by (apply keeps_alloc; exact Logic.I).
  assert (INP : forall K', keeps mask_array K K' -> inputs K') by (intros K' P; apply (inputs_keep _ K K' I P); intros []; intros []; auto).
  assert (HB : has K1 RespBoxes (length boxes) (length boxes) (fun k => z (nth k boxes 0))) by (apply (inputs_list K1); auto; apply G).
  assert (H1 : has K1 RespMask nb nb (fun b => bit (no_boxes b))) by (apply has_alloc_same; auto).
  apply launch_mark with (dst := RespMask) (nb := nb) (m := no_boxes) (m' := resp); auto.
  - intros i Hi. apply (item_load _ _ _ _ _ _ _ _ _ HB); [auto|apply only_other; discriminate|].
    apply item_store with (m := nb) (f := fun k => Some (bit (resp k))); [apply H1|apply BR, nth_In; auto|apply only_same| |exact Logic.I].
    replace (resp (nth i boxes 0)) with true; auto. symmetry. apply responsible_mask_spec, nth_In. auto.
  - discriminate.
  - intros b Hb EB. right. apply responsible_mask_spec in EB. apply (In_nth _ _ 0) in EB. destruct EB as [i [Hi <-]].
    exists i. split; auto. apply (stores_load _ _ _ _ _ _ _ _ _ _ HB); auto. apply stores_here.
  - intros K2 KE2 H2. assert (P2 : keeps mask_array K K2) by (eapply keeps_trans; [exact P1|]; eapply keeps_weaken; [|exact KE2]; intros b ->; exact Logic.I).
    apply ancestor_ok with (resp := resp) (m := anc); auto. intros K3 KE3 H3.
    assert (P3 : keeps mask_array K K3) by (eapply keeps_trans; [exact P2|]; eapply keeps_weaken; [|exact KE3]; intros []; intros []; exact Logic.I).
    assert (R3 : knows K3 RespMask resp) by (apply KE3; cbn; auto).
    apply point_ok with (resp := resp) (anc := anc); auto. intros K4 KE4 H4.
    assert (P4 : keeps mask_array K K4) by (eapply keeps_trans; [exact P3|]; eapply keeps_weaken; [|exact KE4]; intros []; intros []; exact Logic.I).
    assert (R4 : knows K4 RespMask resp) by (apply KE4; cbn; auto). assert (A4 : knows K4 AncMask anc) by (apply KE4; cbn; auto).
    apply multipole_ok with (resp := resp) (anc := anc); auto. intros K5 KE5 H5.
    apply O; auto; try (apply KE5; cbn; auto).
    eapply keeps_trans; [exact P4|]; eapply keeps_weaken; [|exact KE5]; intros []; intros []; exact Logic.I.
Qed.
End Masks.
