(** From the arguments on the device to the traversal on the device. *)
From Coq Require Import List Arith ZArith NArith Lia Bool.
From Verif Require Import Base Tree Walk Traversal TraversalLists SpecTraversal Coverage LevelStarts Kernel Device DeviceFacts DeviceRuns
  ListBuilder ListBuilderFacts TravDevice DevTravGen DevTravHost SpecDeviceTrav DevTrav.
Import ListNotations.

(** everything there is to know about a device *)
Definition all_of (d : device varr) : kn := mkKnown (fun a => Some (size d a)) (fun a k => Some (cells d a (z k))).
Lemma all_agrees d : agrees (all_of d) d.
Proof. unfold agrees, all_of. cbn [len val]. split; [intros a m E|intros a k v E]; congruence. Qed.
Lemma all_cell d a k v : (0 <= k < size d a)%Z -> cells d a k = v -> cell (all_of d) a k v.
Proof. intros H E. exists (size d a). cbn [all_of len val]. rewrite Z2Nat.id by lia. rewrite E. auto. Qed.
Lemma starts_cell d a m f k : starts_with d a m f -> k < m -> cell (all_of d) a (z k) (f k).
Proof. intros [A B] H. apply all_cell; [lia|auto]. Qed.
Lemma row_cell d a rows m f r k : has_rows d a rows m f -> r < rows -> k < m -> cell (all_of d) a (z (r * ((m + 31) / 32 * 32) + k)) (f r k).
Proof.
  intros [A B] Hr Hk. apply all_cell; [|auto]. assert (X : m <= (m + 31) / 32 * 32).
  { assert (D := Nat.div_mod (m + 31) 32 ltac:(lia)). assert (E := Nat.mod_upper_bound (m + 31) 32 ltac:(lia)). lia. }
  set (st := (m + 31) / 32 * 32) in *. clearbody st. nia.
Qed.
Lemma mask_cell d a m f k : mask_is d a m f -> k < m -> exists v, cell (all_of d) a (z k) v /\ negb (v =? 0)%Z = f k.
Proof.
  intros [A B] H. exists (cells d a (z k)). split; [apply all_cell; auto; lia|]. specialize (B k H).
  destruct (Z.eqb_spec (cells d a (z k)) 0) as [E|E]; cbn [negb]; destruct (f k); auto; [apply B in E; discriminate|exfalso; apply E, B; auto].
Qed.
Lemma arguments_known t P m1 m2 d : device_has_arguments t P m1 m2 d -> tree_known t P m1 m2 (all_of d).
Proof.
  intros [A1 A2 A3 A4 A5 A6 A7 A8 A9 A10].
  assert (IX : forall r k : nat, (z ((nboxes t + 31) / 32 * 32) * z r + z k)%Z = z (r * ((nboxes t + 31) / 32 * 32) + k)) by (intros r k; set (st := (nboxes t + 31) / 32 * 32); clearbody st; lia).
  constructor; unfold aligned; cbn [scalars_of s_nboxes]; [constructor; unfold aligned; cbn [scalars_of s_nboxes]|..].
  - intros a b Ha Hb. rewrite IX. apply (row_cell d _ _ _ _ a b A1); auto.
  - intros b Hb. apply (starts_cell d _ _ _ b A3 Hb).
  - intros m b Hm Hb. rewrite (Z.mul_comm (z m)), IX. apply (row_cell d _ _ _ _ m b A2); auto.
  - intros b Hb. apply (starts_cell d _ _ _ b A5 Hb).
  - intros b Hb. apply (starts_cell d _ _ _ b A4 Hb).
  - intros l Hl. apply (starts_cell d _ _ _ l A6 Hl).
  - destruct m1; auto. intros b Hb. apply (mask_cell d _ _ _ b A7 Hb).
  - destruct m2; auto. intros b Hb. apply (mask_cell d _ _ _ b A8 Hb).
  - intros E1 E2. destruct (A9 E1 E2) as [lo [hi [B1 [B2 B3]]]]. exists lo, hi. intros a b Ha Hb. rewrite IX.
    split; [apply (row_cell d _ _ _ _ a b B1); auto|]. split; [apply (row_cell d _ _ _ _ a b B2); auto|]. auto.
  - intros E b Hb. apply (starts_cell d _ _ _ b (A10 E) Hb).
Qed.

Lemma vlist_array K d a l : agrees K d -> vlist K a (map z l) -> array_is d a l.
Proof.
  intros A H. unfold is_list in H. rewrite map_length in H. destruct (has_agrees varr K a _ _ _ d H A) as [S C]. split; auto.
  intros k Hk. rewrite C by auto. change 0%Z with (z 0). rewrite map_nth. auto.
Qed.
Lemma facts_lists K d l c L : agrees K d -> facts K L -> incl (csr_facts l c) L -> lists_are d l c.
Proof.
  intros A F I. split; apply (vlist_array K); auto; apply (facts_in K L); auto; apply I; cbn [csr_facts In]; auto.
Qed.
Lemma facts_array K d a l L : agrees K d -> facts K L -> In (a, map z l) L -> array_is d a l.
Proof. intros A F I. apply (vlist_array K); auto. apply (facts_in K L); auto. Qed.

Theorem traversal_on_device t P m1 m2 d : wf_tree t -> wf_params t P -> level_sorted t (level_start_box_nrs P) -> device_has_arguments t P m1 m2 d ->
  safe varr varr_eq (traversal_program (scalar_arguments t P m1 m2)) d /\
  forall r d', completes varr varr_eq (traversal_program (scalar_arguments t P m1 m2)) d r d' ->
    exists tr, build_traversal t P = Some tr /\ r = starts_of tr /\ device_has_traversal P tr d'.
Proof.
  intros W WP LS A. assert (TK := arguments_known t P m1 m2 d A).
  change (scalar_arguments t P m1 m2) with (scalars_of t P m1 m2).
  refine (traversal_ok t W P m1 m2 LS WP (all_of d) (fun r d' => exists tr, build_traversal t P = Some tr /\ r = starts_of tr /\ device_has_traversal P tr d') TK _ d (all_agrees d)).
  intros K' d' LV F A'. exists (the_traversal t P).
  split; [apply build_traversal_eq; auto; apply WP|]. split; [reflexivity|].
  assert (I5 := incl_facts5 t P m1 m2). assert (I4 := incl_facts4 t P m1 m2). assert (I3 := incl_facts3 t P m1 m2).
  assert (I2 := incl_facts2 t P m1 m2). assert (I1 := incl_facts1 t P m1 m2).
  assert (I0 : incl (box_facts t P m1 m2) (facts1 t P m1 m2)) by (intros x I; unfold facts1; apply in_or_app; auto).
  assert (J4 := incl_tran I4 I5). assert (J3 := incl_tran I3 J4). assert (J2 := incl_tran I2 J3). assert (J1 := incl_tran I1 J2). assert (J0 := incl_tran I0 J1).
  constructor; cbn [the_traversal source_boxes target_boxes source_parent_boxes target_or_target_parent_boxes same_level_non_well_sep_boxes neighbor_source_boxes from_sep_siblings from_sep_smaller_by_level from_sep_close_smaller from_sep_bigger from_sep_close_bigger].
  - apply (facts_array K' d' _ _ (facts6 t P m1 m2)); auto. apply J0. left. auto.
  - apply (facts_array K' d' _ _ (facts6 t P m1 m2)); auto. apply J0. right. left. auto.
  - apply (facts_array K' d' _ _ (facts6 t P m1 m2)); auto. apply J0. right. right. right. left. auto.
  - apply (facts_array K' d' _ _ (facts6 t P m1 m2)); auto. apply J0. right. right. left. auto.
  - apply (facts_lists K' d' _ _ (facts6 t P m1 m2)); auto. eapply incl_tran; [|exact J1]. intros x I. unfold facts1. apply in_or_app. auto.
  - apply (facts_lists K' d' _ _ (facts6 t P m1 m2)); auto. eapply incl_tran; [|exact J2]. intros x I. unfold facts2. apply in_or_app. auto.
  - apply (facts_lists K' d' _ _ (facts6 t P m1 m2)); auto. eapply incl_tran; [|exact J3]. intros x I. unfold facts3. apply in_or_app. auto.
  - intros lev boxes c E.
    assert (Hl : lev < nlevels t).
    { assert (X : nth_error (map (fun l => eliminate_empty (find_target_boxes t P) (map (fun b => pick true (list3_list t (well_sep_is_n_away P) (extents P) (Some l) b)) (find_target_boxes t P))) (seq 0 (nlevels t))) lev <> None) by (rewrite E; discriminate). apply nth_error_Some in X. rewrite map_length, seq_length in X. auto. }
    rewrite nth_error_map in E. rewrite (nth_error_nth' _ 0) in E by (rewrite seq_length; auto). rewrite seq_nth in E by auto. cbn [option_map plus] in E.
    specialize (LV lev Hl). unfold level_facts, rows3 in LV. cbv zeta in LV.
    match type of E with Some ?e = _ => assert (EE : e = (boxes, c)) by congruence end.
    unfold tb in LV. rewrite EE in LV. cbn [fst snd] in LV. split; [apply (facts_array K' d' _ _ _ A' LV); left; auto|].
    apply (facts_lists K' d' _ _ _ A' LV). intros x I. right. auto.
  - intros c E. destruct (targets_have_extent (extents P)) eqn:EX; [|discriminate]. injection E as <-.
    apply (facts_lists K' d' _ _ (facts6 t P m1 m2)); auto. eapply incl_tran; [|exact J4]. intros x I. unfold facts4. rewrite EX. apply in_or_app. auto.
  - apply (facts_lists K' d' _ _ (facts6 t P m1 m2)); auto. eapply incl_tran; [|exact I5]. intros x I. unfold facts5. apply in_or_app. auto.
  - intros c E. destruct (targets_have_extent (extents P)) eqn:EX; [|discriminate]. injection E as <-.
    apply (facts_lists K' d' _ _ (facts6 t P m1 m2)); auto. intros x I. unfold facts6. rewrite EX. apply in_or_app. auto.
Qed.

(** ** merge_close_lists *)
Lemma array_vlist d a l : array_is d a l -> vlist (all_of d) a (map z l).
Proof.
  intros [A B]. unfold is_list. rewrite map_length. constructor; cbn [all_of len val]; [rewrite A; auto|auto|].
  intros k Hk. rewrite B by auto. change 0%Z with (z 0). rewrite map_nth. auto.
Qed.
Lemma lists_rows d l ll : lists_are d l (csr_of ll) -> rows_known (all_of d) l ll.
Proof. intros [A B]. split; apply array_vlist; auto. Qed.
Lemma rows_lists K d l ll : agrees K d -> rows_known K l ll -> lists_are d l (csr_of ll).
Proof. intros A [B C]. split; apply (vlist_array K); auto. Qed.
Lemma array_kept F d K' d' a l : vsame F (all_of d) K' -> F a -> agrees K' d' -> array_is d a l -> array_is d' a l.
Proof.
  intros SM Fa A H. apply (vlist_array K'); auto. apply (same_list tarray lname F (all_of d) K'); auto. apply array_vlist. auto.
Qed.

Definition merged_name (a : varr) : Prop := a = Base OutputToInput \/ merge_scratch Merged a.
Theorem merge_on_device t P tr tr' d : wf_tree t -> wf_params t P -> build_traversal t P = Some tr -> merge_close_lists tr = Some tr' ->
  device_has_traversal P tr d ->
  safe varr varr_eq (merge_close_program (length (target_boxes tr))) d /\
  forall r d', completes varr varr_eq (merge_close_program (length (target_boxes tr))) d r d' ->
    device_has_traversal P tr d' /\ lists_are d' Merged (neighbor_source_boxes tr').
Proof.
  intros W WP BT MC H. rewrite (build_traversal_eq t W P (proj1 WP)) in BT. injection BT as <-.
  unfold merge_close_lists in MC. cbn [the_traversal from_sep_close_smaller from_sep_close_bigger] in MC.
  destruct (targets_have_extent (extents P)) eqn:EX; [|discriminate]. injection MC as <-. cbn [neighbor_source_boxes target_boxes the_traversal].
  set (tb := find_target_boxes t P).
  set (l3 := map (fun b => pick false (list3_list t (well_sep_is_n_away P) (extents P) None b)) tb).
  set (l4 := map (fun ibox => concat (map (fun c => csr_get c ibox) [csr_of (map (fun b => pick false (list4_list t (well_sep_is_n_away P) (extents P) b)) (find_target_or_target_parent_boxes t))]))
                 (map (fun b => nth b (reverse_index (find_target_or_target_parent_boxes t) (nboxes t)) 0) tb)).
  assert (A1 := lists_rows d _ _ (o_neighbors P _ d H)).
  assert (A2 : rows_known (all_of d) SepCloseSmaller l3).
  { apply lists_rows. apply (o_close_smaller P _ d H). cbn [the_traversal from_sep_close_smaller]. rewrite EX. auto. }
  assert (A3 : rows_known (all_of d) SepCloseBigger l4).
  { apply lists_rows. apply (o_close_bigger P _ d H). cbn [the_traversal from_sep_close_bigger]. rewrite EX. auto. }
  fold tb in A1. set (l1 := map (list1_list t) tb) in *.
  set (ll := fun l => match l with NeighborSources => l1 | SepCloseSmaller => l3 | _ => l4 end).
  assert (LL : forall l, length (ll l) = length tb) by (intros l; unfold ll, l1, l3, l4; destruct l; rewrite ?map_length; auto).
  set (names := [NeighborSources; SepCloseSmaller; SepCloseBigger]).
  assert (O : okv (all_of d) (merge_close_program (length tb)) (fun _ d' => device_has_traversal P (the_traversal t P) d' /\
    lists_are d' Merged (merge_lists (seq 0 (length tb)) [csr_of l1; csr_of l3; csr_of l4]))).
  { unfold merge_close_program. set (oa := Base OutputToInput : varr). apply (ok_alloc varr varr_eq); [lia|].
    set (K1 := k_alloc varr varr_eq (all_of d) oa (z (length tb))).
    assert (L1 : len K1 oa = Some (z (length tb))) by apply alloc_len.
    apply (ok_assign varr varr_eq K1 oa 0 (map z (seq 0 (length tb))) (z (length tb))); auto; [rewrite map_length, seq_length; lia|].
    set (K2 := k_assign varr varr_eq K1 oa 0 (map z (seq 0 (length tb)))).
    assert (H2 : vlist K2 oa (map z (seq 0 (length tb)))).
    { unfold is_list. rewrite map_length, seq_length.
      assert (X := has_assign_fresh varr varr_eq K1 oa (map z (seq 0 (length tb))) (length tb) (fun k => nth k (map z (seq 0 (length tb))) 0%Z) L1).
      rewrite map_length, seq_length in X. apply X; auto. }
    assert (S2 : vsame (fun a => a <> oa) (all_of d) K2).
    { eapply same_trans; [|apply same_assign; tauto]. eapply same_trans; [|apply same_alloc; tauto]. apply same_refl. }
    clearbody K2. clear K1 L1.
    assert (RK : forall l, In l names -> rows_known K2 l (ll l)).
    { assert (SK : forall l x, rows_known (all_of d) l x -> rows_known K2 l x).
      { intros l x [B C]. split; apply (same_list tarray lname (fun a => a <> oa) (all_of d) K2); auto; discriminate. }
      intros l [<-|[<-|[<-|[]]]]; apply SK; auto. }
    assert (LS : length (seq 0 (length tb)) = length tb) by apply seq_length. rewrite <- LS at 1.
    refine (merge_ok names Merged ll (seq 0 (length tb)) _ _ K2 _ _ (conj H2 RK) _).
    { intros [E|[E|[E|[]]]]; discriminate. }
    { intros b l I _. rewrite LL. apply in_seq in I. lia. }
    intros K3 S3 R3. apply ok_ret. intros d' A'.
    assert (SM : vsame (fun a => ~ merged_name a) (all_of d) K3).
    { eapply same_trans; [eapply same_less; [|exact S2]|eapply same_less; [|exact S3]]; intros a N; unfold merged_name in N; tauto. }
    split.
    - assert (KP : forall a l, ~ merged_name a -> array_is d a l -> array_is d' a l) by (intros a l N X; apply (array_kept _ d K3 d' a l SM N A' X)).
      assert (NL : forall l, l <> Merged -> ~ merged_name (Lists l) /\ ~ merged_name (Starts l)).
      { intros l N. unfold merged_name, merge_scratch. cbn [scan_buffer]. split; intuition congruence. }
      assert (KL : forall l c, l <> Merged -> lists_are d l c -> lists_are d' l c) by (intros l c N [X Y]; destruct (NL l N); split; apply KP; auto).
      destruct H as [B1 B2 B3 B4 B5 B6 B7 B8 B9 B10 B11]. constructor; try (apply KL; [discriminate|assumption]); try (apply KP; [apply NL; discriminate|assumption]).
      + apply KP; [apply NL; destruct (sources_are_targets P); discriminate|assumption].
      + intros lev boxes c E. destruct (B8 lev boxes c E) as [X Y]. split; [|apply KL; [discriminate|assumption]].
        apply KP; [|assumption]. unfold merged_name, merge_scratch. cbn [scan_buffer]. intuition discriminate.
      + intros c E. apply KL; [discriminate|]. apply B9. auto.
      + intros c E. apply KL; [discriminate|]. apply B11. auto.
    - unfold merge_lists. apply (rows_lists K3); auto. erewrite map_ext_in; [exact R3|]. intros b I. apply in_seq in I.
      assert (G : forall l, csr_get (csr_of (ll l)) b = nth b (ll l) []) by (intros l; apply csr_get_of; rewrite LL; lia).
      unfold merged_row, names. cbn [map]. rewrite <- !G. auto. }
  exact (O d (all_agrees d)).
Qed.
