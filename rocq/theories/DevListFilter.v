(** Filtering targets on the device. *)
From Coq Require Import List Arith ZArith Lia Bool Permutation.
From Verif Require Import Base Tree Traversal TraversalLists Fmm TreeBuild ArrayFacts SpecFmm ParticleLists SpecLists ParticleListFacts Kernel Device DeviceRules DeviceFacts
  ListBuilder ListBuilderFacts ListDevice SpecListDevice DevList DevListLink.
Import ListNotations.

Section Filter.
Variable t : tree.
Variable p : particles.
Variable targets : nat -> nat -> Z.
Variable flags : nat -> bool.
Let nt := ntargets p.
Hypothesis PS : perm_fun (sorted_target_ids p) nt.
(** what the user put into the array of flags *)
Variable fl : nat -> Z.
Hypothesis FL : forall j, j < nt -> (flags j = true <-> fl j <> 0%Z).
Let order := seq 0 nt.
Let ids := user_target_ids p order.
Let tof := tree_order_flags p flags order.
Let prev := prev_item p flags order.
Let nf := nfiltered p flags order.
Let unf := unfiltered_from_filtered p flags order.

Lemma PO : Permutation order (seq 0 (ntargets p)).
Proof. apply Permutation_refl. Qed.
Lemma sorted_lt i : i < nt -> sorted_target_ids p i < nt.
Proof. intros. apply (perm_fun_lt _ nt); auto. Qed.
Lemma ids_inv j : j < nt -> ids (sorted_target_ids p j) = j.
Proof. apply (user_target_ids_inv p order PS PO). Qed.
Lemma ids_lt k : k < nt -> ids k < nt.
Proof. intros Hk. apply (user_target_ids_lt p order PS PO k Hk). Qed.
Lemma flag_eq j : j < nt -> (fl j =? 0)%Z = negb (flags j).
Proof.
  intros Hj. assert (F := FL j Hj). destruct (Z.eqb_spec (fl j) 0) as [E|E], (flags j); auto; exfalso.
  - apply F; auto.
  - apply F in E. discriminate.
Qed.
Lemma tof_flag k : k < nt -> (fl (ids k) =? 0)%Z = negb (tof k).
Proof.
  intros Hk. destruct (perm_fun_onto _ _ k PS Hk) as [j [Hj <-]]. rewrite ids_inv, flag_eq by auto. unfold tof. rewrite (tof_eq p flags order PS PO) by auto. auto.
Qed.
Lemma nf_eq : nf = prev nt.
Proof. apply (nfiltered_eq p flags order PS PO). Qed.
Lemma prev_len i : prev i = length (filter tof (seq 0 i)).
Proof.
  induction i as [|i IH]; auto. unfold prev in *. rewrite prev_S, IH, seq_S, filter_app, app_length. cbn [filter plus]. fold tof. destruct (tof i); auto.
Qed.
Lemma filter_shorter (q : nat -> bool) l : length (filter q l) <= length l.
Proof. induction l as [|x l IH]; auto. cbn [filter length]. destruct (q x); cbn [length]; lia. Qed.
Lemma nf_le : nf <= nt.
Proof. rewrite nf_eq, prev_len. assert (X := filter_shorter tof (seq 0 nt)). rewrite seq_length in X. lia. Qed.
Lemma prev_lt i : i < nt -> prev (S i) <> prev i -> tof i = true /\ prev i < nf.
Proof.
  intros Hi N. assert (X := prev_mono p flags order (S i) nt Hi). fold prev in X. rewrite <- nf_eq in X. assert (Y := prev_S p flags order i). fold prev tof in Y.
  destruct (tof i); [split; auto; lia|lia].
Qed.
Lemma unf_found k : k < nf -> exists i, i < nt /\ prev (S i) <> prev i /\ prev i = k /\ unf k = i.
Proof.
  intros Hk. rewrite nf_eq, prev_len in Hk. destruct (filter_nth_rank tof nt k Hk) as [I1 [I2 I3]]. set (i := nth k (filter tof (seq 0 nt)) 0) in *. clearbody i.
  rewrite <- prev_len in I3. exists i. split; auto. split; [|split; auto].
  - assert (Y := prev_S p flags order i). fold prev tof in Y. rewrite I2 in Y. lia.
  - rewrite <- I3. unfold unf, prev. apply (unf_prev p flags order PO); auto.
Qed.

Definition tgt_arrays (a : parr) : option (nat * (nat -> Z)) :=
  match a with
  | Base TargetIds => Some (nt, fun i => z (sorted_target_ids p i))
  | Base (TargetCoord a) => if a <? dim t then Some (nt, fun k => targets k a) else None
  | Base BoxTargets => Some (nboxes t, fun b => z (box_target_starts p b))
  | Base BoxTargetCounts => Some (nboxes t, fun b => z (box_target_counts_nonchild p b))
  | Base UserFlags => Some (nt, fl)
  | _ => None
  end.
Definition tgt_array (a : parr) : Prop := match a with Base (TargetIds | TargetCoord _ | BoxTargets | BoxTargetCounts | UserFlags) => True | _ => False end.

(** ** Tree order *)
Section TreeOrder.
(** the indices the kernel for boxes reads are in bounds *)
Hypothesis IN : forall b, b < nboxes t -> box_target_starts p b < nt.

Lemma filter_box_ok K F b : b < nboxes t ->
  has K (Base BoxTargets) (nboxes t) (nboxes t) (fun b => z (box_target_starts p b)) -> has K (Base BoxTargetCounts) (nboxes t) (nboxes t) (fun b => z (box_target_counts_nonchild p b)) ->
  has K (Base FromUnfiltered) nt nt (fun i => z (prev i)) ->
  F (Base BoxTargets) = None -> F (Base BoxTargetCounts) = None -> F (Base FromUnfiltered) = None ->
  (item_ok K F (Store (Base FilteredStarts) (z b) (z (filtered_starts p flags order 0 b)) (Store (Base FilteredCounts) (z b) (z (filtered_counts p flags order 0 b)) Finish)) ->
   item_ok K F (filter_box nt (z nf) b)) /\
  forall a k, stores K (Store (Base FilteredStarts) (z b) (z (filtered_starts p flags order 0 b)) (Store (Base FilteredCounts) (z b) (z (filtered_counts p flags order 0 b)) Finish)) a k ->
   stores K (filter_box nt (z nf) b) a k.
Proof.
  intros Hb H1 H2 H3 N1 N2 N3. unfold filter_box. specialize (IN b Hb).
  assert (E1 : filtered_starts p flags order 0 b = prev (box_target_starts p b)).
  { unfold filtered_starts, filtered_from_unfiltered, read. fold nt. rewrite (proj2 (Nat.ltb_lt _ _) IN). auto. }
  assert (E2 : filtered_counts p flags order 0 b = if 0 <? box_target_counts_nonchild p b then
    (if box_target_starts p b + box_target_counts_nonchild p b <? nt then prev (box_target_starts p b + box_target_counts_nonchild p b) else nf) - prev (box_target_starts p b) else 0).
  { unfold filtered_counts. rewrite E1. fold nt. destruct (0 <? _); auto. unfold filtered_from_unfiltered, read. fold nt. destruct (_ <? nt); auto. }
  rewrite E1, E2. set (s := box_target_starts p b) in *. set (c := box_target_counts_nonchild p b) in *. clear E1 E2.
  destruct (Nat.ltb_spec 0 c) as [C|C].
  - assert (EC : (0 <? z c)%Z = true) by (apply Z.ltb_lt; lia). destruct (Nat.ltb_spec (s + c) nt) as [B|B].
    + assert (EB : (z s + z c <? z nt)%Z = true) by (apply Z.ltb_lt; lia). assert (M := prev_mono p flags order s (s + c) ltac:(lia)). fold prev in M.
      rewrite Nat2Z.inj_sub by auto. split.
      * intros O. apply (item_load _ _ _ _ _ _ _ _ _ H1); auto. apply (item_load _ _ _ _ _ _ _ _ _ H2); auto. fold s c. apply (item_load _ _ _ _ _ _ _ _ _ H3); auto.
        rewrite EC. cbv zeta. rewrite EB. rewrite <- Nat2Z.inj_add. destruct O as [m [g [O1 [O2 [O3 [O4 O]]]]]]. exists m, g. split; [auto|]. split; [auto|]. split; [auto|]. split; [auto|].
        apply (item_load _ _ _ _ _ _ _ _ _ H3); auto.
      * intros a k O. apply (stores_load _ _ _ _ _ _ _ _ _ _ H1); auto. apply (stores_load _ _ _ _ _ _ _ _ _ _ H2); auto. fold s c. apply (stores_load _ _ _ _ _ _ _ _ _ _ H3); auto.
        rewrite EC. cbv zeta. rewrite EB. rewrite <- Nat2Z.inj_add. destruct O as [O|O]; [left; auto|right]. apply (stores_load _ _ _ _ _ _ _ _ _ _ H3); auto.
    + assert (EB : (z s + z c <? z nt)%Z = false) by (apply Z.ltb_ge; lia). assert (M := prev_mono p flags order s nt ltac:(lia)). fold prev in M. rewrite <- nf_eq in M.
      rewrite Nat2Z.inj_sub by auto. split.
      * intros O. apply (item_load _ _ _ _ _ _ _ _ _ H1); auto. apply (item_load _ _ _ _ _ _ _ _ _ H2); auto. fold s c. apply (item_load _ _ _ _ _ _ _ _ _ H3); auto.
        rewrite EC. cbv zeta. rewrite EB. auto.
      * intros a k O. apply (stores_load _ _ _ _ _ _ _ _ _ _ H1); auto. apply (stores_load _ _ _ _ _ _ _ _ _ _ H2); auto. fold s c. apply (stores_load _ _ _ _ _ _ _ _ _ _ H3); auto.
        rewrite EC. cbv zeta. rewrite EB. auto.
  - assert (EC : (0 <? z c)%Z = false) by (apply Z.ltb_ge; lia). split.
    + intros O. apply (item_load _ _ _ _ _ _ _ _ _ H1); auto. apply (item_load _ _ _ _ _ _ _ _ _ H2); auto. fold s c. apply (item_load _ _ _ _ _ _ _ _ _ H3); auto. rewrite EC. auto.
    + intros a k O. apply (stores_load _ _ _ _ _ _ _ _ _ _ H1); auto. apply (stores_load _ _ _ _ _ _ _ _ _ _ H2); auto. fold s c. apply (stores_load _ _ _ _ _ _ _ _ _ _ H3); auto.
      rewrite EC. auto.
Qed.

Theorem tree_order_ok : okp (known_of tgt_arrays) (tree_order_program nt (nboxes t) (dim t))
  (fun r d => r = nf /\ device_has_filtered t (filter_in_tree_order p targets flags order 0) d).
Proof.
  unfold tree_order_program. set (K0 := known_of tgt_arrays).
  assert (HID : has K0 (Base TargetIds) nt nt (fun i => z (sorted_target_ids p i))) by (apply known_of_has; auto).
  assert (HUF : has K0 (Base UserFlags) nt nt fl) by (apply known_of_has; auto).
  assert (HTC : forall a, a < dim t -> has K0 (Base (TargetCoord a)) nt nt (fun k => targets k a)).
  { intros a Ha. apply known_of_has. cbn [tgt_arrays]. destruct (Nat.ltb_spec a (dim t)); [auto|lia]. }
  assert (HBT : has K0 (Base BoxTargets) (nboxes t) (nboxes t) (fun b => z (box_target_starts p b))) by (apply known_of_has; auto).
  assert (HBC : has K0 (Base BoxTargetCounts) (nboxes t) (nboxes t) (fun b => z (box_target_counts_nonchild p b))) by (apply known_of_has; auto).
  clearbody K0.
  assert (tgt_kept : forall K K' a m k f, keeps (fun a => ~ tgt_array a) K K' -> has K a m k f -> tgt_array a -> has K' a m k f).
  { intros K K' a m k f KE H S. apply KE; auto. }
  apply ok_alloc; [lia|]. set (K1 := k_alloc parr parr_eq K0 (Base TreeFlags) (z nt)).
  assert (KE01 : keeps (fun a => ~ tgt_array a) K0 K1) by (apply keeps_alloc; away). assert (L1 : len K1 (Base TreeFlags) = Some (z nt)) by apply len_alloc. clearbody K1.
  apply (put_ok K1 nt TreeFlags UserFlags TargetIds nt (sorted_target_ids p) fl (fun k => fl (ids k))); try discriminate; auto.
  { apply (tgt_kept _ _ _ _ _ _ KE01 HID Logic.I). } { apply (tgt_kept _ _ _ _ _ _ KE01 HUF Logic.I). } { exact sorted_lt. }
  { intros k Hk. rewrite ids_inv; auto. } { intros k Hk. left. apply (perm_fun_onto _ _ k PS Hk). }
  intros K2 KE2 HF2. assert (KE02 : keeps (fun a => ~ tgt_array a) K0 K2) by (eapply keeps_trans; [exact KE01|]; eapply keeps_weaken; [|exact KE2]; intros b ->; away).
  clear K1 KE01 L1 KE2.
  do 3 (apply ok_alloc; [lia|]).
  set (K3 := k_alloc parr parr_eq (k_alloc parr parr_eq (k_alloc parr parr_eq K2 (Base FromUnfiltered) (z nt)) (Base FromFiltered) (z nt)) (Base NFiltered) 1).
  set (scan_out := fun a : parr => match a with Base (FromUnfiltered | FromFiltered | NFiltered) => True | _ => False end).
  assert (KE3 : keeps scan_out K2 K3) by (eapply keeps_trans; [eapply keeps_trans|]; apply keeps_alloc; exact Logic.I).
  assert (HU3 : has K3 (Base FromUnfiltered) nt nt (fun _ => 0%Z)) by (constructor; auto). assert (HR3 : has K3 (Base FromFiltered) nt nt (fun _ => 0%Z)) by (constructor; auto).
  assert (HN3 : has K3 (Base NFiltered) 1 1 (fun _ => 0%Z)) by (constructor; auto). clearbody K3.
  assert (HF3 := kept _ _ _ _ _ _ _ KE3 HF2 ltac:(away)).
  assert (KE03 : keeps (fun a => ~ tgt_array a) K0 K3).
  { eapply keeps_trans; [exact KE02|]. eapply keeps_weaken; [|exact KE3]. intros b B S. destruct b as [[]| | | | | | | | |]; cbn in *; tauto. }
  clear K2 KE02 HF2 KE3.
  apply scan_kernel_ok with (v := fun k => if tof k then 1 else 0).
  { intros K4 F i nxt KE4 FF Hi. assert (HF4 := kept _ _ _ _ _ _ _ KE4 HF3 ltac:(away)).
    assert (EV : (if (fl (ids i) =? 0)%Z then 0%Z else 1%Z) = z (if tof i then 1 else 0)) by (rewrite tof_flag by auto; destruct (tof i); auto).
    unfold flag_input. split.
    - intros O. apply (item_load _ _ _ _ _ _ _ _ _ HF4); [auto|apply FF; away|]. rewrite EV. auto.
    - intros a k O. apply (stores_load _ _ _ _ _ _ _ _ _ _ HF4); auto. rewrite EV. auto. }
  intros K4 KE4 H4. change (psum (fun k => if tof k then 1 else 0)) with prev in H4.
  assert (HU4 := kept _ _ _ _ _ _ _ KE4 HU3 ltac:(away)). assert (HR4 := kept _ _ _ _ _ _ _ KE4 HR3 ltac:(away)). assert (HN4 := kept _ _ _ _ _ _ _ KE4 HN3 ltac:(away)).
  assert (KE04 : keeps (fun a => ~ tgt_array a) K0 K4).
  { eapply keeps_trans; [exact KE03|]. eapply keeps_weaken; [|exact KE4]. intros b B S. destruct b as [[]| | | | | | | | |]; cbn in *; tauto. }
  clear K3 KE03 KE4 HU3 HR3 HN3 HF3.
  set (W := fun a : parr => match a with Base FromUnfiltered => Some (nt, fun i => z (prev i)) | Base FromFiltered => Some (nf, fun k => z (unf k))
    | Base NFiltered => Some (1, fun _ => z nf) | _ => None end).
  assert (NL := nf_le). assert (N0 : nt = 0 -> nf = 0) by lia.
  assert (CNT : forall i, i < nt -> item_ok K4 (F_of W) (if S i =? nt then Store (Base NFiltered) 0%Z (z (prev (S i))) Finish else Finish)).
  { intros i Hi. destruct (Nat.eqb_spec (S i) nt) as [E|]; [|exact Logic.I]. change 0%Z with (z 0). eapply store_to; [apply HN4|reflexivity|auto|auto| |exact Logic.I].
    cbn beta. rewrite nf_eq, <- E. auto. }
  apply launch_to with (W := W).
  { intros a m f E. destruct a as [[]| | | | | | | | |]; try discriminate E; injection E as <- <-; [exists nt|exists nt|exists 1]; split; auto; [apply HU4|apply HR4|apply HN4]. }
  { intros i Hi. apply (with_prev K4 (F_of W) nt (fun k => if tof k then 1 else 0) (filter_output nt) i); auto. change (psum (fun k => if tof k then 1 else 0)) with prev.
    unfold filter_output. cbv zeta. eapply store_to; [apply HU4|reflexivity|auto|auto|auto|].
    destruct (Z.eqb_spec (z (prev (S i))) (z (prev i))) as [E|E]; auto. destruct (prev_lt i Hi ltac:(lia)) as [T B].
    eapply store_to; [apply HR4|reflexivity|auto|auto| |auto]. cbn beta. f_equal. apply (unf_prev p flags order PO); auto. }
  { assert (WP := fun i Hi => proj2 (with_prev K4 (F_of W) nt (fun k => if tof k then 1 else 0) (filter_output nt) i H4 Hi eq_refl)).
    change (psum (fun k => if tof k then 1 else 0)) with prev in WP.
    intros a m f k E Hk. destruct a as [[]| | | | | | | | |]; try discriminate E; injection E as <- <-.
    - left. exists k. split; auto. apply WP; auto. apply stores_here.
    - left. destruct (unf_found k Hk) as [i [I1 [I2 [I3 _]]]]. exists i. split; auto. apply WP; auto. unfold filter_output. cbv zeta. apply stores_later.
      destruct (Z.eqb_spec (z (prev (S i))) (z (prev i))); [lia|]. rewrite I3. apply stores_here.
    - assert (k = 0) as -> by lia. destruct (Nat.eq_dec nt 0) as [Z0|Z0].
      + right. rewrite (has_val _ _ _ _ _ _ HN4) by lia. rewrite N0 by auto. auto.
      + left. exists (nt - 1). split; [lia|]. apply WP; [lia|]. unfold filter_output. cbv zeta. apply stores_later.
        destruct (Nat.eqb_spec (S (nt - 1)) nt); [|lia]. destruct (_ =? _)%Z; [|apply stores_later]; left; auto. }
  intros K5 KE5 H5. assert (HU5 := H5 (Base FromUnfiltered) nt _ nt eq_refl (has_len _ _ _ _ _ _ HU4)). assert (HR5 := H5 (Base FromFiltered) nf _ nt eq_refl (has_len _ _ _ _ _ _ HR4)).
  assert (HN5 := H5 (Base NFiltered) 1 _ 1 eq_refl (has_len _ _ _ _ _ _ HN4)).
  assert (KE05 : keeps (fun a => ~ tgt_array a) K0 K5).
  { eapply keeps_trans; [exact KE04|]. eapply keeps_weaken; [|exact KE5]. intros b B S. apply B. destruct b as [[]| | | | | | | | |]; cbn in *; tauto. }
  clear K4 H4 HU4 HR4 HN4 KE04 KE5 H5 CNT. clearbody W.
  change 0%Z with (z 0) at 1. apply ok_peek with (n := z 1) (v := z nf); [apply HN5|lia|apply (has_val _ _ _ _ _ _ HN5); lia|]. cbv zeta. rewrite Nat2Z.id.
  apply (sliced_ok K5 nf FromFilteredCut FromFiltered nt (fun k => z (unf k))); auto; try discriminate.
  intros K6 KE6 HC6. assert (HU6 := kept _ _ _ _ _ _ _ KE6 HU5 ltac:(away)).
  assert (KE06 : keeps (fun a => ~ tgt_array a) K0 K6) by (eapply keeps_trans; [exact KE05|]; eapply keeps_weaken; [|exact KE6]; intros b ->; away). clear K5 KE05 KE6 HU5 HR5 HN5.
  apply (coords_ok K6 nf nt (dim t) FilteredCoord TargetCoord FromFilteredCut unf targets); auto; try discriminate.
  { intros a b E. injection E. auto. } { intros a Ha. apply (tgt_kept _ _ _ _ _ _ KE06 (HTC a Ha) Logic.I). }
  { intros k Hk. destruct (unf_found k Hk) as [i [I1 [_ [_ ->]]]]. auto. }
  intros K7 KE7 HX7. assert (HU7 := kept _ _ _ _ _ _ _ KE7 HU6 ltac:(away)). assert (HC7 := kept _ _ _ _ _ _ _ KE7 HC6 ltac:(away)).
  assert (KE07 : keeps (fun a => ~ tgt_array a) K0 K7) by (eapply keeps_trans; [exact KE06|]; eapply keeps_weaken; [|exact KE7]; intros b [x ->]; away). clear K6 KE06 KE7 HU6 HC6.
  do 2 (apply ok_alloc; [lia|]).
  set (K8 := k_alloc parr parr_eq (k_alloc parr parr_eq K7 (Base FilteredStarts) (z (nboxes t))) (Base FilteredCounts) (z (nboxes t))).
  set (box_out := fun a : parr => match a with Base (FilteredStarts | FilteredCounts) => True | _ => False end).
  assert (KE8 : keeps box_out K7 K8) by (eapply keeps_trans; apply keeps_alloc; exact Logic.I).
  assert (L1 : len K8 (Base FilteredStarts) = Some (z (nboxes t))) by auto. assert (L2 : len K8 (Base FilteredCounts) = Some (z (nboxes t))) by auto. clearbody K8.
  assert (HU8 := kept _ _ _ _ _ _ _ KE8 HU7 ltac:(away)). assert (HC8 := kept _ _ _ _ _ _ _ KE8 HC7 ltac:(away)).
  assert (HX8 : forall a, a < dim t -> has K8 (Base (FilteredCoord a)) nf nf (fun k => targets (unf k) a)) by (intros a Ha; apply KE8; [away|auto]).
  assert (KE08 : keeps (fun a => ~ tgt_array a) K0 K8).
  { eapply keeps_trans; [exact KE07|]. eapply keeps_weaken; [|exact KE8]. intros b B S. destruct b as [[]| | | | | | | | |]; cbn in *; tauto. }
  clear K7 KE07 KE8 HU7 HC7 HX7.
  assert (HBT8 := tgt_kept _ _ _ _ _ _ KE08 HBT Logic.I). assert (HBC8 := tgt_kept _ _ _ _ _ _ KE08 HBC Logic.I).
  set (V := fun a : parr => match a with Base FilteredStarts => Some (nboxes t, fun i => z (filtered_starts p flags order 0 i))
    | Base FilteredCounts => Some (nboxes t, fun i => z (filtered_counts p flags order 0 i)) | _ => None end).
  assert (FB := fun b Hb => filter_box_ok K8 (F_of V) b Hb HBT8 HBC8 HU8 eq_refl eq_refl eq_refl).
  apply launch_to with (W := V).
  { intros a m f E. destruct a as [[]| | | | | | | | |]; try discriminate E; injection E as <- <-; exists (nboxes t); auto. }
  { intros i Hi. apply (proj1 (FB i Hi)). eapply store_to; [exact L1|reflexivity|auto|auto|auto|]. eapply store_to; [exact L2|reflexivity|auto|auto|auto|exact Logic.I]. }
  { intros a m f k E Hk. left. exists k. assert (Hk' : k < nboxes t) by (destruct a as [[]| | | | | | | | |]; try discriminate E; injection E as <- <-; auto). split; auto.
    apply (proj2 (FB k Hk')). destruct a as [[]| | | | | | | | |]; try discriminate E; [apply stores_here|apply stores_later, stores_here]. }
  intros Kd KEd Hd. apply ok_ret. intros d A. split; auto.
  assert (G : forall a m f, V a = None -> has K8 a m m f -> array_holds d a m f).
  { intros a m f N H. apply (has_holds Kd d a m f A). apply KEd; auto. }
  constructor; cbn [filter_in_tree_order f_nfiltered f_box_starts f_box_counts f_unfiltered f_targets].
  - apply G; auto.
  - intros a Ha. apply G; auto. apply HX8. auto.
  - apply (has_holds Kd d _ _ _ A). apply (Hd (Base FilteredStarts) (nboxes t) _ (nboxes t) eq_refl L1).
  - apply (has_holds Kd d _ _ _ A). apply (Hd (Base FilteredCounts) (nboxes t) _ (nboxes t) eq_refl L2).
Qed.
End TreeOrder.

(** ** User order *)
Section UserOrder.
Hypothesis RANGE : forall b, b < nboxes t -> 0 < box_target_counts_nonchild p b -> box_target_starts p b + box_target_counts_nonchild p b <= nt.
Notation pfree := (free parray pname pname_eq [(FiltTgtList, false)]).
Notation gok := (gen_ok parray pname).
Definition entry_of (u : nat) : pname * Z := (FiltTgtList, z u).
Lemma append_ok K : has K (Base UserIds) nt nt (fun k => z (ids k)) -> has K (Base UserFlags) nt nt fl ->
  forall n j, (0 < n -> j + n <= nt) ->
  gok K pfree (append_flagged n (z j)) (map entry_of (flat_map (fun j => if flags (ids j) then [ids j] else []) (seq j n))).
Proof.
  intros HI HF. induction n as [|n IH]; intros j B; cbn [append_flagged seq flat_map]; [reflexivity|].
  assert (Hj : j < nt) by lia. apply (gen_load _ _ _ _ _ _ _ _ _ _ _ HI); [auto|exact Logic.I|]. apply (gen_load _ _ _ _ _ _ _ _ _ _ _ HF); [apply ids_lt; auto|exact Logic.I|].
  rewrite flag_eq by (apply ids_lt; auto). replace (z j + 1)%Z with (z (S j)) by lia.
  destruct (flags (ids j)); cbn [negb app map]; [apply gen_put|]; apply IH; lia.
Qed.
Lemma pname_one (l : pname) : l = FiltTgtList.
Proof. destruct l. auto. Qed.
Lemma entries_all out : entries pname pname_eq FiltTgtList out = map snd out.
Proof.
  unfold entries. f_equal. induction out as [|[[] v] out IH]; auto. cbn [filter fst]. destruct (pname_eq FiltTgtList FiltTgtList); [|contradiction]. rewrite IH. auto.
Qed.
Let ll := map (user_order_list p flags order) (seq 0 (nboxes t)).
Theorem user_order_ok : okp (known_of tgt_arrays) (user_order_program nt (nboxes t))
  (fun r d => r = snd (filter_in_user_order t p flags order) /\ device_has_user_lists (fst (filter_in_user_order t p flags order)) d).
Proof.
  unfold user_order_program. set (K0 := known_of tgt_arrays).
  assert (HID : has K0 (Base TargetIds) nt nt (fun i => z (sorted_target_ids p i))) by (apply known_of_has; auto).
  assert (HUF : has K0 (Base UserFlags) nt nt fl) by (apply known_of_has; auto).
  assert (HBT : has K0 (Base BoxTargets) (nboxes t) (nboxes t) (fun b => z (box_target_starts p b))) by (apply known_of_has; auto).
  assert (HBC : has K0 (Base BoxTargetCounts) (nboxes t) (nboxes t) (fun b => z (box_target_counts_nonchild p b))) by (apply known_of_has; auto).
  clearbody K0.
  assert (tgt_kept : forall K K' a m k f, keeps (fun a => ~ tgt_array a) K K' -> has K a m k f -> tgt_array a -> has K' a m k f).
  { intros K K' a m k f KE H S. apply KE; auto. }
  do 2 (apply ok_alloc; [lia|]). set (K1 := k_alloc parr parr_eq (k_alloc parr parr_eq K0 (Base UserIds) (z nt)) (Base Arange) (z nt)).
  change 0%Z with (z 0). apply ok_assign with (n := z nt); [reflexivity|rewrite map_length, seq_length; cbn; lia|].
  set (K2 := k_assign parr parr_eq K1 (Base Arange) 0 (map z (seq 0 nt))).
  assert (KE02 : keeps (fun a => ~ tgt_array a) K0 K2).
  { eapply keeps_trans; [|apply keeps_assign; away]. eapply keeps_trans; apply keeps_alloc; away. }
  assert (HA2 : has K2 (Base Arange) nt nt z).
  { assert (LA : length (map z (seq 0 nt)) = nt) by (rewrite map_length, seq_length; auto). rewrite <- LA at 2. apply has_assign_fresh; [reflexivity|rewrite LA; auto|].
    intros k Hk. rewrite LA in Hk. change 0%Z with (z 0). rewrite map_nth, seq_nth by auto. auto. }
  assert (L2 : len K2 (Base UserIds) = Some (z nt)) by reflexivity. clearbody K2. clear K1.
  apply (put_ok K2 nt UserIds Arange TargetIds nt (sorted_target_ids p) z (fun k => z (ids k))); try discriminate; auto.
  { apply (tgt_kept _ _ _ _ _ _ KE02 HID Logic.I). } { exact sorted_lt. } { intros k Hk. rewrite ids_inv; auto. } { intros k Hk. left. apply (perm_fun_onto _ _ k PS Hk). }
  intros K3 KE3 HI3. assert (KE03 : keeps (fun a => ~ tgt_array a) K0 K3) by (eapply keeps_trans; [exact KE02|]; eapply keeps_weaken; [|exact KE3]; intros b ->; away).
  assert (HUF3 := tgt_kept _ _ _ _ _ _ KE03 HUF Logic.I). assert (HBT3 := tgt_kept _ _ _ _ _ _ KE03 HBT Logic.I). assert (HBC3 := tgt_kept _ _ _ _ _ _ KE03 HBC Logic.I).
  refine (build_lists_ok parray pname parray_eq pname_eq [(FiltTgtList, false)] _ (nboxes t) user_order_gen (fun b => map entry_of (nth b ll [])) K3 _ _ _ _).
  { constructor; [intros []|constructor]. }
  { intros b Hb. unfold ll. rewrite (nth_indep _ [] (user_order_list p flags order 0)) by (rewrite map_length, seq_length; auto). rewrite map_nth, seq_nth by auto.
    unfold user_order_gen. apply (gen_load _ _ _ _ _ _ _ _ _ _ _ HBT3); [auto|exact Logic.I|]. apply (gen_load _ _ _ _ _ _ _ _ _ _ _ HBC3); [auto|exact Logic.I|].
    rewrite Nat2Z.id. apply append_ok; auto. }
  intros K4 b SM BT. destruct (BT FiltTgtList false (or_introl eq_refl)) as [X1 X2 X3 _]. cbn [ListBuilderFacts.kept] in *.
  assert (Y : rows pname pname_eq (nboxes t) (fun b => map entry_of (nth b ll [])) FiltTgtList = map (map z) ll).
  { unfold rows. assert (LL : length ll = nboxes t) by (unfold ll; rewrite map_length, seq_length; auto). apply (nth_ext _ _ [] []); rewrite !map_length, seq_length; auto.
    intros i Hi. set (g := fun i => entries pname pname_eq FiltTgtList (map entry_of (nth i ll []))). rewrite (nth_indep _ [] (g 0)) by (rewrite map_length, seq_length; auto).
    rewrite (map_nth g), seq_nth by auto. unfold g. rewrite entries_all, map_map. cbn [entry_of snd plus]. change (@nil Z) with (map z []). rewrite map_nth. auto. }
  rewrite Y in *. apply ok_ret. intros d A. split.
  - rewrite X1. cbn [num_entries]. rewrite <- concat_map, map_length. reflexivity.
  - unfold filter_in_user_order. cbn [fst]. fold order ll. unfold device_has_user_lists, csr_of. cbn [starts lists].
    replace (map (@length Z) (map (map z) ll)) with (map (@length nat) ll) in X2 by (rewrite map_map; apply map_ext; intros r; rewrite map_length; auto).
    rewrite <- concat_map in X3. unfold prefixes in X2. unfold is_list in X2, X3. rewrite map_length in X2, X3.
    split; (eapply has_holds; [exact A|]); (eapply has_ext; [first [exact X2|exact X3]|]); intros k Hk; cbn beta; change 0%Z with (z 0); apply map_nth.
Qed.
End UserOrder.
Lemma tgt_agrees d : (forall j, j < nt -> cells d (Base UserFlags) (z j) = fl j) -> device_has_targets t p targets flags d -> agrees (known_of tgt_arrays) d.
Proof.
  intros E [A1 A2 A3 A4 A5 A6]. apply known_of_agrees. intros a m f E1. destruct a as [[]| | | | | | | | |]; cbn [tgt_arrays] in E1; try discriminate E1; try (injection E1 as <- <-; assumption).
  - destruct (Nat.ltb_spec axis (dim t)); [|discriminate]. injection E1 as <- <-. auto.
  - injection E1 as <- <-. split; auto.
Qed.
End Filter.
