(** Linking point sources on the device. *)
From Coq Require Import List Arith ZArith Lia Bool Permutation.
From Verif Require Import Base Tree Traversal TraversalLists Fmm TreeBuild ArrayFacts SpecFmm ParticleLists SpecLists ParticleListFacts Kernel Device DeviceRules DeviceFacts
  ListBuilder ListBuilderFacts ListDevice SpecListDevice DevList.
Import ListNotations.

(** an array is not one of some others *)
Ltac away := let H := fresh in intro H; cbn in H; try contradiction; try discriminate H; firstorder discriminate.
Lemma kept W K K' b m n f : keeps W K K' -> has K b m n f -> ~ W b -> has K' b m n f.
Proof. intros KE H N. apply KE; auto. Qed.
Lemma not_in_dec (f : nat -> nat) n k : (exists i, i < n /\ f i = k) \/ forall i, i < n -> f i <> k.
Proof.
  destruct (in_dec Nat.eq_dec k (map f (seq 0 n))) as [H|H].
  - left. apply in_map_iff in H. destruct H as [i [E H]]. apply in_seq in H. exists i. split; auto. lia.
  - right. intros i Hi E. apply H. apply in_map_iff. exists i. split; auto. apply in_seq. lia.
Qed.
Lemma seg_scan_z (s : nat -> bool) (v : nat -> nat) (fl : nat -> Z) n k : (forall i, i < n -> fl i = if s i then 1%Z else 0%Z) -> k < n ->
  seg_scan (fun i => negb (fl i =? 0)%Z) Z.add (fun i => z (v i)) k = z (seg_scan s Nat.add v k).
Proof.
  intros E. induction k as [|k IH]; intros Hk; cbn [seg_scan]; auto. rewrite IH by lia. rewrite E by auto. destruct (s (S k)); cbn; lia.
Qed.
Lemma ids_scan_ok {R} K n (s : nat -> bool) (v : nat -> nat) (next : phost R) Q :
  has K (Base Boundaries) n n (fun k => if s k then 1%Z else 0%Z) -> has K (Base PointIds) n n (fun k => z (v k)) ->
  (forall K', keeps (fun x => buffer x \/ x = Base PointIds) K K' -> has K' (Base PointIds) n n (fun k => z (seg_scan s Nat.add v k)) -> okp K' next Q) ->
  okp K (ids_scan n next) Q.
Proof.
  intros HB HP O. unfold ids_scan. do 3 (apply ok_alloc; [lia|]).
  set (K1 := k_alloc parr parr_eq (k_alloc parr parr_eq (k_alloc parr parr_eq K ScanIn (z n)) ScanFlag (z n)) ScanOut (z n)).
  assert (KE1 : keeps buffer K K1) by (eapply keeps_trans; [eapply keeps_trans|]; apply keeps_alloc; exact Logic.I).
  assert (L1 : len K1 ScanIn = Some (z n)) by reflexivity. assert (L2 : len K1 ScanFlag = Some (z n)) by reflexivity.
  assert (HO1 : has K1 ScanOut n n (fun _ => 0%Z)) by (constructor; auto). clearbody K1.
  assert (HB1 := kept _ _ _ _ _ _ _ KE1 HB ltac:(away)). assert (HP1 := kept _ _ _ _ _ _ _ KE1 HP ltac:(away)).
  set (W := fun a : parr => match a with ScanFlag => Some (n, fun k => if s k then 1%Z else 0%Z) | ScanIn => Some (n, fun k => z (v k)) | _ => None end).
  apply launch_to with (W := W).
  - intros a m f E. destruct a; try discriminate E; injection E as <- <-; eauto.
  - intros i Hi. apply (item_load _ _ _ _ _ _ _ _ _ HB1); auto. apply (item_load _ _ _ _ _ _ _ _ _ HP1); auto.
    eapply store_to; [exact L2|reflexivity|auto|auto|auto|]. eapply store_to; [exact L1|reflexivity|auto|auto|auto|exact Logic.I].
  - intros a m f k E Hk. left. exists k. destruct a; try discriminate E; injection E as <- <-; (split; auto);
      apply (stores_load _ _ _ _ _ _ _ _ _ _ HB1); auto; apply (stores_load _ _ _ _ _ _ _ _ _ _ HP1); auto; [apply stores_later|]; apply stores_here.
  - intros K2 KE2 H2. assert (H2I := H2 ScanIn n _ n eq_refl L1). assert (H2F := H2 ScanFlag n _ n eq_refl L2).
    apply (scan_step K2 n (fun k => if s k then 1%Z else 0%Z) (fun k => z (v k)) n); auto.
    { apply (KE2 ScanOut n n (fun _ => 0%Z)); auto. }
    intros K3 KE3 H3.
    assert (KE : keeps buffer K K3).
    { eapply keeps_trans; [exact KE1|]. eapply keeps_trans; [eapply keeps_weaken; [|exact KE2]|eapply keeps_weaken; [|exact KE3]].
      - intros b. unfold W. destruct b; cbn; tauto.
      - intros b ->. exact Logic.I. }
    assert (HP3 := kept _ _ _ _ _ _ _ KE HP ltac:(away)).
    apply launch_only with (a := Base PointIds) (m := n) (f := fun k => z (seg_scan s Nat.add v k)).
    + apply HP3.
    + intros i Hi. apply (item_load _ _ _ _ _ _ _ _ _ H3); auto.
      eapply store_to; [apply HP3|apply only_same|auto|auto|symmetry; apply (seg_scan_z s v _ n); auto|exact Logic.I].
    + intros k Hk. left. exists k. split; auto. apply (stores_load _ _ _ _ _ _ _ _ _ _ H3); auto. apply stores_here.
    + intros K4 KE4 H4. apply O; auto. eapply keeps_trans; [eapply keeps_weaken; [|exact KE]|eapply keeps_weaken; [|exact KE4]]; cbn; auto.
Qed.

Section Link.
Variable t : tree.
Variable p : particles.
Variable cumul pss : nat -> nat.
Variable points : nat -> nat -> Z.
Let ns := nsources p.
Hypothesis PS : perm_fun (user_source_ids p) ns.
Hypothesis P0 : pss 0 = 0.
Hypothesis POS : forall u, u < ns -> pss u < pss (S u).
(** the indices the kernel for boxes reads are in bounds *)
Definition starts_inside (counts : nat -> nat) : Prop :=
  forall b, b < nboxes t -> box_source_starts p b < ns /\ (counts b <> 0 -> box_source_starts p b + counts b <= ns).
Hypothesis IN1 : starts_inside (box_source_counts_nonchild p).
Hypothesis IN2 : starts_inside cumul.

Let order := seq 0 ns.
Let st := ps_starts p pss.
Let n := npoint_sources p pss.
Let ids := user_point_source_ids p pss order.

Lemma n_eq : n = st ns.
Proof. change (match ns with 0 => 0 | S m => ps_starts p pss (S m) end = ps_starts p pss ns). generalize ns. intros []; auto. Qed.
Lemma uid_lt i : i < ns -> user_source_ids p i < ns.
Proof. intros. apply (perm_fun_lt _ ns); auto. Qed.
Lemma inp_pos i : i < ns -> 0 < ps_input p pss i.
Proof. intros Hi. unfold ps_input. assert (X := POS _ (uid_lt i Hi)). lia. Qed.
Lemma st_lt i : i < ns -> st i < n.
Proof.
  intros Hi. rewrite n_eq. assert (X := starts_mono p pss (S i) ns Hi). rewrite starts_S in X. assert (Y := inp_pos i Hi). unfold st. lia.
Qed.
Lemma st_inj i j : i < ns -> j < ns -> st i = st j -> i = j.
Proof.
  intros Hi Hj E. unfold st in *. destruct (Nat.lt_trichotomy i j) as [C|[C|C]]; auto.
  - assert (X := starts_mono p pss (S i) j C). rewrite starts_S in X. assert (Y := inp_pos i Hi). lia.
  - assert (X := starts_mono p pss (S j) i C). rewrite starts_S in X. assert (Y := inp_pos j Hj). lia.
Qed.
Lemma PO : Permutation order (seq 0 (nsources p)).
Proof. apply Permutation_refl. Qed.
Lemma ids_lt k : k < n -> ids k < pss ns.
Proof.
  intros Hk. assert (S1 : forall i, i < nsources p -> 0 < ps_input p pss i -> ps_seed p pss order (ps_starts p pss i) = pss (user_source_ids p i)).
  { intros i Hi _. apply (seed_positive p pss order PO inp_pos). auto. }
  assert (A := ids_all p pss order PO S1). assert (M : forall u, u < nsources p -> pss u <= pss (S u)) by (intros u Hu; assert (X := POS u Hu); lia).
  assert (B := own_points_perm p pss PS P0 M). assert (I : In (ids k) (seq 0 (pss ns))).
  { apply (Permutation_in _ B). rewrite <- A. apply in_map. apply in_seq. fold n. lia. }
  apply in_seq in I. lia.
Qed.

Definition src_arrays (a : parr) : option (nat * (nat -> Z)) :=
  match a with
  | Base PointStarts => Some (ns + 1, fun u => z (pss u))
  | Base (PointCoord a) => if a <? dim t then Some (pss ns, fun u => points u a) else None
  | Base SourceIds => Some (ns, fun i => z (user_source_ids p i))
  | Base BoxSources => Some (nboxes t, fun b => z (box_source_starts p b))
  | Base BoxSourceCounts => Some (nboxes t, fun b => z (box_source_counts_nonchild p b))
  | Base BoxSourceCumul => Some (nboxes t, fun b => z (cumul b))
  | _ => None
  end.
Lemma src_agrees d : device_has_sources t p cumul pss points d -> agrees (known_of src_arrays) d.
Proof.
  intros [A1 A2 A3 A4 A5 A6]. apply known_of_agrees. intros a m f E. destruct a as [[]| | | | | | | | |]; cbn [src_arrays] in E; try discriminate E; try (injection E as <- <-; assumption).
  destruct (Nat.ltb_spec axis (dim t)); [|discriminate]. injection E as <- <-. auto.
Qed.
(** the arrays of the arguments *)
Definition src_array (a : parr) : Prop :=
  match a with Base (PointStarts | PointCoord _ | SourceIds | BoxSources | BoxSourceCounts | BoxSourceCumul) => True | _ => False end.

Lemma link_output_ok K1 i : i < ns -> len K1 (Base NPoints) = Some (z 1) -> len K1 (Base LinkStarts) = Some (z ns) -> len K1 (Base LinkCounts) = Some (z ns) ->
  let W := fun a : parr => match a with Base LinkStarts => Some (ns, fun i => z (st i)) | Base LinkCounts => Some (ns, fun i => z (ps_counts p pss i))
    | Base NPoints => Some (1, fun _ => z n) | _ => None end in
  item_ok K1 (F_of W) (link_output ns i (z (st (S i))) (z (st i))).
Proof.
  intros Hi L1 L2 L3 W. unfold link_output. eapply store_to; [exact L2|reflexivity|auto|auto|auto|].
  eapply store_to; [exact L3|reflexivity|auto|auto| |].
  { unfold ps_counts. assert (X := starts_mono p pss i (S i) ltac:(lia)). unfold st. lia. }
  destruct (Nat.eqb_spec (S i) ns) as [E|]; [|exact Logic.I].
  change 0%Z with (z 0). eapply store_to; [exact L1|reflexivity|auto|auto| |exact Logic.I]. cbn beta. rewrite n_eq, <- E. auto.
Qed.
Lemma box_count_ok K1 F counts cnt out i f m nx : starts_inside cnt -> i < nboxes t ->
  has K1 (Base counts) (nboxes t) (nboxes t) (fun b => z (cnt b)) -> has K1 (Base LinkStarts) ns ns (fun i => z (st i)) -> has K1 (Base LinkCounts) ns ns (fun i => z (ps_counts p pss i)) ->
  F (Base counts) = None -> F (Base LinkStarts) = None -> F (Base LinkCounts) = None ->
  len K1 (Base out) = Some (z (nboxes t)) -> F (Base out) = Some (fun k => if k <? m then Some (f k) else None) -> i < m -> f i = z (box_ps_counts p pss 0 (box_source_starts p) cnt i) ->
  (item_ok K1 F nx -> item_ok K1 F (box_count counts out i (z (box_source_starts p i)) (z (st (box_source_starts p i))) nx)) /\
  stores K1 (box_count counts out i (z (box_source_starts p i)) (z (st (box_source_starts p i))) nx) (Base out) i /\
  (forall a k, stores K1 nx a k -> stores K1 (box_count counts out i (z (box_source_starts p i)) (z (st (box_source_starts p i))) nx) a k).
Proof.
  intros IN Hi H1 H2 H3 N1 N2 N3 LO FO Hm V. unfold box_count. destruct (IN i Hi) as [I1 I2]. unfold box_ps_counts in V.
  destruct (Nat.eqb_spec (cnt i) 0) as [E|E].
  - split; [|split].
    + intros O. apply (item_load _ _ _ _ _ _ _ _ _ H1); auto. rewrite E. cbn [Z.eqb Z.of_nat]. eapply item_store; [exact LO|auto|exact FO| |auto].
      cbn beta. destruct (Nat.ltb_spec i m); [|lia]. rewrite V. auto.
    + apply (stores_load _ _ _ _ _ _ _ _ _ _ H1); auto. rewrite E. cbn [Z.eqb Z.of_nat]. apply stores_here.
    + intros a k O. apply (stores_load _ _ _ _ _ _ _ _ _ _ H1); auto. rewrite E. cbn [Z.eqb Z.of_nat]. apply stores_later. auto.
  - specialize (I2 E). set (bs := box_source_starts p i) in *. set (lst := bs + cnt i - 1) in *. assert (LL : lst < ns) by (unfold lst; lia).
    assert (EL : (z bs + z (cnt i) - 1)%Z = z lst) by (unfold lst; lia).
    assert (EV : f i = (z (st lst) + z (ps_counts p pss lst) - z (st bs))%Z).
    { rewrite V. unfold box_ps_starts, read. fold ns bs. rewrite !(proj2 (Nat.ltb_lt _ ns)) by lia. fold st. rewrite ps_counts_eq.
      assert (X := starts_mono p pss bs (S lst) ltac:(unfold lst; lia)). rewrite starts_S in X. fold st in X. lia. }
    split; [|split].
    + intros O. apply (item_load _ _ _ _ _ _ _ _ _ H1); auto. destruct (Z.eqb_spec (z (cnt i)) 0); [lia|]. rewrite EL.
      apply (item_load _ _ _ _ _ _ _ _ _ H2); auto. apply (item_load _ _ _ _ _ _ _ _ _ H3); auto. eapply item_store; [exact LO|auto|exact FO| |auto].
      cbn beta. destruct (Nat.ltb_spec i m); [|lia]. rewrite EV. auto.
    + apply (stores_load _ _ _ _ _ _ _ _ _ _ H1); auto. destruct (Z.eqb_spec (z (cnt i)) 0); [lia|]. rewrite EL.
      apply (stores_load _ _ _ _ _ _ _ _ _ _ H2); auto. apply (stores_load _ _ _ _ _ _ _ _ _ _ H3); auto. apply stores_here.
    + intros a k O. apply (stores_load _ _ _ _ _ _ _ _ _ _ H1); auto. destruct (Z.eqb_spec (z (cnt i)) 0); [lia|]. rewrite EL.
      apply (stores_load _ _ _ _ _ _ _ _ _ _ H2); auto. apply (stores_load _ _ _ _ _ _ _ _ _ _ H3); auto. apply stores_later. auto.
Qed.

Let R := match link_point_sources true p cumul pss points order 0 with Some l => l | None => mkLinked 0 st st st points st st st end.
Theorem link_ok : okp (known_of src_arrays) (link_program ns (nboxes t) (dim t)) (fun r d => r = n /\ device_has_linked t p R d).
Proof.
  unfold link_program. set (K0 := known_of src_arrays).
  assert (HPS : has K0 (Base PointStarts) (ns + 1) (ns + 1) (fun u => z (pss u))) by (apply known_of_has; auto).
  assert (HID : has K0 (Base SourceIds) ns ns (fun i => z (user_source_ids p i))) by (apply known_of_has; auto).
  assert (HPC : forall a, a < dim t -> has K0 (Base (PointCoord a)) (pss ns) (pss ns) (fun u => points u a)).
  { intros a Ha. apply known_of_has. cbn [src_arrays]. destruct (Nat.ltb_spec a (dim t)); [auto|lia]. }
  assert (HBS : has K0 (Base BoxSources) (nboxes t) (nboxes t) (fun b => z (box_source_starts p b))) by (apply known_of_has; auto).
  assert (HBC : has K0 (Base BoxSourceCounts) (nboxes t) (nboxes t) (fun b => z (box_source_counts_nonchild p b))) by (apply known_of_has; auto).
  assert (HBU : has K0 (Base BoxSourceCumul) (nboxes t) (nboxes t) (fun b => z (cumul b))) by (apply known_of_has; auto).
  clearbody K0.
  do 3 (apply ok_alloc; [lia|]).
  set (K1 := k_alloc parr parr_eq (k_alloc parr parr_eq (k_alloc parr parr_eq K0 (Base NPoints) 1) (Base LinkStarts) (z ns)) (Base LinkCounts) (z ns)).
  assert (KE1 : keeps (fun a => ~ src_array a) K0 K1).
  { eapply keeps_trans; [eapply keeps_trans|]; apply keeps_alloc; away. }
  assert (HN1 : has K1 (Base NPoints) 1 1 (fun _ => 0%Z)) by (constructor; auto).
  assert (HS1 : has K1 (Base LinkStarts) ns ns (fun _ => 0%Z)) by (constructor; auto).
  assert (HC1 : has K1 (Base LinkCounts) ns ns (fun _ => 0%Z)) by (constructor; auto).
  clearbody K1.
  assert (src_kept : forall K K' a m k f, keeps (fun a => ~ src_array a) K K' -> has K a m k f -> src_array a -> has K' a m k f).
  { intros K K' a m k f KE H S. apply KE; auto. }
  apply scan_kernel_ok with (v := ps_input p pss).
  { intros K2 F i nxt KE2 FF Hi.
    assert (HID2 := kept _ _ _ _ _ _ _ KE2 (src_kept _ _ _ _ _ _ KE1 HID Logic.I) ltac:(away)). assert (HPS2 := kept _ _ _ _ _ _ _ KE2 (src_kept _ _ _ _ _ _ KE1 HPS Logic.I) ltac:(away)).
    assert (U := uid_lt i Hi). assert (EV : z (ps_input p pss i) = (z (pss (S (user_source_ids p i))) - z (pss (user_source_ids p i)))%Z).
    { unfold ps_input. assert (X := POS _ U). lia. }
    unfold count_points. split.
    - intros O. apply (item_load _ _ _ _ _ _ _ _ _ HID2); [auto|apply FF; away|]. replace (z (user_source_ids p i) + 1)%Z with (z (S (user_source_ids p i))) by lia.
      apply (item_load _ _ _ _ _ _ _ _ _ HPS2); [lia|apply FF; away|]. apply (item_load _ _ _ _ _ _ _ _ _ HPS2); [lia|apply FF; away|]. rewrite <- EV. auto.
    - intros a k O. apply (stores_load _ _ _ _ _ _ _ _ _ _ HID2); auto. replace (z (user_source_ids p i) + 1)%Z with (z (S (user_source_ids p i))) by lia.
      apply (stores_load _ _ _ _ _ _ _ _ _ _ HPS2); [lia|]. apply (stores_load _ _ _ _ _ _ _ _ _ _ HPS2); [lia|]. rewrite <- EV. auto. }
  intros K2 KE2 H2. change (psum (ps_input p pss)) with st in H2.
  assert (HN2 := kept _ _ _ _ _ _ _ KE2 HN1 ltac:(away)). assert (HS2 := kept _ _ _ _ _ _ _ KE2 HS1 ltac:(away)). assert (HC2 := kept _ _ _ _ _ _ _ KE2 HC1 ltac:(away)).
  assert (KE02 : keeps (fun a => ~ src_array a) K0 K2).
  { eapply keeps_trans; [exact KE1|]. eapply keeps_weaken; [|exact KE2]. intros b B S. destruct b as [[]| | | | | | | | |]; cbn in *; tauto. }
  clear K1 KE1 HN1 HS1 HC1 KE2.
  set (W := fun a : parr => match a with Base LinkStarts => Some (ns, fun i => z (st i)) | Base LinkCounts => Some (ns, fun i => z (ps_counts p pss i))
    | Base NPoints => Some (1, fun _ => z n) | _ => None end).
  assert (N0 : ns = 0 -> n = 0) by (unfold ns, n, npoint_sources; intros ->; auto).
  apply launch_to with (W := W).
  { intros a m f E. destruct a as [[]| | | | | | | | |]; try discriminate E; injection E as <- <-; [exists 1|exists ns|exists ns]; split; auto; [apply HN2|apply HS2|apply HC2]. }
  { intros i Hi. apply (with_prev K2 (F_of W) ns (ps_input p pss) (link_output ns) i); auto. apply link_output_ok; auto; [apply HN2|apply HS2|apply HC2]. }
  { assert (WP := fun i Hi => proj2 (with_prev K2 (F_of W) ns (ps_input p pss) (link_output ns) i H2 Hi eq_refl)).
    intros a m f k E Hk. destruct a as [[]| | | | | | | | |]; try discriminate E; injection E as <- <-.
    - assert (k = 0) as -> by lia. destruct (Nat.eq_dec ns 0) as [Z0|Z0].
      + right. rewrite (has_val _ _ _ _ _ _ HN2) by lia. rewrite N0 by auto. auto.
      + left. exists (ns - 1). split; [lia|]. apply WP; [lia|]. unfold link_output. do 2 apply stores_later. destruct (Nat.eqb_spec (S (ns - 1)) ns); [|lia]. left. auto.
    - left. exists k. split; auto. apply WP; auto. apply stores_here.
    - left. exists k. split; auto. apply WP; auto. apply stores_later, stores_here. }
  intros K3 KE3 H3. assert (HN3 := H3 (Base NPoints) 1 _ 1 eq_refl (has_len _ _ _ _ _ _ HN2)). assert (HS3 := H3 (Base LinkStarts) ns _ ns eq_refl (has_len _ _ _ _ _ _ HS2)).
  assert (HC3 := H3 (Base LinkCounts) ns _ ns eq_refl (has_len _ _ _ _ _ _ HC2)).
  assert (KE03 : keeps (fun a => ~ src_array a) K0 K3).
  { eapply keeps_trans; [exact KE02|]. eapply keeps_weaken; [|exact KE3]. intros b B S. apply B. destruct b as [[]| | | | | | | | |]; cbn in *; tauto. }
  clear K2 H2 HN2 HS2 HC2 KE02 KE3 H3. clearbody W.
  change 0%Z with (z 0) at 1. apply ok_peek with (n := z 1) (v := z n); [apply HN3|lia|apply (has_val _ _ _ _ _ _ HN3); lia|]. cbv zeta. rewrite Nat2Z.id.
  (* user_point_source_starts *)
  apply (taken_ok K3 ns UserStarts PointStarts SourceIds (ns + 1) (user_source_ids p) (fun u => z (pss u))); try discriminate.
  { apply (src_kept _ _ _ _ _ _ KE03 HID Logic.I). } { apply (src_kept _ _ _ _ _ _ KE03 HPS Logic.I). } { intros k Hk. assert (X := uid_lt k Hk). lia. }
  intros K4 KE4 HU4. assert (HS4 := kept _ _ _ _ _ _ _ KE4 HS3 ltac:(away)). assert (HC4 := kept _ _ _ _ _ _ _ KE4 HC3 ltac:(away)).
  assert (KE04 : keeps (fun a => ~ src_array a) K0 K4) by (eapply keeps_trans; [exact KE03|]; eapply keeps_weaken; [|exact KE4]; intros b ->; away). clear K3 KE03 HN3 HS3 HC3 KE4.
  apply filled_ok. intros K5 KE5 HP5. assert (HS5 := kept _ _ _ _ _ _ _ KE5 HS4 ltac:(away)). assert (HC5 := kept _ _ _ _ _ _ _ KE5 HC4 ltac:(away)). assert (HU5 := kept _ _ _ _ _ _ _ KE5 HU4 ltac:(away)).
  assert (KE05 : keeps (fun a => ~ src_array a) K0 K5) by (eapply keeps_trans; [exact KE04|]; eapply keeps_weaken; [|exact KE5]; intros b ->; away). clear K4 KE04 KE5 HS4 HC4 HU4.
  apply (put_ok K5 ns PointIds UserStarts LinkStarts n st (fun k => z (pss (user_source_ids p k))) (fun k => z (ps_seed p pss order k))); try discriminate; auto.
  { apply HP5. } { exact st_lt. } { intros k Hk. f_equal. apply (seed_positive p pss order PO inp_pos). auto. }
  { intros k Hk. destruct (not_in_dec st ns k) as [E|E]; auto. right. rewrite (has_val _ _ _ _ _ _ HP5) by auto. f_equal. change 1%Z with (z 1). f_equal.
    unfold ps_seed. rewrite (scatter_map_notin (ps_starts p pss) (fun i => pss (user_source_ids p i))); auto. intros i Hi. apply in_seq in Hi. apply E. lia. }
  intros K6 KE6 HP6. assert (HS6 := kept _ _ _ _ _ _ _ KE6 HS5 ltac:(away)). assert (HC6 := kept _ _ _ _ _ _ _ KE6 HC5 ltac:(away)).
  assert (KE06 : keeps (fun a => ~ src_array a) K0 K6) by (eapply keeps_trans; [exact KE05|]; eapply keeps_weaken; [|exact KE6]; intros b ->; away). clear K5 KE05 KE6 HS5 HC5 HU5 HP5.
  apply ok_alloc; [lia|]. set (K7 := k_alloc parr parr_eq K6 (Base Boundaries) (z n)).
  assert (KE7 : keeps (fun a => a = Base Boundaries) K6 K7) by (apply keeps_alloc; auto). assert (HB7 : has K7 (Base Boundaries) n n (fun _ => 0%Z)) by (apply has_alloc_same; auto).
  clearbody K7. assert (HS7 := kept _ _ _ _ _ _ _ KE7 HS6 ltac:(away)). assert (HC7 := kept _ _ _ _ _ _ _ KE7 HC6 ltac:(away)). assert (HP7 := kept _ _ _ _ _ _ _ KE7 HP6 ltac:(away)).
  assert (KE07 : keeps (fun a => ~ src_array a) K0 K7) by (eapply keeps_trans; [exact KE06|]; eapply keeps_weaken; [|exact KE7]; intros b ->; away). clear K6 KE06 KE7 HS6 HC6 HP6.
  apply filled_ok. intros K8 KE8 HO8. assert (HS8 := kept _ _ _ _ _ _ _ KE8 HS7 ltac:(away)). assert (HC8 := kept _ _ _ _ _ _ _ KE8 HC7 ltac:(away)). assert (HP8 := kept _ _ _ _ _ _ _ KE8 HP7 ltac:(away)).
  assert (HB8 := kept _ _ _ _ _ _ _ KE8 HB7 ltac:(away)).
  assert (KE08 : keeps (fun a => ~ src_array a) K0 K8) by (eapply keeps_trans; [exact KE07|]; eapply keeps_weaken; [|exact KE8]; intros b ->; away). clear K7 KE07 KE8 HS7 HC7 HP7 HB7.
  apply (put_ok K8 ns Boundaries Ones LinkStarts n st (fun _ => 1%Z) (fun k => if source_boundaries p pss order k then 1%Z else 0%Z)); try discriminate; auto.
  { apply HB8. } { exact st_lt. }
  { intros k Hk. replace (source_boundaries p pss order (st k)) with true; auto. symmetry. apply (scatter_map_in (ps_starts p pss) (fun _ => true)); auto. apply in_seq. lia. }
  { intros k Hk. destruct (not_in_dec st ns k) as [E|E]; auto. right. rewrite (has_val _ _ _ _ _ _ HB8) by auto. f_equal.
    unfold source_boundaries. rewrite (scatter_map_notin (ps_starts p pss) (fun _ => true)); auto. intros i Hi. apply in_seq in Hi. apply E. lia. }
  intros K9 KE9 HB9. assert (HS9 := kept _ _ _ _ _ _ _ KE9 HS8 ltac:(away)). assert (HC9 := kept _ _ _ _ _ _ _ KE9 HC8 ltac:(away)). assert (HP9 := kept _ _ _ _ _ _ _ KE9 HP8 ltac:(away)).
  assert (KE09 : keeps (fun a => ~ src_array a) K0 K9) by (eapply keeps_trans; [exact KE08|]; eapply keeps_weaken; [|exact KE9]; intros b ->; away). clear K8 KE08 KE9 HS8 HC8 HP8 HB8 HO8.
  apply (ids_scan_ok K9 n (source_boundaries p pss order) (ps_seed p pss order)); auto. change (seg_scan (source_boundaries p pss order) Nat.add (ps_seed p pss order)) with ids.
  intros Ka KEa HPa. assert (HSa := kept _ _ _ _ _ _ _ KEa HS9 ltac:(away)). assert (HCa := kept _ _ _ _ _ _ _ KEa HC9 ltac:(away)).
  assert (KE0a : keeps (fun a => ~ src_array a) K0 Ka).
  { eapply keeps_trans; [exact KE09|]. eapply keeps_weaken; [|exact KEa]. intros b [B| ->] S; [destruct b as [[]| | | | | | | | |]; cbn in *; tauto|exact S]. }
  clear K9 KE09 KEa HS9 HC9 HP9 HB9.
  apply (coords_ok Ka n (pss ns) (dim t) LinkedCoord PointCoord PointIds ids points); auto; try discriminate.
  { intros a b E. injection E. auto. } { intros a Ha. apply (src_kept _ _ _ _ _ _ KE0a (HPC a Ha) Logic.I). } { exact ids_lt. }
  intros Kb KEb HXb. assert (HSb := kept _ _ _ _ _ _ _ KEb HSa ltac:(away)). assert (HCb := kept _ _ _ _ _ _ _ KEb HCa ltac:(away)).
  assert (HPb := kept _ _ _ _ _ _ _ KEb HPa ltac:(away)).
  assert (KE0b : keeps (fun a => ~ src_array a) K0 Kb) by (eapply keeps_trans; [exact KE0a|]; eapply keeps_weaken; [|exact KEb]; intros b [x ->]; away). clear Ka KE0a KEb HSa HCa HPa.
  do 3 (apply ok_alloc; [lia|]).
  set (Kc := k_alloc parr parr_eq (k_alloc parr parr_eq (k_alloc parr parr_eq Kb (Base BoxPoints) (z (nboxes t))) (Base BoxPointCumul) (z (nboxes t))) (Base BoxPointCounts) (z (nboxes t))).
  set (box_out := fun a : parr => match a with Base (BoxPoints | BoxPointCumul | BoxPointCounts) => True | _ => False end).
  assert (KEc : keeps box_out Kb Kc) by (eapply keeps_trans; [eapply keeps_trans|]; apply keeps_alloc; exact Logic.I).
  assert (L1 : len Kc (Base BoxPoints) = Some (z (nboxes t))) by auto. assert (L2 : len Kc (Base BoxPointCumul) = Some (z (nboxes t))) by auto.
  assert (L3 : len Kc (Base BoxPointCounts) = Some (z (nboxes t))) by auto. clearbody Kc.
  assert (HSc := kept _ _ _ _ _ _ _ KEc HSb ltac:(away)). assert (HCc := kept _ _ _ _ _ _ _ KEc HCb ltac:(away)). assert (HPc := kept _ _ _ _ _ _ _ KEc HPb ltac:(away)).
  assert (HXc : forall a, a < dim t -> has Kc (Base (LinkedCoord a)) n n (fun k => points (ids k) a)) by (intros a Ha; apply KEc; [away|auto]).
  assert (KE0c : keeps (fun a => ~ src_array a) K0 Kc).
  { eapply keeps_trans; [exact KE0b|]. eapply keeps_weaken; [|exact KEc]. intros b B S. destruct b as [[]| | | | | | | | |]; cbn in *; tauto. }
  clear Kb KE0b KEc HSb HCb HPb HXb.
  assert (HBSc := src_kept _ _ _ _ _ _ KE0c HBS Logic.I). assert (HBCc := src_kept _ _ _ _ _ _ KE0c HBC Logic.I). assert (HBUc := src_kept _ _ _ _ _ _ KE0c HBU Logic.I).
  set (bstarts := box_ps_starts p pss 0 (box_source_starts p)). set (bcounts := box_ps_counts p pss 0 (box_source_starts p) (box_source_counts_nonchild p)).
  set (bcumul := box_ps_counts p pss 0 (box_source_starts p) cumul).
  set (V := fun a : parr => match a with Base BoxPoints => Some (nboxes t, fun i => z (bstarts i)) | Base BoxPointCumul => Some (nboxes t, fun i => z (bcumul i))
    | Base BoxPointCounts => Some (nboxes t, fun i => z (bcounts i)) | _ => None end).
  assert (BS : forall i, i < nboxes t -> bstarts i = st (box_source_starts p i)).
  { intros i Hi. unfold bstarts, box_ps_starts, read. destruct (IN1 i Hi) as [X _]. fold ns. rewrite (proj2 (Nat.ltb_lt _ ns)) by auto. auto. }
  assert (C1 := fun i nx Hi => box_count_ok Kc (F_of V) BoxSourceCounts (box_source_counts_nonchild p) BoxPointCounts i (fun i => z (bcounts i)) (nboxes t) nx IN1 Hi HBCc HSc HCc eq_refl eq_refl eq_refl L3 eq_refl Hi eq_refl).
  assert (C2 := fun i nx Hi => box_count_ok Kc (F_of V) BoxSourceCumul cumul BoxPointCumul i (fun i => z (bcumul i)) (nboxes t) nx IN2 Hi HBUc HSc HCc eq_refl eq_refl eq_refl L2 eq_refl Hi eq_refl).
  apply launch_to with (W := V).
  { intros a m f E. destruct a as [[]| | | | | | | | |]; try discriminate E; injection E as <- <-; exists (nboxes t); auto. }
  { intros i Hi. unfold box_points. destruct (IN1 i Hi) as [I1 _]. apply (item_load _ _ _ _ _ _ _ _ _ HBSc); auto. apply (item_load _ _ _ _ _ _ _ _ _ HSc); auto.
    eapply store_to; [exact L1|reflexivity|auto|auto|cbn beta; rewrite BS; auto|]. apply C1; auto. apply C2; auto. exact Logic.I. }
  { intros a m f k E Hk. left. exists k. assert (Hk' : k < nboxes t) by (destruct a as [[]| | | | | | | | |]; try discriminate E; injection E as <- <-; auto). split; auto.
    unfold box_points. destruct (IN1 k Hk') as [I1 _]. apply (stores_load _ _ _ _ _ _ _ _ _ _ HBSc); auto. apply (stores_load _ _ _ _ _ _ _ _ _ _ HSc); auto.
    destruct a as [[]| | | | | | | | |]; try discriminate E; [apply stores_here| |]; apply stores_later; [apply (proj1 (proj2 (C1 k _ Hk')))|].
    apply (proj2 (proj2 (C1 k _ Hk'))), (proj1 (proj2 (C2 k _ Hk'))). }
  intros Kd KEd Hd. apply ok_ret. intros d A. split; auto.
  assert (G : forall a m f, V a = None -> has Kc a m m f -> array_holds d a m f).
  { intros a m f N H. apply (has_holds Kd d a m f A). apply KEd; auto. }
  constructor; unfold R; cbn [link_point_sources l_starts l_counts l_user_ids l_npoint_sources l_point_sources l_box_starts l_box_counts_nonchild l_box_counts_cumul].
  - apply G; auto. - apply G; auto. - apply G; auto.
  - intros a Ha. apply G; auto. apply HXc. auto.
  - apply (has_holds Kd d _ _ _ A). apply (Hd (Base BoxPoints) (nboxes t) _ (nboxes t) eq_refl L1).
  - apply (has_holds Kd d _ _ _ A). apply (Hd (Base BoxPointCounts) (nboxes t) _ (nboxes t) eq_refl L3).
  - apply (has_holds Kd d _ _ _ A). apply (Hd (Base BoxPointCumul) (nboxes t) _ (nboxes t) eq_refl L2).
Qed.
End Link.
