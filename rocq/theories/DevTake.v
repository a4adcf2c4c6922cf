(** Pruning boxes on the device (BuildDeviceEnd.v): the non-child counts, the numbers of the
    boxes that stay, and the copies of the box arrays. *)
From Coq Require Import List Arith ZArith NArith Lia Bool Permutation.
From Verif Require Import Base Tree Walk Traversal Fmm TreeBuild ArrayFacts Kernel Device DeviceRules DeviceFacts BuildDevice
  BuildDeviceEnd BuildInv BuildScan BuildIds BuildSort BuildAdvance BuildRenumber BuildStep BuildNext BuildLoop BuildDone
  BuildTerm BuildPrune BuildSplit BuildView.
Import ListNotations.

Notation knownp := (Device.known parray).
Notation okp := (ok parray parray_eq).

(** what is known about arrays outside of [W] stays known *)
Definition keeps (W : parray -> Prop) (K K' : knownp) : Prop :=
  forall b m n f, ~ W b -> has K b m n f -> has K' b m n f.
Lemma keeps_refl W K : keeps W K K.
Proof. intros b m n f _ H. exact H. Qed.
Lemma keeps_trans W K1 K2 K3 : keeps W K1 K2 -> keeps W K2 K3 -> keeps W K1 K3.
Proof. intros A B b m n f N H. apply B; auto. Qed.
Lemma keeps_weaken (W W' : parray -> Prop) K K' : (forall b, W b -> W' b) -> keeps W K K' -> keeps W' K K'.
Proof. intros I A b m n f N H. apply A; auto. Qed.
Lemma keeps_alloc (W : parray -> Prop) K a n : W a -> keeps W K (k_alloc parray parray_eq K a n).
Proof. intros A b m k f N H. apply has_alloc_other; auto. intros ->. auto. Qed.
Lemma keeps_move (W : parray -> Prop) K a b : W a -> W b -> keeps W K (k_move parray parray_eq K a b).
Proof. intros A B c m k f N H. apply has_move_other; auto; intros ->; auto. Qed.
Lemma keeps_assign (W : parray -> Prop) K a p l : W a -> keeps W K (k_assign parray parray_eq K a p l).
Proof. intros A b m k f N H. apply has_assign_other; auto. intros ->. auto. Qed.
Lemma keeps_upd (W : parray -> Prop) K F : (forall b, ~ W b -> F b = None) -> keeps W K (upd K F).
Proof. intros A b m k f N H. apply has_upd_none; auto. Qed.
Lemma keeps_upd1 (W : parray -> Prop) K a (f : nat -> option Z) : W a ->
  keeps W K (upd K (fun x => if parray_eq x a then Some f else None)).
Proof. intros A. apply keeps_upd. intros b N. destruct (parray_eq b a) as [->|]; auto. contradiction. Qed.

(** arrays used inside a scan *)
Definition scan_array (x : parray) : Prop := x = In1 \/ x = Flag1 \/ x = Out1.
Ltac no_scan := unfold scan_array; let E := fresh in intros E; repeat (destruct E as [E|E]); discriminate E.

Definition only (a : parray) (f : nat -> option Z) : parray -> option (nat -> option Z) :=
  fun x => if parray_eq x a then Some f else None.
Lemma only_same a f : only a f a = Some f.
Proof. unfold only. destruct (parray_eq a a); auto. contradiction. Qed.
Lemma only_other a f x : x <> a -> only a f x = None.
Proof. unfold only. destruct (parray_eq x a); auto. contradiction. Qed.

(** a launch storing to one array *)
Lemma launch_only {R} K n code a m (f : nat -> Z) cov (next : host parray R) Q :
  len K a = Some (z m) -> cov <= m ->
  (forall i, i < n -> item_ok K (only a (fun k => Some (f k))) (code i)) ->
  (forall k, k < m -> (exists i, i < n /\ stores K (code i) a k) \/ val K a k = Some (f k)) ->
  (forall K', keeps (fun x => x = a) K K' -> has K' a m m f -> okp K' next Q) ->
  okp K (Launch n code next) Q.
Proof.
  intros L B I C O. apply ok_launch_items with (F := only a (fun k => Some (f k))); auto.
  - intros b g m' k w E L' B' V. unfold only in E. destruct (parray_eq b a) as [->|]; [|discriminate]. injection E as <-.
    rewrite L in L'. injection L' as <-. injection V as <-. apply C. lia.
  - apply O.
    + apply keeps_upd. intros b N. apply only_other. auto.
    + apply has_upd_some with (g := fun k => Some (f k)); auto. apply only_same.
Qed.

(** ** A scan with one component, without segments *)
Lemma scan_plain {R} (n : nat) (K : knownp) input output (f : nat -> Z) (next : host parray R) Q :
  (forall K' i, keeps scan_array K K' -> len K' In1 = Some (z n) -> i < n ->
     item_ok K' (only In1 (fun k => Some (f k))) (input i) /\ stores K' (input i) In1 i) ->
  (forall K', keeps scan_array K K' -> has K' Out1 n n (fun k => seg_scan (fun _ => false) Z.add f k) ->
     okp K' (Launch n output next) Q) ->
  okp K (scan_program n input output next) Q.
Proof.
  intros I O. unfold scan_program. apply ok_alloc; [lia|]. apply ok_alloc; [lia|]. apply ok_alloc; [lia|].
  set (K1 := k_alloc _ _ (k_alloc _ _ (k_alloc _ _ K In1 (z n)) Out1 (z n)) Flag1 (z n)).
  assert (KE : keeps scan_array K K1).
  { eapply keeps_trans; [apply keeps_alloc|eapply keeps_trans; [apply keeps_alloc|apply keeps_alloc]]; unfold scan_array; auto. }
  apply launch_only with (a := In1) (m := n) (f := f) (cov := n); auto.
  - intros i Hi. apply (I K1 i); auto.
  - intros k Hk. left. exists k. split; auto. apply (I K1 k); auto.
  - intros K2 E2 H2. apply ok_scan with (n := n).
    + intros p [<-|[]]. apply H2.
    + assert (X : has K2 Flag1 n n (fun _ => 0%Z)) by (apply E2; [discriminate|apply has_alloc_same; lia]). apply X.
    + apply O.
      * intros b m k g N H. assert (H' : has K2 b m k g).
        { apply E2; [intros ->; apply N; unfold scan_array; auto|]. apply KE; auto. }
        destruct H' as [A B C]. constructor; auto. intros j Hj. cbn [k_scan val].
        unfold result_part. cbn [scan_parts one_scan find snd fst].
        destruct (parray_eq b Out1) as [->|]; [exfalso; apply N; unfold scan_array; auto|apply C; auto].
      * assert (HF : has K2 Flag1 n n (fun _ => 0%Z)) by (apply E2; [discriminate|apply has_alloc_same; lia]).
        assert (HO : has K2 Out1 n n (fun _ => 0%Z)).
        { apply E2; [discriminate|]. apply has_alloc_other; [discriminate|]. apply has_alloc_same. lia. }
        destruct H2 as [L2 _ V2]. destruct HF as [LF _ VF]. constructor; [apply HO|lia|]. intros k Hk. cbn [k_scan val].
        unfold result_part. cbn [scan_parts one_scan find snd fst scan_flag].
        destruct (parray_eq Out1 Out1); [|contradiction].
        replace (forallb _ _) with true.
        2:{ symmetry. apply forallb_forall. intros i Hi. apply in_seq in Hi. rewrite V2, VF by lia. auto. }
        destruct (Nat.ltb_spec k n); [|lia]. cbn [andb]. f_equal. apply seg_scan_ext_le; intros i Hi.
        -- rewrite VF by lia. auto.
        -- rewrite V2 by lia. auto.
Qed.
(** with segments *)
Lemma scan_segmented {R} (n : nat) (K : knownp) input output (f : nat -> Z) (fl : nat -> bool) (next : host parray R) Q :
  (forall K' i, keeps scan_array K K' -> len K' In1 = Some (z n) -> len K' Flag1 = Some (z n) -> i < n ->
     item_ok K' (fun x => if parray_eq x In1 then Some (fun k => Some (f k)) else
                          if parray_eq x Flag1 then Some (fun k => Some (bool_z (fl k))) else None) (input i) /\
     stores K' (input i) In1 i /\ stores K' (input i) Flag1 i) ->
  (forall K', keeps scan_array K K' -> has K' Out1 n n (fun k => seg_scan fl Z.add f k) ->
     okp K' (Launch n output next) Q) ->
  okp K (scan_program n input output next) Q.
Proof.
  intros I O. unfold scan_program. apply ok_alloc; [lia|]. apply ok_alloc; [lia|]. apply ok_alloc; [lia|].
  set (K1 := k_alloc _ _ (k_alloc _ _ (k_alloc _ _ K In1 (z n)) Out1 (z n)) Flag1 (z n)).
  assert (KE : keeps scan_array K K1).
  { eapply keeps_trans; [apply keeps_alloc|eapply keeps_trans; [apply keeps_alloc|apply keeps_alloc]]; unfold scan_array; auto. }
  set (F := fun x => if parray_eq x In1 then Some (fun k => Some (f k)) else
                          if parray_eq x Flag1 then Some (fun k => Some (bool_z (fl k))) else None).
  apply ok_launch_items with (F := F).
  - intros i Hi. apply (I K1 i); auto.
  - intros a g m k w E L B V. left. unfold F in E. destruct (parray_eq a In1) as [->|].
    + injection L as <-. exists k. split; [lia|]. apply (I K1 k); auto. lia.
    + destruct (parray_eq a Flag1) as [->|]; [|discriminate]. injection L as <-. exists k. split; [lia|].
      apply (I K1 k); auto. lia.
  - apply ok_scan with (n := n); [intros p [<-|[]]; reflexivity|reflexivity|].
    apply O.
    + intros b m k g N H. apply KE in H; auto. destruct H as [A B C]. constructor; auto. intros j Hj. cbn [k_scan val].
      unfold result_part. cbn [scan_parts one_scan find snd fst].
      destruct (parray_eq b Out1) as [->|]; [exfalso; apply N; unfold scan_array; auto|].
      cbn [upd val]. unfold F. destruct (parray_eq b In1) as [->|]; [exfalso; apply N; unfold scan_array; auto|].
      destruct (parray_eq b Flag1) as [->|]; [exfalso; apply N; unfold scan_array; auto|]. apply C; auto.
    + constructor; [reflexivity|lia|]. intros k Hk. cbn [k_scan val].
      unfold result_part. cbn [scan_parts one_scan find snd fst scan_flag].
      destruct (parray_eq Out1 Out1); [|contradiction]. cbn [upd val]. unfold F.
      destruct (parray_eq In1 In1); [|contradiction]. destruct (parray_eq Flag1 In1); [discriminate|].
      destruct (parray_eq Flag1 Flag1); [|contradiction].
      replace (forallb _ _) with true by (symmetry; apply forallb_forall; auto).
      destruct (Nat.ltb_spec k n); [|lia]. cbn [andb]. f_equal. apply seg_scan_ext_le; intros i Hi; auto.
      destruct (fl i); auto.
Qed.

(** ** One copy *)
Lemma take_ok {R} K n N M a mapped (old dst : nat -> nat) m (f : nat -> Z) (next : host parray R) Q :
  a <> Pruned -> a <> SrcIds -> a <> NewIds -> n <= N ->
  has K SrcIds N n (fun j => z (old j)) -> has K a m M f -> (forall j, j < n -> old j < M) ->
  (mapped = true -> has K NewIds N N (fun b => z (dst b)) /\ forall j, j < n -> (0 <= f (old j) < z N)%Z) ->
  (forall K', keeps (fun x => x = a \/ x = Pruned) K K' ->
     has K' a n n (fun j => if mapped then z (dst (Z.to_nat (f (old j)))) else f (old j)) -> okp K' next Q) ->
  okp K (take_program n a mapped next) Q.
Proof.
  intros N1 N2 N3 NN HS HA HB HM O. unfold take_program. apply ok_alloc; [lia|].
  set (K1 := k_alloc _ _ K Pruned (z n)).
  assert (HS1 : has K1 SrcIds N n (fun j => z (old j))) by (apply has_alloc_other; [discriminate|auto]).
  assert (HA1 : has K1 a m M f) by (apply has_alloc_other; auto).
  set (g := fun j => if mapped then z (dst (Z.to_nat (f (old j)))) else f (old j)).
  apply launch_only with (a := Pruned) (m := n) (f := g) (cov := n); auto.
  - intros i Hi. unfold take_item. apply (item_load _ _ _ _ _ _ _ _ _ HS1); auto. cbn beta.
    apply (item_load _ _ _ _ _ _ _ _ _ HA1); auto; [apply only_other; auto|].
    assert (ST : item_ok K1 (only Pruned (fun k => Some (g k))) (Store Pruned (z i) (g i) Finish)).
    { apply item_store with (m := n) (f := fun k => Some (g k)); auto. exact Logic.I. }
    unfold g in ST at 2. destruct mapped; auto. destruct (HM eq_refl) as [HD BD]. assert (X := BD i Hi).
    rewrite <- (Z2Nat.id (f (old i))) by lia. assert (HD1 : has K1 NewIds N N (fun b => z (dst b))) by (apply has_alloc_other; [discriminate|auto]).
    apply (item_load _ _ _ _ _ _ _ _ _ HD1); auto. lia.
  - intros k Hk. left. exists k. split; auto. unfold take_item.
    apply (stores_load _ _ _ _ _ _ _ _ _ _ HS1); auto. apply (stores_load _ _ _ _ _ _ _ _ _ _ HA1); auto.
    destruct mapped; [|apply stores_here]. destruct (HM eq_refl) as [HD BD]. assert (X := BD k Hk).
    rewrite <- (Z2Nat.id (f (old k))) by lia. assert (HD1 : has K1 NewIds N N (fun b => z (dst b))) by (apply has_alloc_other; [discriminate|auto]).
    apply (stores_load _ _ _ _ _ _ _ _ _ _ HD1); [lia|]. apply stores_here.
  - intros K2 E2 H2. apply ok_move. apply O.
    + intros b m' n' f' N' H. apply has_move_other; [intros ->; apply N'; auto|intros ->; apply N'; auto|].
      apply E2; [intros ->; apply N'; auto|]. apply has_alloc_other; [intros ->; apply N'; auto|auto].
    + apply has_move_same. exact H2.
Qed.
