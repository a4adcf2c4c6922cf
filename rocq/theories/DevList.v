(** Linking point sources and filtering targets on the device (ListDevice.v) gives the results of
    ParticleLists.v. *)
From Coq Require Import List Arith ZArith Lia Bool Permutation.
From Verif Require Import Base Tree Traversal TraversalLists Fmm TreeBuild ArrayFacts SpecFmm ParticleLists SpecLists ParticleListFacts Kernel Device DeviceRules DeviceFacts
  ListBuilder ListBuilderFacts ListDevice SpecListDevice.
Import ListNotations.

Notation knownp := (Device.known parr).
Notation okp := (ok parr parr_eq).
Notation z := Z.of_nat.

(** what is known about arrays outside of [W] stays known *)
Definition keeps (W : parr -> Prop) (K K' : knownp) : Prop := forall b m n f, ~ W b -> has K b m n f -> has K' b m n f.
Lemma keeps_refl W K : keeps W K K.
Proof. intros b m n f _ H. exact H. Qed.
Lemma keeps_trans W K1 K2 K3 : keeps W K1 K2 -> keeps W K2 K3 -> keeps W K1 K3.
Proof. intros A B b m n f N H. apply B; auto. Qed.
Lemma keeps_weaken (W W' : parr -> Prop) K K' : (forall b, W b -> W' b) -> keeps W K K' -> keeps W' K K'.
Proof. intros I A b m n f N H. apply A; auto. Qed.
Lemma keeps_alloc (W : parr -> Prop) K a n : W a -> keeps W K (k_alloc parr parr_eq K a n).
Proof. intros A b m k f N H. apply has_alloc_other; auto. intros ->. auto. Qed.
Lemma keeps_assign (W : parr -> Prop) K a p l : W a -> keeps W K (k_assign parr parr_eq K a p l).
Proof. intros A b m k f N H. apply has_assign_other; auto. intros ->. auto. Qed.
Lemma keeps_upd (W : parr -> Prop) K F : (forall b, ~ W b -> F b = None) -> keeps W K (upd K F).
Proof. intros A b m k f N H. apply has_upd_none; auto. Qed.

(** ** Launches: [W a]: the first so many elements of [a] are known after the launch, and these are they *)
Definition F_of (W : parr -> option (nat * (nat -> Z))) (a : parr) : option (nat -> option Z) :=
  match W a with Some (m, f) => Some (fun k => if k <? m then Some (f k) else None) | None => None end.
Lemma launch_to {R} K n code W (next : phost R) Q :
  (forall a m f, W a = Some (m, f) -> exists n', len K a = Some (z n') /\ m <= n') ->
  (forall i, i < n -> item_ok K (F_of W) (code i)) ->
  (forall a m f k, W a = Some (m, f) -> k < m -> (exists i, i < n /\ stores K (code i) a k) \/ val K a k = Some (f k)) ->
  (forall K', keeps (fun x => W x <> None) K K' -> (forall a m f n', W a = Some (m, f) -> len K a = Some (z n') -> has K' a n' m f) -> okp K' next Q) ->
  okp K (Launch n code next) Q.
Proof.
  intros L I C O. apply ok_launch_items with (F := F_of W); auto.
  - intros a g m' k w E L' B' V. unfold F_of in E. destruct (W a) as [[m f]|] eqn:EW; [|discriminate]. injection E as <-.
    destruct (Nat.ltb_spec k m) as [H|H]; [|discriminate]. injection V as <-. apply (C a m f k); auto.
  - apply O.
    + apply keeps_upd. intros b N. unfold F_of. destruct (W b) as [[m f]|]; auto. destruct N. discriminate.
    + intros a m f n' EW L'. destruct (L a m f EW) as [n2 [L2 B2]]. rewrite L' in L2. injection L2 as E. apply Nat2Z.inj in E. subst n2.
      eapply has_upd_some; [unfold F_of; rewrite EW; reflexivity|auto|auto|]. intros k Hk. cbn beta. destruct (Nat.ltb_spec k m); [auto|lia].
Qed.
Lemma store_to K (W : parr -> option (nat * (nat -> Z))) a k v next n m f : len K a = Some (z n) -> W a = Some (m, f) -> k < m -> m <= n -> f k = v ->
  item_ok K (F_of W) next -> item_ok K (F_of W) (Store a (z k) v next).
Proof.
  intros L E B Bn V O. eapply item_store; [exact L|lia| | |exact O].
  - unfold F_of. rewrite E. reflexivity.
  - cbn beta. destruct (Nat.ltb_spec k m); [congruence|lia].
Qed.
Lemma F_of_none W a : W a = None -> F_of W a = None.
Proof. unfold F_of. intros ->. auto. Qed.
(** a launch storing to one array *)
Definition only (a : parr) (m : nat) (f : nat -> Z) : parr -> option (nat * (nat -> Z)) := fun x => if parr_eq x a then Some (m, f) else None.
Lemma only_same a m f : only a m f a = Some (m, f).
Proof. unfold only. destruct (parr_eq a a); auto. contradiction. Qed.
Lemma only_other a m f x : x <> a -> only a m f x = None.
Proof. unfold only. destruct (parr_eq x a); auto. contradiction. Qed.
Lemma launch_only {R} K n code a m (f : nat -> Z) (next : phost R) Q :
  len K a = Some (z m) ->
  (forall i, i < n -> item_ok K (F_of (only a m f)) (code i)) ->
  (forall k, k < m -> (exists i, i < n /\ stores K (code i) a k) \/ val K a k = Some (f k)) ->
  (forall K', keeps (fun x => x = a) K K' -> has K' a m m f -> okp K' next Q) ->
  okp K (Launch n code next) Q.
Proof.
  intros L I C O. apply launch_to with (W := only a m f); auto.
  - intros b m' f' E. unfold only in E. destruct (parr_eq b a) as [->|]; [|discriminate]. injection E as <- <-. eauto.
  - intros b m' f' k E. unfold only in E. destruct (parr_eq b a) as [->|]; [|discriminate]. injection E as <- <-. auto.
  - intros K' KE H. apply O; [|apply H; auto; apply only_same]. eapply keeps_weaken; [|exact KE]. cbn beta. intros b E. unfold only in E.
    destruct (parr_eq b a); auto. contradiction.
Qed.

(** ** Operations on whole arrays *)
Lemma len_alloc K a n : len (k_alloc parr parr_eq K a n) a = Some n.
Proof. cbn [k_alloc len]. destruct (parr_eq a a); auto. contradiction. Qed.
Lemma filled_ok {R} K n a v (next : phost R) Q :
  (forall K', keeps (fun x => x = Base a) K K' -> has K' (Base a) n n (fun _ => v) -> okp K' next Q) -> okp K (filled n a v next) Q.
Proof.
  intros O. unfold filled. apply ok_alloc; [lia|]. apply launch_only with (a := Base a) (m := n) (f := fun _ => v); [apply len_alloc| | |].
  - intros i Hi. eapply store_to; [apply len_alloc|apply only_same|auto|auto|auto|exact Logic.I].
  - intros k Hk. left. exists k. split; auto. apply stores_here.
  - intros K' KE H. apply O; auto. eapply keeps_trans; [apply keeps_alloc; auto|exact KE].
Qed.
Lemma taken_ok {R} K n out src idx m (j : nat -> nat) f (next : phost R) Q : out <> src -> out <> idx ->
  has K (Base idx) n n (fun k => z (j k)) -> has K (Base src) m m f -> (forall k, k < n -> j k < m) ->
  (forall K', keeps (fun x => x = Base out) K K' -> has K' (Base out) n n (fun k => f (j k)) -> okp K' next Q) ->
  okp K (taken n out src idx next) Q.
Proof.
  intros N1 N2 HI HS B O. unfold taken. apply ok_alloc; [lia|]. set (K1 := k_alloc parr parr_eq K (Base out) (z n)).
  assert (HI1 : has K1 (Base idx) n n (fun k => z (j k))) by (apply has_alloc_other; auto; congruence).
  assert (HS1 : has K1 (Base src) m m f) by (apply has_alloc_other; auto; congruence).
  assert (LO : len K1 (Base out) = Some (z n)) by apply len_alloc.
  apply launch_only with (a := Base out) (m := n) (f := fun k => f (j k)); auto.
  - intros i Hi. apply (item_load _ _ _ _ _ _ _ _ _ HI1); [auto|apply F_of_none, only_other; congruence|].
    apply (item_load _ _ _ _ _ _ _ _ _ HS1); [auto|apply F_of_none, only_other; congruence|].
    eapply store_to; [exact LO|apply only_same|auto|auto|auto|exact Logic.I].
  - intros k Hk. left. exists k. split; auto. apply (stores_load _ _ _ _ _ _ _ _ _ _ HI1); auto.
    apply (stores_load _ _ _ _ _ _ _ _ _ _ HS1); auto. apply stores_here.
  - intros K' KE H. apply O; auto. eapply keeps_trans; [apply keeps_alloc; auto|exact KE].
Qed.
(** [out[idx] = src] with different indices; [g]: the contents afterwards *)
Lemma put_ok {R} K n out src idx m (j : nat -> nat) f g (next : phost R) Q : out <> src -> out <> idx ->
  has K (Base idx) n n (fun k => z (j k)) -> has K (Base src) n n f -> len K (Base out) = Some (z m) -> (forall k, k < n -> j k < m) ->
  (forall k, k < n -> g (j k) = f k) ->
  (forall k, k < m -> (exists i, i < n /\ j i = k) \/ val K (Base out) k = Some (g k)) ->
  (forall K', keeps (fun x => x = Base out) K K' -> has K' (Base out) m m g -> okp K' next Q) ->
  okp K (put n out src idx next) Q.
Proof.
  intros N1 N2 HI HS LO B E C O. unfold put. apply launch_only with (a := Base out) (m := m) (f := g); auto.
  - intros i Hi. apply (item_load _ _ _ _ _ _ _ _ _ HI); [auto|apply F_of_none, only_other; congruence|].
    apply (item_load _ _ _ _ _ _ _ _ _ HS); [auto|apply F_of_none, only_other; congruence|].
    eapply store_to; [exact LO|apply only_same|auto|auto|auto|exact Logic.I].
  - intros k Hk. destruct (C k Hk) as [[i [Hi <-]]|V]; auto. left. exists i. split; auto.
    apply (stores_load _ _ _ _ _ _ _ _ _ _ HI); auto. apply (stores_load _ _ _ _ _ _ _ _ _ _ HS); auto. apply stores_here.
Qed.
Lemma sliced_ok {R} K n out src m f (next : phost R) Q : out <> src -> has K (Base src) m n f ->
  (forall K', keeps (fun x => x = Base out) K K' -> has K' (Base out) n n f -> okp K' next Q) -> okp K (sliced n out src next) Q.
Proof.
  intros N HS O. unfold sliced. apply ok_alloc; [lia|]. set (K1 := k_alloc parr parr_eq K (Base out) (z n)).
  assert (HS1 : has K1 (Base src) m n f) by (apply has_alloc_other; auto; congruence).
  assert (LO : len K1 (Base out) = Some (z n)) by apply len_alloc.
  apply launch_only with (a := Base out) (m := n) (f := f); auto.
  - intros i Hi. apply (item_load _ _ _ _ _ _ _ _ _ HS1); [auto|apply F_of_none, only_other; congruence|].
    eapply store_to; [exact LO|apply only_same|auto|auto|auto|exact Logic.I].
  - intros k Hk. left. exists k. split; auto. apply (stores_load _ _ _ _ _ _ _ _ _ _ HS1); auto. apply stores_here.
  - intros K' KE H. apply O; auto. eapply keeps_trans; [apply keeps_alloc; auto|exact KE].
Qed.

(** ** Scans *)
Definition buffer (a : parr) : Prop := match a with ScanIn | ScanFlag | ScanOut => True | _ => False end.
Lemma scan_step {R} K n (fl v : nat -> Z) m (next : phost R) Q :
  has K ScanIn n n v -> has K ScanFlag n n fl -> len K ScanOut = Some (z m) -> n <= m ->
  (forall K', keeps (fun x => x = ScanOut) K K' -> has K' ScanOut m n (seg_scan (fun i => negb (fl i =? 0)%Z) Z.add v) -> okp K' next Q) ->
  okp K (Scan (mkScan ScanFlag [(ScanIn, ScanOut, Z.add)]) next) Q.
Proof.
  intros HI HF LO B O. apply ok_scan with (n := n); [intros q [<-|[]]; apply HI|apply HF|]. set (sc := mkScan _ _). apply O.
  - intros b m' k g N [A1 B1 C1]. constructor; auto. intros j Hj. cbn [k_scan val]. unfold result_part, sc. cbn [scan_parts find snd fst].
    destruct (parr_eq b ScanOut); [contradiction|auto].
  - constructor; [exact LO|auto|]. intros k Hk. destruct HI as [LI _ VI]. destruct HF as [LF _ VF]. cbn [k_scan val]. unfold result_part, sc. cbn [scan_parts find snd fst scan_flag].
    destruct (parr_eq ScanOut ScanOut); [|contradiction].
    replace (forallb _ _) with true by (symmetry; apply forallb_forall; intros i Hi; apply in_seq in Hi; rewrite VI, VF by lia; auto).
    destruct (Nat.ltb_spec k n); [|lia]. cbn [andb]. f_equal. apply seg_scan_ext_le; intros i Hi; [rewrite VF by lia|rewrite VI by lia]; auto.
Qed.
Definition psum (v : nat -> nat) (i : nat) : nat := nsum (map v (seq 0 i)).
Lemma plain_sum (v : nat -> nat) k : seg_scan (fun _ => false) Z.add (fun i => z (v i)) k = z (psum v (S k)).
Proof. induction k as [|k IH]; cbn [seg_scan]; [cbn; lia|]. rewrite IH. unfold psum. rewrite !nsum_seq_S. lia. Qed.
Definition F_free (F : parr -> option (nat -> option Z)) : Prop := forall a, ~ buffer a -> F a = None.
Lemma scan_kernel_ok {R} K n inp out v (next : phost R) Q :
  (forall K1 F i nxt, keeps buffer K K1 -> F_free F -> i < n ->
     (item_ok K1 F (nxt (z (v i))) -> item_ok K1 F (inp i nxt)) /\ (forall a k, stores K1 (nxt (z (v i))) a k -> stores K1 (inp i nxt) a k)) ->
  (forall K1, keeps buffer K K1 -> has K1 ScanOut n n (fun i => z (psum v (S i))) ->
     okp K1 (Launch n (fun i => Load ScanOut (z i) (fun item =>
       match i with 0 => out i item 0%Z | S i' => Load ScanOut (z i') (fun prev => out i item prev) end)) next) Q) ->
  okp K (scan_kernel n inp out next) Q.
Proof.
  intros I O. unfold scan_kernel. do 3 (apply ok_alloc; [lia|]).
  set (K1 := k_alloc parr parr_eq (k_alloc parr parr_eq (k_alloc parr parr_eq K ScanIn (z n)) ScanFlag (z n)) ScanOut (z n)).
  assert (KE1 : keeps buffer K K1) by (eapply keeps_trans; [eapply keeps_trans|]; apply keeps_alloc; exact Logic.I).
  assert (L1 : len K1 ScanIn = Some (z n)) by reflexivity. assert (HF1 : has K1 ScanFlag n n (fun _ => 0%Z)) by (constructor; auto).
  assert (HO1 : has K1 ScanOut n n (fun _ => 0%Z)) by (constructor; auto). clearbody K1.
  assert (FF : F_free (F_of (only ScanIn n (fun i => z (v i))))).
  { intros a N. apply F_of_none, only_other. intros ->. apply N. exact Logic.I. }
  apply launch_only with (a := ScanIn) (m := n) (f := fun i => z (v i)); auto.
  - intros i Hi. apply (I K1 _ i _ KE1 FF Hi). eapply store_to; [exact L1|apply only_same|auto|auto|auto|exact Logic.I].
  - intros k Hk. left. exists k. split; auto. apply (I K1 _ k _ KE1 FF Hk). apply stores_here.
  - intros K2 KE2 H2. apply (scan_step K2 n (fun _ => 0%Z) (fun i => z (v i)) n); auto; [apply KE2; [discriminate|auto]|apply (KE2 ScanOut n n (fun _ => 0%Z)); [discriminate|auto]|].
    intros K3 KE3 H3. apply O.
    + eapply keeps_trans; [exact KE1|]. eapply keeps_trans; [eapply keeps_weaken; [|exact KE2]; intros b ->; exact Logic.I|].
      eapply keeps_weaken; [|exact KE3]. intros b ->. exact Logic.I.
    + eapply has_ext; [exact H3|]. intros k Hk. apply plain_sum.
Qed.
(** the loads of item and prev_item *)
Lemma with_prev (K : knownp) F n v (out : nat -> Z -> Z -> pitem) i : has K ScanOut n n (fun i => z (psum v (S i))) -> i < n -> F ScanOut = None ->
  (item_ok K F (out i (z (psum v (S i))) (z (psum v i))) ->
   item_ok K F (Load ScanOut (z i) (fun item => match i with 0 => out i item 0%Z | S i' => Load ScanOut (z i') (fun prev => out i item prev) end))) /\
  (forall a k, stores K (out i (z (psum v (S i))) (z (psum v i))) a k ->
   stores K (Load ScanOut (z i) (fun item => match i with 0 => out i item 0%Z | S i' => Load ScanOut (z i') (fun prev => out i item prev) end)) a k).
Proof.
  intros H Hi N. split.
  - intros O. apply (item_load _ _ _ _ _ _ _ _ _ H); auto. destruct i; [exact O|]. apply (item_load _ _ _ _ _ _ _ _ _ H); auto. lia.
  - intros a k O. apply (stores_load _ _ _ _ _ _ _ _ _ _ H); auto. destruct i; [exact O|]. apply (stores_load _ _ _ _ _ _ _ _ _ _ H); auto. lia.
Qed.
(** looking at an array *)
Lemma has_holds K d a n f : agrees K d -> has K a n n f -> array_holds d a n f.
Proof. intros A H. apply (has_agrees parr K a n n f d H A). Qed.

(** what is known of a device of which the arrays [a] in [P] hold [f a] *)
Definition known_of (P : parr -> option (nat * (nat -> Z))) : knownp :=
  mkKnown (fun a => option_map (fun q => z (fst q)) (P a)) (fun a k => match P a with Some (n, f) => Some (f k) | None => None end).
Lemma known_of_agrees P d : (forall a n f, P a = Some (n, f) -> array_holds d a n f) -> agrees (known_of P) d.
Proof.
  intros H. split; cbn [known_of len val].
  - intros a n E. destruct (P a) as [[m f]|] eqn:EP; [|discriminate]. injection E as <-. apply (H a m f EP).
  - intros a n k v E B V. destruct (P a) as [[m f]|] eqn:EP; [|discriminate]. injection E as <-. injection V as <-. cbn [fst] in B. apply (H a m f EP). lia.
Qed.
Lemma known_of_has P a n f : P a = Some (n, f) -> has (known_of P) a n n f.
Proof. intros E. constructor; auto; cbn [known_of len val]; rewrite E; auto. Qed.

(** coordinates *)
Lemma coords_ok {R} K n m dim out src idx (j : nat -> nat) (g : nat -> nat -> Z) (next : phost R) Q :
  (forall a b, out a = out b -> a = b) -> (forall a b, out a <> src b) -> (forall a, out a <> idx) ->
  has K (Base idx) n n (fun k => z (j k)) -> (forall a, a < dim -> has K (Base (src a)) m m (fun k => g k a)) -> (forall k, k < n -> j k < m) ->
  (forall K', keeps (fun x => exists a, x = Base (out a)) K K' -> (forall a, a < dim -> has K' (Base (out a)) n n (fun k => g (j k) a)) -> okp K' next Q) ->
  okp K (each (seq 0 dim) (fun a nx => taken n (out a) (src a) idx nx) next) Q.
Proof.
  intros INJ N1 N2 HI HS B O.
  apply (ok_each_inv parr parr_eq (fun l K' => exists q, seq 0 dim = q ++ l /\ keeps (fun x => exists a, x = Base (out a)) K K' /\
    forall a, In a q -> has K' (Base (out a)) n n (fun k => g (j k) a))).
  - exists []. split; auto. split; [apply keeps_refl|]. intros a [].
  - intros a l K1 nx _ [q [E [KE HQ]]] C. assert (Ha : In a (seq 0 dim)) by (rewrite E; apply in_or_app; right; left; auto).
    assert (NA : ~ In a q). { assert (ND := seq_NoDup dim 0). rewrite E in ND. apply NoDup_remove_2 in ND. intros I. apply ND. apply in_or_app. auto. }
    apply in_seq in Ha. assert (W1 : forall b, ~ (exists a, Base b = Base (out a) :> parr) -> forall m n f, has K (Base b) m n f -> has K1 (Base b) m n f) by (intros; apply KE; auto).
    apply (taken_ok K1 n (out a) (src a) idx m j (fun k => g k a)); auto.
    + apply W1; auto. intros [b Eb]. injection Eb as Eb. apply (N2 b). auto.
    + apply W1; [intros [b Eb]; injection Eb as Eb; apply (N1 b a); auto|]. apply HS. lia.
    + intros K2 KE2 H2. apply C. exists (q ++ [a]). split; [rewrite <- app_assoc; auto|]. split.
      * eapply keeps_trans; [exact KE|]. eapply keeps_weaken; [|exact KE2]. intros b ->. eauto.
      * intros b I. apply in_app_or in I. destruct I as [I|[<-|[]]]; auto. apply KE2; auto. intros Eb. injection Eb as Eb. apply INJ in Eb. congruence.
  - intros K' [q [E [KE HQ]]]. apply O; auto. intros a Ha. apply HQ. rewrite app_nil_r in E. rewrite <- E. apply in_seq. lia.
Qed.
