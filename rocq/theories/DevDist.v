(** Setting up the tree of a rank on its device (DistDevice.v) gives the results of Partition.v and
    LocalTree.v: rules for operations on whole arrays, and the masks of boxes. *)
From Coq Require Import List Arith ZArith NArith Lia Bool Permutation.
From Verif Require Import Base Tree Walk Traversal TraversalLists Coverage Fmm FmmThm Spec Partition PartitionFacts LocalTree LocalFacts Kernel Device DeviceRules DeviceFacts
  ListBuilderFacts DistDevice SpecDistDevice.
From Verif Require TreeBuild.
Import ListNotations.

Notation knownd := (Device.known darr).
Notation okd := (ok darr darr_eq).
Notation z := Z.of_nat.
Definition bit (b : bool) : Z := if b then 1%Z else 0%Z.

(** what is known about arrays outside of [W] stays known *)
Definition keeps (W : darr -> Prop) (K K' : knownd) : Prop := forall b m n f, ~ W b -> has K b m n f -> has K' b m n f.
Lemma keeps_refl W K : keeps W K K.
Proof. intros b m n f _ H. exact H. Qed.
Lemma keeps_trans W K1 K2 K3 : keeps W K1 K2 -> keeps W K2 K3 -> keeps W K1 K3.
Proof. intros A B b m n f N H. apply B; auto. Qed.
Lemma keeps_weaken (W W' : darr -> Prop) K K' : (forall b, W b -> W' b) -> keeps W K K' -> keeps W' K K'.
Proof. intros I A b m n f N H. apply A; auto. Qed.
Lemma keeps_alloc (W : darr -> Prop) K a n : W a -> keeps W K (k_alloc darr darr_eq K a n).
Proof. intros A b m k f N H. apply has_alloc_other; auto. intros ->. auto. Qed.
Lemma keeps_move (W : darr -> Prop) K a b : W a -> W b -> keeps W K (k_move darr darr_eq K a b).
Proof. intros A B c m k f N H. apply has_move_other; auto; intros ->; auto. Qed.
Lemma keeps_assign (W : darr -> Prop) K a p l : W a -> keeps W K (k_assign darr darr_eq K a p l).
Proof. intros A b m k f N H. apply has_assign_other; auto. intros ->. auto. Qed.
Lemma keeps_upd (W : darr -> Prop) K F : (forall b, ~ W b -> F b = None) -> keeps W K (upd K F).
Proof. intros A b m k f N H. apply has_upd_none; auto. Qed.

Definition only (a : darr) (f : nat -> option Z) : darr -> option (nat -> option Z) := fun x => if darr_eq x a then Some f else None.
Lemma only_same a f : only a f a = Some f.
Proof. unfold only. destruct (darr_eq a a); auto. contradiction. Qed.
Lemma only_other a f x : x <> a -> only a f x = None.
Proof. unfold only. destruct (darr_eq x a); auto. contradiction. Qed.

(** a launch storing to one array *)
Lemma launch_only {R} K n code a m (f : nat -> Z) (next : dhost R) Q :
  len K a = Some (z m) ->
  (forall i, i < n -> item_ok K (only a (fun k => Some (f k))) (code i)) ->
  (forall k, k < m -> (exists i, i < n /\ stores K (code i) a k) \/ val K a k = Some (f k)) ->
  (forall K', keeps (fun x => x = a) K K' -> has K' a m m f -> okd K' next Q) ->
  okd K (Launch n code next) Q.
Proof.
  intros L I C O. apply ok_launch_items with (F := only a (fun k => Some (f k))); auto.
  - intros b g m' k w E L' B' V. unfold only in E. destruct (darr_eq b a) as [->|]; [|discriminate]. injection E as <-.
    rewrite L in L'. injection L' as <-. injection V as <-. apply C. lia.
  - apply O.
    + apply keeps_upd. intros b N. apply only_other. auto.
    + apply has_upd_some with (g := fun k => Some (f k)); auto. apply only_same.
Qed.

(** ** Operations on whole arrays *)
Lemma elementwise_ok {R} K n out ins f (vals : darr -> nat -> Z) (next : dhost R) Q : ~ In out ins ->
  (forall a, In a ins -> has K a n n (vals a)) ->
  (forall K', keeps (fun x => x = out) K K' -> has K' out n n (fun k => f (map (fun a => vals a k) ins)) -> okd K' next Q) ->
  okd K (elementwise n out ins f next) Q.
Proof.
  intros NI HV O. unfold elementwise. apply ok_alloc; [lia|].
  assert (HV' : forall a, In a ins -> has (k_alloc darr darr_eq K out (z n)) a n n (vals a)).
  { intros a I. apply has_alloc_other; auto. intros ->. auto. }
  apply launch_only with (a := out) (m := n) (f := fun k => f (map (fun a => vals a k) ins)).
  - cbn [k_alloc len]. destruct (darr_eq out out); auto. contradiction.
  - intros i Hi. apply item_load_all with (v := fun a => vals a i).
    + intros a I. exists (z n). cbn [fst snd]. rewrite Nat2Z.id. destruct (HV' a I) as [A B C].
      split; [exact A|]. split; [lia|]. split; [auto|]. apply only_other. intros ->. auto.
    + apply item_store with (m := n) (f := fun k => Some (f (map (fun a => vals a k) ins))); auto.
      * cbn [k_alloc len]. destruct (darr_eq out out); auto. contradiction.
      * apply only_same.
      * exact Logic.I.
  - intros k Hk. left. exists k. split; auto. apply stores_load_all with (v := fun a => vals a k).
    + intros a I. cbn [fst snd]. rewrite Nat2Z.id. apply (HV' a I). auto.
    + apply stores_here.
  - intros K' KE H. apply O; auto. eapply keeps_trans; [apply keeps_alloc; auto|exact KE].
Qed.
Lemma indexed_ok {R} K n out src idx m (j : nat -> nat) f (next : dhost R) Q : out <> src -> out <> idx ->
  has K idx n n (fun k => z (j k)) -> has K src m m f -> (forall k, k < n -> j k < m) ->
  (forall K', keeps (fun x => x = out) K K' -> has K' out n n (fun k => f (j k)) -> okd K' next Q) ->
  okd K (indexed n out src idx next) Q.
Proof.
  intros N1 N2 HI HS B O. unfold indexed. apply ok_alloc; [lia|]. set (K1 := k_alloc darr darr_eq K out (z n)).
  assert (HI1 : has K1 idx n n (fun k => z (j k))) by (apply has_alloc_other; auto).
  assert (HS1 : has K1 src m m f) by (apply has_alloc_other; auto).
  assert (LO : len K1 out = Some (z n)) by (unfold K1; cbn [k_alloc len]; destruct (darr_eq out out); auto; contradiction).
  apply launch_only with (a := out) (m := n) (f := fun k => f (j k)); auto.
  - intros i Hi. apply (item_load _ _ _ _ _ _ _ _ _ HI1); [auto|apply only_other; auto|].
    apply (item_load _ _ _ _ _ _ _ _ _ HS1); [auto|apply only_other; auto|].
    apply item_store with (m := n) (f := fun k => Some (f (j k))); auto; [apply only_same|exact Logic.I].
  - intros k Hk. left. exists k. split; auto. apply (stores_load _ _ _ _ _ _ _ _ _ _ HI1); auto.
    apply (stores_load _ _ _ _ _ _ _ _ _ _ HS1); auto. apply stores_here.
  - intros K' KE H. apply O; auto. eapply keeps_trans; [apply keeps_alloc; auto|exact KE].
Qed.
Lemma any_ok {R} K a n m (yes no : dhost R) Q : has K a n n (fun b => bit (m b)) ->
  (existsb m (seq 0 n) = true -> okd K yes Q) -> (existsb m (seq 0 n) = false -> okd K no Q) -> okd K (any_of a (seq 0 n) yes no) Q.
Proof.
  intros H. assert (G : forall l, (forall k, In k l -> k < n) -> (existsb m l = true -> okd K yes Q) -> (existsb m l = false -> okd K no Q) -> okd K (any_of a l yes no) Q).
  { induction l as [|k l IH]; intros B Y N; cbn [any_of existsb] in *; auto. destruct H as [A L V].
    apply ok_peek with (n := z n) (v := bit (m k)); [exact A|specialize (B k (or_introl eq_refl)); lia|apply V, B; left; auto|].
    destruct (m k); cbn [bit Z.eqb orb] in *; auto. apply IH; auto. intros j I. apply B. right; auto. }
  apply G. intros k I. apply in_seq in I. lia.
Qed.
Lemma to_host_ok {R} K a n f (next : list Z -> dhost R) Q : has K a n n f -> okd K (next (map f (seq 0 n))) Q -> okd K (to_host a (seq 0 n) next) Q.
Proof.
  intros H. assert (G : forall l next', (forall k, In k l -> k < n) -> okd K (next' (map f l)) Q -> okd K (to_host a l next') Q).
  { induction l as [|k l IH]; intros next' B O; cbn [to_host map] in *; auto. destruct H as [A L V].
    apply ok_peek with (n := z n) (v := f k); [exact A|specialize (B k (or_introl eq_refl)); lia|apply V, B; left; auto|]. apply IH; auto. intros j I. apply B. right; auto. }
  intros O. apply G; auto. intros k I. apply in_seq in I. lia.
Qed.

(** a mask after a launch that marks some of its boxes *)
Lemma launch_mark {R} K n code dst nb (m m' : nat -> bool) (next : dhost R) Q :
  has K dst nb nb (fun b => bit (m b)) ->
  (forall i, i < n -> item_ok K (only dst (fun k => Some (bit (m' k)))) (code i)) ->
  (forall b, m b = true -> m' b = true) ->
  (forall b, b < nb -> m' b = true -> m b = true \/ exists i, i < n /\ stores K (code i) dst b) ->
  (forall K', keeps (fun x => x = dst) K K' -> has K' dst nb nb (fun b => bit (m' b)) -> okd K' next Q) ->
  okd K (Launch n code next) Q.
Proof.
  intros H I M C O. apply launch_only with (a := dst) (m := nb) (f := fun b => bit (m' b)); auto; [apply H|].
  intros k Hk. destruct H as [A B V]. rewrite V by auto. destruct (m' k) eqn:E.
  - destruct (C k Hk E) as [->|S]; auto.
  - right. destruct (m k) eqn:E2; auto. rewrite (M k E2) in E. discriminate.
Qed.

(** ** partition.py:139-162 *)
(** the list [c] has a row for each box of [boxes]; all box numbers are valid *)
Record list_fits (nb : nat) (boxes : list nat) (c : csr) : Prop := {
  lf_boxes : forall b, In b boxes -> b < nb;
  lf_length : length (starts c) = S (length boxes);
  lf_rows : forall i, i < length boxes -> nth i (starts c) 0 <= nth (S i) (starts c) 0 <= length (lists c);
  lf_entries : forall b, In b (lists c) -> b < nb
}.
Lemma slice_nth (l : list nat) : forall n s, s + n <= length l -> firstn n (skipn s l) = map (fun k => nth k l 0) (seq s n).
Proof.
  induction n as [|n IH]; intros s H; cbn [seq map firstn]; auto.
  rewrite <- IH by lia. clear IH. revert s H. induction l as [|x l IHl]; intros s H; cbn [length] in H; [lia|].
  destruct s as [|s]; [reflexivity|]. cbn [skipn nth]. apply IHl. lia.
Qed.
Lemma in_row (l : list nat) s e x : s <= e <= length l -> (In x (firstn (e - s) (skipn s l)) <-> exists j, s <= j < e /\ nth j l 0 = x).
Proof.
  intros H. rewrite slice_nth by lia. rewrite in_map_iff. split.
  - intros [j [E I]]. apply in_seq in I. exists j. split; [lia|auto].
  - intros [j [Hj E]]. exists j. split; auto. apply in_seq. lia.
Qed.
Section AddBoxes.
Variable nb : nat.
Variable boxes : list nat.
Variable c : csr.
Hypothesis LF : list_fits nb boxes c.
Variable K : knownd.
Variable box_list rm dst : darr.
Variable l : dlist.
Variable r m : nat -> bool.
Hypothesis HB : has K box_list (length boxes) (length boxes) (fun k => z (nth k boxes 0)).
Hypothesis HR : has K rm nb nb (fun b => bit (r b)).
Hypothesis HS : has K (ListStarts l) (length (starts c)) (length (starts c)) (fun k => z (nth k (starts c) 0)).
Hypothesis HE : has K (ListEntries l) (length (lists c)) (length (lists c)) (fun k => z (nth k (lists c) 0)).
Hypothesis HD : has K dst nb nb (fun b => bit (m b)).
Hypothesis D1 : dst <> box_list.
Hypothesis D2 : dst <> rm.
Hypothesis D3 : dst <> ListStarts l.
Hypothesis D4 : dst <> ListEntries l.
Notation m' := (add_interaction_list_boxes boxes r c m).
Notation F := (only dst (fun k => Some (bit (m' k)))).

Lemma mark_item n : forall s, s + n <= length (lists c) -> (forall j, s <= j < s + n -> m' (nth j (lists c) 0) = true) -> item_ok K F (mark_entries l dst n (z s)).
Proof.
  induction n as [|n IH]; intros s B H; cbn [mark_entries]; [exact Logic.I|].
  apply (item_load _ _ _ _ _ _ _ _ _ HE); [lia|apply only_other; auto|].
  apply item_store with (m := nb) (f := fun k => Some (bit (m' k))).
  - apply HD.
  - apply (lf_entries _ _ _ LF). apply nth_In. lia.
  - apply only_same.
  - rewrite H by lia. auto.
  - replace (z s + 1)%Z with (z (S s)) by lia. apply IH; [lia|]. intros j Hj. apply H. lia.
Qed.
Lemma mark_stores n b : forall s, s + n <= length (lists c) -> (exists j, s <= j < s + n /\ nth j (lists c) 0 = b) -> stores K (mark_entries l dst n (z s)) dst b.
Proof.
  induction n as [|n IH]; intros s B [j [Hj E]]; [lia|]. cbn [mark_entries]. apply (stores_load _ _ _ _ _ _ _ _ _ _ HE); [lia|].
  destruct (Nat.eq_dec j s) as [->|N]; [rewrite E; apply stores_here|]. apply stores_later.
  replace (z s + 1)%Z with (z (S s)) by lia. apply IH; [lia|]. exists j. split; [lia|auto].
Qed.
Lemma marked_rows b : m' b = true <-> m b = true \/ exists i, i < length boxes /\ r (nth i boxes 0) = true /\ In b (csr_get c i).
Proof.
  rewrite add_interaction_spec. split; (intros [H|H]; [left; auto|right]).
  - destruct H as [A [RA I]]. apply in_entries in I. destruct I as [i [Hi [<- I]]]. eauto.
  - destruct H as [i [Hi [RA I]]]. exists (nth i boxes 0). split; auto. apply in_entries. eauto.
Qed.
Lemma add_boxes_ok {R} (next : dhost R) Q :
  (forall K', keeps (fun x => x = dst) K K' -> has K' dst nb nb (fun b => bit (m' b)) -> okd K' next Q) ->
  okd K (add_boxes (length boxes) box_list rm l dst next) Q.
Proof.
  intros O. unfold add_boxes.
  assert (BX : forall i, i < length boxes -> nth i boxes 0 < nb) by (intros i Hi; apply (lf_boxes _ _ _ LF), nth_In; auto).
  assert (CG : forall i b, i < length boxes -> In b (csr_get c i) <-> exists j, nth i (starts c) 0 <= j < nth (S i) (starts c) 0 /\ nth j (lists c) 0 = b).
  { intros i b Hi. apply in_row. apply (lf_rows _ _ _ LF). auto. }
  apply launch_mark with (dst := dst) (nb := nb) (m := m) (m' := m'); auto.
  - intros i Hi. unfold add_boxes_item. apply (item_load _ _ _ _ _ _ _ _ _ HB); [auto|apply only_other; auto|].
    apply (item_load _ _ _ _ _ _ _ _ _ HR); [auto|apply only_other; auto|]. destruct (r (nth i boxes 0)) eqn:ER; cbn [bit Z.eqb]; [|exact Logic.I].
    assert (L := lf_rows _ _ _ LF i Hi). assert (LL := lf_length _ _ _ LF).
    apply (item_load _ _ _ _ _ _ _ _ _ HS); [lia|apply only_other; auto|]. apply (item_load _ _ _ _ _ _ _ _ _ HS); [lia|apply only_other; auto|].
    rewrite <- Nat2Z.inj_sub, Nat2Z.id by lia. apply mark_item; [lia|].
    intros j Hj. apply marked_rows. right. exists i. split; auto. split; auto. apply CG; auto. exists j. split; [lia|auto].
  - intros b E. apply marked_rows. auto.
  - intros b Hb E. apply marked_rows in E. destruct E as [E|[i [Hi [ER I]]]]; auto. right. exists i. split; auto.
    unfold add_boxes_item. apply (stores_load _ _ _ _ _ _ _ _ _ _ HB); auto. apply (stores_load _ _ _ _ _ _ _ _ _ _ HR); auto.
    rewrite ER. cbn [bit Z.eqb]. assert (L := lf_rows _ _ _ LF i Hi). assert (LL := lf_length _ _ _ LF).
    apply (stores_load _ _ _ _ _ _ _ _ _ _ HS); [lia|]. apply (stores_load _ _ _ _ _ _ _ _ _ _ HS); [lia|].
    rewrite <- Nat2Z.inj_sub, Nat2Z.id by lia. apply mark_stores; [lia|]. apply CG in I; auto. destruct I as [j [Hj E]]. exists j. split; [lia|auto].
Qed.
End AddBoxes.

(** partition.py:164-171 *)
Lemma add_parents_ok {R} t K cur (m : nat -> bool) (next : dhost R) Q : wf_tree t ->
  has K AncLast (nboxes t) (nboxes t) (fun b => bit (cur b)) -> has K ParentIds (nboxes t) (nboxes t) (fun b => z (box_parent t b)) ->
  has K AncNew (nboxes t) (nboxes t) (fun b => bit (m b)) ->
  (forall K', keeps (fun x => x = AncNew) K K' -> has K' AncNew (nboxes t) (nboxes t) (fun b => bit (add_parent_boxes t cur m b)) -> okd K' next Q) ->
  okd K (Launch (nboxes t) (add_parent_item AncLast AncNew) next) Q.
Proof.
  intros W HC HP HN O. apply launch_mark with (dst := AncNew) (nb := nboxes t) (m := m) (m' := add_parent_boxes t cur m); auto.
  - intros i Hi. unfold add_parent_item. destruct (Nat.eqb_spec i 0) as [E|N]; [exact Logic.I|].
    apply (item_load _ _ _ _ _ _ _ _ _ HC); [auto|apply only_other; discriminate|]. destruct (cur i) eqn:EC; cbn [bit Z.eqb]; [|exact Logic.I].
    apply (item_load _ _ _ _ _ _ _ _ _ HP); [auto|apply only_other; discriminate|].
    apply item_store with (m := nboxes t) (f := fun k => Some (bit (add_parent_boxes t cur m k))); [apply HN| |apply only_same| |exact Logic.I].
    + destruct (wf_parent t W i) as [X _]; lia.
    + replace (add_parent_boxes t cur m (box_parent t i)) with true; auto. symmetry. apply add_parent_spec. right. exists i. repeat split; auto; lia.
  - intros b E. apply add_parent_spec. auto.
  - intros b Hb E. apply add_parent_spec in E. destruct E as [E|[i [I0 [Hi [EC EP]]]]]; auto. right. exists i. split; auto.
    unfold add_parent_item. destruct (Nat.eqb_spec i 0) as [E|N]; [lia|].
    apply (stores_load _ _ _ _ _ _ _ _ _ _ HC); auto. rewrite EC. cbn [bit Z.eqb]. apply (stores_load _ _ _ _ _ _ _ _ _ _ HP); auto.
    rewrite EP. apply stores_here.
Qed.
Lemma bit_or a b : Z.lor (bit a) (bit b) = bit (a || b).
Proof. destruct a, b; reflexivity. Qed.
Lemma bit_and_not a b : Z.land (bit a) (Z.lnot (bit b)) = bit (a && negb b).
Proof. destruct a, b; reflexivity. Qed.
