(** The classes found on the device (ClassDevice.v) are those of Classes.v. *)
From Coq Require Import List Arith ZArith NArith Lia Bool.
From Verif Require Import Base Tree Traversal TraversalLists Tools ToolsFacts Classes SpecClasses ClassFacts AreaMore Kernel Device DeviceRules DeviceFacts ClassDevice SpecClassDevice.
Import ListNotations.

Notation knownc := (Device.known carr).
Notation okc := (ok carr carr_eq).
Notation z := Z.of_nat.
Definition bit (b : bool) : Z := if b then 1%Z else 0%Z.
(** element [k] of [a] is [v] *)
Definition at_ (K : knownc) (a : carr) (k v : Z) : Prop := exists m, len K a = Some m /\ (0 <= k < m)%Z /\ val K a (Z.to_nat k) = Some v.
Lemma at_item (K : knownc) G a k v next : at_ K a k v -> G a = None -> item_ok K G (next v) -> item_ok K G (Load a k next).
Proof. intros [m [L [B V]]] E O. exists m, v. auto. Qed.
Lemma at_stores (K : knownc) a k v next b j : at_ K a k v -> stores K (next v) b j -> stores K (Load a k next) b j.
Proof. intros [m [L [B V]]] O. exists v. auto. Qed.
Lemma at_alloc (K : knownc) a n b k v : b <> a -> at_ K b k v -> at_ (k_alloc carr carr_eq K a n) b k v.
Proof. intros N [m [L [B V]]]. exists m. cbn [k_alloc len val]. destruct (carr_eq b a); [contradiction|auto]. Qed.
Lemma has_at (K : knownc) a m n f k : has K a m n f -> k < n -> at_ K a (z k) (f k).
Proof. intros [A B C] H. exists (z m). rewrite Nat2Z.id. repeat split; auto; lia. Qed.

Lemma eqb_z a b : (z a =? z b)%Z = (a =? b).
Proof. destruct (Z.eqb_spec (z a) (z b)), (Nat.eqb_spec a b); auto; lia. Qed.

Lemma if_z (p : bool) x a b : (if p then z x + z a * z b else z x)%Z = z (if p then x + a * b else x).
Proof. destruct p; lia. Qed.

(** ** bsearch *)
Lemma search_ok (K : knownc) (G : carr -> option (nat -> option Z)) s arr len v next j : G s = None ->
  (forall k, k < len -> at_ K s (z k) (arr k)) ->
  item_ok K G (next (z j)) -> forall fuel l r, l < r -> r <= len -> (arr l <= v)%Z -> bsearch_loop fuel arr len v l r = Some (Some j) ->
  item_ok K G (search s fuel len v l r next) /\
  forall a k, stores K (next (z j)) a k -> stores K (search s fuel len v l r next) a k.
Proof.
  intros GN C O. induction fuel as [|fuel IH]; intros l r L R A E; cbn [bsearch_loop search] in *; [discriminate|]. cbv zeta in *.
  assert (D : 2 * ((r - l) / 2) <= r - l < 2 * ((r - l) / 2) + 2).
  { assert (X := Nat.div_mod (r - l) 2 ltac:(lia)). assert (Y := Nat.mod_upper_bound (r - l) 2 ltac:(lia)). lia. }
  set (i := l + (r - l) / 2) in *. assert (I : l <= i < r) by (unfold i; lia). assert (HI : i = l \/ l < i) by lia. clearbody i.
  assert (CI := C i ltac:(lia)).
  destruct (Z.leb_spec (arr i) v) as [C1|C1]; cbn [andb] in E.
  - destruct (Nat.eqb_spec i (len - 1)) as [E1|E1]; cbn [orb] in E.
    { injection E as <-. split; [apply (at_item K G _ _ (arr i)); auto|intros a k S1; apply (at_stores K _ _ (arr i)); auto];
      rewrite (proj2 (Z.leb_le _ _) C1); auto. }
    assert (CJ := C (i + 1) ltac:(lia)). replace (z (i + 1)) with (z i + 1)%Z in CJ by lia.
    destruct (Z.ltb_spec v (arr (i + 1))) as [E2|E2].
    { injection E as <-. split; [apply (at_item K G _ _ (arr i)); auto|intros a k S1; apply (at_stores K _ _ (arr i)); auto];
      rewrite (proj2 (Z.leb_le _ _) C1); [apply (at_item K G _ _ (arr (i + 1))); auto|apply (at_stores K _ _ (arr (i + 1))); auto];
      rewrite (proj2 (Z.ltb_lt _ _) E2); auto. }
    destruct (IH i r) as [X Y]; auto; [lia|].
    split; [apply (at_item K G _ _ (arr i)); auto|intros a k S1; apply (at_stores K _ _ (arr i)); auto];
      rewrite (proj2 (Z.leb_le _ _) C1); [apply (at_item K G _ _ (arr (i + 1))); auto|apply (at_stores K _ _ (arr (i + 1))); auto];
      rewrite (proj2 (Z.ltb_ge _ _) E2); auto.
  - destruct (IH l i) as [X Y]; auto; [destruct HI as [->|]; lia|lia|].
    split; [apply (at_item K G _ _ (arr i)); auto|intros a k S1; apply (at_stores K _ _ (arr i)); auto];
      rewrite (proj2 (Z.leb_gt _ _) C1); auto.
Qed.
Lemma bsearch_in_ok (K : knownc) (G : carr -> option (nat -> option Z)) s arr len v next j : 0 < len -> G s = None ->
  (forall k, k < len -> at_ K s (z k) (arr k)) -> item_ok K G (next (z j)) -> bsearch arr len v = Some (Some j) ->
  item_ok K G (bsearch_in s len v next) /\ forall a k, stores K (next (z j)) a k -> stores K (bsearch_in s len v next) a k.
Proof.
  intros LP GN C O E. unfold bsearch in E. unfold bsearch_in. assert (C0 := C 0 LP). cbn [Z.of_nat] in C0.
  destruct (Z.ltb_spec v (arr 0)) as [L|L]; [discriminate|].
  destruct (search_ok K G s arr len v next j GN C O (S len) 0 len ltac:(lia) ltac:(lia) L E) as [X Y].
  split; [apply (at_item K G _ _ (arr 0)); auto|intros a k S1; apply (at_stores K _ _ (arr 0)); auto]; rewrite (proj2 (Z.ltb_ge _ _) L); auto.
Qed.

(** ** The class of a vector *)
Lemma class_ext d n v w : (forall i, i < d -> v i = w i) -> translation_class d n v = translation_class d n w.
Proof.
  intros E. unfold translation_class. cbv zeta.
  assert (F : forallb (fun i => (- (2 * z n + 1) <=? v i) && (v i <=? 2 * z n + 1))%Z (seq 0 d) = forallb (fun i => (- (2 * z n + 1) <=? w i) && (w i <=? 2 * z n + 1))%Z (seq 0 d)).
  { assert (X : forall i, In i (seq 0 d) -> v i = w i) by (intros i I; apply in_seq in I; apply E; lia).
    induction (seq 0 d) as [|i l IH]; cbn [forallb]; auto. rewrite X by (left; auto). rewrite IH; auto. intros j J. apply X. right; auto. }
  rewrite F. clear F. match goal with |- context [if ?b then _ else _] => destruct b end; auto. f_equal. f_equal. generalize (0, 1).
  assert (X : forall i, In i (seq 0 d) -> v i = w i) by (intros i I; apply in_seq in I; apply E; lia).
  induction (seq 0 d) as [|i l IH]; intros p; cbn [fold_left]; auto. rewrite X by (left; auto). apply IH. intros j J. apply X. right; auto.
Qed.
Lemma class_lt d n v c : translation_class d n v = Some c -> c < nclasses_per_level n d.
Proof.
  intros E. assert (B : in_bounds d n v).
  { unfold translation_class in E. cbv zeta in E. destruct (forallb _ _) eqn:F; [|discriminate]. rewrite forallb_forall in F.
    intros i Hi. specialize (F i ltac:(apply in_seq; lia)). apply andb_true_iff in F. rewrite !Z.leb_le in F. exact F. }
  rewrite class_code in E by auto. injection E as <-. apply code_lt. auto.
Qed.

(** ** The kernel *)
Section Kernel.
Variable (t : tree) (tr : traversal) (n aligned : nat) (per_level : bool).
Hypothesis FIT : list2_fits t tr.
Let S := class_arguments t n tr aligned.
Let c := from_sep_siblings tr.
Let ttpb := target_or_target_parent_boxes tr.
Let entry := class_item t n per_level c ttpb.
Let N := nclasses_per_level n (dim t) * (if per_level then nlevels t else 1).

Record args_known (K : knownc) : Prop := {
  k_lists : forall i, i < length (lists c) -> at_ K SibLists (z i) (z (nth i (lists c) 0));
  k_starts : forall i, i < 1 + length ttpb -> at_ K SibStarts (z i) (z (nth i (starts c) 0));
  k_targets : forall i, i < length ttpb -> at_ K SibTargets (z i) (z (nth i ttpb 0));
  k_levels : forall b, b < nboxes t -> at_ K BoxLevels (z b) (z (box_level t b));
  k_centers : forall a b, a < dim t -> b < nboxes t -> at_ K BoxCenters (z (a * aligned) + z b) (box_center t b a)
}.
Lemma args_alloc K a m : (match a with Classes | IsUsed | ErrorFlag => True | _ => False end) -> args_known K -> args_known (k_alloc carr carr_eq K a m).
Proof. intros A [X1 X2 X3 X4 X5]. constructor; intros; apply at_alloc; auto; intros <-; exact A. Qed.
Lemma target_found i : i < length (lists c) -> exists j, j < length ttpb /\ bsearch (fun j => z (nth j (starts c) 0)) (1 + length ttpb) (z i) = Some (Some j).
Proof.
  intros Hi. destruct (f_rows t tr FIT) as [rows [E L]]. fold c ttpb in E, L. rewrite E in *.
  assert (TL : total rows (length rows) = length (concat rows)) by (rewrite total_all; auto).
  destruct (bsearch_correct (fun j => z (nth j (starts (csr_of rows)) 0)) (1 + length ttpb) (z i) ltac:(lia)) as [[_ X]|[j [X [J [A B]]]]].
  - exfalso. rewrite starts_nth in X by lia. cbn in X. lia.
  - exists j. split; auto. destruct (Nat.eq_dec j (length rows)) as [->|]; [|lia]. exfalso.
    rewrite starts_nth in A by lia. rewrite TL in A. cbn [lists csr_of] in Hi. lia.
Qed.

Let L := length (lists c).
Let used (k : nat) : bool := existsb (fun i => match entry i with Some x => x =? k | None => false end) (seq 0 L).
Let failing : bool := existsb (fun i => match entry i with Some _ => false | None => true end) (seq 0 L).
Definition class_results (a : carr) : option (nat -> option Z) :=
  match a with
  | Classes => Some (fun k => Some (match entry k with Some x => z x | None => 0%Z end))
  | IsUsed => Some (fun k => Some (bit (used k)))
  | ErrorFlag => Some (fun _ => Some (bit failing))
  | _ => None
  end.
Lemma entry_lt i x : i < L -> entry i = Some x -> x < N.
Proof.
  intros Hi E. unfold entry, class_item in E. cbv zeta in E. destruct (bsearch _ _ _) as [[j|]|]; try discriminate.
  destruct (negb _); [discriminate|]. destruct (translation_class _ _ _) as [x0|] eqn:EX; [|discriminate]. apply class_lt in EX. injection E as <-. unfold N.
  destruct per_level; [|lia]. assert (B := f_levels t tr FIT (nth i (lists c) 0) (f_sources t tr FIT _ (nth_In _ _ Hi))). nia.
Qed.
Lemma load_center_ok K F b next : args_known K -> F BoxCenters = None -> b < nboxes t ->
  item_ok K F (next (fun i => nth i (map (box_center t b) (seq 0 (dim t))) 0%Z)) ->
  item_ok K F (load_center S (z b) next) /\
  forall a k, stores K (next (fun i => nth i (map (box_center t b) (seq 0 (dim t))) 0%Z)) a k -> stores K (load_center S (z b) next) a k.
Proof.
  intros AK FN Hb O. unfold load_center. cbn [S class_arguments c_dim c_aligned]. split.
  - apply item_load_all with (v := box_center t b); auto. intros i I. apply in_seq in I. destruct (k_centers K AK i b ltac:(lia) Hb) as [m [M1 [M2 M3]]].
    exists m. cbn [fst snd]. auto.
  - intros a k ST. apply stores_load_all with (v := box_center t b); auto. intros i I. apply in_seq in I.
    destruct (k_centers K AK i b ltac:(lia) Hb) as [m [M1 [M2 M3]]]. exact M3.
Qed.
Lemma kernel_ok K i : args_known K -> len K Classes = Some (z L) -> len K IsUsed = Some (z N) -> len K ErrorFlag = Some (z 1) -> i < L ->
  item_ok K class_results (class_kernel S per_level i) /\
  match entry i with
  | None => stores K (class_kernel S per_level i) ErrorFlag 0
  | Some x => stores K (class_kernel S per_level i) Classes i /\ stores K (class_kernel S per_level i) IsUsed x
  end.
Proof.
  intros AK L1 L2 L3 Hi. set (goal := fun p : citem => item_ok K class_results p /\
    match entry i with None => stores K p ErrorFlag 0 | Some x => stores K p Classes i /\ stores K p IsUsed x end).
  change (goal (class_kernel S per_level i)).
  assert (LD : forall a k v next, at_ K a k v -> class_results a = None -> goal (next v) -> goal (Load a k next)).
  { intros a k v next A RN [G1 G2]. split; [apply (at_item K _ _ _ v); auto|]. destruct (entry i); [split; apply (at_stores K _ _ v); tauto|apply (at_stores K _ _ v); auto]. }
  assert (BK : forall p q : citem, item_ok K class_results q /\ (forall a k, stores K p a k -> stores K q a k) -> goal p -> goal q).
  { intros p q [Q1 Q2] [G1 G2]. split; auto. destruct (entry i); [split; apply Q2; tauto|auto]. }
  assert (ERR : entry i = None -> goal raise_error).
  { intros E. unfold goal. rewrite E. split.
    - exists (z 1), (fun _ => Some (bit failing)). split; [exact L3|]. split; [lia|]. split; [reflexivity|]. split; [|exact Logic.I].
      replace failing with true; auto. symmetry. apply existsb_exists. exists i. rewrite E. split; auto. apply in_seq. lia.
    - left. auto. }
  destruct (target_found i Hi) as [j [Hj BS]].
  assert (SO : nth i (lists c) 0 < nboxes t) by (apply (f_sources t tr FIT), nth_In, Hi).
  assert (TA : nth j ttpb 0 < nboxes t) by (apply (f_targets t tr FIT), nth_In, Hj).
  assert (ENT : entry i = _) by (unfold entry, class_item; rewrite BS; reflexivity). cbv zeta in ENT.
  unfold class_kernel. apply (LD _ _ (z (nth i (lists c) 0))); [apply (k_lists K AK); auto|reflexivity|].
  assert (NX : forall next, goal (next (z j)) -> goal (bsearch_in SibStarts (1 + c_targets S) (z i) next)).
  { intros next G. apply (BK (next (z j))); auto. apply (bsearch_in_ok K class_results SibStarts (fun j => z (nth j (starts c) 0))); auto; [lia|apply (k_starts K AK)|apply G]. }
  apply NX. clear NX.
  apply (LD _ _ (z (nth j ttpb 0))); [apply (k_targets K AK); auto|reflexivity|].
  apply (LD _ _ (z (box_level t (nth i (lists c) 0)))); [apply (k_levels K AK); auto|reflexivity|].
  apply (LD _ _ (z (box_level t (nth j ttpb 0)))); [apply (k_levels K AK); auto|reflexivity|].
  rewrite eqb_z.
  destruct (negb _); [auto|].
  assert (CE : forall b next, b < nboxes t -> goal (next (fun i => nth i (map (box_center t b) (seq 0 (dim t))) 0%Z)) -> goal (load_center S (z b) next)).
  { intros b next Hb G. eapply BK; [|exact G]. apply load_center_ok; auto. apply G. }
  apply CE; auto. apply CE; auto. clear CE. rewrite Nat2Z.id.
  rewrite (class_ext _ _ _ (normalized_vector t (box_level t (nth i (lists c) 0)) (box_center t (nth i (lists c) 0)) (box_center t (nth j ttpb 0)))).
  2:{ intros a Ha. cbn [S class_arguments c_dim] in Ha. unfold normalized_vector. f_equal. 
      assert (NM : forall f : nat -> Z, nth a (map f (seq 0 (dim t))) 0%Z = f a); [|rewrite !NM; reflexivity].
      intros f. rewrite (nth_indep _ 0%Z (f 0)) by (rewrite map_length, seq_length; auto). rewrite (map_nth f), seq_nth by auto. reflexivity. }
  cbn [S class_arguments c_dim c_n]. destruct (translation_class _ _ _) as [x|] eqn:EX; [|auto]. cbv zeta.
  rewrite if_z. set (y := if per_level then x + _ else x) in *. assert (YN := entry_lt i y Hi ENT). unfold goal. rewrite ENT. split; [|split; [left; auto|right; left; auto]].
  apply item_store with (m := L) (f := fun k => Some (match entry k with Some x => z x | None => 0%Z end)); auto; [rewrite ENT; auto|].
  apply item_store with (m := N) (f := fun k => Some (bit (used k))); auto; [|exact Logic.I].
  replace (used y) with true; auto. symmetry. apply existsb_exists. exists i. rewrite ENT. split; [apply in_seq; lia|apply Nat.eqb_refl].
Qed.

(** ** The host programs *)
Lemma read_back_ok {R} K a m f (next : list Z -> chost R) Q : has K a m m f -> okc K (next (map f (seq 0 m))) Q -> okc K (read_back a (seq 0 m) next) Q.
Proof.
  intros H. assert (G : forall l next', (forall k, In k l -> k < m) -> okc K (next' (map f l)) Q -> okc K (read_back a l next') Q).
  { induction l as [|k l IH]; intros next' B O; cbn [read_back map] in *; auto. destruct H as [A LE V].
    apply ok_peek with (n := z m) (v := f k); [exact A|specialize (B k (or_introl eq_refl)); lia|apply V, B; left; auto|]. apply IH; auto. intros j I. apply B. right; auto. }
  intros O. apply G; auto. intros k I. apply in_seq in I. lia.
Qed.
Lemma run_all_failing : run_all entry (seq 0 L) = None <-> failing = true.
Proof.
  unfold failing. induction (seq 0 L) as [|i l IH]; cbn [run_all existsb]; [split; discriminate|].
  destruct (entry i); cbn [orb]; [|split; auto]. destruct (run_all entry l); [|rewrite <- IH; split; auto]. split; [discriminate|]. intros X. apply IH in X. discriminate.
Qed.
Lemma run_all_entries cls : run_all entry (seq 0 L) = Some cls -> length cls = L /\ forall i, i < L -> entry i = Some (nth i cls 0).
Proof.
  intros FE. assert (X : forall (l : list nat) r, run_all entry l = Some r -> length r = length l /\ forall i, i < length l -> entry (nth i l 0) = Some (nth i r 0)).
  { induction l as [|x l IH]; intros r X; cbn [run_all] in X; [injection X as <-; split; auto; cbn; intros; lia|].
    destruct (entry x) as [y|] eqn:EX; [|discriminate]. destruct (run_all entry l) as [ys|]; [|discriminate]. injection X as <-.
    destruct (IH ys eq_refl) as [A B]. split; [cbn; lia|]. intros [|i] Hi; cbn [nth length] in *; auto. apply B. lia. }
  destruct (X _ _ FE) as [A B]. rewrite seq_length in A, B. split; auto. intros i Hi. specialize (B i Hi). rewrite seq_nth in B by auto. exact B.
Qed.
Lemma find_classes_ok {R} K (failed : chost R) next Q : args_known K ->
  (compute_translation_classes t n per_level tr = None -> forall K', okc K' failed Q) ->
  (forall K' us cls, compute_translation_classes t n per_level tr = Some (us, cls) -> length us = N -> has K' Classes L L (fun i => z (nth i cls 0)) ->
     length cls = L -> (forall i, i < L -> nth i cls 0 < N) -> okc K' (next us) Q) ->
  okc K (find_classes S per_level failed next) Q.
Proof.
  intros AK FA NX. unfold find_classes. change (c_entries S) with L. change (nclasses S per_level) with N.
  apply ok_alloc; [lia|]. apply ok_alloc; [lia|]. apply ok_alloc; [lia|].
  set (K3 := k_alloc carr carr_eq _ ErrorFlag 1). assert (AK3 : args_known K3) by (unfold K3; repeat (apply args_alloc; [exact Logic.I|]); exact AK).
  assert (L1 : len K3 Classes = Some (z L)) by reflexivity. assert (L2 : len K3 IsUsed = Some (z N)) by reflexivity. assert (L3 : len K3 ErrorFlag = Some (z 1)) by reflexivity.
  assert (V : forall a k, class_results a <> None -> val K3 a k = Some 0%Z) by (intros a k X; destruct a; try reflexivity; exfalso; apply X; reflexivity).
  clearbody K3. apply ok_launch_items with (F := class_results).
  - intros i Hi. apply kernel_ok; auto.
  - intros a f m k w E LA B EW. destruct a; try discriminate E; cbn [class_results] in E; injection E as <-.
    + rewrite L1 in LA. injection LA as <-. assert (Hk : k < L) by lia. destruct (kernel_ok K3 k AK3 L1 L2 L3 Hk) as [_ X]. destruct (entry k); [left; exists k; tauto|right].
      rewrite V by discriminate. exact EW.
    + destruct (used k) eqn:U.
      * left. apply existsb_exists in U. destruct U as [i [I U]]. apply in_seq in I. destruct (kernel_ok K3 i AK3 L1 L2 L3 ltac:(lia)) as [_ X].
        exists i. split; [lia|]. destruct (entry i) as [x|]; [|discriminate]. apply Nat.eqb_eq in U. subst x. tauto.
      * right. rewrite V by discriminate. exact EW.
    + rewrite L3 in LA. injection LA as <-. assert (k = 0) as -> by lia. destruct failing eqn:U.
      * left. apply existsb_exists in U. destruct U as [i [I U]]. apply in_seq in I. destruct (kernel_ok K3 i AK3 L1 L2 L3 ltac:(lia)) as [_ X].
        exists i. split; [lia|]. destruct (entry i) as [x|]; [discriminate|]. exact X.
      * right. rewrite V by discriminate. exact EW.
  - change 0%Z with (z 0) at 1. apply ok_peek with (n := z 1) (v := bit failing); [exact L3|lia|reflexivity|].
    unfold compute_translation_classes in FA, NX. cbv zeta in FA, NX. fold c ttpb entry L N in FA, NX.
    destruct (run_all entry (seq 0 L)) as [cls|] eqn:RA; cbn [option_map] in FA, NX.
    + assert (FF : failing = false) by (apply Bool.not_true_iff_false; intros F; apply run_all_failing in F; congruence). rewrite FF. cbn [bit Z.eqb].
      destruct (run_all_entries cls RA) as [LC EC].
      apply read_back_ok with (f := fun k => bit (used k)).
      { apply has_upd_some with (g := fun k => Some (bit (used k))); auto. }
      apply (NX _ _ cls); auto.
      * f_equal. f_equal. rewrite map_map. apply map_ext_in. intros k _. unfold used.
        assert (X : existsb (Nat.eqb k) cls = existsb (fun i => match entry i with Some x => x =? k | None => false end) (seq 0 L)).
        { apply eq_true_iff_eq. rewrite !existsb_exists. split.
          - intros [x [I E]]. apply Nat.eqb_eq in E. subst x. apply (In_nth _ _ 0) in I. destruct I as [i [Hi E]]. exists i. split; [apply in_seq; lia|]. rewrite EC, E by lia. apply Nat.eqb_refl.
          - intros [i [I E]]. apply in_seq in I. rewrite EC in E by lia. exists (nth i cls 0). split; [apply nth_In; lia|]. rewrite Nat.eqb_sym. exact E. }
        rewrite X. match goal with |- negb (bit ?b =? 0)%Z = _ => generalize b | |- _ = negb (bit ?b =? 0)%Z => generalize b end. intros []; reflexivity.
      * rewrite !map_length, seq_length. auto.
      * apply has_upd_some with (g := fun k => Some (match entry k with Some x => z x | None => 0%Z end)); auto. intros k Hk. rewrite EC by auto. auto.
      * intros i Hi. apply (entry_lt i); auto.
    + assert (FF : failing = true) by (apply run_all_failing; auto). rewrite FF. cbn [bit Z.eqb]. apply FA. auto.
Qed.
Lemma through_map_ok {R} K m cls (next : chost R) Q : has K Classes L L (fun i => z (nth i cls 0)) -> length cls = L -> (forall i, i < L -> nth i cls 0 < N) ->
  (forall K', has K' DenseClasses L L (fun i => as_entry (nth i (map m cls) None)) -> okc K' next Q) -> okc K (through_map S per_level m next) Q.
Proof.
  intros H LC B NX. unfold through_map. change (c_entries S) with L. change (nclasses S per_level) with N.
  apply ok_alloc; [lia|]. set (vs := map _ (seq 0 N)). assert (VL : length vs = N) by (unfold vs; rewrite map_length, seq_length; auto).
  apply (ok_assign carr carr_eq _ ClassMap 0 vs (z N)); [reflexivity|lia|]. apply ok_alloc; [lia|]. set (K3 := k_alloc carr carr_eq _ DenseClasses (z L)).
  assert (H1 : has K3 Classes L L (fun i => z (nth i cls 0))) by (apply has_alloc_other; [discriminate|]; apply has_assign_other; [discriminate|]; apply has_alloc_other; [discriminate|exact H]).
  assert (H2 : has K3 ClassMap N N (fun k => as_entry (m k))).
  { apply has_alloc_other; [discriminate|]. apply (has_less carr) with (n := length vs); [|lia]. apply has_assign_fresh; [reflexivity|lia|]. intros k Hk.
    unfold vs. set (g := fun k => match m k with Some c0 => z c0 | None => (-1)%Z end). rewrite (nth_indep _ 0%Z (g 0)) by (rewrite map_length, seq_length; lia).
    rewrite (map_nth g), seq_nth by lia. reflexivity. }
  assert (L3 : len K3 DenseClasses = Some (z L)) by reflexivity. clearbody K3.
  set (res := fun i => as_entry (m (nth i cls 0))).
  apply ok_launch_items with (F := fun a => match a with DenseClasses => Some (fun k => Some (res k)) | _ => None end).
  - intros i Hi. apply (item_load _ _ _ _ _ _ _ _ _ H1); auto. apply (item_load _ _ _ _ _ _ _ _ _ H2); auto.
    apply item_store with (m := L) (f := fun k => Some (res k)); auto. exact Logic.I.
  - intros a f m' k w E LA Bk EW. destruct a; try discriminate E. rewrite L3 in LA. injection LA as <-. left. exists k. split; [lia|].
    apply (stores_load _ _ _ _ _ _ _ _ _ _ H1); [lia|]. apply (stores_load _ _ _ _ _ _ _ _ _ _ H2); [apply B; lia|]. apply stores_here.
  - apply NX. apply has_upd_some with (g := fun k => Some (res k)); auto. intros k Hk. unfold res. do 2 f_equal.
    rewrite (nth_indep _ None (m 0)) by (rewrite map_length; lia). rewrite (map_nth m). reflexivity.
Qed.
Lemma translation_ok K : args_known K -> okc K (translation_program S per_level) (fun r d =>
  match translation_classes t n per_level tr with
  | None => r = None
  | Some ci => r = Some (ci_dist ci, ci_starts ci) /\ elements d DenseClasses L (fun i => as_entry (nth i (ci_classes ci) None)) /\ length (ci_classes ci) = L
  end).
Proof.
  intros AK. unfold translation_program. apply find_classes_ok; auto.
  - intros E K'. apply ok_ret. intros d A. unfold translation_classes. rewrite E. auto.
  - intros K' us cls E LU H LC B. cbv zeta. set (st := fold_left _ _ _). apply (through_map_ok K' (cs_map st) cls); auto.
    intros K2 H2. apply ok_ret. intros d A. unfold translation_classes. rewrite E. cbv zeta. cbn [ci_dist ci_starts ci_classes].
    destruct (has_agrees carr K2 _ _ _ _ d H2 A) as [X Y]. split; [reflexivity|]. split; [split; auto|]. rewrite map_length. auto.
Qed.
Lemma entry_fails i : i < L -> exists A B, list2_pair tr i A B /\ (entry i = None <-> no_class t n A B).
Proof.
  intros Hi. destruct (f_rows t tr FIT) as [rows [E LR]]. fold c ttpb in E, LR.
  destruct (bsearch_correct (fun j => z (nth j (starts c) 0)) (1 + length ttpb) (z i) ltac:(lia)) as [[_ X]|[j [X [J [A B]]]]].
  { exfalso. rewrite E, starts_nth in X by lia. cbn in X. lia. }
  destruct (target_found i Hi) as [j' [Hj X']]. rewrite X in X'. injection X' as <-.
  exists (nth j ttpb 0), (nth i (lists c) 0). split; [exists j; fold c ttpb; repeat split; auto; lia|].
  unfold entry, class_item, no_class. cbv zeta. rewrite X. destruct (Nat.eqb_spec (box_level t (nth i (lists c) 0)) (box_level t (nth j ttpb 0))) as [LE|LE]; cbn [negb].
  2:{ split; auto. }
  unfold translation_class. cbv zeta. unfold normalized_vector.
  assert (G : forall (b : bool) x, match (if b then Some x else None) with None => @None nat | Some cls => Some (if per_level then cls + box_level t (nth i (lists c) 0) * nclasses_per_level n (dim t) else cls) end = None <-> b = false).
  { intros [|] x; split; auto; discriminate. }
  rewrite G. split.
  - intros F. right. apply not_true_iff_false in F. rewrite forallb_forall in F.
    assert (Y : existsb (fun a => (2 * z n + 1 <? Z.abs (rint (translation t (nth j ttpb 0%nat) (nth i (lists c) 0%nat) a) (2 * level_to_rad t (box_level t (nth i (lists c) 0%nat)))))%Z) (seq 0 (dim t)) = true).
    { apply not_false_iff_true. intros N0. apply F. intros a I. destruct (andb _ _) eqn:AB; auto. exfalso. apply not_true_iff_false in N0. apply N0. apply existsb_exists.
      exists a. split; auto. apply Z.ltb_lt. unfold translation. apply andb_false_iff in AB. rewrite !Z.leb_gt in AB. lia. }
    apply existsb_exists in Y. destruct Y as [a [I Y]]. apply in_seq in I. apply Z.ltb_lt in Y. exists a. split; [lia|auto].
  - intros [N0|[a [Ha Y]]]; [exfalso; auto|]. apply not_true_iff_false. intros F. rewrite forallb_forall in F. specialize (F a ltac:(apply in_seq; lia)).
    apply andb_true_iff in F. rewrite !Z.leb_le in F. unfold translation in Y. lia.
Qed.
Lemma pair_once i A B A' B' : list2_pair tr i A B -> list2_pair tr i A' B' -> A = A' /\ B = B'.
Proof.
  destruct (f_rows t tr FIT) as [rows [E LR]]. intros [j [Hj [R [-> ->]]]] [j' [Hj' [R' [-> ->]]]]. split; auto. f_equal. rewrite E in *.
  rewrite !starts_nth in R, R' by lia. assert (MO : forall i j, i <= j -> j <= length rows -> total rows i <= total rows j) by (intros; apply total_mono; auto).
  destruct (Nat.lt_trichotomy j j') as [X|[X|X]]; auto; [specialize (MO (Datatypes.S j) j' ltac:(lia) ltac:(lia))|specialize (MO (Datatypes.S j') j ltac:(lia) ltac:(lia))]; lia.
Qed.
Lemma pair_inside i A B : list2_pair tr i A B -> i < L.
Proof.
  destruct (f_rows t tr FIT) as [rows [E LR]]. intros [j [Hj [R _]]]. unfold L, c. rewrite E in *. rewrite !starts_nth in R by lia. cbn [lists csr_of]. rewrite <- total_all.
  assert (X := total_mono rows (Datatypes.S j) (length rows) ltac:(lia) ltac:(lia)). lia.
Qed.
Lemma compute_fails : compute_translation_classes t n per_level tr = None <-> exists k A B, list2_pair tr k A B /\ no_class t n A B.
Proof.
  transitivity (run_all entry (seq 0 L) = None).
  { unfold compute_translation_classes. cbv zeta. fold c ttpb entry L. destruct (run_all entry (seq 0 L)); cbn [option_map]; split; auto; discriminate. }
  rewrite run_all_failing. unfold failing. rewrite existsb_exists. split.
  - intros [i [I X]]. apply in_seq in I. destruct (entry_fails i ltac:(lia)) as [A [B [PR IFF]]]. exists i, A, B. split; auto. apply IFF. destruct (entry i); [discriminate|auto].
  - intros [i [A [B [PR NC]]]]. assert (Hi := pair_inside i A B PR). exists i. split; [apply in_seq; lia|]. destruct (entry_fails i Hi) as [A' [B' [PR' IFF]]].
    destruct (pair_once i A B A' B' PR PR') as [-> ->]. rewrite (proj2 IFF NC). auto.
Qed.
End Kernel.

(** ** From the arguments on the device *)
Definition known_of (d : device carr) : knownc := mkKnown (fun a => Some (size d a)) (fun a k => Some (cells d a (z k))).
Lemma known_of_agrees d : agrees (known_of d) d.
Proof. split; cbn [known_of len val]; intros; congruence. Qed.
Lemma elements_at d a n f k : elements d a n f -> k < n -> at_ (known_of d) a (z k) (f k).
Proof. intros [E V] Hk. exists (size d a). cbn [known_of len val]. rewrite E, Nat2Z.id, V by auto. repeat split; auto; lia. Qed.
Lemma args_of t tr aligned d : list2_fits t tr -> device_has_list2 t tr aligned d -> args_known t tr aligned (known_of d).
Proof.
  intros FIT [H1 H2 H3 H4 HA [H5 H6]]. constructor.
  - intros i Hi. apply (elements_at d SibLists _ (fun k => z (nth k (lists (from_sep_siblings tr)) 0)) i H1 Hi).
  - intros i Hi. apply (elements_at d SibStarts _ (fun k => z (nth k (starts (from_sep_siblings tr)) 0)) i H2).
    destruct (f_rows t tr FIT) as [rows [E LR]]. rewrite E, starts_length. lia.
  - intros i Hi. apply (elements_at d SibTargets _ (fun k => z (nth k (target_or_target_parent_boxes tr) 0)) i H3 Hi).
  - intros b Hb. destruct H4 as [H4 H4']. exists (size d BoxLevels). cbn [known_of len val]. rewrite Nat2Z.id, H4' by auto. repeat split; auto; lia.
  - intros a b Ha Hb. exists (size d BoxCenters). cbn [known_of len val]. rewrite H5, <- Nat2Z.inj_add, Nat2Z.id, H6 by auto. repeat split; auto; nia.
Qed.
Section Runs.
Variable (t : tree) (tr : traversal) (n aligned : nat).
Hypothesis FIT : list2_fits t tr.
Let S := class_arguments t n tr aligned.
Let L := length (lists (from_sep_siblings tr)).
Lemma translation_on_device per_level d : device_has_list2 t tr aligned d ->
  safe carr carr_eq (translation_program S per_level) d /\
  forall r d', completes carr carr_eq (translation_program S per_level) d r d' ->
  match translation_classes t n per_level tr with
  | None => r = None
  | Some ci => r = Some (ci_dist ci, ci_starts ci) /\ elements d' DenseClasses L (fun i => as_entry (nth i (ci_classes ci) None)) /\ length (ci_classes ci) = L
  end.
Proof. intros H. exact (translation_ok t tr n aligned per_level FIT (known_of d) (args_of t tr aligned d FIT H) d (known_of_agrees d)). Qed.
Lemma rotation_on_device angle angle_eqb angle_of d : device_has_list2 t tr aligned d ->
  safe carr carr_eq (rotation_program angle angle_eqb angle_of S) d /\
  forall r d', completes carr carr_eq (rotation_program angle angle_eqb angle_of S) d r d' ->
  match rotation_classes angle angle_eqb angle_of t n tr with
  | None => r = None
  | Some (classes, angles) => r = Some angles /\ elements d' DenseClasses L (fun i => as_entry (nth i classes None)) /\ length classes = L
  end.
Proof.
  intros H.
  enough (O : okc (known_of d) (rotation_program angle angle_eqb angle_of S) (fun r d' => match rotation_classes angle angle_eqb angle_of t n tr with
    | None => r = None | Some (classes, angles) => r = Some angles /\ elements d' DenseClasses L (fun i => as_entry (nth i classes None)) /\ length classes = L end)).
  { exact (O d (known_of_agrees d)). }
  unfold rotation_program. apply find_classes_ok with (n := n); auto; [apply args_of; auto| |].
  - intros E K'. apply ok_ret. intros d' A. unfold rotation_classes. rewrite E. auto.
  - intros K' us cls E LU HC LC B. unfold rotation_classes. rewrite E. cbn [S class_arguments c_n c_dim].
    destruct (compute_rotation_classes _ _ _ _ _ _) as [[angles m]|]; [|apply ok_ret; auto].
    destruct (length angles <=? _); [|apply ok_ret; auto].
    apply (through_map_ok t tr n aligned false K' m cls); auto. intros K2 H2. apply ok_ret. intros d' A.
    destruct (has_agrees carr K2 _ _ _ _ d' H2 A) as [X Y]. split; [reflexivity|]. split; [split; auto|]. rewrite map_length. auto.
Qed.
End Runs.
