(** The steps of the traversal between the list builders: level starts, lookups, merging. *)
From Coq Require Import List Arith ZArith NArith Lia Bool.
From Verif Require Import Base Tree Walk Traversal TraversalLists LevelStarts Kernel Device DeviceFacts ListBuilder ListBuilderFacts TravDevice DevTravGen.
Import ListNotations.

Notation okv := (ok varr varr_eq).
Notation vsame := (same_on tarray lname).
Notation vlist := (is_list tarray lname).

(** ** Launches storing to a single array *)
Definition F_one (res : varr) (f : nat -> option Z) (a : varr) : option (nat -> option Z) := if varr_eq a res then Some f else None.
Lemma F_one_same res f : F_one res f res = Some f.
Proof. unfold F_one. destruct (varr_eq res res); [auto|contradiction]. Qed.
Lemma F_one_other res f a : a <> res -> F_one res f a = None.
Proof. unfold F_one. destruct (varr_eq a res); [contradiction|auto]. Qed.
Lemma launch_one {R} (K : kn) res m f n code (next : host varr R) Q : len K res = Some (z m) ->
  (forall i, i < n -> item_ok K (F_one res f) (code i)) ->
  (forall k w, k < m -> f k = Some w -> (exists i, i < n /\ stores K (code i) res k) \/ val K res k = Some w) ->
  (forall K', vsame (fun a => a <> res) K K' -> len K' res = Some (z m) -> (forall k, val K' res k = f k) -> okv K' next Q) ->
  okv K (Launch n code next) Q.
Proof.
  intros L I C H. apply ok_launch_items with (F := F_one res f); auto.
  - intros a f0 m0 k w E La Hk V. unfold F_one in E. destruct (varr_eq a res) as [->|]; [|discriminate]. injection E as <-.
    rewrite L in La. injection La as <-. apply C; auto. lia.
  - apply H; auto.
    + apply same_upd. intros a N. apply F_one_other. auto.
    + intros k. cbn [upd val]. rewrite F_one_same. auto.
Qed.
Lemma item_cell (K : kn) G a k v next : cell K a k v -> G a = None -> item_ok K G (next v) -> item_ok K G (Load a k next).
Proof. intros [m [L [R V]]] E O. exists m, v. auto. Qed.
Lemma stores_cell (K : kn) a k v next b j : cell K a k v -> stores K (next v) b j -> stores K (Load a k next) b j.
Proof. intros [m [L [R V]]] O. exists v. auto. Qed.
Lemma item_one (K : kn) res m f k v next : len K res = Some (z m) -> k < m -> f k = Some v -> item_ok K (F_one res f) next ->
  item_ok K (F_one res f) (Store res (z k) v next).
Proof. intros L Hk E O. exists (z m), f. rewrite Nat2Z.id, F_one_same. repeat split; auto; lia. Qed.
Lemma alloc_len (K : kn) a m : len (k_alloc varr varr_eq K a m) a = Some m.
Proof. cbn [k_alloc len]. destruct (varr_eq a a); [auto|contradiction]. Qed.
Lemma is_list_of (K : kn) a l : len K a = Some (z (length l)) -> (forall k, k < length l -> val K a k = Some (nth k l 0%Z)) -> vlist K a l.
Proof. intros A B. constructor; auto. Qed.
Lemma vlist_cell (K : kn) a l k : vlist K a l -> k < length l -> cell K a (z k) (nth k l 0%Z).
Proof. intros H Hk. exact (has_cell K a _ _ _ k H Hk). Qed.
Lemma vlist_cell_z (K : kn) a l k : vlist K a (map z l) -> k < length l -> cell K a (z k) (z (nth k l 0)).
Proof.
  intros H Hk. assert (C := vlist_cell K a _ k H). rewrite map_length in C. specialize (C Hk). change 0%Z with (z 0) in C. rewrite map_nth in C. exact C.
Qed.

Lemma list_seq (l : list nat) : map (fun k => nth k l 0) (seq 0 (length l)) = l.
Proof. apply (nth_ext _ _ 0 0); rewrite map_length, seq_length; auto. intros k Hk. apply (nth_map_seq (fun k => nth k l 0)). auto. Qed.

(** ** Level starts *)
Section Levels.
Variable t : tree.
Hypothesis W : wf_tree t.
Variable P : trav_params.
Variable m1 m2 : bool.
Notation S := (scalars_of t P m1 m2).
Hypothesis LSB : level_sorted t (level_start_box_nrs P).

Lemma peeks_ok {R} (K : kn) a m f (ks : list nat) (next : list Z -> host varr R) Q : has K a m m f -> (forall k, In k ks -> k < m) ->
  okv K (next (map f ks)) Q -> okv K (peeks a ks next) Q.
Proof.
  intros H. revert next. induction ks as [|k ks IH]; intros next B O; cbn [peeks map] in *; auto.
  assert (Hk : k < m) by (apply B; left; auto).
  apply (ok_peek varr varr_eq K a k (z m) (f k)); [apply H|lia|apply H; auto|]. apply IH; auto. intros j J. apply B. right; auto.
Qed.
Lemma repeat_nth {A} (x d : A) k m : k < m -> nth k (repeat x m) d = x.
Proof. intros H. rewrite (nth_indep _ d x) by (rewrite repeat_length; auto). apply nth_repeat. Qed.
Lemma level_starts_ok {R} (K : kn) l bl (next : list nat -> host varr R) Q : tree_known t P m1 m2 K -> vlist K (Lists l) (map z bl) ->
  (forall x, In x bl -> x < nboxes t) -> (forall i j, i < j -> j < length bl -> nth i bl 0 < nth j bl 0) ->
  (forall K', vsame (fun a => a <> Base (ListLevelStarts l)) K K' -> okv K' (next (extract_level_starts t (level_start_box_nrs P) bl)) Q) ->
  okv K (level_starts_prog S l (length bl) next) Q.
Proof.
  intros TK IL RG SO H. unfold level_starts_prog. set (res := Base (ListLevelStarts l)).
  apply ok_alloc; [lia|]. set (K1 := k_alloc varr varr_eq K res (z (s_nlevels S + 1))).
  assert (L1 : len K1 res = Some (z (s_nlevels S + 1))) by apply alloc_len.
  apply (ok_assign varr varr_eq K1 res 0 (repeat (z (length bl)) (s_nlevels S + 1)) (z (s_nlevels S + 1))); auto; [rewrite repeat_length; lia|].
  set (K2 := k_assign varr varr_eq K1 res 0 (repeat (z (length bl)) (s_nlevels S + 1))).
  assert (H2 : has K2 res (s_nlevels S + 1) (s_nlevels S + 1) (fun _ => z (length bl))).
  { assert (X := has_assign_fresh varr varr_eq K1 res (repeat (z (length bl)) (s_nlevels S + 1)) (s_nlevels S + 1) (fun _ => z (length bl)) L1).
    rewrite repeat_length in X. apply X; auto. intros k Hk. rewrite repeat_nth; auto. }
  assert (S2 : vsame (fun a => a <> res) K K2).
  { eapply same_trans; [|apply same_assign; tauto]. eapply same_trans; [|apply same_alloc; tauto]. apply same_refl. }
  clearbody K2. clear K1 L1. change (s_nlevels S) with (nlevels t) in *.
  assert (TK2 : tree_known t P m1 m2 K2).
  { apply (tree_known_same t P m1 m2 (fun a => a <> res) K K2); auto. intros [[]| | | | | | | | |]; cbn; try contradiction; discriminate. }
  assert (IL2 : vlist K2 (Lists l) (map z bl)) by (apply (same_list tarray lname (fun a => a <> res) K K2); auto; discriminate).
  set (rs := fold_left (level_start_item t (level_start_box_nrs P) bl) (seq 0 (length bl)) (repeat (length bl) (nlevels t + 1))).
  destruct (scan_inv t (wf_level_lt t W) (level_start_box_nrs P) LSB bl RG SO (length bl) (le_n _)) as [LR NR]. fold rs in LR, NR.
  assert (LD := leading_spec t (wf_level_lt t W) (level_start_box_nrs P) LSB bl RG).
  assert (BL := below_lt t (wf_level_lt t W) (level_start_box_nrs P) LSB bl RG SO).
  assert (OC := occurs_true t bl). cbv beta in LD, BL, OC.
  assert (LL := lev_lt t (wf_level_lt t W) bl RG). cbv beta in LL.
  assert (BR : forall i, i < length bl -> nth i bl 0 < nboxes t) by (intros i Hi; apply RG, nth_In; auto).
  set (lead := fun i => (if i =? 0 then true else (nth (i - 1) bl 0 <? level_start_box_nrs P (box_level t (nth i bl 0))) && (level_start_box_nrs P (box_level t (nth i bl 0)) <=? nth i bl 0))).
  assert (IT : forall i, i < length bl -> forall Pr : item varr -> Prop,
     (forall a k v next, cell K2 a k v -> a <> res -> Pr (next v) -> Pr (Load a k next)) ->
     Pr (if lead i then Store res (z (box_level t (nth i bl 0))) (z i) Finish else Finish) -> Pr (level_start_item_dev l i)).
  { intros i Hi Pr LO PR. unfold level_start_item_dev.
    apply (LO _ _ (z (nth i bl 0))); [apply vlist_cell_z; auto|discriminate|].
    apply (LO _ _ (z (box_level t (nth i bl 0)))); [apply (k_levels t P m1 m2 K2 (k_boxes t P m1 m2 K2 TK2)); auto|discriminate|].
    destruct i as [|i']; [exact PR|].
    apply (LO _ _ (z (nth i' bl 0))); [apply vlist_cell_z; auto; lia|discriminate|].
    apply (LO _ _ (z (level_start_box_nrs P (box_level t (nth (Datatypes.S i') bl 0))))); [apply (k_level_starts t P m1 m2 K2 TK2); auto|discriminate|].
    unfold lead in PR. cbn [Nat.eqb] in PR. replace (Datatypes.S i' - 1) with i' in PR by lia.
    rewrite ltb_z. assert (LE : forall a b, (z a <=? z b)%Z = (a <=? b)) by (intros a b; destruct (Nat.leb_spec a b), (Z.leb_spec (z a) (z b)); auto; lia).
    rewrite LE. exact PR. }
  assert (LEAD : forall i, i < length bl -> lead i = true -> i = below t bl (box_level t (nth i bl 0))).
  { intros i Hi E. unfold lead in E. rewrite LD in E by auto. assert (B1 := BL (box_level t (nth i bl 0)) i Hi).
    destruct (Nat.eqb_spec i 0) as [->|N0].
    - destruct (below t bl (box_level t (nth 0 bl 0))) eqn:EB; auto. lia.
    - cbn [orb] in E. apply Nat.ltb_lt in E. assert (B2 := BL (box_level t (nth i bl 0)) (i - 1) ltac:(lia)). lia. }
  apply (launch_one K2 res (nlevels t + 1) (fun k => Some (z (nth k rs 0)))); [apply H2| | |].
  - intros i Hi. apply (IT i Hi (item_ok K2 (F_one res (fun k => Some (z (nth k rs 0)))))).
    + intros a k v nx C N O. apply (item_cell K2 _ a k v); auto. apply F_one_other. auto.
    + destruct (lead i) eqn:E; [|exact Logic.I]. assert (Hl := LL i Hi).
      apply (item_one K2 res (nlevels t + 1)); [apply H2|lia| |exact Logic.I]. rewrite NR by lia.
      assert (O : occurs t bl (length bl) (box_level t (nth i bl 0)) = true) by (apply OC; eauto).
      rewrite O, <- (LEAD i Hi E). auto.
  - intros k w Hk E. injection E as <-. rewrite NR by lia. destruct (occurs t bl (length bl) k) eqn:O.
    + left. apply OC in O. destruct O as [i [Hi Ei]]. set (j := below t bl k).
      assert (B1 := BL k i Hi). fold j in B1. assert (Hj : j <= i) by lia. assert (Bj := BL k j ltac:(lia)). fold j in Bj.
      assert (Lj : box_level t (nth j bl 0) = k).
      { assert (X := lev_mono t (wf_level_lt t W) (level_start_box_nrs P) LSB bl RG SO j i Hj Hi). cbv beta in X. lia. }
      exists j. split; [lia|]. apply (IT j ltac:(lia) (fun p => stores K2 p res k)).
      * intros a k0 v nx C N OO. apply (stores_cell K2 a k0 v); auto.
      * assert (E : lead j = true).
        { unfold lead. rewrite LD by lia. destruct (Nat.eqb_spec j 0) as [|N0]; auto. cbn [orb]. apply Nat.ltb_lt. rewrite Lj.
          apply BL; [lia|]. fold j. lia. }
        rewrite E. left. rewrite Lj. auto.
    + right. rewrite (has_val _ _ _ _ _ _ H2) by auto. auto.
  - intros K3 S3 L3 V3.
    apply (peeks_ok K3 res (nlevels t + 1) (fun k => z (nth k rs 0))).
    { constructor; auto. }
    { intros k I. apply in_seq in I. lia. }
    replace (map Z.to_nat (map (fun k => z (nth k rs 0)) (seq 0 (nlevels t + 1)))) with rs.
    2:{ rewrite map_map. rewrite <- LR. rewrite <- (list_seq rs) at 1. apply map_ext. intros k. rewrite Nat2Z.id. auto. }
    apply H. eapply same_trans; [exact S2|exact S3].
Qed.
End Levels.

(** ** Lookups *)
Lemma take_ok {R} (K : kn) a idx res n ix v (next : host varr R) Q : res <> idx -> res <> a ->
  (forall i, i < n -> cell K idx (z i) (ix i)) -> (forall i, i < n -> cell K a (ix i) (v i)) ->
  (forall K', vsame (fun x => x <> res) K K' -> vlist K' res (map v (seq 0 n)) -> okv K' next Q) ->
  okv K (take a idx res n next) Q.
Proof.
  intros N1 N2 CI CA H. unfold take. apply ok_alloc; [lia|]. set (K1 := k_alloc varr varr_eq K res (z n)).
  assert (L1 : len K1 res = Some (z n)) by apply alloc_len.
  assert (S1 : vsame (fun x => x <> res) K K1) by (apply same_alloc; tauto).
  assert (CI1 : forall i, i < n -> cell K1 idx (z i) (ix i)) by (intros i Hi; apply (same_cell (fun x => x <> res) K); auto).
  assert (CA1 : forall i, i < n -> cell K1 a (ix i) (v i)) by (intros i Hi; apply (same_cell (fun x => x <> res) K); auto).
  clearbody K1. apply (launch_one K1 res n (fun k => Some (v k))); auto.
  - intros i Hi. apply (item_cell K1 _ _ _ (ix i)); auto; [apply F_one_other; auto|]. apply (item_cell K1 _ _ _ (v i)); auto; [apply F_one_other; auto|].
    apply (item_one K1 res n); auto. exact Logic.I.
  - intros k w Hk E. left. exists k. split; auto. apply (stores_cell K1 _ _ (ix k)); auto. apply (stores_cell K1 _ _ (v k)); auto. apply stores_here.
  - intros K2 S2 L2 V2. apply H; [eapply same_trans; eauto|]. apply is_list_of; rewrite map_length, seq_length; auto.
    intros k Hk. rewrite V2, nth_map_seq by auto. auto.
Qed.

(** ** reverse_index_array *)
Lemma reverse_nth arr m n : NoDup arr -> (forall x, In x arr -> x < n) -> m <= length arr ->
  let r := fold_left (fun r i => update r (nth i arr 0) i) (seq 0 m) (repeat 0 n) in
  length r = n /\ (forall i, i < m -> nth (nth i arr 0) r 0 = i) /\ (forall k, k < n -> ~ In k (firstn m arr) -> nth k r 0 = 0).
Proof.
  intros ND RG. assert (UL : forall {A} (l : list A) i v, length (update l i v) = length l) by (intros A l; induction l; intros [|i] v; cbn; auto).
  assert (UN : forall (l : list nat) i v k, k < length l -> nth k (update l i v) 0 = if k =? i then v else nth k l 0).
  { intros l. induction l as [|x l IH]; intros i v k Hk; cbn [length] in Hk; [lia|]. destruct i, k; cbn [update nth Nat.eqb]; auto. apply IH. lia. }
  induction m as [|m IH]; intros Hm; cbv zeta.
  - cbn [seq fold_left]. rewrite repeat_length. split; auto. split; [intros; lia|]. intros k Hk _. apply repeat_nth. auto.
  - rewrite seq_S, fold_left_app. cbn [plus fold_left]. destruct (IH ltac:(lia)) as [A [B C]]. cbv zeta in A, B, C.
    set (r := fold_left _ (seq 0 m) _) in *. clearbody r. rewrite UL. split; auto. split.
    + intros i Hi. assert (Hx : nth i arr 0 < n) by (apply RG, nth_In; lia). rewrite UN by lia.
      destruct (Nat.eqb_spec (nth i arr 0) (nth m arr 0)) as [E|E].
      * apply (proj1 (NoDup_nth arr 0) ND) in E; lia.
      * apply B. destruct (Nat.eq_dec i m); [subst; contradiction|lia].
    + intros k Hk N. rewrite UN by lia.
      assert (FS : firstn (Datatypes.S m) arr = firstn m arr ++ [nth m arr 0]).
      { clear - Hm. revert m Hm. induction arr as [|x arr IH]; intros [|m] Hm; cbn [length firstn nth app] in *; try lia; auto. f_equal. apply IH. lia. }
      rewrite FS, in_app_iff in N. destruct (Nat.eqb_spec k (nth m arr 0)) as [->|]; [destruct N; right; left; auto|]. apply C; auto.
Qed.
Lemma reverse_index_ok {R} (K : kn) l arr n (next : host varr R) Q : vlist K (Lists l) (map z arr) -> NoDup arr -> (forall x, In x arr -> x < n) ->
  (forall K', vsame (fun x => x <> Base ReverseIndex) K K' -> vlist K' (Base ReverseIndex) (map z (reverse_index arr n)) -> okv K' next Q) ->
  okv K (reverse_index_prog (Lists l) (length arr) n next) Q.
Proof.
  intros IL ND RG H. unfold reverse_index_prog. set (res := Base ReverseIndex). apply ok_alloc; [lia|]. set (K1 := k_alloc varr varr_eq K res (z n)).
  assert (H1 : has K1 res n n (fun _ => 0%Z)) by (apply has_alloc_same; auto).
  assert (S1 : vsame (fun x => x <> res) K K1) by (apply same_alloc; tauto).
  assert (IL1 : vlist K1 (Lists l) (map z arr)) by (apply (same_list tarray lname (fun x => x <> res) K K1); auto; discriminate).
  clearbody K1. destruct (reverse_nth arr (length arr) n ND RG (le_n _)) as [A [B C]]. cbv zeta in A, B, C. rewrite firstn_all in C.
  fold (reverse_index arr n) in A, B, C. set (r := reverse_index arr n) in *. clearbody r.
  apply (launch_one K1 res n (fun k => Some (z (nth k r 0)))); [apply H1| | |].
  - intros i Hi. apply (item_cell K1 _ _ _ (z (nth i arr 0))); [apply vlist_cell_z; auto|apply F_one_other; discriminate|].
    apply (item_one K1 res n); [apply H1|apply RG, nth_In; auto| |exact Logic.I]. rewrite B; auto.
  - intros k w Hk E. injection E as <-. destruct (in_dec Nat.eq_dec k arr) as [I|I].
    + left. apply (In_nth _ _ 0) in I. destruct I as [i [Hi <-]]. exists i. split; auto.
      apply (stores_cell K1 _ _ (z (nth i arr 0))); [apply vlist_cell_z; auto|]. apply stores_here.
    + right. rewrite C by auto. apply (has_val _ _ _ _ _ _ H1). auto.
  - intros K2 S2 L2 V2. apply H; [eapply same_trans; eauto|]. apply is_list_of; rewrite map_length, A; auto.
    intros k Hk. rewrite V2. f_equal. change 0%Z with (z 0). rewrite map_nth. auto.
Qed.

(** ** Merging *)
Section Merge.
Variable ins : list lname.
Variable res : lname.
Variable ll : lname -> list (list nat).
Variable o2i : list nat.
Hypothesis NR : ~ In res ins.
Definition merged_row (b : nat) : list nat := concat (map (fun l => nth b (ll l) []) ins).
Hypothesis OB : forall b l, In b o2i -> In l ins -> b < length (ll l).
Definition row_start (l : lname) (b : nat) : nat := nsum (firstn b (map (@length nat) (ll l))).
Definition row_of (b : nat) (l : lname) : lname * Z * Z := (l, z (row_start l b), z (length (nth b (ll l) []))).
Definition ins_known (K : kn) : Prop := vlist K (Base OutputToInput) (map z o2i) /\ forall l, In l ins -> rows_known K l (ll l).

Lemma input_rows_any (K : kn) (Pr : item varr -> Prop) b next : (forall l, In l ins -> rows_known K l (ll l)) -> In b o2i ->
  (forall l k v nx, In l ins -> cell K (Starts l) k v -> Pr (nx v) -> Pr (Load (Starts l) k nx)) ->
  Pr (next (map (row_of b) ins)) -> Pr (input_rows ins (z b) next).
Proof.
  intros RK IB LO. assert (OB' := fun l => OB b l IB). clear OB NR. revert next. generalize dependent ins. clear ins.
  induction ins as [|l r IH]; intros RK LO OB' next O; cbn [input_rows map] in *; auto.
  destruct (RK l) as [R1 _]; [left; auto|]. assert (Hb : b < length (ll l)) by (apply OB'; left; auto).
  assert (L1 := prefixes_length (map (@length nat) (ll l))). rewrite map_length in L1.
  assert (C := fun k Hk => vlist_cell K _ _ k R1 Hk). rewrite L1 in C.
  apply (LO l _ (z (row_start l b))); [left; auto| |].
  { assert (X := C b ltac:(lia)). rewrite prefixes_nth in X by (rewrite map_length; lia). exact X. }
  apply (LO l _ (z (row_start l (Datatypes.S b)))); [left; auto| |].
  { assert (X := C (Datatypes.S b) ltac:(lia)). rewrite prefixes_nth in X by (rewrite map_length; lia).
    replace (z b + 1)%Z with (z (Datatypes.S b)) by lia. exact X. }
  apply IH.
  - intros l' I. apply RK. right; auto.
  - intros l' k v nx I. apply LO. right; auto.
  - intros l' I. apply OB'. right; auto.
  - replace (z (row_start l (Datatypes.S b)) - z (row_start l b))%Z with (z (length (nth b (ll l) []))); [exact O|].
    unfold row_start. rewrite nsum_firstn_S by (rewrite map_length; auto).
    change 0 with (length (@nil nat)). rewrite map_nth. lia.
Qed.
Lemma zsum_lengths (h : lname -> nat) l : zsum (map (fun x => z (h x)) l) = z (nsum (map h l)).
Proof. induction l as [|x l IH]; cbn [map zsum nsum fold_right]; auto. unfold zsum, nsum in *. lia. Qed.
Lemma counts_total b : zsum (map snd (map (row_of b) ins)) = z (length (merged_row b)).
Proof.
  unfold merged_row. rewrite map_map. cbn [row_of snd]. rewrite (zsum_lengths (fun l => length (nth b (ll l) []))).
  rewrite concat_len, map_map. auto.
Qed.
(** one work item of the copying kernel *)
Section Copy.
Variable K : kn.
Variable b c0 : nat.
Hypothesis RK : forall l, In l ins -> rows_known K l (ll l).
Hypothesis IB : In b o2i.
Variable Pr : nat -> item varr -> Prop.
Hypothesis LO : forall j l k v nx, In l ins -> cell K (Lists l) k v -> Pr j (nx v) -> Pr j (Load (Lists l) k nx).
Hypothesis ST : forall j nx, j < length (merged_row b) -> Pr (Datatypes.S j) nx -> Pr j (Store (Lists res) (z (c0 + j)) (z (nth j (merged_row b) 0)) nx).
Lemma copy_row_any l row next : In l ins -> forall s pre post, (forall i, i < length row -> cell K (Lists l) (z (s + i)) (z (nth i row 0))) ->
  merged_row b = pre ++ row ++ post ->
  Pr (length pre + length row) (next (z (c0 + (length pre + length row)))) ->
  Pr (length pre) (copy_row l res (length row) (z s) (z (c0 + length pre)) next).
Proof.
  intros Il. induction row as [|v row IH]; intros s pre post C E O; cbn [length copy_row] in *.
  - rewrite Nat.add_0_r in O. exact O.
  - apply (LO _ l _ (z v)); auto.
    { assert (X := C 0 ltac:(lia)). rewrite Nat.add_0_r in X. exact X. }
    assert (V : nth (length pre) (merged_row b) 0 = v) by (rewrite E, app_nth2, Nat.sub_diag by lia; reflexivity).
    rewrite <- V. apply ST.
    { rewrite E, !app_length. cbn [length]. lia. }
    replace (z s + 1)%Z with (z (Datatypes.S s)) by lia. replace (z (c0 + length pre) + 1)%Z with (z (c0 + length (pre ++ [v]))) by (rewrite app_length; cbn [length]; lia).
    replace (Datatypes.S (length pre)) with (length (pre ++ [v])) by (rewrite app_length; cbn [length]; lia).
    apply (IH (Datatypes.S s) (pre ++ [v]) post).
    + intros i Hi. assert (X := C (Datatypes.S i) ltac:(lia)). cbn [nth] in X. replace (Datatypes.S s + i) with (s + Datatypes.S i) by lia. exact X.
    + rewrite <- app_assoc. exact E.
    + rewrite !app_length. cbn [length]. replace (length pre + 1 + length row) with (length pre + Datatypes.S (length row)) by lia. exact O.
Qed.
Lemma copy_rows_any : Pr (length (merged_row b)) Finish -> Pr 0 (copy_rows (map (row_of b) ins) res (z c0)).
Proof.
  intros FI.
  assert (G : forall r pre, (exists r0, ins = r0 ++ r) -> merged_row b = pre ++ concat (map (fun l => nth b (ll l) []) r) ->
    Pr (length pre) (copy_rows (map (row_of b) r) res (z (c0 + length pre)))).
  { induction r as [|l r IH]; intros pre [r0 EI] E; cbn [map concat copy_rows row_of] in *.
    - rewrite app_nil_r in E. rewrite E in FI. exact FI.
    - rewrite Nat2Z.id. assert (Il : In l ins) by (rewrite EI; apply in_or_app; right; left; auto).
      apply (copy_row_any l (nth b (ll l) []) _ Il (row_start l b) pre (concat (map (fun l => nth b (ll l) []) r))); auto.
      + intros i Hi. destruct (RK l Il) as [_ R2]. assert (Hb := OB b l IB Il).
        destruct (nth_concat_offset nat (ll l) b i 0 Hb Hi) as [A B]. fold (row_start l b) in A, B. rewrite <- (nth_error_nth _ _ 0 A). apply vlist_cell_z; auto.
      + rewrite <- app_length. apply (IH (pre ++ nth b (ll l) [])).
        * exists (r0 ++ [l]). rewrite <- app_assoc. exact EI.
        * rewrite <- app_assoc. exact E. }
  rewrite <- (Nat.add_0_r c0). apply (G ins []); [exists []; auto|reflexivity].
Qed.
End Copy.

Definition merge_scratch (a : varr) : Prop := a = Base NewCounts \/ scan_buffer tarray lname a \/ a = Starts res \/ a = Lists res.
Notation rows' := (map merged_row o2i).
Lemma merge_ok {R} (K : kn) (next : host varr R) Q : ins_known K ->
  (forall K', vsame (fun a => ~ merge_scratch a) K K' -> rows_known K' res rows' -> okv K' next Q) ->
  okv K (merge_prog ins res (length o2i) next) Q.
Proof.
  intros IK H. unfold merge_prog. set (n := length o2i).
  assert (KEEP : forall K K', vsame (fun a => ~ merge_scratch a) K K' -> ins_known K -> ins_known K').
  { intros J J' SJ [A B]. split; [apply (same_list tarray lname _ J J' _ _ SJ); auto; unfold merge_scratch; cbn; intros [X|[X|[X|X]]]; try discriminate; auto|].
    intros l Il. destruct (B l Il) as [B1 B2]. assert (l <> res) by (intros ->; contradiction).
    split; apply (same_list tarray lname _ J J' _ _ SJ); auto; unfold merge_scratch; cbn; intros [X|[X|[X|X]]]; try discriminate; auto; congruence. }
  set (cnt := fun k => match k with 0 => 0 | Datatypes.S k' => length (merged_row (nth k' o2i 0)) end).
  apply ok_alloc; [lia|]. set (K1 := k_alloc varr varr_eq K (Base NewCounts) (z n + 1)).
  assert (H1 : has K1 (Base NewCounts) (Datatypes.S n) (Datatypes.S n) (fun _ => 0%Z)).
  { unfold K1. replace (z n + 1)%Z with (z (Datatypes.S n)) by lia. apply has_alloc_same. auto. }
  assert (S1 : vsame (fun a => ~ merge_scratch a) K K1) by (apply same_alloc; unfold merge_scratch; tauto).
  assert (IK1 := KEEP _ _ S1 IK). clearbody K1.
  assert (OI : forall i, i < n -> cell K1 (Base OutputToInput) (z i) (z (nth i o2i 0))) by (intros i Hi; apply vlist_cell_z; [apply IK1|auto]).
  assert (IN : forall i, i < n -> In (nth i o2i 0) o2i) by (intros i Hi; apply nth_In; auto).
  apply (launch_one K1 (Base NewCounts) (Datatypes.S n) (fun k => Some (z (cnt k)))); [apply H1| | |].
  - intros i Hi. unfold merge_count_item. apply (item_cell K1 _ _ _ (z (nth i o2i 0))); [solve [auto]|apply F_one_other; discriminate|].
    apply (input_rows_any K1 (item_ok K1 (F_one (Base NewCounts) (fun k => Some (z (cnt k)))))); [apply IK1|auto| |].
    + intros l k v nx Il C O. apply (item_cell K1 _ _ _ v); [exact C|apply F_one_other; discriminate|exact O].
    + rewrite counts_total. replace (z i + 1)%Z with (z (Datatypes.S i)) by lia.
      assert (X : item_ok K1 (F_one (Base NewCounts) (fun k => Some (z (cnt k)))) (Store (Base NewCounts) (z (Datatypes.S i)) (z (length (merged_row (nth i o2i 0)))) Finish)).
      { apply (item_one K1 _ (Datatypes.S n)); [apply H1|lia|reflexivity|exact Logic.I]. }
      destruct (i =? 0); auto. apply (item_one K1 _ (Datatypes.S n) _ 0 0%Z); [apply H1|lia|reflexivity|auto].
  - intros k w Hk E. injection E as <-. destruct k as [|k]; [right; apply H1; lia|]. left. exists k. split; [lia|].
    unfold merge_count_item. apply (stores_cell K1 _ _ (z (nth k o2i 0))); [apply OI; lia|].
    apply (input_rows_any K1 (fun p => stores K1 p (Base NewCounts) (Datatypes.S k))); [apply IK1|apply IN; lia| |].
    + intros l k0 v nx Il C O. apply (stores_cell K1 _ _ v); auto.
    + replace (z k + 1)%Z with (z (Datatypes.S k)) by lia. destruct (k =? 0); [apply stores_later|]; apply stores_here.
  - intros K2 S2 L2 V2. replace (n + 1) with (Datatypes.S n) by lia.
    refine (sum_scan_ok tarray lname tarray_eq lname_eq K2 (Base NewCounts) (fun c => c) (Datatypes.S n) (Datatypes.S n) (fun k => z (cnt k)) _ Q _ _ _); [constructor; auto|intros []|].
    intros K3 S3 O3.
    assert (S3' : vsame (fun a => ~ merge_scratch a) K K3).
    { eapply same_trans; [exact S1|]. eapply same_trans; [eapply same_less; [|exact S2]; cbn; unfold merge_scratch; tauto|].
      eapply same_less; [|exact S3]. cbn. unfold merge_scratch. tauto. }
    assert (PS : forall i, i <= n -> zsum (map (fun j => z (cnt j)) (seq 0 (Datatypes.S i))) = nth i (prefixes (map (@length nat) rows')) 0%Z).
    { intros i Hi. rewrite zsum_z. rewrite prefixes_nth by (rewrite !map_length; auto). f_equal.
      cbn [seq map]. unfold nsum. cbn [fold_right cnt]. fold (nsum (map cnt (seq 1 i))). fold (nsum (firstn i (map (@length nat) rows'))).
      cbn [plus]. f_equal. rewrite <- seq_shift, map_map, map_map, firstn_map. cbn [cnt].
      replace (firstn i o2i) with (map (fun k => nth k o2i 0) (seq 0 i)); [rewrite map_map; auto|].
      rewrite <- (firstn_seq_map (fun k => nth k o2i 0) i (length o2i)) by auto. rewrite list_seq. auto. }
    clear S1 S2 S3 K2 L2 V2 IK1 OI H1.
    apply (ok_alloc varr varr_eq); [lia|]. set (K4 := k_alloc varr varr_eq K3 (Starts res) (z n + 1)).
    assert (L4 : len K4 (Starts res) = Some (z (Datatypes.S n))) by (unfold K4; rewrite alloc_len; f_equal; lia).
    assert (S4 : vsame (fun a => ~ merge_scratch a) K K4).
    { eapply same_trans; [exact S3'|]. apply same_alloc. unfold merge_scratch. tauto. }
    assert (O4 : has K4 ScanOut (Datatypes.S n) (Datatypes.S n) (fun i => zsum (map (fun j => z (cnt j)) (seq 0 (Datatypes.S i))))).
    { apply has_alloc_other; [discriminate|]. exact O3. }
    clearbody K4. apply (launch_one K4 (Starts res) (Datatypes.S n) (fun k => Some (nth k (prefixes (map (@length nat) rows')) 0%Z))); auto.
    + intros i Hi. eapply item_cell; [apply (has_cell K4 ScanOut _ _ _ i O4 Hi)|apply F_one_other; discriminate|].
      apply (item_one K4 _ (Datatypes.S n)); auto; [|exact Logic.I]. rewrite PS by lia. auto.
    + intros k w Hk E. left. exists k. split; auto. eapply stores_cell; [apply (has_cell K4 ScanOut _ _ _ k O4 Hk)|]. apply stores_here.
    + intros K5 S5 L5 V5.
      assert (LP : length (prefixes (map (@length nat) rows')) = Datatypes.S n) by (rewrite prefixes_length, !map_length; auto).
      assert (ST5 : vlist K5 (Starts res) (prefixes (map (@length nat) rows'))) by (apply is_list_of; rewrite LP; auto).
      assert (S5' : vsame (fun a => ~ merge_scratch a) K K5).
      { eapply same_trans; [exact S4|]. eapply same_less; [|exact S5]. cbn. unfold merge_scratch. tauto. }
      apply (ok_peek varr varr_eq K5 (Starts res) n (z (Datatypes.S n)) (z (length (concat rows')))); [auto|lia| |].
      { rewrite V5, prefixes_nth by (rewrite !map_length; auto). rewrite firstn_all2 by (rewrite !map_length; auto). rewrite concat_len. auto. }
      set (T := length (concat rows')). apply ok_alloc; [lia|]. set (K6 := k_alloc varr varr_eq K5 (Lists res) (z T)).
      assert (L6 : len K6 (Lists res) = Some (z T)) by apply alloc_len.
      assert (S6 : vsame (fun a => a <> Lists res) K5 K6) by (apply same_alloc; tauto). clearbody K6.
      rewrite Nat2Z.id. apply (ok_assign varr varr_eq K6 (Lists res) 0 (repeat 999999999%Z T) (z T)); auto; [rewrite repeat_length; lia|].
      set (K7 := k_assign varr varr_eq K6 (Lists res) 0 (repeat 999999999%Z T)).
      assert (L7 : len K7 (Lists res) = Some (z T)) by auto.
      assert (S7 : vsame (fun a => a <> Lists res) K5 K7) by (eapply same_trans; [exact S6|apply same_assign; tauto]). clearbody K7. clear K6 L6 S6.
      assert (S7' : vsame (fun a => ~ merge_scratch a) K K7).
      { eapply same_trans; [exact S5'|]. eapply same_less; [|exact S7]. cbn. unfold merge_scratch. tauto. }
      assert (IK7 := KEEP _ _ S7' IK).
      assert (OI : forall i, i < n -> cell K7 (Base OutputToInput) (z i) (z (nth i o2i 0))) by (intros i Hi; apply vlist_cell_z; [apply IK7|auto]).
      assert (ST7 : vlist K7 (Starts res) (prefixes (map (@length nat) rows'))) by (apply (same_list tarray lname _ K5 K7 _ _ S7); auto; discriminate).
      assert (NX : forall i, i < n -> nth i rows' [] = merged_row (nth i o2i 0)).
      { intros i Hi. rewrite (nth_indep _ [] (merged_row 0)) by (rewrite map_length; auto). apply map_nth. }
      set (off := fun i => nsum (firstn i (map (@length nat) rows'))).
      assert (SC : forall i, i < n -> cell K7 (Starts res) (z i) (z (off i))).
      { intros i Hi. assert (X := vlist_cell K7 _ _ i ST7 ltac:(rewrite LP; lia)). rewrite prefixes_nth in X by (rewrite !map_length; fold n; lia). exact X. }
      assert (OFF : forall i j, i < n -> j < length (merged_row (nth i o2i 0)) -> off i + j < T /\ nth (off i + j) (concat rows') 0 = nth j (merged_row (nth i o2i 0)) 0).
      { intros i j Hi Hj. rewrite <- NX in Hj |- * by auto.
        destruct (nth_concat_offset nat rows' i j 0) as [A B]; [rewrite map_length; auto|auto|]. split; [exact B|]. apply (nth_error_nth _ _ 0 A). }
      apply (launch_one K7 (Lists res) T (fun k => Some (z (nth k (concat rows') 0)))); auto.
      * intros i Hi. unfold merge_copy_item. apply (item_cell K7 _ _ _ (z (nth i o2i 0))); [solve [auto]|apply F_one_other; discriminate|].
        apply (input_rows_any K7 (item_ok K7 (F_one (Lists res) (fun k => Some (z (nth k (concat rows') 0)))))); [apply IK7|auto| |].
        { intros l k v nx Il C O. apply (item_cell K7 _ _ _ v); [exact C|apply F_one_other; discriminate|exact O]. }
        apply (item_cell K7 _ _ _ (z (off i))); [solve [auto]|apply F_one_other; discriminate|].
        apply (copy_rows_any K7 (nth i o2i 0) (off i) (proj2 IK7) (IN i Hi) (fun _ => item_ok K7 (F_one (Lists res) (fun k => Some (z (nth k (concat rows') 0)))))).
        -- intros j l k v nx Il C O. apply (item_cell K7 _ _ _ v); [exact C| |exact O]. apply F_one_other. intros E. injection E as ->. contradiction.
        -- intros j nx Hj O. destruct (OFF i j Hi Hj) as [A B]. apply (item_one K7 _ T); auto. rewrite B. auto.
        -- exact Logic.I.
      * intros k w Hk E. left. destruct (offset_found nat rows' k Hk) as [i [j [I1 [I2 ->]]]]. rewrite map_length in I1. fold n in I1. rewrite NX in I2 by auto.
        exists i. split; auto. unfold merge_copy_item. apply (stores_cell K7 _ _ (z (nth i o2i 0))); auto.
        apply (input_rows_any K7 (fun p => stores K7 p (Lists res) (off i + j))); [apply IK7|auto| |].
        { intros l k v nx Il C O. apply (stores_cell K7 _ _ v); auto. }
        apply (stores_cell K7 _ _ (z (off i))); auto.
        apply (copy_rows_any K7 (nth i o2i 0) (off i) (proj2 IK7) (IN i I1) (fun q p => q <= j -> stores K7 p (Lists res) (off i + j))).
        -- intros q l k v nx Il C O Hq. apply (stores_cell K7 _ _ v); auto.
        -- intros q nx Hq O Hqj. destruct (Nat.eq_dec q j) as [->|]; [apply stores_here|apply stores_later; apply O; lia].
        -- lia.
        -- lia.
      * intros K8 S8 L8 V8. apply H.
        -- eapply same_trans; [exact S7'|]. eapply same_less; [|exact S8]. cbn. unfold merge_scratch. tauto.
        -- split; [apply (same_list tarray lname _ K7 K8 _ _ S8); auto; discriminate|]. apply is_list_of; rewrite map_length; auto.
           intros k Hk. rewrite V8. f_equal. change 0%Z with (z 0). rewrite map_nth. auto.
Qed.
End Merge.
