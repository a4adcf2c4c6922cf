(** The list builder produces, for every list, the entries of all work items one after the other,
    without accesses out of bounds and whatever the order of the work items. *)
From Coq Require Import List Arith ZArith Lia Bool.
From Verif Require Import Base TreeBuild ArrayFacts Kernel Device DeviceRules DeviceFacts ListBuilder.
Import ListNotations.

(** ** Ranks in a filtered range *)
Lemma filter_rank (p : nat -> bool) n i : i < n -> p i = true ->
  length (filter p (seq 0 i)) < length (filter p (seq 0 n)) /\
  nth (length (filter p (seq 0 i))) (filter p (seq 0 n)) 0 = i.
Proof.
  intros H P. replace n with (i + S (n - S i)) by lia. rewrite seq_app, filter_app, app_length. cbn [seq filter plus].
  rewrite P. cbn [length]. split; [lia|]. rewrite app_nth2 by lia. rewrite Nat.sub_diag. auto.
Qed.
Lemma filter_nth_rank (p : nat -> bool) n k : k < length (filter p (seq 0 n)) ->
  let i := nth k (filter p (seq 0 n)) 0 in i < n /\ p i = true /\ length (filter p (seq 0 i)) = k.
Proof.
  intros H i. assert (I : In i (filter p (seq 0 n))) by (apply nth_In; auto).
  apply filter_In in I. destruct I as [I P]. apply in_seq in I. split; [lia|]. split; auto.
  destruct (filter_rank p n i ltac:(lia) P) as [R1 R2].
  assert (ND : NoDup (filter p (seq 0 n))) by (apply NoDup_filter, seq_NoDup).
  rewrite NoDup_nth with (d := 0) in ND. apply ND; auto.
Qed.
Lemma filter_seq_S (p : nat -> bool) i : filter p (seq 0 (S i)) = filter p (seq 0 i) ++ (if p i then [i] else []).
Proof. rewrite seq_S, filter_app. cbn [plus filter]. auto. Qed.

Section Rows.
Variable A : Type.
Definition nonempty (r : list A) : bool := negb (length r =? 0).
Lemma nsum_nonempty (rows : list (list A)) : nsum (map (@length A) (filter nonempty rows)) = nsum (map (@length A) rows).
Proof.
  induction rows as [|r rows IH]; cbn [filter map nsum fold_right]; auto. unfold nonempty at 1.
  destruct (Nat.eqb_spec (length r) 0) as [E|E]; cbn [negb map nsum fold_right]; unfold nsum in *; lia.
Qed.
Lemma concat_nonempty (rows : list (list A)) : concat (filter nonempty rows) = concat rows.
Proof.
  induction rows as [|r rows IH]; cbn [filter concat]; auto. unfold nonempty at 1.
  destruct (Nat.eqb_spec (length r) 0) as [E|E]; cbn [negb concat]; [|congruence].
  destruct r; [auto|discriminate].
Qed.
Lemma offset_nonempty (rows : list (list A)) i :
  nsum (firstn (length (filter nonempty (firstn i rows))) (map (@length A) (filter nonempty rows))) = nsum (firstn i (map (@length A) rows)).
Proof.
  rewrite firstn_map. assert (E : firstn (length (filter nonempty (firstn i rows))) (filter nonempty rows) = filter nonempty (firstn i rows)).
  { rewrite <- (firstn_skipn i rows) at 2. rewrite filter_app, firstn_app, Nat.sub_diag, firstn_all. cbn [firstn]. apply app_nil_r. }
  rewrite E, nsum_nonempty, firstn_map. auto.
Qed.
Lemma nth_concat_offset (rows : list (list A)) i j d : i < length rows -> j < length (nth i rows []) ->
  nth_error (concat rows) (nsum (firstn i (map (@length A) rows)) + j) = Some (nth j (nth i rows []) d) /\
  nsum (firstn i (map (@length A) rows)) + j < length (concat rows).
Proof.
  revert i. induction rows as [|r rows IH]; intros [|i] H J; cbn [length nth firstn map nsum fold_right concat] in *; try lia.
  - rewrite app_length. split; [|lia]. cbn [plus]. rewrite nth_error_app1 by auto. apply nth_error_nth'. auto.
  - destruct (IH i ltac:(lia) J) as [I1 I2]. rewrite app_length. fold (nsum (firstn i (map (@length A) rows))). split; [|lia].
    rewrite nth_error_app2 by lia. rewrite <- I1. f_equal. lia.
Qed.
Lemma offset_found (rows : list (list A)) k : k < length (concat rows) ->
  exists i j, i < length rows /\ j < length (nth i rows []) /\ k = nsum (firstn i (map (@length A) rows)) + j.
Proof.
  revert k. induction rows as [|r rows IH]; intros k H; cbn [concat length] in *; [lia|]. rewrite app_length in H.
  destruct (Nat.lt_ge_cases k (length r)) as [L|L].
  - exists 0, k. cbn. lia.
  - destruct (IH (k - length r) ltac:(lia)) as [i [j [I1 [I2 I3]]]]. exists (S i), j.
    cbn [nth firstn map nsum fold_right]. fold (nsum (firstn i (map (@length A) rows))). lia.
Qed.
End Rows.
Arguments nonempty {A}.

Section Facts.
Variable base name : Type.
Variable base_eq : forall a b : base, {a = b} + {a <> b}.
Variable name_eq : forall a b : name, {a = b} + {a <> b}.
Notation arr := (larr base name).
Notation aeq := (larr_eq base name base_eq name_eq).
Notation knownl := (known arr).
Notation okl := (ok arr aeq).
Notation z := Z.of_nat.

(** the array has exactly these elements *)
Definition is_list (K : knownl) (a : arr) (l : list Z) : Prop := has K a (length l) (length l) (fun k => nth k l 0%Z).
(** what is known about these arrays is still known *)
Definition same_on (P : arr -> Prop) (K K' : knownl) : Prop :=
  (forall a n, P a -> len K a = Some n -> len K' a = Some n) /\ (forall a k v, P a -> val K a k = Some v -> val K' a k = Some v).
Lemma same_has P K K' a m n f : same_on P K K' -> P a -> has K a m n f -> has K' a m n f.
Proof. intros [S1 S2] Pa [A B C]. constructor; auto. Qed.
Lemma same_list P K K' a l : same_on P K K' -> P a -> is_list K a l -> is_list K' a l.
Proof. apply same_has. Qed.
Lemma same_refl P K : same_on P K K.
Proof. split; auto. Qed.
Lemma same_trans (P : arr -> Prop) K K' K'' : same_on P K K' -> same_on P K' K'' -> same_on P K K''.
Proof. intros [A B] [C D]. split; eauto. Qed.
Lemma same_less (P P' : arr -> Prop) K K' : (forall a, P a -> P' a) -> same_on P' K K' -> same_on P K K'.
Proof. intros H [A B]. split; eauto. Qed.
Lemma same_alloc (P : arr -> Prop) K a n : ~ P a -> same_on P K (k_alloc arr aeq K a n).
Proof. intros N. split; intros x; cbn [k_alloc len val]; destruct (aeq x a) as [->|]; intros; auto; contradiction. Qed.
Lemma same_upd (P : arr -> Prop) K F : (forall a, P a -> F a = None) -> same_on P K (upd K F).
Proof. intros N. split; intros x; cbn [upd len val]; intros; auto. rewrite N; auto. Qed.
Lemma same_assign (P : arr -> Prop) K a first vals : ~ P a -> same_on P K (k_assign arr aeq K a first vals).
Proof. intros N. split; intros x; cbn [k_assign len val]; auto. intros k v Px. destruct (aeq x a) as [->|]; auto; contradiction. Qed.

(** ** Generators *)
(** [g], run on a device about which [K] is known, loads from the arrays [P] only, stays within
    their bounds and appends [out] *)
Fixpoint gen_ok (K : knownl) (P : arr -> Prop) (g : gen base name) (out : list (name * Z)) : Prop :=
  match g with
  | GEnd => out = []
  | GLoad a k next => exists m v, P a /\ len K a = Some m /\ (0 <= k < m)%Z /\ val K a (Z.to_nat k) = Some v /\ gen_ok K P (next v) out
  | GPut l v next => exists out', out = (l, v) :: out' /\ gen_ok K P next out'
  end.
Lemma gen_same P K K' : same_on P K K' -> forall g out, gen_ok K P g out -> gen_ok K' P g out.
Proof.
  intros [S1 S2]. induction g as [|a k next IH|l v next IH]; cbn [gen_ok]; intros out; auto.
  - intros [m [v [A [B [C [D E]]]]]]. exists m, v. repeat split; auto; lia.
  - intros [out' [E O]]. eauto.
Qed.
Lemma gen_less (P P' : arr -> Prop) K : (forall a, P a -> P' a) -> forall g out, gen_ok K P g out -> gen_ok K P' g out.
Proof.
  intros H. induction g as [|a k next IH|l v next IH]; cbn [gen_ok]; intros out; auto.
  - intros [m [v [A [B [C [D E]]]]]]. exists m, v. repeat split; auto; lia.
  - intros [out' [E O]]. eauto.
Qed.
Lemma gen_load (K : knownl) (P : arr -> Prop) a k next m n f out : has K a m n f -> k < n -> P a -> gen_ok K P (next (f k)) out -> gen_ok K P (GLoad a (z k) next) out.
Proof. intros [A B C] Hk Pa O. exists (z m), (f k). rewrite Nat2Z.id. repeat split; auto; lia. Qed.
Lemma gen_put K (P : arr -> Prop) l v next out : gen_ok K P next out -> gen_ok K P (GPut l v next) ((l, v) :: out).
Proof. intros O. exists out. auto. Qed.

Definition entries (l : name) (out : list (name * Z)) : list Z :=
  map snd (filter (fun o => if name_eq (fst o) l then true else false) out).
Lemma entries_cons_same l v out : entries l ((l, v) :: out) = v :: entries l out.
Proof. unfold entries. cbn [filter fst]. destruct (name_eq l l); [auto|contradiction]. Qed.
Lemma entries_cons_other l l' v out : l' <> l -> entries l ((l', v) :: out) = entries l out.
Proof. unfold entries. cbn [filter fst]. destruct (name_eq l' l); [contradiction|auto]. Qed.

Lemma count_gen_ok K (P : arr -> Prop) F (FP : forall a, P a -> F a = None) : forall g out c last, gen_ok K P g out ->
  (forall c', (forall x, c' x = c x + z (length (entries x out)))%Z -> item_ok K F (last c')) ->
  item_ok K F (count_gen name_eq g c last).
Proof.
  induction g as [|a k next IH|l v next IH]; cbn [gen_ok count_gen]; intros out c last.
  - intros -> H. apply H. intros x. cbn. lia.
  - intros [m [v [A [B [C [D E]]]]]] H. exists m, v. split; auto. split; auto. split; auto. split; auto. apply (IH v out); auto.
  - intros [out' [-> O]] H. apply (IH out'); auto. intros c' E. apply H. intros x. rewrite E.
    destruct (name_eq x l) as [->|N]; [rewrite entries_cons_same|rewrite entries_cons_other by auto]; cbn [length]; lia.
Qed.
Lemma count_gen_stores K (P : arr -> Prop) b j : forall g out c last, gen_ok K P g out ->
  (forall c', (forall x, c' x = c x + z (length (entries x out)))%Z -> stores K (last c') b j) ->
  stores K (count_gen name_eq g c last) b j.
Proof.
  induction g as [|a k next IH|l v next IH]; cbn [gen_ok count_gen]; intros out c last.
  - intros -> H. apply H. intros x. cbn. lia.
  - intros [m [v [A [B [C [D E]]]]]] H. exists v. split; auto. apply (IH v out); auto.
  - intros [out' [-> O]] H. apply (IH out'); auto. intros c' E. apply H. intros x. rewrite E.
    destruct (name_eq x l) as [->|N]; [rewrite entries_cons_same|rewrite entries_cons_other by auto]; cbn [length]; lia.
Qed.

Section Build.
Variable outs : list (name * bool).
Hypothesis ND : NoDup (map fst outs).
Variable n : nat.
Variable g : nat -> gen base name.
Variable out : nat -> list (name * Z).

Definition wanted (l : name) : bool := existsb (fun o => if name_eq (fst o) l then true else false) outs.
Lemma wanted_spec l : wanted l = true <-> exists c, In (l, c) outs.
Proof.
  unfold wanted. rewrite existsb_exists. split.
  - intros [[l' c] [I E]]. cbn [fst] in E. destruct (name_eq l' l) as [->|]; [eauto|discriminate].
  - intros [c I]. exists (l, c). split; auto. cbn [fst]. destruct (name_eq l l); auto.
Qed.
(** the arrays the builder leaves alone *)
Definition free (a : arr) : Prop :=
  match a with
  | Base _ => True
  | Starts l | Lists l | Nonempty l | Counts l | Compressed l | CompressedCounts l => wanted l = false
  | _ => False
  end.
Definition rows (l : name) : list (list Z) := map (fun i => entries l (out i)) (seq 0 n).
Lemma rows_length l : length (rows l) = n.
Proof. unfold rows. rewrite map_length, seq_length. auto. Qed.
Lemma rows_nth l i : i < n -> nth i (rows l) [] = entries l (out i).
Proof. intros H. unfold rows. apply (nth_map_seq (fun i => entries l (out i))). auto. Qed.
Definition ln (l : name) (i : nat) : nat := length (entries l (out i)).
Lemma rows_lengths l : map (@length Z) (rows l) = map (ln l) (seq 0 n).
Proof. unfold rows. rewrite map_map. auto. Qed.

(** *** the counting pass *)
Definition F_count (a : arr) : option (nat -> option Z) :=
  match a with
  | Counts l => if wanted l then Some (fun i => if i <? n then Some (z (ln l i)) else None) else None
  | _ => None
  end.
Lemma count_pass {R} (K : knownl) (next : host arr R) Q :
  (forall i, i < n -> gen_ok K free (g i) (out i)) ->
  (forall l, wanted l = true -> len K (Counts l) = Some (z n)) ->
  (forall K', same_on free K K' -> (forall l, wanted l = true -> has K' (Counts l) n n (fun i => z (ln l i))) -> okl K' next Q) ->
  okl K (Launch n (fun i => count_item name_eq outs (g i) i) next) Q.
Proof.
  intros G L H. apply ok_launch_items with (F := F_count).
  - intros i Hi. unfold count_item. apply (count_gen_ok K free F_count) with (out := out i); auto.
    { intros [b|l|l|l|l|l|l| | |]; cbn [free F_count]; auto. intros ->; auto. }
    intros c' E. apply item_for_each; [|exact Logic.I]. intros [l cm] nx I O. cbn [fst].
    assert (W : wanted l = true) by (apply wanted_spec; eauto).
    apply (item_store arr K F_count) with (m := n) (f := fun i => if i <? n then Some (z (ln l i)) else None); auto.
    + cbn [F_count]. rewrite W; auto.
    + cbn beta. destruct (Nat.ltb_spec i n); [|lia]. rewrite E. unfold ln. f_equal; lia.
  - intros a f m k w E La Hk V. destruct a as [b|l|l|l|l|l|l| | |]; cbn [F_count] in E; try discriminate.
    destruct (wanted l) eqn:W; [|discriminate]. injection E as <-. destruct (Nat.ltb_spec k n); [|discriminate].
    left. exists k. split; auto. unfold count_item. apply (count_gen_stores K free) with (out := out k); auto.
    intros c' _. apply wanted_spec in W. destruct W as [c W].
    apply (stores_for_each arr K outs _ Finish (Counts l) k (l, c)); auto.
    + intros nx. apply stores_here.
    + intros y nx _. apply stores_later.
  - apply H.
    + apply same_upd. intros [b|l|l|l|l|l|l| | |]; cbn [free F_count]; auto. intros ->. auto.
    + intros l W. apply has_upd_some with (g := fun i => if i <? n then Some (z (ln l i)) else None); auto.
      * cbn [F_count]. rewrite W. auto.
      * intros k Hk. destruct (Nat.ltb_spec k n); [auto|lia].
Qed.
End Build.

(** *** the scans *)
Definition scan_buffer (a : arr) : Prop := match a with ScanIn | ScanFlag | ScanOut => True | _ => False end.
Lemma seg_scan_sum (f : nat -> Z) k : seg_scan (fun _ => false) Z.add f k = zsum (map f (seq 0 (S k))).
Proof.
  induction k as [|k IH]; cbn [seg_scan]; [cbn; lia|]. rewrite IH, (seq_S (S k)), map_app, zsum_app. cbn [plus map zsum fold_right]. lia.
Qed.
Definition F_in (n : nat) (v : nat -> Z) (a : arr) : option (nat -> option Z) :=
  match a with ScanIn => Some (fun i => if i <? n then Some (v i) else None) | _ => None end.
Lemma sum_scan_ok {R} (K : knownl) cnt f N n v (next : host arr R) Q : has K cnt N n v -> ~ scan_buffer cnt ->
  (forall K', same_on (fun a => ~ scan_buffer a) K K' -> has K' ScanOut n n (fun i => zsum (map (fun j => f (v j)) (seq 0 (S i)))) -> okl K' next Q) ->
  okl K (sum_scan cnt f n next) Q.
Proof.
  intros HC NB H. unfold sum_scan. do 3 (apply ok_alloc; [lia|]).
  set (K1 := k_alloc arr aeq (k_alloc arr aeq (k_alloc arr aeq K ScanIn (z n)) ScanFlag (z n)) ScanOut (z n)).
  assert (S1 : same_on (fun a => ~ scan_buffer a) K K1).
  { unfold K1. do 3 (eapply same_trans; [|apply same_alloc; cbn; tauto]). apply same_refl. }
  assert (I1 : len K1 ScanIn = Some (z n)) by reflexivity.
  assert (HF : has K1 ScanFlag n n (fun _ => 0%Z)).
  { constructor; auto. }
  assert (O1 : len K1 ScanOut = Some (z n)) by reflexivity.
  assert (C1 : has K1 cnt N n v) by (apply (same_has _ K K1 cnt N n v S1); auto).
  clearbody K1.
  apply ok_launch_items with (F := F_in n (fun i => f (v i))).
  - intros i Hi. apply (item_load arr K1 _ cnt i _ N n v); auto.
    { destruct cnt; auto. cbn in NB. tauto. }
    apply (item_store arr K1 _ ScanIn i _ Finish n) with (f := fun i => if i <? n then Some (f (v i)) else None); auto; [|exact Logic.I].
    cbn beta. destruct (Nat.ltb_spec i n); [auto|lia].
  - intros a f0 m k w E La Hk V. destruct a; cbn [F_in] in E; try discriminate. injection E as <-.
    destruct (Nat.ltb_spec k n); [|discriminate]. left. exists k. split; auto.
    apply (stores_load arr K1 cnt k _ N n v); auto. apply stores_here.
  - set (K2 := upd K1 (F_in n (fun i => f (v i)))).
    assert (S2 : same_on (fun a => ~ scan_buffer a) K1 K2).
    { apply same_upd. intros [b|l|l|l|l|l|l| | |]; cbn [scan_buffer F_in]; auto. tauto. }
    assert (HI : has K2 ScanIn n n (fun i => f (v i))).
    { apply has_upd_some with (g := fun i => if i <? n then Some (f (v i)) else None); auto.
      intros k Hk. destruct (Nat.ltb_spec k n); [auto|lia]. }
    assert (HF2 : has K2 ScanFlag n n (fun _ => 0%Z)) by (apply has_upd_none; auto).
    assert (O2 : len K2 ScanOut = Some (z n)) by (cbn [K2 upd len]; auto).
    clearbody K2. apply ok_scan with (n := n).
    + intros p [<-|[]]. apply HI.
    + apply HF2.
    + apply H.
      * eapply same_trans; [exact S1|]. eapply same_trans; [exact S2|]. split; cbn [k_scan len val]; auto.
        intros a k w Na V. unfold result_part. cbn [scan_parts find snd fst].
        destruct (aeq a ScanOut) as [->|]; [exfalso; apply Na; exact Logic.I|]. auto.
      * constructor; [exact O2|auto|]. intros k Hk. cbn [k_scan val]. unfold result_part. cbn [scan_parts find snd fst scan_flag].
        destruct (aeq ScanOut ScanOut); [|contradiction].
        assert (FB : forallb (fun i => match val K2 ScanIn i, val K2 ScanFlag i with Some _, Some _ => true | _, _ => false end) (seq 0 (S k)) = true).
        { apply forallb_forall. intros i Hi. apply in_seq in Hi. rewrite (has_val _ _ _ _ _ _ HI) by lia. rewrite (has_val _ _ _ _ _ _ HF2) by lia. auto. }
        rewrite FB. destruct (Nat.ltb_spec k n); [|lia]. cbn [andb]. f_equal. rewrite <- seg_scan_sum.
        apply seg_scan_ext_le; intros i Hi.
        -- rewrite (has_val _ _ _ _ _ _ HF2) by lia. auto.
        -- rewrite (has_val _ _ _ _ _ _ HI) by lia. auto.
Qed.

Lemma zsum_z (h : nat -> nat) l : zsum (map (fun i => z (h i)) l) = z (nsum (map h l)).
Proof. induction l as [|x l IH]; cbn [map zsum nsum fold_right]; auto. unfold zsum, nsum in *. lia. Qed.
Lemma firstn_seq_map {A} (h : nat -> A) k m : k <= m -> firstn k (map h (seq 0 m)) = map h (seq 0 k).
Proof. intros H. rewrite firstn_map. f_equal. replace m with (k + (m - k)) by lia. rewrite seq_app, firstn_app, seq_length, Nat.sub_diag. cbn [firstn]. rewrite app_nil_r. apply firstn_all2. rewrite seq_length. lia. Qed.

Definition prefixes (c : list nat) : list Z := map z (prefix_from 0 c).
Lemma prefixes_length c : length (prefixes c) = S (length c).
Proof. unfold prefixes. rewrite map_length, prefix_from_length. auto. Qed.
Lemma prefixes_nth c i : i <= length c -> nth i (prefixes c) 0%Z = z (nsum (firstn i c)).
Proof.
  intros H. unfold prefixes. change 0%Z with (z 0). rewrite map_nth, prefix_from_nth by auto. auto.
Qed.
Definition F_starts (l : name) (n : nat) (h : nat -> nat) (a : arr) : option (nat -> option Z) :=
  if aeq a (Starts l) then Some (fun k => match k with 0 => Some 0%Z | S k' => if k' <? n then Some (z (nsum (map h (seq 0 k)))) else None end) else None.
Lemma make_starts_ok {R} (K : knownl) l cnt N n h (next : host arr R) Q : has K cnt N n (fun i => z (h i)) -> ~ scan_buffer cnt ->
  (forall K', same_on (fun a => ~ scan_buffer a /\ a <> Starts l) K K' -> is_list K' (Starts l) (prefixes (map h (seq 0 n))) -> okl K' next Q) ->
  okl K (make_starts l cnt n next) Q.
Proof.
  intros HC NB H. unfold make_starts. refine (sum_scan_ok K cnt (fun c => c) N n (fun i => z (h i)) _ Q HC NB _). intros K1 S1 O1.
  apply ok_alloc; [lia|]. set (K2 := k_alloc arr aeq K1 (Starts l) (z n + 1)).
  assert (S2 : same_on (fun a => ~ scan_buffer a /\ a <> Starts l) K K2).
  { eapply same_trans; [eapply same_less; [|exact S1]; cbn; tauto|]. apply same_alloc. tauto. }
  assert (O2 : has K2 ScanOut n n (fun i => z (nsum (map h (seq 0 (S i)))))).
  { apply has_alloc_other; [discriminate|]. eapply has_ext; [exact O1|]. intros k Hk. apply zsum_z. }
  assert (L2 : has K2 (Starts l) (S n) (S n) (fun _ => 0%Z)).
  { unfold K2. replace (z n + 1)%Z with (z (S n)) by lia. apply has_alloc_same. auto. }
  clearbody K2. apply ok_launch_items with (F := F_starts l n h).
  - intros i Hi. apply (item_load arr K2 _ ScanOut i _ n n _ O2 Hi).
    { unfold F_starts. destruct (aeq ScanOut (Starts l)); [discriminate|auto]. }
    replace (z i + 1)%Z with (z (S i)) by lia.
    eapply (item_store arr K2 _ (Starts l) (S i) _ Finish (S n)); [apply L2|lia| | |exact Logic.I].
    + unfold F_starts. destruct (aeq (Starts l) (Starts l)); [reflexivity|contradiction].
    + cbn beta iota. destruct (Nat.ltb_spec i n); [auto|lia].
  - intros a f m k w E La Hk V. unfold F_starts in E. destruct (aeq a (Starts l)) as [->|]; [|discriminate]. injection E as <-.
    destruct k as [|k]; [right; rewrite (has_val _ _ _ _ _ _ L2) by lia; auto|]. destruct (Nat.ltb_spec k n) as [Kn|]; [|discriminate].
    left. exists k. split; auto. apply (stores_load arr K2 ScanOut k _ n n _ _ _ O2 Kn).
    replace (z k + 1)%Z with (z (S k)) by lia. apply stores_here.
  - set (K3 := upd K2 (F_starts l n h)).
    assert (S3 : same_on (fun a => ~ scan_buffer a /\ a <> Starts l) K2 K3).
    { apply same_upd. intros a [_ NA]. unfold F_starts. destruct (aeq a (Starts l)); [contradiction|auto]. }
    assert (L3 : has K3 (Starts l) (S n) (S n) (fun k => z (nsum (map h (seq 0 k))))).
    { eapply has_upd_some; [unfold F_starts; destruct (aeq (Starts l) (Starts l)); [reflexivity|contradiction]|apply L2|auto|].
      intros [|k] Hk; [reflexivity|]. destruct (Nat.ltb_spec k n); [auto|lia]. }
    clearbody K3. apply (ok_assign arr aeq K3 (Starts l) 0 [0%Z] (z (S n))); [apply L3|cbn [length]; lia|]. apply H.
    + eapply same_trans; [exact S2|]. eapply same_trans; [exact S3|]. apply same_assign. tauto.
    + unfold is_list. rewrite prefixes_length, map_length, seq_length. eapply has_assign_same; [exact L3|].
      intros k Hk. cbn beta. rewrite prefixes_nth by (rewrite map_length, seq_length; lia). rewrite firstn_seq_map by lia.
      cbn [length]. destruct k as [|k]; [reflexivity|]. cbn [Nat.leb andb plus]. destruct (Nat.ltb_spec (S k) 1); [lia|auto].
Qed.

(** *** compression *)
Lemma last_peek {R} (K : knownl) n (h0 : host arr R) h1 Q : (n = 0 -> okl K h0 Q) -> (forall n', n = S n' -> okl K (h1 n') Q) ->
  okl K (match n with 0 => h0 | S n' => h1 n' end) Q.
Proof. destruct n; auto. Qed.
Section Compress.
Variable l : name.
Variable n : nat.
Variable h : nat -> nat.
Let nz i := negb (h i =? 0).
Let idx := filter nz (seq 0 n).
Let rank i := length (filter nz (seq 0 i)).
Definition F_compress (a : arr) : option (nat -> option Z) :=
  if aeq a (Nonempty l) then Some (fun k => if k <? length idx then Some (z (nth k idx 0)) else None)
  else if aeq a (CompressedCounts l) then Some (fun k => if k <? length idx then Some (z (h (nth k idx 0))) else None)
  else if aeq a (Compressed l) then Some (fun k => if k <? n then Some (z (rank k)) else None)
  else None.
Lemma F_nonempty : F_compress (Nonempty l) = Some (fun k => if k <? length idx then Some (z (nth k idx 0)) else None).
Proof. unfold F_compress. destruct (aeq (Nonempty l) (Nonempty l)); [auto|contradiction]. Qed.
Lemma F_ccounts : F_compress (CompressedCounts l) = Some (fun k => if k <? length idx then Some (z (h (nth k idx 0))) else None).
Proof. unfold F_compress. destruct (aeq (CompressedCounts l) (Nonempty l)); [discriminate|]. destruct (aeq (CompressedCounts l) (CompressedCounts l)); [auto|contradiction]. Qed.
Lemma F_compressed : F_compress (Compressed l) = Some (fun k => if k <? n then Some (z (rank k)) else None).
Proof.
  unfold F_compress. destruct (aeq (Compressed l) (Nonempty l)); [discriminate|]. destruct (aeq (Compressed l) (CompressedCounts l)); [discriminate|].
  destruct (aeq (Compressed l) (Compressed l)); [auto|contradiction].
Qed.
Lemma F_compress_other a : a <> Nonempty l -> a <> CompressedCounts l -> a <> Compressed l -> F_compress a = None.
Proof.
  intros. unfold F_compress. destruct (aeq a (Nonempty l)); [contradiction|]. destruct (aeq a (CompressedCounts l)); [contradiction|].
  destruct (aeq a (Compressed l)); [contradiction|auto].
Qed.
Lemma rank_sum i : zsum (map (fun j => if (z (h j) =? 0)%Z then 0%Z else 1%Z) (seq 0 i)) = z (rank i).
Proof.
  unfold rank. induction i as [|i IH]; [reflexivity|]. rewrite seq_S, map_app, zsum_app, IH, filter_app, app_length. cbn [plus map filter zsum fold_right].
  unfold nz. destruct (Z.eqb_spec (z (h i)) 0), (Nat.eqb_spec (h i) 0); cbn [negb length]; lia.
Qed.
Lemma rank_S i : rank (S i) = rank i + (if nz i then 1 else 0).
Proof. unfold rank. rewrite filter_seq_S, app_length. destruct (nz i); auto. Qed.

Lemma compress_ok {R} (K : knownl) (next : nat -> host arr R) Q : has K (Counts l) n n (fun i => z (h i)) ->
  (forall K', same_on (fun a => ~ scan_buffer a /\ a <> Nonempty l /\ a <> CompressedCounts l /\ a <> Compressed l) K K' ->
     has K' (Nonempty l) n (length idx) (fun k => z (nth k idx 0)) ->
     has K' (CompressedCounts l) n (length idx) (fun k => z (h (nth k idx 0))) ->
     has K' (Compressed l) n n (fun k => z (rank k)) -> okl K' (next (length idx)) Q) ->
  okl K (compress_counts l n next) Q.
Proof.
  intros HC H. unfold compress_counts. refine (sum_scan_ok K (Counts l) _ n n (fun i => z (h i)) _ Q HC _ _); [cbn; tauto|]. intros K1 S1 O1.
  assert (LI : length idx = rank n) by reflexivity.
  assert (LN : length idx <= n).
  { rewrite LI. unfold rank. rewrite <- (seq_length n 0) at 2. clear. induction (seq 0 n) as [|x s IH]; cbn [filter length]; [lia|]. destruct (nz x); cbn [length]; lia. }
  do 3 (apply ok_alloc; [lia|]).
  set (K2 := k_alloc arr aeq (k_alloc arr aeq (k_alloc arr aeq K1 (Nonempty l) (z n)) (Compressed l) (z n)) (CompressedCounts l) (z n)).
  set (P := fun a : arr => ~ scan_buffer a /\ a <> Nonempty l /\ a <> CompressedCounts l /\ a <> Compressed l) in *.
  assert (S2 : same_on P K K2).
  { eapply same_trans; [eapply same_less; [|exact S1]; unfold P; tauto|]. unfold K2, P.
    do 3 (eapply same_trans; [|apply same_alloc; tauto]). apply same_refl. }
  assert (O2 : has K2 ScanOut n n (fun i => z (rank (S i)))).
  { unfold K2. do 3 (apply has_alloc_other; [discriminate|]). eapply has_ext; [exact O1|]. intros k Hk. apply rank_sum. }
  assert (C2 : has K2 (Counts l) n n (fun i => z (h i))).
  { apply (same_has P K K2); auto. repeat split; try discriminate. auto. }
  assert (LN2 : len K2 (Nonempty l) = Some (z n)).
  { unfold K2. cbn [k_alloc len]. destruct (aeq (Nonempty l) (CompressedCounts l)); [discriminate|]. destruct (aeq (Nonempty l) (Compressed l)); [discriminate|].
    destruct (aeq (Nonempty l) (Nonempty l)); [auto|contradiction]. }
  assert (LC2 : has K2 (Compressed l) n n (fun _ => 0%Z)).
  { unfold K2. apply has_alloc_other; [discriminate|]. apply has_alloc_same. auto. }
  assert (LCC2 : len K2 (CompressedCounts l) = Some (z n)).
  { unfold K2. cbn [k_alloc len]. destruct (aeq (CompressedCounts l) (CompressedCounts l)); [auto|contradiction]. }
  clearbody K2.
  (* the tail of a work item *)
  assert (TI : forall i, i < n -> item_ok K2 F_compress (if (z (rank i) =? z (rank (S i)))%Z then Finish
                else Store (Nonempty l) (z (rank (S i)) - 1) (z i) (Load (Counts l) (z i) (fun c => Store (CompressedCounts l) (z (rank (S i)) - 1) c Finish)))).
  { intros i Hi. rewrite rank_S. destruct (nz i) eqn:E.
    - destruct (Z.eqb_spec (z (rank i)) (z (rank i + 1))); [lia|]. replace (z (rank i + 1) - 1)%Z with (z (rank i)) by lia.
      destruct (filter_rank nz n i Hi E) as [R1 R2]. fold idx in R1, R2. fold (rank i) in R1, R2.
      eapply (item_store arr K2 _ (Nonempty l) (rank i)); [exact LN2|lia|apply F_nonempty| |].
      { cbn beta. destruct (Nat.ltb_spec (rank i) (length idx)); [|lia]. rewrite R2. auto. }
      apply (item_load arr K2 _ (Counts l) i _ n n _ C2 Hi); [apply F_compress_other; discriminate|].
      eapply (item_store arr K2 _ (CompressedCounts l) (rank i)); [exact LCC2|lia|apply F_ccounts| |exact Logic.I].
      cbn beta. destruct (Nat.ltb_spec (rank i) (length idx)); [|lia]. rewrite R2. auto.
    - destruct (Z.eqb_spec (z (rank i)) (z (rank i + 0))); [|lia]. exact Logic.I. }
  assert (TS : forall i b, i < n -> nz i = true -> b = Nonempty l \/ b = CompressedCounts l ->
     stores K2 (if (z (rank i) =? z (rank (S i)))%Z then Finish
                else Store (Nonempty l) (z (rank (S i)) - 1) (z i) (Load (Counts l) (z i) (fun c => Store (CompressedCounts l) (z (rank (S i)) - 1) c Finish))) b (rank i)).
  { intros i b Hi E B. rewrite rank_S, E. destruct (Z.eqb_spec (z (rank i)) (z (rank i + 1))); [lia|].
    replace (z (rank i + 1) - 1)%Z with (z (rank i)) by lia. destruct B as [->| ->]; [apply stores_here|].
    apply stores_later. apply (stores_load arr K2 (Counts l) i _ n n _ _ _ C2 Hi). apply stores_here. }
  assert (IT : forall i T, i < n -> (forall (T' : Z -> Z -> item arr), T' (z (rank (S i))) (z (rank i)) = T ->
     item_ok K2 F_compress T -> item_ok K2 F_compress (Load ScanOut (z i) (fun item => match i with 0 => T' item 0%Z | S i' => Load ScanOut (z i') (fun prev => T' item prev) end)))).
  { intros i T Hi T' E I. apply (item_load arr K2 _ ScanOut i _ n n _ O2 Hi); [apply F_compress_other; discriminate|].
    destruct i as [|i]; [rewrite <- E in I; exact I|]. assert (Hi' : i < n) by lia.
    apply (item_load arr K2 _ ScanOut i _ n n _ O2 Hi'); [apply F_compress_other; discriminate|]. rewrite <- E in I. exact I. }
  assert (IS : forall i T b j, i < n -> (forall (T' : Z -> Z -> item arr), T' (z (rank (S i))) (z (rank i)) = T ->
     stores K2 T b j -> stores K2 (Load ScanOut (z i) (fun item => match i with 0 => T' item 0%Z | S i' => Load ScanOut (z i') (fun prev => T' item prev) end)) b j)).
  { intros i T b j Hi T' E I. apply (stores_load arr K2 ScanOut i _ n n _ _ _ O2 Hi).
    destruct i as [|i]; [rewrite <- E in I; exact I|]. assert (Hi' : i < n) by lia.
    apply (stores_load arr K2 ScanOut i _ n n _ _ _ O2 Hi'). rewrite <- E in I. exact I. }
  apply ok_launch_items with (F := F_compress).
  - intros i Hi. unfold compress_item. refine (IT i _ Hi _ eq_refl _). cbn beta zeta. destruct (Nat.ltb_spec (S i) n) as [Hs|]; [|apply TI; auto].
    replace (z i + 1)%Z with (z (S i)) by lia.
    eapply (item_store arr K2 _ (Compressed l) (S i)); [apply LC2|lia|apply F_compressed| |apply TI; auto].
    cbn beta. destruct (Nat.ltb_spec (S i) n); [auto|lia].
  - assert (TSS : forall i b, i < n -> nz i = true -> b = Nonempty l \/ b = CompressedCounts l -> stores K2 (compress_item l n i) b (rank i)).
    { intros i b Hi E B. unfold compress_item. refine (IS i _ b _ Hi _ eq_refl _). cbn beta zeta.
      destruct (S i <? n); [apply stores_later|]; apply TS; auto. }
    intros a f m k w E La Hk V. unfold F_compress in E.
    destruct (aeq a (Nonempty l)) as [->|].
    { injection E as <-. destruct (Nat.ltb_spec k (length idx)) as [Kl|]; [|discriminate]. left.
      destruct (filter_nth_rank nz n k Kl) as [R1 [R2 R3]]. exists (nth k idx 0). split; [exact R1|].
      rewrite <- R3 at 2. apply TSS; auto. }
    destruct (aeq a (CompressedCounts l)) as [->|].
    { injection E as <-. destruct (Nat.ltb_spec k (length idx)) as [Kl|]; [|discriminate]. left.
      destruct (filter_nth_rank nz n k Kl) as [R1 [R2 R3]]. exists (nth k idx 0). split; [exact R1|].
      rewrite <- R3 at 2. apply TSS; auto. }
    destruct (aeq a (Compressed l)) as [->|]; [|discriminate]. injection E as <-. destruct (Nat.ltb_spec k n) as [Kl|]; [|discriminate].
    destruct k as [|k]; [right; rewrite (has_val _ _ _ _ _ _ LC2) by lia; auto|]. left. exists k. split; [lia|].
    unfold compress_item. refine (IS k _ _ _ ltac:(lia) _ eq_refl _). cbn beta zeta. destruct (Nat.ltb_spec (S k) n); [|lia].
    replace (z k + 1)%Z with (z (S k)) by lia. apply stores_here.
  - set (K3 := upd K2 F_compress).
    assert (S3 : same_on P K K3).
    { eapply same_trans; [exact S2|]. apply same_upd. intros a [_ [A [B C]]]. apply F_compress_other; auto. }
    assert (O3 : has K3 ScanOut n n (fun i => z (rank (S i)))) by (apply has_upd_none; [apply F_compress_other; discriminate|auto]).
    assert (G : okl K3 (next (length idx)) Q).
    { apply H; auto.
      - eapply has_upd_some; [apply F_nonempty|exact LN2|auto|]. intros k Hk. cbn beta. destruct (Nat.ltb_spec k (length idx)); [auto|lia].
      - eapply has_upd_some; [apply F_ccounts|exact LCC2|auto|]. intros k Hk. cbn beta. destruct (Nat.ltb_spec k (length idx)); [auto|lia].
      - eapply has_upd_some; [apply F_compressed|apply LC2|auto|]. intros k Hk. cbn beta. destruct (Nat.ltb_spec k n); [auto|lia]. }
    apply last_peek.
    + intros N0. assert (E0 : length idx = 0) by lia. rewrite E0 in G. exact G.
    + intros n' En. apply (ok_peek arr aeq K3 ScanOut n' (z n) (z (rank (S n')))); [apply O3|lia|apply (has_val _ _ _ _ _ _ O3); lia|].
      rewrite Nat2Z.id. rewrite <- En, <- LI. exact G.
Qed.
End Compress.

(** *** all lists *)
Section All.
Variable outs : list (name * bool).
Hypothesis ND : NoDup (map fst outs).
Variable n : nat.
Variable g : nat -> gen base name.
Variable out : nat -> list (name * Z).
Notation rw := (rows n out).
Notation lnn := (ln out).
Notation want := (wanted outs).
Notation fr := (free outs).

Definition kept (compress : bool) (r : list (list Z)) : list (list Z) := if compress then filter nonempty r else r.
(** the work items with entries in [l] *)
Definition nonempty_ix (l : name) : list nat := filter (fun i => negb (lnn l i =? 0)) (seq 0 n).
Lemma filter_map_comm {A B} (f : A -> B) (p : B -> bool) s : filter p (map f s) = map f (filter (fun x => p (f x)) s).
Proof. induction s as [|x s IH]; cbn [map filter]; auto. destruct (p (f x)); cbn [map]; congruence. Qed.
Lemma kept_nonempty l : kept true (rw l) = map (fun i => entries l (out i)) (nonempty_ix l).
Proof. unfold kept, rows. rewrite filter_map_comm. auto. Qed.
Lemma kept_lengths l : map (@length Z) (kept true (rw l)) = map (lnn l) (nonempty_ix l).
Proof. rewrite kept_nonempty, map_map. auto. Qed.
Lemma kept_concat c r : concat (kept c r) = concat r.
Proof. destruct c; auto. apply concat_nonempty. Qed.
Lemma concat_len {A} (ll : list (list A)) : length (concat ll) = nsum (map (@length A) ll).
Proof. induction ll as [|x ll IH]; cbn [concat map nsum fold_right]; auto. rewrite app_length. unfold nsum in *. lia. Qed.
Lemma rank_rows l i : i <= n -> length (filter (fun j => negb (lnn l j =? 0)) (seq 0 i)) = length (filter nonempty (firstn i (rw l))).
Proof. intros H. unfold rows. rewrite firstn_seq_map by auto. rewrite filter_map_comm, map_length. auto. Qed.

Record list_ready (K : knownl) (b : name -> built_list) (l : name) (c : bool) : Prop := {
  lr_built : b l = mkBuilt (length (kept c (rw l))) (length (concat (rw l)));
  lr_starts : is_list K (Starts l) (prefixes (map (@length Z) (kept c (rw l))));
  lr_lists : len K (Lists l) = Some (z (length (concat (rw l))));
  lr_nonempty : c = true -> has K (Nonempty l) n (length (nonempty_ix l)) (fun k => z (nth k (nonempty_ix l) 0));
  lr_compressed : c = true -> has K (Compressed l) n n (fun i => z (length (filter nonempty (firstn i (rw l)))))
}.
Definition untouched (r : list (name * bool)) (a : arr) : Prop :=
  match a with
  | Base _ => True
  | Counts _ => True
  | Starts l | Lists l | Nonempty l | Compressed l | CompressedCounts l => ~ In l (map fst r)
  | _ => False
  end.
Lemma list_ready_same r K K' b b' l c : same_on (untouched r) K K' -> ~ In l (map fst r) -> b' l = b l -> list_ready K b l c -> list_ready K' b' l c.
Proof.
  intros S N E [A B C D F]. constructor; auto.
  - congruence.
  - apply (same_list _ _ _ _ _ S); auto.
  - apply S; auto.
  - intros Ec. apply (same_has _ _ _ _ _ _ _ S); auto.
  - intros Ec. apply (same_has _ _ _ _ _ _ _ S); auto.
Qed.

Lemma scan_counts_ok {R} (next : (name -> built_list) -> host arr R) Q r : NoDup (map fst r) -> forall (K : knownl) acc,
  (forall l c, In (l, c) r -> has K (Counts l) n n (fun i => z (lnn l i))) ->
  (forall K' b, same_on (untouched r) K K' -> (forall l, ~ In l (map fst r) -> b l = acc l) ->
     (forall l c, In (l, c) r -> list_ready K' b l c) -> okl K' (next b) Q) ->
  okl K (scan_counts name_eq r n acc next) Q.
Proof.
  induction r as [|[l c] r IH]; intros NR K acc HC H; cbn [scan_counts].
  { apply H; [apply same_refl|auto|]. intros l c []. }
  cbn [map fst] in NR. apply NoDup_cons_iff in NR. destruct NR as [NL NR].
  assert (CL := HC l c (or_introl eq_refl)).
  set (P := untouched ((l, c) :: r)).
  (* once the starts are known *)
  assert (FIN : forall K1, same_on P K K1 -> is_list K1 (Starts l) (prefixes (map (@length Z) (kept c (rw l)))) ->
    (c = true -> has K1 (Nonempty l) n (length (nonempty_ix l)) (fun k => z (nth k (nonempty_ix l) 0))) ->
    (c = true -> has K1 (Compressed l) n n (fun i => z (length (filter nonempty (firstn i (rw l)))))) ->
    okl K1 (Peek (Starts l) (z (length (kept c (rw l)))) (fun total => Alloc (Lists l) total
          (scan_counts name_eq r n (fun x => if name_eq x l then mkBuilt (length (kept c (rw l))) (Z.to_nat total) else acc x) next))) Q).
  { intros K1 S1 ST NE CO. assert (LS : length (prefixes (map (@length Z) (kept c (rw l)))) = S (length (kept c (rw l)))) by (rewrite prefixes_length, map_length; auto).
    assert (TOT : nth (length (kept c (rw l))) (prefixes (map (@length Z) (kept c (rw l)))) 0%Z = z (length (concat (rw l)))).
    { rewrite prefixes_nth by (rewrite map_length; auto). rewrite <- (map_length (@length Z)), firstn_all, <- concat_len, kept_concat. auto. }
    eapply (ok_peek arr aeq K1 (Starts l)); [apply ST|rewrite LS; lia|apply ST; lia|]. cbn beta. rewrite TOT.
    apply ok_alloc; [lia|]. rewrite Nat2Z.id. set (K2 := k_alloc arr aeq K1 (Lists l) (z (length (concat (rw l))))).
    assert (S2 : same_on P K K2).
    { eapply same_trans; [exact S1|]. apply same_alloc. unfold P. cbn [untouched map fst In]. tauto. }
    assert (OLD : list_ready K2 (fun x => if name_eq x l then mkBuilt (length (kept c (rw l))) (length (concat (rw l))) else acc x) l c).
    { constructor.
      - destruct (name_eq l l); [auto|contradiction].
      - apply has_alloc_other; [discriminate|exact ST].
      - unfold K2. cbn [k_alloc len]. destruct (aeq (Lists l) (Lists l)); [auto|contradiction].
      - intros E. apply has_alloc_other; [discriminate|auto].
      - intros E. apply has_alloc_other; [discriminate|auto]. }
    clearbody K2. apply IH; auto.
    - intros l' c' I. apply (same_has P K K2); auto; [|apply (HC l' c'); right; auto]. exact Logic.I.
    - intros K3 b S3 B RD. apply H.
      + eapply same_trans; [exact S2|]. apply (same_less P (untouched r)); auto. unfold P.
        intros [x|x|x|x|x|x|x| | |]; cbn [untouched map fst In]; tauto.
      + cbn [map fst In]. intros x Nx. rewrite B by tauto. destruct (name_eq x l) as [->|]; [exfalso; apply Nx; auto|auto].
      + intros l' c' [E|I]; [|auto]. injection E as <- <-. eapply list_ready_same; [exact S3|auto| |exact OLD]. apply B. auto. }
  destruct c.
  - refine (compress_ok l n (lnn l) K _ Q CL _). intros K1 S1 NE CC CO.
    change (filter (fun i => negb (lnn l i =? 0)) (seq 0 n)) with (nonempty_ix l) in *.
    assert (LK : length (kept true (rw l)) = length (nonempty_ix l)) by (rewrite kept_nonempty, map_length; auto).
    refine (make_starts_ok K1 l (CompressedCounts l) n (length (nonempty_ix l)) (fun k => lnn l (nth k (nonempty_ix l) 0)) _ Q CC _ _); [cbn; tauto|].
    intros K2 S2 ST.
    assert (EQ : map (fun k => lnn l (nth k (nonempty_ix l) 0)) (seq 0 (length (nonempty_ix l))) = map (@length Z) (kept true (rw l))).
    { rewrite kept_lengths. rewrite <- (map_map (fun k => nth k (nonempty_ix l) 0) (lnn l)). f_equal.
      apply nth_ext with (d := 0) (d' := 0); [rewrite map_length, seq_length; auto|]. intros k Hk. rewrite map_length, seq_length in Hk.
      apply (nth_map_seq (fun k => nth k (nonempty_ix l) 0)). auto. }
    rewrite EQ in ST. rewrite <- LK. apply FIN; auto.
    + apply (same_trans P K K1); [eapply same_less; [|exact S1]|eapply same_less; [|exact S2]]; unfold P;
        intros [x|x|x|x|x|x|x| | |]; cbn [untouched map fst In scan_buffer]; intros Hx; repeat split; try discriminate; auto;
        intros E; injection E as ->; tauto.
    + intros _. apply (same_has _ _ _ _ _ _ _ S2); auto. split; [auto|discriminate].
    + intros _. apply (same_has _ _ _ _ _ _ _ S2); [split; [auto|discriminate]|]. eapply has_ext; [exact CO|].
      intros k Hk. cbn beta. rewrite rank_rows by lia. auto.
  - refine (make_starts_ok K l (Counts l) n n (lnn l) _ Q CL _ _); [cbn; tauto|]. intros K1 S1 ST.
    rewrite <- rows_lengths in ST. assert (LK : n = length (kept false (rw l))) by (cbn [kept]; rewrite rows_length; auto).
    specialize (FIN K1). rewrite <- LK in FIN. apply FIN; auto; try discriminate.
    apply (same_less P (fun a => ~ scan_buffer a /\ a <> Starts l)); auto. unfold P.
    intros [x|x|x|x|x|x|x| | |]; cbn [untouched map fst In scan_buffer]; intros Hx; (split; [tauto|]); try discriminate. intros E. injection E as ->. tauto.
Qed.

(** *** the writing pass *)
Definition F_write (a : arr) : option (nat -> option Z) :=
  match a with Lists l => if want l then Some (nth_error (concat (rw l))) else None | _ => None end.
Definition offset (l : name) (i : nat) : nat := nsum (firstn i (map (@length Z) (rw l))).

Lemma write_gen_ok (K : knownl) : (forall l, want l = true -> len K (Lists l) = Some (z (length (concat (rw l))))) ->
  forall gn o p q, gen_ok K fr gn o ->
  (forall l, want l = true -> p l = z (q l) /\ forall j, j < length (entries l o) -> nth_error (concat (rw l)) (q l + j) = Some (nth j (entries l o) 0%Z)) ->
  item_ok K F_write (write_gen name_eq outs gn p).
Proof.
  intros LL. induction gn as [|a k next IH|l v next IH]; cbn [gen_ok write_gen]; intros o p q.
  - intros _ _. exact Logic.I.
  - intros [m [v [A [B [C [D E]]]]]] H. exists m, v. split; auto. split; auto. split; auto. split; [|apply (IH v o p q); auto].
    destruct a; cbn [free F_write] in *; auto. rewrite A. auto.
  - intros [o' [-> O]] H. fold (want l). destruct (want l) eqn:W.
    + destruct (H l W) as [P1 P2]. rewrite entries_cons_same in P2. rewrite P1.
      assert (V := P2 0 ltac:(cbn [length]; lia)). rewrite Nat.add_0_r in V. cbn [nth] in V.
      assert (B : q l < length (concat (rw l))) by (apply nth_error_Some; congruence).
      eapply (item_store arr K F_write (Lists l) (q l)); [apply LL; auto|exact B|cbn [F_write]; rewrite W; reflexivity|exact V|].
      apply (IH o' _ (fun x => if name_eq x l then S (q x) else q x)); auto. intros x Wx. destruct (H x Wx) as [X1 X2].
      destruct (name_eq x l) as [->|N].
      * split; [lia|]. intros j Hj. rewrite entries_cons_same in X2. specialize (X2 (S j) ltac:(cbn [length]; lia)).
        cbn [nth] in X2. rewrite <- X2. f_equal. lia.
      * split; [auto|]. rewrite entries_cons_other in X2 by auto. auto.
    + apply (IH o' p q); auto. intros x Wx. destruct (H x Wx) as [X1 X2]. split; auto.
      rewrite entries_cons_other in X2 by congruence. auto.
Qed.
Lemma write_gen_stores (K : knownl) l : want l = true ->
  forall gn o p q j, gen_ok K fr gn o -> p l = z (q l) -> j < length (entries l o) ->
  stores K (write_gen name_eq outs gn p) (Lists l) (q l + j).
Proof.
  intros W. induction gn as [|a k next IH|l' v next IH]; cbn [gen_ok write_gen]; intros o p q j.
  - intros -> _ H. cbn in H. lia.
  - intros [m [v [A [B [C [D E]]]]]] P J. exists v. split; auto. apply (IH v o p q); auto.
  - intros [o' [-> O]] P J. fold (want l'). destruct (name_eq l' l) as [->|N].
    + rewrite W. rewrite entries_cons_same in J. destruct j as [|j].
      * rewrite Nat.add_0_r, P. apply stores_here.
      * apply stores_later. replace (q l + S j) with ((fun x => if name_eq x l then S (q x) else q x) l + j) by (destruct (name_eq l l); [lia|contradiction]).
        apply (IH o' _ (fun x => if name_eq x l then S (q x) else q x)); auto; [|cbn [length] in J; lia]. destruct (name_eq l l); [lia|contradiction].
    + rewrite entries_cons_other in J by auto. destruct (want l').
      * apply stores_later. apply (IH o' _ q); auto. destruct (name_eq l l'); [congruence|auto].
      * apply (IH o' p q); auto.
Qed.

(** where the entries of work item [i] start *)
Lemma start_index (K : knownl) b l c i : i < n -> list_ready K b l c ->
  exists k, (if c then has K (Compressed l) n n (fun i => z (length (filter nonempty (firstn i (rw l))))) /\ k = length (filter nonempty (firstn i (rw l))) else k = i) /\
    k < length (prefixes (map (@length Z) (kept c (rw l)))) /\ nth k (prefixes (map (@length Z) (kept c (rw l)))) 0%Z = z (offset l i).
Proof.
  intros Hi [A B C D E]. destruct c; cbn [kept] in *.
  - exists (length (filter nonempty (firstn i (rw l)))).
    assert (X : length (filter nonempty (firstn i (rw l))) <= length (map (@length Z) (filter nonempty (rw l)))).
    { rewrite map_length. rewrite <- (firstn_skipn i (rw l)) at 2. rewrite filter_app, app_length. lia. }
    rewrite prefixes_length. split; [auto|]. split; [lia|]. rewrite prefixes_nth by auto. f_equal. apply offset_nonempty.
  - exists i. rewrite prefixes_length, map_length, rows_length. split; auto. split; [lia|].
    rewrite prefixes_nth by (rewrite map_length, rows_length; lia). auto.
Qed.
Lemma load_starts_ok (K : knownl) b i (last : (name -> Z) -> item arr) : i < n -> forall r p,
  (forall l c, In (l, c) r -> list_ready K b l c) ->
  (forall p', (forall l c, In (l, c) r -> p' l = z (offset l i)) -> (forall l, ~ In l (map fst r) -> p' l = p l) -> item_ok K F_write (last p')) ->
  NoDup (map fst r) -> item_ok K F_write (load_starts name_eq r i p last).
Proof.
  intros Hi. induction r as [|[l c] r IH]; intros p RD H NR; cbn [load_starts]; [apply H; [intros l c []|auto]|].
  cbn [map fst] in NR. apply NoDup_cons_iff in NR. destruct NR as [N1 N2].
  assert (RL := RD l c (or_introl eq_refl)). destruct (start_index K b l c i Hi RL) as [k [K1 [K2 K3]]].
  assert (G : item_ok K F_write (load_starts name_eq r i (fun x => if name_eq x l then z (offset l i) else p x) last)).
  { apply IH; auto; [intros; apply RD; right; auto|]. intros p' P1 P2. apply H.
    - intros l' c' [E|I']; [|apply (P1 l' c' I')]. injection E as <- <-. rewrite P2 by auto. destruct (name_eq l l); [auto|contradiction].
    - cbn [map fst In]. intros l' N. rewrite P2 by tauto. destruct (name_eq l' l) as [->|]; [exfalso; apply N; auto|auto]. }
  assert (ST := lr_starts _ _ _ _ RL). rewrite <- K3 in G. destruct c.
  - destruct K1 as [C1 ->]. apply (item_load arr K F_write (Compressed l) i _ n n _ C1 Hi); [reflexivity|].
    refine (item_load arr K F_write (Starts l) _ _ _ _ _ ST K2 eq_refl _). exact G.
  - subst k. refine (item_load arr K F_write (Starts l) _ _ _ _ _ ST K2 eq_refl _). exact G.
Qed.
Lemma load_starts_stores (K : knownl) b i (last : (name -> Z) -> item arr) a j : i < n -> forall r p,
  (forall l c, In (l, c) r -> list_ready K b l c) ->
  (forall p', (forall l c, In (l, c) r -> p' l = z (offset l i)) -> (forall l, ~ In l (map fst r) -> p' l = p l) -> stores K (last p') a j) ->
  NoDup (map fst r) -> stores K (load_starts name_eq r i p last) a j.
Proof.
  intros Hi. induction r as [|[l c] r IH]; intros p RD H NR; cbn [load_starts]; [apply H; [intros l c []|auto]|].
  cbn [map fst] in NR. apply NoDup_cons_iff in NR. destruct NR as [N1 N2].
  assert (RL := RD l c (or_introl eq_refl)). destruct (start_index K b l c i Hi RL) as [k [K1 [K2 K3]]].
  assert (G : stores K (load_starts name_eq r i (fun x => if name_eq x l then z (offset l i) else p x) last) a j).
  { apply IH; auto; [intros; apply RD; right; auto|]. intros p' P1 P2. apply H.
    - intros l' c' [E|I']; [|apply (P1 l' c' I')]. injection E as <- <-. rewrite P2 by auto. destruct (name_eq l l); [auto|contradiction].
    - cbn [map fst In]. intros l' N. rewrite P2 by tauto. destruct (name_eq l' l) as [->|]; [exfalso; apply N; auto|auto]. }
  assert (ST := lr_starts _ _ _ _ RL). rewrite <- K3 in G. destruct c.
  - destruct K1 as [C1 ->]. apply (stores_load arr K (Compressed l) i _ n n _ _ _ C1 Hi).
    refine (stores_load arr K (Starts l) _ _ _ _ _ _ _ ST K2 _). exact G.
  - subst k. refine (stores_load arr K (Starts l) _ _ _ _ _ _ _ ST K2 _). exact G.
Qed.

(** What the builder leaves behind for a list *)
Record list_built (K : knownl) (b : name -> built_list) (l : name) (c : bool) : Prop := {
  lb_built : b l = mkBuilt (length (kept c (rw l))) (length (concat (rw l)));
  lb_starts : is_list K (Starts l) (prefixes (map (@length Z) (kept c (rw l))));
  lb_lists : is_list K (Lists l) (concat (rw l));
  lb_nonempty : c = true -> has K (Nonempty l) n (length (nonempty_ix l)) (fun k => z (nth k (nonempty_ix l) 0))
}.

Lemma wanted_one l c : In (l, c) outs -> want l = true.
Proof. intros H. apply wanted_spec. eauto. Qed.
Lemma write_pass {R} (K : knownl) b (next : host arr R) Q :
  (forall i, i < n -> gen_ok K fr (g i) (out i)) -> (forall l c, In (l, c) outs -> list_ready K b l c) ->
  (forall K', same_on fr K K' -> (forall l c, In (l, c) outs -> list_built K' b l c) -> okl K' next Q) ->
  okl K (Launch n (fun i => write_item name_eq outs (g i) i) next) Q.
Proof.
  intros G RD H.
  assert (LL : forall l, want l = true -> len K (Lists l) = Some (z (length (concat (rw l))))).
  { intros l W. apply wanted_spec in W. destruct W as [c W]. apply (lr_lists _ _ _ _ (RD l c W)). }
  apply ok_launch_items with (F := F_write).
  - intros i Hi. unfold write_item. refine (load_starts_ok K b i _ Hi outs _ RD _ ND). intros p' P1 _.
    apply (write_gen_ok K LL (g i) (out i) p' (fun l => offset l i)); auto. intros l W. apply wanted_spec in W. destruct W as [c W].
    split; [apply (P1 l c W)|]. intros j Hj. rewrite <- (rows_nth n out l i Hi) in Hj |- *.
    apply (nth_concat_offset Z (rw l) i j); [rewrite rows_length; auto|auto].
  - intros a f m k w E La Hk V. destruct a as [x|l|l|l|l|l|l| | |]; cbn [F_write] in E; try discriminate.
    destruct (want l) eqn:W; [|discriminate]. injection E as <-. left.
    assert (Kl : k < length (concat (rw l))) by (apply nth_error_Some; congruence).
    destruct (offset_found Z (rw l) k Kl) as [i [j [I1 [I2 ->]]]]. rewrite rows_length in I1. rewrite rows_nth in I2 by auto.
    exists i. split; auto. unfold write_item. refine (load_starts_stores K b i _ (Lists l) _ I1 outs _ RD _ ND). intros p' P1 _.
    assert (W' := W). apply wanted_spec in W'. destruct W' as [c W'].
    refine (write_gen_stores K l W (g i) (out i) p' (fun l => offset l i) j _ _ I2); auto. apply (P1 l c W').
  - assert (SA : forall a, (forall l, a <> Lists l) -> F_write a = None) by (intros [x|l|l|l|l|l|l| | |] N; auto; destruct (N l); auto).
    apply H.
    + apply same_upd. intros [x|l|l|l|l|l|l| | |]; cbn [free F_write]; auto. intros ->. auto.
    + intros l c I. assert (W := wanted_one l c I). destruct (RD l c I) as [A B C D E]. constructor; auto.
      * apply has_upd_none; [apply SA; discriminate|exact B].
      * eapply has_upd_some; [cbn [F_write]; rewrite W; reflexivity|exact C|auto|]. intros k Hk. apply nth_error_nth'. auto.
      * intros Ec. apply has_upd_none; [apply SA; discriminate|auto].
Qed.

Theorem build_lists_ok {R} (K : knownl) (next : (name -> built_list) -> host arr R) Q :
  (forall i, i < n -> gen_ok K fr (g i) (out i)) ->
  (forall K' b, same_on fr K K' -> (forall l c, In (l, c) outs -> list_built K' b l c) -> okl K' (next b) Q) ->
  okl K (build_lists name_eq outs n g next) Q.
Proof.
  intros G H. unfold build_lists. apply (ok_each_inv arr aeq
    (fun r K' => same_on fr K K' /\ forall l c, In (l, c) outs -> ~ In (l, c) r -> len K' (Counts l) = Some (z n))).
  - split; [apply same_refl|]. intros l c I N. contradiction.
  - intros [l c] r K1 nx [l0 El] [S1 L1] O. cbn [fst]. apply ok_alloc; [lia|]. apply O. split.
    + eapply same_trans; [exact S1|]. apply same_alloc. cbn [free]. rewrite (wanted_one l c); [discriminate|].
      rewrite El. apply in_or_app. right. left. auto.
    + intros l' c' I N. cbn [k_alloc len]. destruct (aeq (Counts l') (Counts l)) as [E|E]; auto.
      apply (L1 l' c' I). intros [E'|I']; [injection E' as -> ->; contradiction|contradiction].
  - intros K1 [S1 L1].
    assert (L2 : forall l, want l = true -> len K1 (Counts l) = Some (z n)).
    { intros l W. apply wanted_spec in W. destruct W as [c W]. apply (L1 l c W). auto. }
    refine (count_pass outs n g out K1 _ Q _ L2 _).
    { intros i Hi. apply (gen_same fr K K1 S1). auto. }
    intros K2 S2 C2. apply scan_counts_ok; auto.
    + intros l c I. apply C2. apply (wanted_one l c I).
    + intros K3 b S3 _ RD.
      assert (S3' : same_on fr K2 K3).
      { eapply same_less; [|exact S3].
        assert (X : forall x, want x = false -> ~ In x (map fst outs)).
        { intros x Wx I. apply in_map_iff in I. destruct I as [[x' c] [Ex I]]. cbn [fst] in Ex. subst x'. rewrite (wanted_one x c I) in Wx. discriminate. }
        intros [x|x|x|x|x|x|x| | |]; cbn [free untouched]; auto. }
      assert (SK : same_on fr K K3) by (eapply same_trans; [exact S1|]; eapply same_trans; [exact S2|exact S3']).
      apply (write_pass K3 b); auto.
      * intros i Hi. apply (gen_same fr K K3 SK). auto.
      * intros K4 S4 LB. apply H; auto. eapply same_trans; [exact SK|exact S4].
Qed.
End All.
End Facts.
