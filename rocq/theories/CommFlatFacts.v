(** Facts about CommFlat.v: rows of flat arrays, slicing and updating. *)
From Coq Require Import List Arith ZArith Lia Bool Permutation Sorted.
From Verif Require Import Base ArrayFacts Tools ToolsFacts Monoid Comm CommFacts Layout SpecLayout LayoutFacts CommFlat.
Import ListNotations.

Lemma ss_skipn idx v b : StronglySorted lt idx -> In b (skipn (searchsorted idx v) idx) -> v <= b.
Proof.
  unfold searchsorted. induction idx as [|x l IH]; cbn [filter length]; intros S H; [destruct H|]. inversion S; subst. rewrite Forall_forall in *.
  destruct (Nat.ltb_spec x v) as [L|L]; cbn [length skipn] in H; [apply IH; auto|].
  assert (E : filter (fun y => y <? v) l = []).
  { apply filter_none. intros y Hy. apply Nat.ltb_ge. specialize (H3 y Hy). lia. }
  rewrite E in H. cbn in H. destruct H as [->|H]; [auto|]. specialize (H3 b H). lia.
Qed.
Lemma ss_firstn idx v b : StronglySorted lt idx -> In b (firstn (searchsorted idx v) idx) -> b < v.
Proof.
  unfold searchsorted. induction idx as [|x l IH]; cbn [filter length]; intros S H; [destruct H|]. inversion S; subst. rewrite Forall_forall in *.
  destruct (Nat.ltb_spec x v) as [L|L]; cbn [length firstn] in H; [destruct H as [->|H]; auto|].
  assert (E : filter (fun y => y <? v) l = []).
  { apply filter_none. intros y Hy. apply Nat.ltb_ge. specialize (H3 y Hy). lia. }
  rewrite E in H. destruct H.
Qed.
Lemma slice_in {A} (l : list A) i j x : In x (slice l i j) -> In x (skipn i l) /\ In x (firstn j l).
Proof.
  unfold slice. intros H. split.
  - rewrite <- (firstn_skipn (j - i) (skipn i l)). apply in_or_app. auto.
  - destruct (le_lt_dec i j) as [L|L].
    + rewrite <- (firstn_skipn i (firstn j l)), skipn_firstn_comm. apply in_or_app. auto.
    + replace (j - i) with 0 in H by lia. destruct H.
Qed.
Lemma slice_mid {A} (l1 l2 l3 : list A) i j : i = length l1 -> j = i + length l2 -> slice (l1 ++ l2 ++ l3) i j = l2.
Proof.
  intros -> ->. unfold slice. replace (length l1 + length l2 - length l1) with (length l2) by lia.
  rewrite skipn_app, skipn_all, Nat.sub_diag. cbn [skipn app]. rewrite firstn_app, Nat.sub_diag, firstn_all. cbn. apply app_nil_r.
Qed.
Lemma all_some_map {A B} (f : A -> option B) (g : A -> B) l : (forall x, In x l -> f x = Some (g x)) -> all_some f l = Some (map g l).
Proof. induction l as [|x l IH]; intros H; cbn [all_some map]; auto. rewrite (H x) by (left; auto). rewrite IH; auto. intros y Hy. apply H. right. auto. Qed.
Lemma concat_length_const {A B} (f : A -> list B) n l : (forall x, In x l -> length (f x) = n) -> length (concat (map f l)) = length l * n.
Proof.
  induction l as [|x l IH]; intros H; cbn [map concat length]; auto. rewrite app_length, IH, (H x); [lia|left; auto|]. intros y Hy. apply H. right. auto.
Qed.

Lemma match_ne {A B} (l : list A) (x y : B) : l <> [] -> match l with [] => x | _ :: _ => y end = y.
Proof. destruct l; tauto. Qed.

Section Rows.
Context {C : cmonoid}.
Variables (nboxes nlevels : nat) (ls sizes : nat -> nat).
Hypothesis LS0 : ls 0 = 0.
Hypothesis LSn : ls nlevels = nboxes.
Hypothesis LSm : forall l, l < nlevels -> ls l <= ls (S l).

Lemma ls_mono l l' : l <= l' -> l' <= nlevels -> ls l <= ls l'.
Proof. induction 1 as [|m H IH]; intros K; auto. specialize (LSm m). lia. Qed.
Definition on (l b : nat) : Prop := l < nlevels /\ ls l <= b < ls (S l).
Lemma on_unique l l' b : on l b -> on l' b -> l = l'.
Proof.
  intros [A [B D]] [A' [B' D']]. destruct (lt_eq_lt_dec l l') as [[L|L]|L]; auto.
  - assert (X := ls_mono (S l) l' L ltac:(lia)). lia.
  - assert (X := ls_mono (S l') l L ltac:(lia)). lia.
Qed.
Lemma on_exists b : b < nboxes -> exists l, on l b.
Proof.
  intros H. unfold on. rewrite <- LSn in H. clear LSn nboxes. revert H. generalize (le_n nlevels). generalize nlevels at 1 3. intros k.
  induction k as [|k IH]; intros K H; [lia|]. destruct (le_lt_dec (ls k) b) as [L|L]; [exists k; lia|].
  apply IH; [lia|auto].
Qed.
Lemma on_lt l b : on l b -> b < nboxes.
Proof. intros [A [B D]]. rewrite <- LSn. assert (X := ls_mono (S l) nlevels A (le_n _)). lia. Qed.
Definition lvl (b : nat) : nat := hd 0 (filter (fun l => (ls l <=? b) && (b <? ls (S l))) (seq 0 nlevels)).
Lemma lvl_on b : b < nboxes -> on (lvl b) b.
Proof.
  intros H. destruct (on_exists b H) as [l O]. unfold lvl.
  destruct (filter _ _) as [|x r] eqn:E.
  - exfalso. assert (X : In l []); [|destruct X]. rewrite <- E. apply filter_In. destruct O as [A [B D]]. split; [apply in_seq; lia|].
    apply andb_true_iff. split; [apply Nat.leb_le; auto|apply Nat.ltb_lt; auto].
  - cbn [hd]. assert (X : In x (x :: r)) by (left; auto). rewrite <- E in X. apply filter_In in X. destruct X as [X1 X2].
    apply in_seq in X1. apply andb_true_iff in X2. rewrite Nat.leb_le, Nat.ltb_lt in X2. split; [lia|auto].
Qed.
Lemma lvl_eq l b : on l b -> lvl b = l.
Proof. intros O. eapply on_unique; eauto. apply lvl_on. eapply on_lt; eauto. Qed.

Definition total : nat := start_of ls sizes nlevels.
Definition bsize (b : nat) : nat := sizes (lvl b).
Definition pos (b : nat) : nat := start_of ls sizes (lvl b) + (b - ls (lvl b)) * bsize b.
Definition row (a : list C) (b : nat) : list C := firstn (bsize b) (skipn (pos b) a).
Lemma pos_bound b : b < nboxes -> pos b + bsize b <= start_of ls sizes (S (lvl b)).
Proof.
  intros H. destruct (lvl_on b H) as [A B]. unfold pos, bsize. rewrite start_of_S, Nat.add_1_r. set (s := sizes (lvl b)).
  assert (X : S (b - ls (lvl b)) * s <= (ls (S (lvl b)) - ls (lvl b)) * s) by (apply Nat.mul_le_mono_r; lia).
    rewrite ?(Nat.mul_comm s). cbn [Nat.mul] in X. lia.
Qed.
Lemma pos_total b : b < nboxes -> pos b + bsize b <= total.
Proof.
  intros H. assert (X := pos_bound b H). destruct (lvl_on b H) as [A _]. assert (Y := start_mono ls sizes (S (lvl b)) nlevels A). unfold total. lia.
Qed.
Lemma pos_disjoint b b' : b < nboxes -> b' < nboxes -> b <> b' -> pos b + bsize b <= pos b' \/ pos b' + bsize b' <= pos b.
Proof.
  intros H H' N. destruct (lt_eq_lt_dec (lvl b) (lvl b')) as [[L|L]|L].
  - left. assert (X := pos_bound b H). assert (Y := start_mono ls sizes (S (lvl b)) (lvl b') L). unfold pos at 2.
    etransitivity; [exact X|]. etransitivity; [exact Y|]. apply Nat.le_add_r.
  - destruct (lvl_on b H) as [A B]. destruct (lvl_on b' H') as [A' B']. unfold pos, bsize. rewrite <- L in *. set (s := sizes (lvl b)).
    destruct (lt_dec b b') as [Q|Q]; [left|right].
    + assert (X : S (b - ls (lvl b)) * s <= (b' - ls (lvl b)) * s) by (apply Nat.mul_le_mono_r; lia).
    rewrite ?(Nat.mul_comm s). cbn [Nat.mul] in X. lia.
    + assert (X : S (b' - ls (lvl b)) * s <= (b - ls (lvl b)) * s) by (apply Nat.mul_le_mono_r; lia).
    rewrite ?(Nat.mul_comm s). cbn [Nat.mul] in X. lia.
  - right. assert (X := pos_bound b' H'). assert (Y := start_mono ls sizes (S (lvl b')) (lvl b) L). unfold pos at 2.
    etransitivity; [exact X|]. etransitivity; [exact Y|]. apply Nat.le_add_r.
Qed.
Lemma pos_order b b' : b' < nboxes -> b < b' -> pos b + bsize b <= pos b'.
Proof.
  intros H L. assert (Hb : b < nboxes) by lia. destruct (lvl_on b Hb) as [A [B D]]. destruct (lvl_on b' H) as [A' [B' D']].
  destruct (lt_eq_lt_dec (lvl b) (lvl b')) as [[G|G]|G].
  - assert (X := pos_bound b Hb). assert (Y := start_mono ls sizes (S (lvl b)) (lvl b') G). unfold pos at 2.
    etransitivity; [exact X|]. etransitivity; [exact Y|]. apply Nat.le_add_r.
  - unfold pos, bsize. rewrite <- G in *. set (s := sizes (lvl b)).
    assert (X : S (b - ls (lvl b)) * s <= (b' - ls (lvl b)) * s) by (apply Nat.mul_le_mono_r; lia). cbn [Nat.mul] in X. lia.
  - exfalso. assert (X := ls_mono (S (lvl b')) (lvl b) G ltac:(lia)). lia.
Qed.
(** the coefficients of several boxes fit into one array *)
Lemma payload_fits (idx : list nat) : StronglySorted lt idx -> (forall i, In i idx -> i < nboxes) -> nsum (map bsize idx) <= total.
Proof.
  assert (G : forall l x, StronglySorted lt (x :: l) -> (forall i, In i (x :: l) -> i < nboxes) -> pos x + nsum (map bsize (x :: l)) <= total).
  { induction l as [|y l IH]; intros x S H; cbn [map]; change (nsum (?a :: ?r)) with (a + nsum r).
    - cbn [nsum fold_right]. assert (X := pos_total x (H x (or_introl eq_refl))). lia.
    - inversion S as [|? ? S' F]. rewrite Forall_forall in F.
      assert (X := pos_order x y (H y (or_intror (or_introl eq_refl))) (F y (or_introl eq_refl))).
      specialize (IH y S' (fun i Hi => H i (or_intror Hi))). cbn [map] in IH. change (nsum (?a :: ?r)) with (a + nsum r) in IH.
      change (nsum (?a :: ?r)) with (a + nsum r). lia. }
  destruct idx as [|x l]; intros S H; [cbn; lia|]. specialize (G l x S H). lia.
Qed.
Lemma row_length a b : b < nboxes -> length a = total -> length (row a b) = bsize b.
Proof. intros H L. unfold row. rewrite firstn_length, skipn_length. assert (X := pos_total b H). lia. Qed.

Lemma row_get_eq (a : list C) l b : on l b -> row_get nlevels ls sizes a l b = Some (row a b).
Proof.
  intros O. unfold row_get. assert (E := lvl_eq l b O). destruct O as [A [B D]].
  apply Nat.leb_le in B. apply Nat.ltb_lt in D. rewrite B, D. cbn [andb]. unfold expansion_get. rewrite view_ok by auto.
  unfold row, pos, bsize. rewrite E. auto.
Qed.
Definition put (a : list C) (b : nat) (v : list C) : list C := firstn (pos b) a ++ v ++ skipn (pos b + bsize b) a.
Lemma row_set_eq (a : list C) l b v : on l b -> length v = bsize b -> row_set nlevels ls sizes a l b v = Some (put a b v).
Proof.
  intros O LV. unfold row_set. assert (E := lvl_eq l b O). destruct O as [A [B D]].
  apply Nat.leb_le in B. apply Nat.ltb_lt in D. rewrite B, D. cbn [andb]. unfold expansion_set. rewrite view_ok by auto.
  unfold put, pos, bsize in *. rewrite E in *. rewrite LV, Nat.eqb_refl. auto.
Qed.
Lemma put_length a b v : b < nboxes -> length a = total -> length v = bsize b -> length (put a b v) = total.
Proof. intros H L LV. assert (X := pos_total b H). unfold put. rewrite !app_length, firstn_length, skipn_length. lia. Qed.
Lemma row_put_same a b v : b < nboxes -> length a = total -> length v = bsize b -> row (put a b v) b = v.
Proof. intros H L LV. unfold row, put. apply firstn_skipn_app_mid; auto. rewrite L. apply pos_total; auto. Qed.
Lemma row_put_other a b v b' : b < nboxes -> b' < nboxes -> b <> b' -> length a = total -> length v = bsize b -> row (put a b v) b' = row a b'.
Proof.
  intros H H' N L LV. unfold row, put. apply firstn_skipn_other; auto; try (rewrite L; apply pos_total; auto).
  destruct (pos_disjoint b b' H H' N); auto.
Qed.
Lemma vadd_length (v w : list C) : length v = length w -> length (vadd v w) = length v.
Proof. intros E. unfold vadd. rewrite map_length, combine_length. lia. Qed.

(** *** one level of an update *)
Lemma add_rows_eq (a a' : list C) l idx : length a = total -> length a' = total -> NoDup idx -> (forall b, In b idx -> on l b) ->
  exists a2, add_rows nlevels ls sizes a l idx (map (row a') idx) = Some a2 /\ length a2 = total /\
    forall b, b < nboxes -> row a2 b = if existsb (Nat.eqb b) idx then vadd (row a b) (row a' b) else row a b.
Proof.
  intros LA LA'. unfold add_rows.
  assert (G : forall idx A0, length A0 = total -> NoDup idx -> (forall b, In b idx -> on l b) ->
    exists a2, fold_left (fun acc bv => match acc, row_get nlevels ls sizes a l (fst bv) with
        | Some a', Some old => row_set nlevels ls sizes a' l (fst bv) (vadd old (snd bv)) | _, _ => None end)
        (combine idx (map (row a') idx)) (Some A0) = Some a2 /\ length a2 = total /\
      forall b, b < nboxes -> row a2 b = if existsb (Nat.eqb b) idx then vadd (row a b) (row a' b) else row A0 b).
  { clear idx. induction idx as [|x idx IH]; intros A0 L0 ND O; cbn [map combine fold_left].
    - exists A0. auto.
    - apply NoDup_cons_iff in ND. destruct ND as [NI ND']. assert (Ox := O x (or_introl eq_refl)). assert (Hx := on_lt l x Ox).
      cbn [fst snd]. rewrite row_get_eq by auto.
      assert (LV : length (vadd (row a x) (row a' x)) = bsize x) by (rewrite vadd_length; rewrite !row_length; auto).
      rewrite row_set_eq by auto.
      destruct (IH (put A0 x (vadd (row a x) (row a' x)))) as [a2 [E [L2 R]]]; auto; [apply put_length; auto|intros b Hb; apply O; right; auto|].
      exists a2. split; auto. split; auto. intros b Hb. rewrite R by auto. cbn [existsb].
      destruct (Nat.eqb_spec b x) as [->|NE]; cbn [orb].
      + destruct (existsb (Nat.eqb x) idx); auto. apply row_put_same; auto.
      + destruct (existsb (Nat.eqb b) idx); auto. apply row_put_other; auto. }
  intros ND O. apply G; auto.
Qed.

Lemma reshape_eq (f : nat -> list C) s idx : (forall b, In b idx -> length (f b) = s) ->
  reshape_rows (length idx) s (concat (map f idx)) = map f idx.
Proof.
  intros H. unfold reshape_rows.
  assert (G : forall pre, (forall b, In b (pre ++ idx) -> length (f b) = s) ->
    map (fun k => slice (concat (map f (pre ++ idx))) (k * s) (k * s + s)) (seq (length pre) (length idx)) = map f idx).
  { clear H. induction idx as [|x idx IH]; intros pre H; cbn [length seq map]; auto. f_equal.
    - rewrite map_app, concat_app. cbn [map concat]. apply slice_mid.
      + rewrite (concat_length_const f s); auto. intros y Hy. apply H. apply in_or_app. auto.
      + rewrite (H x); auto. apply in_or_app. right. left. auto.
    - specialize (IH (pre ++ [x])). rewrite <- app_assoc in IH. cbn [app] in IH. rewrite app_length, Nat.add_1_r in IH. apply IH. auto. }
  apply (G []). auto.
Qed.

(** *** slicing and updating for a sorted list of box numbers *)
Section Idx.
Variable idx : list nat.
Hypothesis SRT : StronglySorted lt idx.
Hypothesis LT : forall i, In i idx -> i < nboxes.
Let part l := slice idx (searchsorted idx (ls l)) (searchsorted idx (ls (S l))).
Lemma part_on l b : l < nlevels -> In b (part l) -> on l b.
Proof.
  intros Hl H. apply slice_in in H. destruct H as [H1 H2]. split; auto. split; [eapply ss_skipn; eauto|eapply ss_firstn; eauto].
Qed.
Lemma part_length l : l < nlevels -> length (part l) = searchsorted idx (ls (S l)) - searchsorted idx (ls l).
Proof. intros H. unfold part, slice. rewrite firstn_length, skipn_length. assert (X := searchsorted_le idx (ls (S l))). lia. Qed.
Lemma parts_upto k : k <= nlevels -> concat (map part (seq 0 k)) = firstn (searchsorted idx (ls k)) idx.
Proof. intros K. apply (slices_upto nlevels ls nboxes LS0 LSn LSm idx idx k eq_refl K). Qed.
Lemma parts_all : concat (map part (seq 0 nlevels)) = idx.
Proof. rewrite parts_upto by auto. rewrite (searchsorted_n nlevels ls nboxes LSn idx LT). apply firstn_all. Qed.
Lemma parts_split k : k < nlevels -> exists rest, idx = concat (map part (seq 0 k)) ++ part k ++ rest.
Proof.
  intros K. exists (skipn (searchsorted idx (ls (S k))) idx). rewrite app_assoc.
  replace (concat (map part (seq 0 k)) ++ part k) with (concat (map part (seq 0 (S k)))).
  - rewrite parts_upto by lia. symmetry. apply firstn_skipn.
  - rewrite seq_S, map_app, concat_app. cbn [map concat]. rewrite app_nil_r. auto.
Qed.
Lemma idx_nodup : NoDup idx.
Proof. clear -SRT. induction SRT; constructor; auto. intros H1. rewrite Forall_forall in H. specialize (H a H1). lia. Qed.
Lemma part_nodup l : NoDup (part l).
Proof.
  unfold part, slice. assert (N := idx_nodup). rewrite <- (firstn_skipn (searchsorted idx (ls l)) idx) in N.
  assert (N2 : NoDup (skipn (searchsorted idx (ls l)) idx)).
  { revert N. generalize (firstn (searchsorted idx (ls l)) idx) (skipn (searchsorted idx (ls l)) idx). clear.
    intros l1 l2. induction l1; cbn [app]; auto. intros H. inversion H; auto. }
  revert N2. generalize (skipn (searchsorted idx (ls l)) idx) (searchsorted idx (ls (S l)) - searchsorted idx (ls l)). clear.
  intros l k. revert k. induction l as [|x l IH]; intros [|k] H; cbn [firstn]; try constructor.
  - inversion H; subst. intros X. apply H2. rewrite <- (firstn_skipn k l). apply in_or_app. auto.
  - inversion H; auto.
Qed.

Lemma flat_slice_eq (a : list C) : length a = total -> flat_slice nlevels ls sizes a idx = Some (concat (map (row a) idx)).
Proof.
  intros LA. unfold flat_slice.
  assert (G : forall k, k <= nlevels -> exists l, fold_left (fun acc lev =>
        match acc with
        | None => None
        | Some l =>
          let '(start, stop) := bounds ls idx lev in
          if start <? stop then
            match all_some (row_get nlevels ls sizes a lev) (slice idx start stop) with
            | Some rows => Some (l ++ [concat rows])
            | None => None
            end
          else Some l
        end) (seq 0 k) (Some []) = Some l /\ concat l = concat (map (row a) (concat (map part (seq 0 k)))) /\
        (l = [] -> concat (map part (seq 0 k)) = [])).
  { induction k as [|k IH]; intros K; [exists []; auto|].
    destruct (IH ltac:(lia)) as [l [E [Q N]]]. rewrite !seq_S, fold_left_app, E. cbn [fold_left plus]. unfold bounds.
    assert (PL := part_length k ltac:(lia)). fold (part k).
    rewrite !map_app, !concat_app. cbn [map concat]. rewrite app_nil_r, !map_app, concat_app.
    destruct (Nat.ltb_spec (searchsorted idx (ls k)) (searchsorted idx (ls (S k)))) as [H|H].
    - rewrite (all_some_map _ (row a)) by (intros b Hb; apply row_get_eq; apply part_on; auto; lia).
      exists (l ++ [concat (map (row a) (part k))]). split; auto. split; [|intros X; destruct l; discriminate].
      rewrite concat_app. cbn [concat]. rewrite app_nil_r, Q. auto.
    - assert (PE : part k = []) by (destruct (part k); auto; cbn [length] in PL; lia).
      exists l. rewrite PE. cbn [map concat]. rewrite !app_nil_r. auto. }
  destruct (G nlevels (le_n _)) as [l [E [Q N]]]. rewrite parts_all in Q, N.
  destruct idx as [|x r] eqn:EI; [reflexivity|]. rewrite <- EI in *. rewrite E. destruct l as [|y l]; [rewrite N in EI; auto; discriminate|].
  rewrite Q. auto.
Qed.

Lemma flat_update_eq (a a' junk : list C) : length a = total -> length a' = total ->
  exists a2, flat_update nlevels ls sizes a (concat (map (row a') idx) ++ junk) idx = Some a2 /\ length a2 = total /\
    forall b, b < nboxes -> row a2 b = if existsb (Nat.eqb b) idx then vadd (row a b) (row a' b) else row a b.
Proof.
  intros LA LA'. unfold flat_update. set (updates := concat (map (row a') idx) ++ junk).
  assert (G : forall k, k <= nlevels -> exists a2 p, fold_left (fun acc lev =>
        match acc with
        | None => None
        | Some (a', updates_start) =>
          let '(start, stop) := bounds ls idx lev in
          if start <? stop then
            let n := (stop - start) * sizes lev in
            let part := slice updates updates_start (updates_start + n) in
            if length part =? n then
              match add_rows nlevels ls sizes a' lev (slice idx start stop) (reshape_rows (stop - start) (sizes lev) part) with
              | Some a'' => Some (a'', updates_start + n)
              | None => None
              end
            else None
          else Some (a', updates_start)
        end) (seq 0 k) (Some (a, 0)) = Some (a2, p) /\ length a2 = total /\
        p = length (concat (map (row a') (concat (map part (seq 0 k))))) /\
        forall b, b < nboxes -> row a2 b = if existsb (Nat.eqb b) (concat (map part (seq 0 k))) then vadd (row a b) (row a' b) else row a b).
  { induction k as [|k IH]; intros K; [exists a, 0; auto|].
    destruct (IH ltac:(lia)) as [a2 [p [E [L2 [EP R]]]]]. rewrite !seq_S, fold_left_app, E. cbn [fold_left plus]. unfold bounds.
    assert (PL := part_length k ltac:(lia)). fold (part k).
    assert (SPL := parts_split k ltac:(lia)). destruct SPL as [rest SPL].
    rewrite !map_app, !concat_app. cbn [map concat]. rewrite app_nil_r, !map_app, concat_app.
    destruct (Nat.ltb_spec (searchsorted idx (ls k)) (searchsorted idx (ls (S k)))) as [H|H].
    - cbv zeta. rewrite <- PL. set (done := concat (map part (seq 0 k))) in *.
      assert (RL : forall b, In b (part k) -> length (row a' b) = sizes k).
      { intros b Hb. assert (O := part_on k b ltac:(lia) Hb). rewrite row_length by (auto; eapply on_lt; eauto). unfold bsize. rewrite (lvl_eq k); auto. }
      assert (CL := concat_length_const (row a') (sizes k) (part k) RL).
      assert (SL : slice updates p (p + length (part k) * sizes k) = concat (map (row a') (part k))).
      { unfold updates. rewrite SPL at 1. rewrite !map_app, !concat_app, <- !app_assoc. apply slice_mid; auto. }
      rewrite SL, CL, Nat.eqb_refl. rewrite (reshape_eq (row a') (sizes k) (part k) RL).
      destruct (add_rows_eq a2 a' k (part k) L2 LA' (part_nodup k) (fun b => part_on k b ltac:(lia))) as [a3 [E3 [L3 R3]]].
      rewrite E3. exists a3, (p + length (part k) * sizes k). split; auto. split; auto. split; [rewrite app_length, CL; lia|].
      intros b Hb. rewrite R3, existsb_app, R by auto.
      destruct (existsb (Nat.eqb b) done) eqn:X1; destruct (existsb (Nat.eqb b) (part k)) eqn:X2; cbn [orb]; auto.
      exfalso. apply existsb_exists in X1, X2. destruct X1 as [x [I1 Q1]]. destruct X2 as [y [I2 Q2]]. apply Nat.eqb_eq in Q1, Q2. subst x y.
      assert (ND := idx_nodup). rewrite SPL in ND. revert ND I1 I2.
      generalize done (part k). clear. intros l l'. induction l as [|x l IH]; cbn [app In]; [tauto|]. intros ND [->|I1] I2; inversion ND; subst; auto.
      apply H1. apply in_or_app. right. apply in_or_app. auto.
    - assert (PE : part k = []) by (destruct (part k); auto; cbn [length] in PL; lia).
      exists a2, p. rewrite PE. cbn [map concat]. rewrite !app_nil_r. auto. }
  destruct (G nlevels (le_n _)) as [a2 [p [E [L2 [EP R]]]]]. rewrite parts_all in R, EP.
  destruct (list_eq_dec Nat.eq_dec idx []) as [EI|NE].
  - exists a. rewrite EI. cbn [existsb]. auto.
  - cbv zeta in E |- *. rewrite match_ne by auto. rewrite E. exists a2. auto.
Qed.
End Idx.

Lemma payload_length (a : list C) idx : length a = total -> (forall i, In i idx -> i < nboxes) -> length (concat (map (row a) idx)) = nsum (map bsize idx).
Proof.
  intros L. induction idx as [|x l IH]; intros H; cbn [map concat length]; auto. change (nsum (?a :: ?r)) with (a + nsum r).
  rewrite app_length, row_length, IH; auto; intros; apply H; [right|left]; auto.
Qed.

(** *** coefficients *)
Definition coef (a : list C) (c b : nat) : C := nth c (row a b) e0.
Lemma nth_vadd (v w : list C) c : length v = length w -> nth c (vadd v w) e0 = op (nth c v e0) (nth c w e0).
Proof.
  revert w c. induction v as [|x v IH]; intros [|y w] c E; try discriminate; cbn [vadd combine map].
  - destruct c; cbn [nth vadd combine map]; rewrite op_0; auto.
  - destruct c as [|c]; cbn [nth]; auto. apply IH. auto.
Qed.
Lemma coef_nth a b c : b < nboxes -> length a = total -> c < bsize b -> coef a c b = nth (pos b + c) a e0.
Proof.
  intros H L Hc. assert (X := pos_total b H). unfold coef, row.
  rewrite <- (firstn_skipn (pos b) a) at 2. rewrite app_nth2; rewrite firstn_length, Nat.min_l by lia; [|lia].
  replace (pos b + c - pos b) with c by lia. rewrite <- (firstn_skipn (bsize b) (skipn (pos b) a)) at 2.
  rewrite app_nth1; auto. rewrite firstn_length, skipn_length. lia.
Qed.
End Rows.
