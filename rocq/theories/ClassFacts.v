(** Translation classes. *)
From Coq Require Import List Arith ZArith NArith Lia Bool.
From Verif Require Import Base Tree Spec TreeFacts Traversal GeomFacts SpecTraversal TraversalLists Coverage ListFacts Tools ToolsFacts AreaMore
  Classes SpecClasses.
Import ListNotations.

Lemma rint_exact k den : (0 < den)%Z -> rint (k * den) den = k.
Proof. intros H. unfold rint. rewrite Z.div_mul, Z.mod_mul by lia. destruct (Z.ltb_spec (2 * 0) den); lia. Qed.

(** ** Mixed radix *)
Definition enc (base : nat) (ds : list nat) : nat := fold_right (fun x r => x + base * r) 0 ds.
Lemma enc_fold {X} base (f : X -> nat) l : forall a m,
  fold_left (fun rm i => (fst rm + f i * snd rm, snd rm * base)) l (a, m) = (a + m * enc base (map f l), m * base ^ length l).
Proof.
  induction l as [|x l IH]; intros a m; cbn [fold_left map enc fold_right length].
  - rewrite Nat.mul_0_r, Nat.add_0_r. cbn. f_equal. lia.
  - rewrite IH. cbn [fst snd]. fold (enc base (map f l)). f_equal; [nia|]. cbn [Nat.pow]. lia.
Qed.
Lemma enc_lt base ds : 0 < base -> (forall x, In x ds -> x < base) -> enc base ds < base ^ length ds.
Proof.
  intros B. induction ds as [|x ds IH]; intros H; cbn [enc fold_right length Nat.pow]; [lia|].
  specialize (IH ltac:(intros; apply H; right; auto)). specialize (H x (or_introl eq_refl)). fold (enc base ds). nia.
Qed.
Lemma dec_fold {X} base ds : forall (l : list X) acc, 0 < base -> (forall x, In x ds -> x < base) -> length l = length ds ->
  fold_left (fun rc _ => (fst rc ++ [snd rc mod base], snd rc / base)) l (acc, enc base ds) = (acc ++ ds, 0).
Proof.
  induction ds as [|x ds IH]; intros [|y l] acc B H L; cbn in L; try lia.
  - cbn. rewrite app_nil_r. auto.
  - cbn [fold_left fst snd enc fold_right]. fold (enc base ds). assert (X0 := H x (or_introl eq_refl)).
    replace ((x + base * enc base ds) mod base) with x.
    2: { rewrite Nat.mul_comm, Nat.mod_add by lia. symmetry. apply Nat.mod_small. auto. }
    replace ((x + base * enc base ds) / base) with (enc base ds).
    2: { rewrite Nat.mul_comm, Nat.div_add by lia. rewrite Nat.div_small by auto. auto. }
    rewrite IH by (auto; try lia; intros; apply H; right; auto). rewrite <- app_assoc. auto.
Qed.

Definition digits (d n : nat) (v : nat -> Z) : list nat := map (fun i => Z.to_nat (2 * Z.of_nat n + 1 + v i)) (seq 0 d).
Definition in_bounds (d n : nat) (v : nat -> Z) : Prop := forall i, i < d -> (- (2 * Z.of_nat n + 1) <= v i <= 2 * Z.of_nat n + 1)%Z.
Definition code (d n : nat) (v : nat -> Z) : nat := enc (4 * n + 3) (digits d n v).
Lemma digits_length d n v : length (digits d n v) = d.
Proof. unfold digits. rewrite map_length, seq_length. auto. Qed.
Lemma digits_lt d n v : in_bounds d n v -> forall x, In x (digits d n v) -> x < 4 * n + 3.
Proof. intros B x H. apply in_map_iff in H. destruct H as [i [<- Hi]]. apply in_seq in Hi. specialize (B i ltac:(lia)). lia. Qed.
Lemma class_code d n v : in_bounds d n v -> translation_class d n v = Some (code d n v).
Proof.
  intros B. unfold translation_class. rewrite (proj2 (forallb_forall _ _)).
  - rewrite (enc_fold (4 * n + 3) (fun i => Z.to_nat (2 * Z.of_nat n + 1 + v i))). cbn [fst]. f_equal. unfold code, digits. lia.
  - intros i Hi. apply in_seq in Hi. specialize (B i ltac:(lia)). apply andb_true_iff. rewrite !Z.leb_le. lia.
Qed.
Lemma code_lt d n v : in_bounds d n v -> code d n v < nclasses_per_level n d.
Proof.
  intros B. unfold code, nclasses_per_level. rewrite <- (digits_length d n v) at 2. apply enc_lt; [lia|]. apply digits_lt; auto.
Qed.
Lemma code_vector d n v i : in_bounds d n v -> i < d -> class_to_vector n d (code d n v) i = v i.
Proof.
  intros B Hi. unfold class_to_vector, code. rewrite dec_fold.
  - cbn [fst app]. unfold digits. rewrite nth_map_seq by auto. specialize (B i Hi). lia.
  - lia.
  - apply digits_lt; auto.
  - rewrite seq_length, digits_length. auto.
Qed.
Lemma code_inj d n v w : in_bounds d n v -> in_bounds d n w -> code d n v = code d n w -> forall i, i < d -> v i = w i.
Proof. intros Bv Bw E i Hi. rewrite <- (code_vector d n v i Bv Hi), <- (code_vector d n w i Bw Hi), E. auto. Qed.
Lemma code_ext d n v w : (forall i, i < d -> v i = w i) -> code d n v = code d n w.
Proof. intros E. unfold code, digits. f_equal. apply map_ext_in. intros i Hi. apply in_seq in Hi. rewrite E; auto. lia. Qed.

(** ** Compaction *)
Section Compact.
Variable t : tree.
Variable n : nat.
Variable used : list bool.
Notation N := (nclasses_per_level n (dim t)).
Definition rank (m : nat) : nat := length (filter (fun k => nth k used false) (seq 0 m)).
Lemma rank_S m : rank (S m) = rank m + if nth m used false then 1 else 0.
Proof. unfold rank. rewrite seq_S, filter_app, app_length. cbn [filter Nat.add]. destruct (nth m used false); auto. Qed.
Lemma rank_mono i j : i <= j -> rank i <= rank j.
Proof. induction 1; auto. rewrite rank_S. lia. Qed.
Lemma rank_lt i j : nth i used false = true -> i < j -> rank i < rank j.
Proof. intros U H. apply Nat.lt_le_trans with (rank (S i)); [rewrite rank_S, U; lia|apply rank_mono; auto]. Qed.
Lemma rank_inj i j : nth i used false = true -> nth j used false = true -> rank i = rank j -> i = j.
Proof.
  intros Ui Uj E. destruct (Nat.lt_trichotomy i j) as [H|[H|H]]; auto; [apply (rank_lt i j Ui) in H|apply (rank_lt j i Uj) in H]; lia.
Qed.
Lemma rank_onto m c : c < rank m -> exists i, i < m /\ nth i used false = true /\ rank i = c.
Proof.
  induction m as [|m IH]; [cbn; lia|]. rewrite rank_S. intros H. destruct (Nat.lt_ge_cases c (rank m)) as [C|C].
  - destruct (IH C) as [i [Hi X]]. exists i. split; auto.
  - destruct (nth m used false) eqn:U; [|lia]. exists m. repeat split; auto. lia.
Qed.

Definition dist_of (i : nat) : nat -> Z := fun a => (class_to_vector n (dim t) (i mod N) a * root_extent t / 2 ^ Z.of_nat (i / N))%Z.
Definition state_at (m : nat) : class_state :=
  fold_left (class_step t n) (combine (seq 0 m) (firstn m used)) (mkCS 0 None (fun _ => None) (fun _ => None) (fun _ => None)).
Lemma N_pos : 0 < N.
Proof. unfold nclasses_per_level. assert (0 < (4 * n + 3) ^ dim t); [|auto]. apply Nat.neq_0_lt_0, Nat.pow_nonzero. lia. Qed.

Lemma combine_seq_S {A} (l : list A) m d : m < length l ->
  combine (seq 0 (S m)) (firstn (S m) l) = combine (seq 0 m) (firstn m l) ++ [(m, nth m l d)].
Proof.
  intros H. assert (FS : firstn (S m) l = firstn m l ++ [nth m l d]).
  { clear - H. revert m H. induction l as [|x l IH]; intros m H; cbn in H; [lia|]. destruct m as [|m]; auto. cbn [firstn nth app]. f_equal. apply IH. lia. }
  rewrite seq_S, FS, combine_app_eq by (rewrite seq_length, firstn_length; lia). auto.
Qed.
Lemma state_ok m : m <= length used ->
  let st := state_at m in
  cs_count st = rank m /\
  cs_prev st = (if m =? 0 then None else Some ((m - 1) / N)) /\
  (forall l, cs_starts st l = if l * N <? m then Some (rank (l * N)) else None) /\
  (forall i, cs_map st i = if (i <? m) && nth i used false then Some (rank i) else None) /\
  (forall i, i < m -> nth i used false = true -> cs_dist st (rank i) = Some (dist_of i)).
Proof.
  assert (NP := N_pos). induction m as [|m IH]; intros Hm; cbv zeta.
  - cbn. repeat split; auto. intros; lia.
  - destruct (IH ltac:(lia)) as [H1 [H2 [H3 [H4 H5]]]]. clear IH. unfold state_at. rewrite (combine_seq_S _ _ false) by lia.
    rewrite fold_left_app. cbn [fold_left]. fold (state_at m). set (st := state_at m) in *. cbn [class_step].
    set (s' := if _ : bool then set (cs_starts st) (m / N) (cs_count st) else cs_starts st).
    assert (S' : forall l, s' l = if l * N <? S m then Some (rank (l * N)) else None).
    { intros l. assert (QD := Nat.div_mod m N ltac:(lia)). assert (QR := Nat.mod_upper_bound m N ltac:(lia)).
      unfold s'. rewrite H2, H1. destruct (Nat.eqb_spec m 0) as [->|M0].
      - rewrite Nat.div_0_l by lia. unfold set. rewrite H3. destruct (Nat.eqb_spec l 0) as [->|L0]; [reflexivity|].
        destruct (Nat.ltb_spec (l * N) 0); [lia|]. destruct (Nat.ltb_spec (l * N) 1); [nia|auto].
      - assert (QD' := Nat.div_mod (m - 1) N ltac:(lia)). assert (QR' := Nat.mod_upper_bound (m - 1) N ltac:(lia)).
        destruct (Nat.eqb_spec ((m - 1) / N) (m / N)) as [E|E]; cbn [negb].
        + rewrite H3. rewrite E in QD'. destruct (Nat.ltb_spec (l * N) m), (Nat.ltb_spec (l * N) (S m)); auto; try lia.
          exfalso. assert (l * N = m) by lia. assert (l = m / N) by (apply Nat.div_unique with 0; lia). nia.
        + assert (M : m = m / N * N).
          { destruct (Nat.eq_dec (m mod N) 0) as [Z0|Z0]; [lia|]. exfalso. apply E.
            symmetry. apply Nat.div_unique with (m mod N - 1); lia. }
          unfold set. rewrite H3. destruct (Nat.eqb_spec l (m / N)) as [->|L].
          * rewrite <- M. destruct (Nat.ltb_spec m (S m)); [auto|lia].
          * destruct (Nat.ltb_spec (l * N) m), (Nat.ltb_spec (l * N) (S m)); auto; try lia.
            exfalso. apply L. apply Nat.div_unique with 0; lia. }
    destruct (nth m used false) eqn:U; cbn [negb].
    + cbn [cs_count cs_prev cs_starts cs_map cs_dist]. rewrite rank_S, U, H1. split; [lia|]. split; [cbn; rewrite Nat.sub_0_r; auto|]. split; [auto|]. split.
      * intros i. unfold set. rewrite H4. destruct (Nat.eqb_spec i m) as [->|D].
        -- rewrite U. destruct (Nat.ltb_spec m (S m)); [auto|lia].
        -- destruct (Nat.ltb_spec i m), (Nat.ltb_spec i (S m)); auto; lia.
      * intros i Hi Ui. unfold set. destruct (Nat.eqb_spec (rank i) (rank m)) as [E|E].
        -- apply rank_inj in E; auto. subst i. auto.
        -- apply H5; auto. destruct (Nat.eq_dec i m); [subst; lia|lia].
    + cbn [cs_count cs_prev cs_starts cs_map cs_dist]. rewrite rank_S, U, H1. split; [lia|]. split; [cbn; rewrite Nat.sub_0_r; auto|]. split; [auto|]. split.
      * intros i. rewrite H4. destruct (Nat.eqb_spec i m) as [->|D].
        -- rewrite U, !andb_false_r. auto.
        -- destruct (Nat.ltb_spec i m), (Nat.ltb_spec i (S m)); auto; lia.
      * intros i Hi Ui. apply H5; auto. destruct (Nat.eq_dec i m); [subst; congruence|lia].
Qed.
End Compact.

(** ** Rows of a list *)
Lemma row_of ll j k : j < length ll -> total ll j <= k < total ll (S j) ->
  bsearch (fun j => Z.of_nat (nth j (starts (csr_of ll)) 0)) (1 + length ll) (Z.of_nat k) = Some (Some j).
Proof.
  intros Hj Hk. set (arr := fun j => Z.of_nat (nth j (starts (csr_of ll)) 0)).
  assert (MO : forall i j, i <= j -> j <= length ll -> total ll i <= total ll j) by (intros; apply total_mono; auto).
  destruct (bsearch_correct arr (1 + length ll) (Z.of_nat k)) as [[_ H]|[j' [E [H1 [H2 H3]]]]]; [lia| |].
  - exfalso. unfold arr in H. rewrite starts_nth in H by lia. assert (X := MO 0 j ltac:(lia) ltac:(lia)). lia.
  - rewrite E. do 2 f_equal. unfold arr in H2, H3. rewrite starts_nth in H2 by lia.
    assert (J : j' < length ll).
    { destruct (Nat.eq_dec j' (length ll)) as [->|X]; [|lia]. assert (Y := MO (S j) (length ll) ltac:(lia) ltac:(lia)). lia. }
    rewrite starts_nth in H3 by lia.
    destruct (Nat.lt_trichotomy j' j) as [C|[C|C]]; auto; exfalso.
    + assert (Y := MO (S j') j ltac:(lia) ltac:(lia)). lia.
    + assert (Y := MO (S j) j' ltac:(lia) ltac:(lia)). lia.
Qed.
