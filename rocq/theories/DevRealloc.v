(** Reallocating and renumbering the box arrays on the device (BuildDevice.v) computes
    [with_guess] and [renumbered] of TreeBuild.v. *)
From Coq Require Import List Arith ZArith NArith Lia Bool Permutation.
From Verif Require Import Base Tree Walk Traversal Fmm TreeBuild ArrayFacts Kernel Device DeviceRules BuildDevice BuildInv
  BuildScan BuildIds BuildSort BuildAdvance BuildRenumber BuildStep BuildNext BuildLoop BuildTerm BuildPrune BuildView DevMorton
  DevSplitScan DevSplitter DevParticles.
Import ListNotations.

(** ** Replacing arrays one by one *)
Definition k_set (K : known) (a : array) (p : Z * (nat -> option Z)) : known :=
  mkKnown (fun x => if array_eq x Copy then None else if array_eq x a then Some (fst p) else len K x)
          (fun x => if array_eq x a then snd p else val K x).
Definition k_sets (K : known) (l : list array) (p : array -> Z * (nat -> option Z)) : known :=
  mkKnown (fun x => if array_eq x Copy then None else if in_dec array_eq x l then Some (fst (p x)) else len K x)
          (fun x => if in_dec array_eq x l then snd (p x) else val K x).
Lemma ok_replaces {R} (l : list array) (p : array -> Z * (nat -> option Z)) body (next : host array R) (Q : R -> device array -> Prop) K :
  NoDup l -> ~ In Copy l -> ~ In DstIds l ->
  (forall x K' nx, In x l -> len K' x = len K x -> val K' x = val K x ->
     len K' DstIds = len K DstIds -> val K' DstIds = val K DstIds -> okd (k_set K' x (p x)) nx Q -> okd K' (body x nx) Q) ->
  okd (k_sets K l p) next Q -> okd K (each l body next) Q.
Proof.
  revert K. induction l as [|x l IH]; intros K ND NC NI B O; cbn [each].
  - apply (ok_weaken array array_eq _ _ _ _ O). intros d. apply known_weaken.
    + intros a m. cbn [k_sets len in_dec]. destruct (array_eq a Copy); auto. discriminate.
    + intros a m k v. cbn [k_sets val in_dec]. auto.
  - apply B; auto; [left; auto|]. inversion ND as [|x' l' NX ND']; subst. apply IH; auto.
    + intros I. apply NC. right; auto.
    + intros I. apply NI. right; auto.
    + intros y K' nx I E1 E2 E3 E4 O'. assert (YX : y <> x) by (intros ->; auto).
      assert (YC : y <> Copy) by (intros ->; apply NC; right; auto).
      assert (DX : DstIds <> x) by (intros <-; apply NI; left; auto).
      apply B; auto; [right; auto| | | |].
      * rewrite E1. cbn [k_set len]. destruct (array_eq y Copy); [contradiction|]. destruct (array_eq y x); [contradiction|auto].
      * rewrite E2. cbn [k_set val]. destruct (array_eq y x); [contradiction|auto].
      * rewrite E3. cbn [k_set len]. destruct (array_eq DstIds Copy); [discriminate|]. destruct (array_eq DstIds x); [contradiction|auto].
      * rewrite E4. cbn [k_set val]. destruct (array_eq DstIds x); [contradiction|auto].
    + apply (ok_weaken array array_eq _ _ _ _ O). intros d. apply known_weaken.
      * intros a m. cbn [k_sets k_set len in_dec]. destruct (array_eq a Copy); auto.
        destruct (in_dec array_eq a l) as [I|I]; destruct (in_dec array_eq a (x :: l)) as [J|J]; auto.
        -- destruct J. right; auto.
        -- destruct J as [<-|J]; [|contradiction]. destruct (array_eq x x); [auto|contradiction].
        -- destruct (array_eq a x) as [->|]; auto. destruct J. left; auto.
      * intros a m k v _ _. cbn [k_sets k_set val in_dec].
        destruct (in_dec array_eq a l) as [I|I]; destruct (in_dec array_eq a (x :: l)) as [J|J]; auto.
        -- destruct J. right; auto.
        -- destruct J as [<-|J]; [|contradiction]. destruct (array_eq x x); [auto|contradiction].
        -- destruct (array_eq a x) as [->|]; auto. destruct J. left; auto.
Qed.

(** ** One copy with new box numbers *)
Section Gappy.
Variables (n guess : nat) (dst : nat -> nat).
Hypothesis DI : forall b c, b < n -> c < n -> dst b = dst c -> b = c.
Hypothesis DB : forall b, b < n -> dst b < guess.
Lemma gappy_hit {A} (ary : nat -> A) zero i : i < n -> gappy_copy n dst ary zero (dst i) = ary i.
Proof.
  intros Hi. unfold gappy_copy. apply (scatter_map_in dst ary); [apply in_seq; lia|].
  intros y Hy E. apply in_seq in Hy. apply DI in E; [subst; auto|lia|auto].
Qed.
Lemma gappy_miss {A} (ary : nat -> A) zero x : (forall b, b < n -> x <> dst b) -> gappy_copy n dst ary zero x = zero.
Proof.
  intros N. unfold gappy_copy. apply (scatter_map_notin dst ary). intros y Hy. apply in_seq in Hy. intros E. apply (N y); [lia|auto].
Qed.
Lemma dst_dec m x : (exists b, b < m /\ x = dst b) \/ (forall b, b < m -> x <> dst b).
Proof.
  induction m as [|k [[b [A B]]|IH]]; [right; intros; lia|left; exists b; auto|].
  destruct (Nat.eq_dec x (dst k)); [left; exists k; auto|]. right. intros b Hb.
  destruct (Nat.eq_dec b k); [subst; auto|apply IH; lia].
Qed.
Lemma gappy_map {A B} (h : A -> B) (ary : nat -> A) zero x :
  gappy_copy n dst (fun b => h (ary b)) (h zero) x = h (gappy_copy n dst ary zero x).
Proof.
  destruct (dst_dec n x) as [[b [Hb ->]]|N].
  - rewrite !gappy_hit by auto. auto.
  - rewrite !gappy_miss by auto. auto.
Qed.
Lemma gappy_ext {A} (f g : nat -> A) zero x : (forall b, b < n -> f b = g b) -> gappy_copy n dst f zero x = gappy_copy n dst g zero x.
Proof.
  intros E. destruct (dst_dec n x) as [[b [Hb ->]]|N].
  - rewrite !gappy_hit by auto. auto.
  - rewrite !gappy_miss by auto. auto.
Qed.

Definition mapped_value (mapped : bool) (v : Z) : Z := if mapped then z (dst (Z.to_nat v)) else v.
Lemma gappy_refines {R} K a mapped g0 (f : nat -> Z) (next : host array R) (Q : R -> device array -> Prop) :
  a <> Copy -> a <> DstIds ->
  len K a = Some g0 -> (z n <= g0)%Z -> (forall i, i < n -> val K a i = Some (f i)) ->
  len K DstIds = Some (z n) -> (forall i, i < n -> val K DstIds i = Some (z (dst i))) ->
  (mapped = true -> forall i, i < n -> (0 <= f i < z n)%Z) ->
  okd (k_set K a (z guess, fun k => Some (gappy_copy n dst (fun i => mapped_value mapped (f i)) 0%Z k))) next Q ->
  okd K (gappy_program guess n a mapped next) Q.
Proof.
  intros AC AD L1 B1 V1 L2 V2 MB O. unfold gappy_program. apply ok_alloc; [lia|].
  assert (CA : Copy <> a) by auto. assert (LA : len (k_alloc array array_eq K Copy (z guess)) a = Some g0).
  { cbn [k_alloc len]. destruct (array_eq a Copy); [contradiction|auto]. }
  assert (LD : len (k_alloc array array_eq K Copy (z guess)) DstIds = Some (z n)).
  { cbn [k_alloc len]. destruct (array_eq DstIds Copy); [discriminate|auto]. }
  assert (LC : len (k_alloc array array_eq K Copy (z guess)) Copy = Some (z guess)).
  { cbn [k_alloc len]. destruct (array_eq Copy Copy); [auto|contradiction]. }
  assert (VA : forall i, i < n -> val (k_alloc array array_eq K Copy (z guess)) a i = Some (f i)).
  { intros i Hi. cbn [k_alloc val]. destruct (array_eq a Copy); [contradiction|auto]. }
  assert (VD : forall i, i < n -> val (k_alloc array array_eq K Copy (z guess)) DstIds i = Some (z (dst i))).
  { intros i Hi. cbn [k_alloc val]. destruct (array_eq DstIds Copy); [discriminate|auto]. }
  set (F := gappy_copy n dst (fun i => mapped_value mapped (f i)) 0%Z) in *.
  apply ok_launch_sep with
    (T := fun i => Get a i :: (if mapped then [Get DstIds (Z.to_nat (f i))] else []) ++ [Get DstIds i; Put Copy (dst i) (mapped_value mapped (f i))])
    (K' := mkKnown (fun x => if array_eq x Copy then Some (z guess) else len K x)
                   (fun x => if array_eq x Copy then fun k => Some (F k) else val K x)).
  - intros i Hi. unfold gappy_item. eapply ev_load; [exact LA|lia|apply VA; auto|].
    assert (E : evals (k_alloc array array_eq K Copy (z guess))
      (Load DstIds (z i) (fun k => Store Copy k (mapped_value mapped (f i)) Finish)) [Get DstIds i; Put Copy (dst i) (mapped_value mapped (f i))]).
    { eapply ev_load; [exact LD|lia|apply VD; auto|]. eapply ev_store; [exact LC|assert (X := DB i Hi); lia|constructor]. }
    destruct mapped; cbn [app]; auto.
    assert (X := MB eq_refl i Hi). rewrite <- (Z2Nat.id (f i)) at 1 by lia.
    eapply ev_load; [exact LD|lia|apply VD; lia|]. exact E.
  - intros i j b k v Hi Hj X Z.
    assert (b = Copy) by (touches X; congruence). subst b. touches Z; congruence.
  - intros i b k v Hi X. assert (E : b = Copy /\ k = dst i /\ v = mapped_value mapped (f i)) by (touches X; injection X; auto).
    destruct E as [-> [-> ->]]. cbn [val]. destruct (array_eq Copy Copy); [|contradiction]. unfold F. rewrite gappy_hit by auto. auto.
  - intros b m. cbn [len k_alloc]. auto.
  - intros b m k w. cbn [len val k_alloc]. destruct (array_eq b Copy) as [->|]; auto. intros _ _ E.
    destruct (dst_dec n k) as [[i [Hi ->]]|N].
    + left. exists i, (mapped_value mapped (f i)). split; auto. right. apply in_or_app. right. right. left. auto.
    + right. unfold F in E. rewrite gappy_miss in E by auto. exact E.
  - apply ok_move. apply (ok_weaken array array_eq _ _ _ _ O). intros d. apply known_weaken.
    + intros b m. cbn [k_set k_move len fst]. destruct (array_eq b Copy); [discriminate|]. destruct (array_eq b a); auto.
    + intros b m k v. cbn [k_set k_move len val fst snd]. destruct (array_eq b Copy) as [->|]; [discriminate|].
      intros _ _. destruct (array_eq b a); auto.
Qed.
End Gappy.

(** ** One copy to a larger array *)
Lemma copy_refines {R} K a n guess (f : nat -> Z) (next : host array R) (Q : R -> device array -> Prop) :
  a <> Copy -> n <= guess -> len K a = Some (z n) -> (forall i, i < n -> val K a i = Some (f i)) ->
  okd (k_set K a (z guess, fun k => Some (if k <? n then f k else 0%Z))) next Q ->
  okd K (copy_program guess n a next) Q.
Proof.
  intros AC GB L1 V1 O. unfold copy_program. apply ok_alloc; [lia|].
  assert (CA : Copy <> a) by auto.
  apply ok_launch_sep with (T := fun i => [Get a i; Put Copy i (f i)])
    (K' := mkKnown (fun x => if array_eq x Copy then Some (z guess) else len K x)
                   (fun x => if array_eq x Copy then fun k => Some (if k <? n then f k else 0%Z) else val K x)).
  - intros i Hi. unfold copy_item. eapply ev_load with (n := z n).
    + cbn [k_alloc len]. destruct (array_eq a Copy); [contradiction|auto].
    + lia.
    + cbn [k_alloc val]. destruct (array_eq a Copy); [contradiction|auto].
    + eapply ev_store with (n := z guess); [|lia|constructor]. cbn [k_alloc len]. destruct (array_eq Copy Copy); [auto|contradiction].
  - intros i j b k v Hi Hj X Z. assert (b = Copy) by (touches X; congruence). subst b. touches Z; congruence.
  - intros i b k v Hi X. assert (E : b = Copy /\ k = i /\ v = f i) by (touches X; injection X; auto).
    destruct E as [-> [-> ->]]. cbn [val]. destruct (array_eq Copy Copy); [|contradiction]. destruct (Nat.ltb_spec i n); [auto|lia].
  - intros b m. cbn [len k_alloc]. auto.
  - intros b m k w. cbn [len val k_alloc]. destruct (array_eq b Copy) as [->|]; auto. intros _ _ E.
    destruct (Nat.ltb_spec k n) as [C|C]; auto. left. exists k, (f k). split; auto. right. left. auto.
  - apply ok_move. apply (ok_weaken array array_eq _ _ _ _ O). intros d. apply known_weaken.
    + intros b m. cbn [k_set k_move len fst]. destruct (array_eq b Copy); [discriminate|]. destruct (array_eq b a); auto.
    + intros b m k v. cbn [k_set k_move len val fst snd]. destruct (array_eq b Copy) as [->|]; [discriminate|].
      intros _ _. destruct (array_eq b a); auto.
Qed.

Section Realloc.
Variable inp : input.
Notation nch := (nchild inp).
Notation np := (npart inp).
Variable st : state.
Variable pth : nat -> list nat.
Hypothesis H : head inp st pth.
Hypothesis RM : roomy inp st.
Hypothesis GP : 0 < s_guess st.
Let I := h_inv inp st pth H.
Let Y := i_layout inp st pth I.
Notation L := (nlev st).
Notation n := (lst st L).
Variable tmp : array -> nat -> option Z.

(** arrays indexed by boxes *)
Definition copied (a : array) : bool :=
  match a with
  | BoxBin f => field_in inp f
  | ForceSplit => level_restrict inp
  | Starts | Counts | HasChildren => true
  | Centers a => a <? idim inp
  | _ => false
  end.
Definition linked (a : array) : bool := match a with Children m => m <? nch | Parents => true | _ => false end.
Lemma in_copied a : In a (copied_arrays inp) <-> copied a = true.
Proof.
  unfold copied_arrays, box_bin_arrays, center_arrays. rewrite !in_app_iff, !in_map_iff. split.
  - intros [[f [<- J]]|[J|[J|[x [<- J]]]]].
    + apply field_in_iff in J. exact J.
    + destruct (level_restrict inp) eqn:E; [|destruct J]. destruct J as [<-|[]]. exact E.
    + destruct J as [<-|[<-|[<-|[]]]]; auto.
    + apply in_seq in J. apply Nat.ltb_lt. lia.
  - destruct a; cbn [copied]; intros E; try discriminate E.
    + left. exists f. split; auto. apply field_in_iff; auto.
    + right. right. left. left. auto.
    + right. right. left. right. left. auto.
    + right. right. right. exists a. split; auto. apply in_seq. apply Nat.ltb_lt in E. lia.
    + right. right. left. right. right. left. auto.
    + right. left. rewrite E. left. auto.
Qed.
Lemma in_linked a : In a (renumbered_arrays inp) <-> linked a = true.
Proof.
  unfold renumbered_arrays, child_arrays. rewrite !in_app_iff, !in_map_iff. split.
  - intros [[f [<- J]]|[<-|[]]]; auto. apply in_seq in J. apply Nat.ltb_lt. lia.
  - destruct a; cbn [linked]; intros E; try discriminate E.
    + right. left. auto.
    + left. exists m. split; auto. apply in_seq. apply Nat.ltb_lt in E. lia.
Qed.
Lemma copied_nodup : NoDup (copied_arrays inp).
Proof.
  unfold copied_arrays, box_bin_arrays, center_arrays. apply NoDup_app_intro.
  - apply FinFun.Injective_map_NoDup; [intros a b E; congruence|apply fields_nodup].
  - apply NoDup_app_intro; [destruct (level_restrict inp); repeat constructor; auto| |].
    + apply NoDup_app_intro.
      * repeat constructor; cbn [In]; intuition discriminate.
      * apply FinFun.Injective_map_NoDup; [intros a b E; congruence|apply seq_NoDup].
      * intros x A B. apply in_map_iff in B. destruct B as [y [<- _]]. destruct A as [A|[A|[A|[]]]]; discriminate A.
    + intros x A B. destruct (level_restrict inp); [|destruct A]. destruct A as [<-|[]]. apply in_app_or in B.
      destruct B as [[B|[B|[B|[]]]]|B]; try discriminate B. apply in_map_iff in B. destruct B as [y [B _]]. discriminate B.
  - intros x A B. apply in_map_iff in A. destruct A as [y [<- _]]. apply in_app_or in B. destruct B as [B|B].
    + destruct (level_restrict inp); [|destruct B]. destruct B as [B|[]]. discriminate B.
    + apply in_app_or in B. destruct B as [[B|[B|[B|[]]]]|B]; try discriminate B. apply in_map_iff in B. destruct B as [w [B _]]. discriminate B.
Qed.
Lemma linked_nodup : NoDup (renumbered_arrays inp).
Proof.
  unfold renumbered_arrays, child_arrays. apply NoDup_app_intro.
  - apply FinFun.Injective_map_NoDup; [intros a b E; congruence|apply seq_NoDup].
  - repeat constructor; auto.
  - intros x A B. apply in_map_iff in A. destruct A as [y [<- _]]. destruct B as [B|[]]. discriminate B.
Qed.
Lemma all_nodup : NoDup (copied_arrays inp ++ renumbered_arrays inp ++ [Levels]).
Proof.
  apply NoDup_app_intro; [apply copied_nodup| |].
  - apply NoDup_app_intro; [apply linked_nodup|repeat constructor; auto|]. intros x A [<-|[]]. apply in_linked in A. discriminate A.
  - intros x A B. apply in_copied in A. apply in_app_or in B. destruct B as [B|[<-|[]]]; [|discriminate A].
    apply in_linked in B. destruct x; try discriminate A; discriminate B.
Qed.

(** contents of an array as numbers *)
Definition cz (a : array) (k : nat) : Z := match cellv inp st nothing a k with Some v => v | None => 0%Z end.
Definition box_array (a : array) : bool := copied a || linked a || match a with Levels => true | _ => false end.
Lemma box_array_in a : In a (copied_arrays inp ++ renumbered_arrays inp ++ [Levels]) <-> box_array a = true.
Proof.
  unfold box_array. rewrite !in_app_iff, in_copied, in_linked, !orb_true_iff. cbn [In]. destruct a; intuition congruence.
Qed.
Lemma box_array_len a : box_array a = true -> lenv inp st a = Some (z (s_guess st)).
Proof.
  unfold box_array. destruct a; cbn [copied linked orb lenv]; intros E; try discriminate E; auto; rewrite ?orb_false_r in E; rewrite E; auto.
Qed.
Lemma box_array_val a t k : box_array a = true -> cellv inp st t a k = Some (cz a k).
Proof. unfold box_array, cz. destruct a; cbn [copied linked orb cellv]; intros E; try discriminate E; auto. destruct f; auto. Qed.
Lemma box_array_unused a k : (copied a || linked a) = true -> ~ used st k -> cz a k = 0%Z.
Proof.
  intros E U. destruct (i_unused inp st pth I k U) as [U1 [U2 [U3 [U4 [U5 U6]]]]]. destruct (r_unused inp st RM k U) as [V1 [V2 V3]].
  unfold cz. destruct a; cbn [copied linked orb cellv] in *; try discriminate E.
  - destruct f as [[|j]|j]; cbn [field_in orb] in E; rewrite ?orb_false_r in E.
    + rewrite U5 by lia. auto.
    + apply Nat.ltb_lt in E. rewrite U5 by lia. auto.
    + apply Nat.ltb_lt in E. rewrite U6 by lia. auto.
  - rewrite V1. auto.
  - rewrite U2. auto.
  - rewrite V2. auto.
  - apply Nat.ltb_lt in E. rewrite U1 by auto. auto.
  - rewrite orb_false_r in E. apply Nat.ltb_lt in E. rewrite V3 by auto. auto.
  - rewrite U3. auto.
  - rewrite U4. auto.
Qed.
Lemma box_array_beyond a k : box_array a = true -> n <= k -> cz a k = 0%Z.
Proof.
  unfold box_array. intros E Hk. apply orb_true_iff in E. destruct E as [E|E].
  - apply box_array_unused; auto. intros U. assert (X := used_lt st Y k U). lia.
  - destruct a; try discriminate E. unfold cz. cbn [cellv]. rewrite (r_level inp st RM k Hk). auto.
Qed.

Theorem realloc_refines (Q : trip_result -> device array -> Prop) nbn :
  let g := grow nbn (s_guess st) nbn in
  (forall d, agrees (view inp (with_guess st g) nothing) d -> Q (Again (host_of (with_guess st g))) d) ->
  okd (view inp st tmp) (realloc_program inp (host_of st) nbn) Q.
Proof.
  intros g O. unfold realloc_program. cbn [host_of h_guess]. fold g.
  assert (GG : s_guess st <= g) by apply (grow_spec nbn (s_guess st) nbn GP).
  assert (RG := r_guess inp st RM).
  apply ok_alloc; [lia|].
  apply ok_replaces with (p := fun a => (z g, fun k => Some (if k <? s_guess st then cz a k else 0%Z))).
  - apply all_nodup.
  - intros J. apply box_array_in in J. discriminate J.
  - intros J. apply box_array_in in J. discriminate J.
  - intros a K' nx J E1 E2 _ _ O'. apply box_array_in in J.
    assert (AS : a <> SplitIds) by (intros ->; discriminate J).
    apply copy_refines with (f := cz a); auto.
    + intros ->. discriminate J.
    + rewrite E1. cbn [k_alloc len]. destruct (array_eq a SplitIds); [contradiction|]. apply box_array_len; auto.
    + intros i Hi. rewrite E2. cbn [k_alloc val]. destruct (array_eq a SplitIds); [contradiction|]. apply box_array_val; auto.
  - apply ok_ret. intros d A. apply O. revert A. apply known_weaken.
    + intros a m. cbn [k_sets k_alloc len view fst].
      destruct (in_dec array_eq a (copied_arrays inp ++ renumbered_arrays inp ++ [Levels])) as [J|J]; rewrite box_array_in in J.
      * unfold box_array in J. destruct a; cbn [copied linked orb lenv] in *; try discriminate J; chain; auto;
          rewrite ?orb_false_r in J; rewrite J; auto.
      * unfold box_array in J. destruct a; cbn [copied linked orb lenv] in *; chain; auto; try discriminate;
          try (destruct J; reflexivity); rewrite ?orb_false_r in J; apply not_true_is_false in J; rewrite J; auto.
    + intros a m k v Lm Hk. cbn [k_sets k_alloc val view snd].
      destruct (in_dec array_eq a (copied_arrays inp ++ renumbered_arrays inp ++ [Levels])) as [J|J]; rewrite box_array_in in J.
      * change (cellv inp (with_guess st g) nothing a k) with (cellv inp st nothing a k). rewrite (box_array_val a nothing k J).
        intros E. destruct (Nat.ltb_spec k (s_guess st)); auto. rewrite <- E, box_array_beyond; auto. lia.
      * change (cellv inp (with_guess st g) nothing a k) with (cellv inp st nothing a k).
        destruct a; cbn [cellv nothing]; chain; auto; discriminate.
Qed.

(** *** With new box numbers *)
Section Renumber.
Variables (ns : list nat) (nbn : nat).
Hypothesis LR : level_restrict inp = true.
Hypothesis NSlen : length ns = S L.
Hypothesis NS0 : nth 0 ns 0 = 0.
Hypothesis NSle : forall l, l < L -> nth l ns 0 + (lst st (S l) - lst st l) <= nth (S l) ns 0.
Hypothesis NB : nth L ns 0 <= nbn.
Hypothesis NM : L + 1 <= nlevels_max inp.
Notation dst := (renumbering st ns).
Notation st' := (renumbered inp st ns nbn).
Notation nst l := (nth l ns 0).
Notation g := (grow nbn (s_guess st) nbn).

Lemma dst_guess b : b < n -> dst b < g.
Proof.
  intros Hb. assert (R := dst_range inp st pth H ns NSlen NS0 NSle b Hb). destruct (level_spec st Y b Hb) as [L1 L2].
  assert (X := nst_le st ns NSlen NS0 NSle (S (s_blevel st b)) L ltac:(lia) (le_n _)).
  assert (X2 := grow_ge (s_guess st) nbn GP). lia.
Qed.
Lemma dst_injective b c : b < n -> c < n -> dst b = dst c -> b = c.
Proof. apply (dst_inj inp st pth H ns NSlen NS0 NSle). Qed.
Definition moved_value (a : array) (b : nat) : Z := mapped_value dst (linked a) (cz a b).
Lemma link_bound a b : linked a = true -> b < n -> (0 <= cz a b < z n)%Z.
Proof.
  intros E Hb. assert (NP := n_pos inp st pth H). destruct (used_dec st Y b) as [U|U].
  2:{ rewrite box_array_unused; auto; [lia|]. rewrite E. apply orb_true_r. }
  destruct a; try discriminate E; unfold cz; cbn [cellv linked] in *.
  - destruct (Nat.eq_dec b 0) as [->|B0]; [rewrite (i_root_parent inp st pth I); lia|].
    destruct (i_parent inp st pth I b U B0) as [UP _]. apply (used_lt st Y) in UP. lia.
  - apply Nat.ltb_lt in E. assert (X := child_lt inp st pth H b m U E). lia.
Qed.

(** the device at several points of the renumbering *)
Definition dst_known : Z * (nat -> option Z) := (z n, fun k => Some (z (dst k))).
Definition t2 (x : array) : option (Z * (nat -> option Z)) :=
  match x with
  | DstIds => Some dst_known
  | LevelStarts => Some (z (nlevels_max inp), fun k => if k <? length ns then Some (z (nst k)) else None)
  | SplitIds => Some (z g, fun _ => None)
  | _ => None
  end.
Definition moved (x : array) : Z * (nat -> option Z) := (z g, fun k => Some (gappy_copy n dst (moved_value x) 0%Z k)).
Definition t3 (x : array) : option (Z * (nat -> option Z)) := if copied x then Some (moved x) else t2 x.
Definition t4 (x : array) : option (Z * (nat -> option Z)) := if linked x then Some (moved x) else t3 x.
Definition t5 (x : array) : option (Z * (nat -> option Z)) :=
  match x with Levels => Some (z g, fun k => Some (z (fill_levels ns k))) | _ => t4 x end.

Lemma dst_assigned {R} (next : host array R) (Q : R -> device array -> Prop) :
  okd (extend (view inp st tmp) (fun x => match x with DstIds => Some dst_known | _ => None end)) next Q ->
  okd (view inp st tmp) (Alloc DstIds (z n) (
    each (seq 0 (s_level st)) (fun l nx =>
      Assign DstIds (z (nth l (s_lstart st) 0)) (map z (seq (nst l) (level_length st l))) nx) next)) Q.
Proof.
  intros O. apply ok_alloc; [lia|].
  set (P := fun l' : list nat => extend (view inp st tmp) (fun x => match x with
    | DstIds => Some (z n, fun k => if s_blevel st k <? L - length l' then Some (z (dst k)) else None) | _ => None end)).
  apply (ok_weaken array array_eq _ (P (seq 0 (s_level st)))).
  2:{ intros d. unfold P. apply known_weaken.
      - intros a m. cbn [extend k_alloc len]. destruct a; chain; auto.
      - intros a m k v _ _. cbn [extend k_alloc val]. destruct a; chain; auto.
        rewrite seq_length, (h_level inp st pth H), Nat.sub_diag. destruct (Nat.ltb_spec (s_blevel st k) 0); [lia|discriminate]. }
  apply (ok_each array array_eq).
  - intros l l' nx [l0 E] O'.
    assert (LL : l = length l0 /\ L = length l0 + S (length l')).
    { rewrite (h_level inp st pth H) in E. assert (EL := f_equal (@length nat) E). rewrite seq_length, app_length in EL. cbn [length] in EL.
      split; [|lia]. assert (EN := f_equal (fun x => nth (length l0) x 0) E). cbn beta in EN. rewrite seq_nth in EN by lia.
      rewrite app_nth2, Nat.sub_diag in EN by lia. cbn [nth] in EN. lia. }
    destruct LL as [LL LE]. assert (Hl : l < L) by lia. clear E.
    assert (LV : level_length st l = lst st (S l) - lst st l) by (unfold level_length; replace (l + 1) with (S l) by lia; reflexivity).
    assert (M1 := lst_le st Y l (S l) ltac:(lia) ltac:(lia)). assert (M2 := lst_le st Y (S l) L ltac:(lia) ltac:(lia)).
    apply (ok_assign array array_eq) with (n := z n).
    + reflexivity.
    + rewrite map_length, seq_length, LV. fold (lst st l). lia.
    + apply (ok_weaken array array_eq _ _ _ _ O'). intros d. unfold P. apply known_weaken.
      * intros a m. cbn [extend k_assign len]. destruct a; auto.
      * intros a m k v Lm Hk. cbn [extend k_assign val]. destruct a; chain; auto. cbn [extend len] in Lm. injection Lm as <-.
        rewrite map_length, seq_length, LV. fold (lst st l). destruct (level_spec st Y k ltac:(lia)) as [B1 B2].
        destruct (Nat.ltb_spec (s_blevel st k) (L - length l')) as [C|C]; [|discriminate]. intros V.
        destruct (Nat.leb_spec (lst st l) k) as [C1|C1], (Nat.ltb_spec k (lst st l + (lst st (S l) - lst st l))) as [C2|C2]; cbn [andb].
        -- assert (BL := lay_level st Y l k Hl ltac:(lia) ltac:(lia)). rewrite <- V.
           rewrite nth_error_map. rewrite (nth_error_nth' _ 0) by (rewrite seq_length; lia). cbn [option_map].
           rewrite seq_nth by lia. rewrite (dst_val inp st pth H ns NSlen NS0 k ltac:(lia)). rewrite BL. auto.
        -- cbn [length]. destruct (Nat.ltb_spec (s_blevel st k) (L - S (length l'))); auto.
           exfalso. replace (s_blevel st k) with l in * by lia. lia.
        -- cbn [length]. destruct (Nat.ltb_spec (s_blevel st k) (L - S (length l'))); auto.
           exfalso. replace (s_blevel st k) with l in * by lia. lia.
        -- lia.
  - apply (ok_weaken array array_eq _ _ _ _ O). intros d. unfold P. apply known_weaken.
    + intros a m. cbn [extend len]. destruct a; auto.
    + intros a m k v Lm Hk. cbn [extend val]. destruct a; auto. cbn [extend len dst_known] in Lm. injection Lm as <-.
      destruct (level_spec st Y k ltac:(lia)) as [B1 B2]. cbn [length dst_known]. destruct (Nat.ltb_spec (s_blevel st k) (L - 0)); [auto|lia].
Qed.

Lemma fill_spec l k : l < L -> nst l <= k -> k < nst (S l) -> fill_levels ns k = l.
Proof. intros. apply (blevel' inp st ns nbn NSlen NS0 NSle l k); auto. Qed.
Lemma fill_beyond k : nst L <= k -> fill_levels ns k = 0.
Proof.
  intros Hk. unfold fill_levels. apply scatter_notin. intros v Hv.
  apply in_concat_map in Hv. destruct Hv as [l [Hl Hv]]. apply in_map_iff in Hv. destruct Hv as [x [E Hx]].
  injection E as -> <-. apply in_seq in Hl, Hx. rewrite NSlen in Hl.
  assert (X := nst_le st ns NSlen NS0 NSle (l + 1) L ltac:(lia) (le_n _)). lia.
Qed.
Lemma levels_assigned {R} (next : host array R) (Q : R -> device array -> Prop) :
  okd (extend (view inp st nothing) t5) next Q ->
  okd (extend (view inp st nothing) t4) (Alloc Levels (z g) (
    each (seq 0 (length ns - 1)) (fun l nx =>
      Assign Levels (z (nst l)) (repeat (z l) (nst (l + 1) - nst l)) nx) next)) Q.
Proof.
  intros O. apply ok_alloc; [lia|]. assert (GG := grow_ge (s_guess st) nbn GP).
  set (P := fun l' : list nat => extend (view inp st nothing) (fun x => match x with
    | Levels => Some (z g, fun k => Some (if k <? nst (L - length l') then z (fill_levels ns k) else 0%Z)) | _ => t4 x end)).
  apply (ok_weaken array array_eq _ (P (seq 0 (length ns - 1)))).
  2:{ intros d. unfold P. apply known_weaken.
      - intros a m. cbn [extend k_alloc len]. destruct a; chain; auto.
      - intros a m k v _ _. cbn [extend k_alloc val]. destruct a; chain; auto.
        rewrite seq_length, NSlen. replace (L - (S L - 1)) with 0 by lia. rewrite NS0. cbn [Nat.ltb Nat.leb]. auto. }
  apply (ok_each array array_eq).
  - intros l l' nx [l0 E] O'.
    assert (LL : l = length l0 /\ L = length l0 + S (length l')).
    { rewrite NSlen in E. assert (EL := f_equal (@length nat) E). rewrite seq_length, app_length in EL. cbn [length] in EL.
      split; [|lia]. assert (EN := f_equal (fun x => nth (length l0) x 0) E). cbn beta in EN. rewrite seq_nth in EN by lia.
      rewrite app_nth2, Nat.sub_diag in EN by lia. cbn [nth] in EN. lia. }
    destruct LL as [LL LE]. assert (Hl : l < L) by lia. clear E. replace (l + 1) with (S l) by lia.
    assert (M1 := nst_le st ns NSlen NS0 NSle l (S l) ltac:(lia) ltac:(lia)).
    assert (M2 := nst_le st ns NSlen NS0 NSle (S l) L ltac:(lia) ltac:(lia)).
    apply (ok_assign array array_eq) with (n := z g).
    + reflexivity.
    + rewrite repeat_length. lia.
    + apply (ok_weaken array array_eq _ _ _ _ O'). intros d. unfold P. apply known_weaken.
      * intros a m. cbn [extend k_assign len]. destruct a; auto.
      * intros a m k v Lm Hk. cbn [extend k_assign val]. destruct a; chain; auto.
        rewrite repeat_length. intros V. cbn [length].
        replace (L - length l') with (S l) in V by lia. replace (L - S (length l')) with l by lia.
        destruct (Nat.leb_spec (nst l) k) as [C1|C1], (Nat.ltb_spec k (nst l + (nst (S l) - nst l))) as [C2|C2]; cbn [andb].
        -- rewrite <- V. rewrite (nth_error_nth' _ (z l)) by (rewrite repeat_length; lia). rewrite nth_repeat.
           destruct (Nat.ltb_spec k (nst (S l))); [|lia]. rewrite (fill_spec l k) by lia. auto.
        -- destruct (Nat.ltb_spec k (nst (S l))); [lia|]. destruct (Nat.ltb_spec k (nst l)); [lia|auto].
        -- destruct (Nat.ltb_spec k (nst (S l))); [|lia]. destruct (Nat.ltb_spec k (nst l)); [auto|lia].
        -- lia.
  - apply (ok_weaken array array_eq _ _ _ _ O). intros d. unfold P. apply known_weaken.
    + intros a m. cbn [extend len]. destruct a; auto.
    + intros a m k v Lm Hk. cbn [extend val]. destruct a; auto. cbn [t5 length]. rewrite Nat.sub_0_r.
      destruct (Nat.ltb_spec k (nst L)) as [C|C]; auto. rewrite fill_beyond by auto. auto.
Qed.

Lemma boxes_mapped {R} (next : host array R) (Q : R -> device array -> Prop) :
  okd (view inp st' nothing) next Q -> okd (extend (view inp st nothing) t5) (Launch np map_item next) Q.
Proof.
  intros O.
  assert (BN : forall i, i < np -> s_box st i < n) by (intros i Hi; apply (used_lt st Y), (i_box inp st pth I i Hi)).
  set (K := extend (view inp st nothing) t5).
  set (T := fun i => [Get BoxIds i; Get DstIds (s_box st i); Put BoxIds i (z (dst (s_box st i)))]).
  apply (ok_launch array array_eq) with (T := T)
    (new := fun a k => match a with BoxIds => Some (z (s_box st' k)) | _ => val K a k end).
  - intros m i HM Hi. apply evals_trace with (K := K); auto. unfold map_item, T.
    eapply ev_load; [reflexivity|lia|reflexivity|]. eapply ev_load; [reflexivity|assert (X := BN i Hi); lia|reflexivity|].
    eapply ev_store; [reflexivity|lia|constructor].
  - constructor.
    + intros i t Hi [<-|[<-|[<-|[]]]]; cbn [touched fst snd].
      * exists (z np). split; [reflexivity|lia].
      * exists (z n). split; [reflexivity|assert (X := BN i Hi); lia].
      * exists (z np). split; [reflexivity|lia].
    + intros i j a k v Hi Hj N [X|[X|[X|[]]]] Z; try discriminate X. injection X as <- <- _.
      destruct Z as [Z|[Z|[Z|[]]]]; try discriminate Z. injection Z as ->. contradiction.
    + intros i x y a k v Hi E X. unfold T in E. destruct x as [|x1 [|x2 [|x3 x]]]; cbn [app] in E; try discriminate E.
      * destruct X.
      * injection E as <- _ _. destruct X as [X|[]]. discriminate X.
      * assert (EL := f_equal (@length _) E). cbn [length] in EL. rewrite app_length in EL. cbn [length] in EL. lia.
    + intros i a k v Hi [X|[X|[X|[]]]]; try discriminate X. injection X as <- <- <-.
      rewrite (box' inp st ns nbn i Hi). auto.
    + intros a m k w. cbn beta. destruct a; auto. intros Lm Hk _. injection Lm as <-. left.
      exists k, (z (dst (s_box st k))). split; [lia|]. right. right. left. auto.
  - apply (ok_weaken array array_eq _ _ _ _ O). intros d. apply known_weaken.
    + intros a m. unfold K. cbn [extend view len]. unfold t5, t4, t3. destruct a; cbn [lenv linked copied t2 dst_known moved]; auto; try discriminate.
      * destruct (field_in inp f); auto; discriminate.
      * destruct (m0 <? nch); auto; discriminate.
      * destruct (a <? idim inp); auto; discriminate.
      * rewrite LR. auto.
    + intros a m k v Lm Hk. unfold K. cbn [extend view val len] in *. unfold t5, t4, t3, moved.
      assert (OG := old_n inp st pth H).
      assert (ZM : forall (ary : nat -> nat), gappy_copy n dst (fun b => z (ary b)) 0%Z k = z (gappy_copy n dst ary 0 k)).
      { intros ary. apply (gappy_map n dst dst_injective Z.of_nat ary 0). }
      assert (ZB : forall (ary : nat -> bool), gappy_copy n dst (fun b => bool_z (ary b)) 0%Z k = bool_z (gappy_copy n dst ary false k)).
      { intros ary. apply (gappy_map n dst dst_injective bool_z ary false). }
      destruct a; cbn [cellv lenv linked copied t2 dst_known moved nothing] in *; auto; try discriminate; intros <-.
      * destruct f as [j|j]; destruct (field_in inp _); try discriminate Lm; f_equal.
        -- unfold moved_value, cz. cbn [linked mapped_value cellv renumbered s_bins]. rewrite OG.
           exact (gappy_map n dst dst_injective (fun h : nat -> nat => z (h j)) (s_bins st) (fun _ => 0) k).
        -- unfold moved_value, cz. cbn [linked mapped_value cellv renumbered s_wts]. rewrite OG.
           exact (gappy_map n dst dst_injective (fun h : nat -> Z => h j) (s_wts st) (fun _ => 0%Z) k).
      * f_equal. unfold moved_value, cz. cbn [linked mapped_value cellv renumbered s_start]. rewrite OG, ZM. auto.
      * f_equal. unfold moved_value, cz. cbn [linked mapped_value cellv renumbered s_cumul]. rewrite OG, ZM. auto.
      * f_equal. unfold moved_value, cz. cbn [linked mapped_value cellv renumbered s_parent]. rewrite OG, <- ZM.
        apply (gappy_ext n dst dst_injective). intros b Hb. rewrite Nat2Z.id. auto.
      * destruct (m0 <? nch) eqn:E; try discriminate Lm. apply Nat.ltb_lt in E. f_equal.
        unfold moved_value, cz. cbn [linked cellv renumbered s_child]. apply Nat.ltb_lt in E. rewrite E. apply Nat.ltb_lt in E.
        rewrite kernel_map_lt by auto. rewrite OG, <- ZM. cbn [mapped_value].
        apply (gappy_ext n dst dst_injective). intros b Hb. rewrite Nat2Z.id. auto.
      * destruct (a <? idim inp) eqn:E; try discriminate Lm. f_equal.
        unfold moved_value, cz. cbn [linked mapped_value cellv renumbered s_center]. rewrite OG.
        exact (gappy_map n dst dst_injective (fun h : nat -> Z => h a) (s_center st) (fun _ => 0%Z) k).
      * f_equal. unfold moved_value, cz. cbn [linked mapped_value cellv renumbered s_has_children]. rewrite OG, ZB. auto.
      * rewrite LR. f_equal. unfold moved_value, cz. cbn [linked mapped_value cellv renumbered s_force]. rewrite OG, ZB. auto.
Qed.

Theorem renumber_refines (Q : trip_result -> device array -> Prop) :
  (forall d, agrees (view inp st' nothing) d -> Q (Again (host_of st')) d) ->
  okd (view inp st tmp) (renumber_program inp (host_of st) ns nbn) Q.
Proof.
  intros O. unfold renumber_program. cbn [host_of BuildDevice.h_level h_lstart h_used h_leaves h_final h_guess].
  rewrite (old_n inp st pth H). assert (RG := r_guess inp st RM).
  change (level_length (host_state (host_of st))) with (level_length st).
  apply dst_assigned.
  apply (ok_assign array array_eq _ _ 0) with (n := z (nlevels_max inp)); [reflexivity|rewrite map_length, NSlen; lia|].
  apply ok_alloc; [lia|].
  apply (ok_weaken array array_eq _ (extend (view inp st nothing) t2)).
  2:{ intros d. apply known_weaken.
      - intros a m. cbn [extend k_alloc k_assign len]. destruct a; cbn [t2 dst_known]; chain; auto.
      - intros a m k v Lm Hk. cbn [extend k_alloc k_assign val]. destruct a; cbn [t2 dst_known]; chain; auto; try discriminate.
        rewrite map_length. cbn [Nat.leb andb Nat.add]. destruct (Nat.ltb_spec k (length ns)) as [C|C]; [|discriminate].
        intros <-. rewrite Nat.sub_0_r, nth_error_map, (nth_error_nth' _ 0) by lia. auto. }
  apply ok_replaces with (p := moved).
  - apply copied_nodup.
  - intros J. apply in_copied in J. discriminate J.
  - intros J. apply in_copied in J. discriminate J.
  - intros a K' nx J E1 E2 E3 E4 O'. apply in_copied in J.
    assert (BA : box_array a = true) by (unfold box_array; rewrite J; auto).
    assert (T2 : t2 a = None) by (destruct a; auto; discriminate J).
    assert (LK : linked a = false) by (destruct a; auto; discriminate J).
    apply gappy_refines with (dst := dst) (f := cz a) (g0 := z (s_guess st)).
    + apply dst_injective.
    + apply dst_guess.
    + intros ->. discriminate J.
    + intros ->. discriminate J.
    + rewrite E1. cbn [extend len]. rewrite T2. apply box_array_len. auto.
    + lia.
    + intros i Hi. rewrite E2. cbn [extend val]. rewrite T2. apply box_array_val. auto.
    + rewrite E3. reflexivity.
    + intros i Hi. rewrite E4. reflexivity.
    + discriminate.
    + unfold moved, moved_value in O'. rewrite LK in O'. exact O'.
  - apply (ok_weaken array array_eq _ (extend (view inp st nothing) t3)).
    2:{ intros d. apply known_weaken.
        - intros a m. cbn [extend k_sets len]. unfold t3. destruct (in_dec array_eq a (copied_arrays inp)) as [J|J]; rewrite in_copied in J.
          + rewrite J. destruct (array_eq a Copy) as [->|]; [discriminate J|]. auto.
          + apply not_true_is_false in J. rewrite J. destruct (array_eq a Copy) as [->|]; [discriminate|]. auto.
        - intros a m k v Lm Hk. cbn [extend k_sets val]. unfold t3. destruct (in_dec array_eq a (copied_arrays inp)) as [J|J]; rewrite in_copied in J.
          + rewrite J. auto.
          + apply not_true_is_false in J. rewrite J. auto. }
    apply ok_replaces with (p := moved).
    + apply linked_nodup.
    + intros J. apply in_linked in J. discriminate J.
    + intros J. apply in_linked in J. discriminate J.
    + intros a K' nx J E1 E2 E3 E4 O'. apply in_linked in J.
      assert (BA : box_array a = true) by (unfold box_array; rewrite J, orb_true_r; auto).
      assert (T3 : t3 a = None) by (destruct a; auto; discriminate J).
      apply gappy_refines with (dst := dst) (f := cz a) (g0 := z (s_guess st)).
      * apply dst_injective.
      * apply dst_guess.
      * intros ->. discriminate J.
      * intros ->. discriminate J.
      * rewrite E1. cbn [extend len]. rewrite T3. apply box_array_len. auto.
      * lia.
      * intros i Hi. rewrite E2. cbn [extend val]. rewrite T3. apply box_array_val. auto.
      * rewrite E3. reflexivity.
      * intros i Hi. rewrite E4. reflexivity.
      * intros _ i Hi. apply link_bound; auto.
      * unfold moved, moved_value in O'. rewrite J in O'. exact O'.
    + apply (ok_weaken array array_eq _ (extend (view inp st nothing) t4)).
      2:{ intros d. apply known_weaken.
          - intros a m. cbn [extend k_sets len]. unfold t4. destruct (in_dec array_eq a (renumbered_arrays inp)) as [J|J]; rewrite in_linked in J.
            + rewrite J. destruct (array_eq a Copy) as [->|]; [discriminate J|]. auto.
            + apply not_true_is_false in J. rewrite J. destruct (array_eq a Copy) as [->|]; [discriminate|]. auto.
          - intros a m k v Lm Hk. cbn [extend k_sets val]. unfold t4. destruct (in_dec array_eq a (renumbered_arrays inp)) as [J|J]; rewrite in_linked in J.
            + rewrite J. auto.
            + apply not_true_is_false in J. rewrite J. auto. }
      apply levels_assigned. apply boxes_mapped. apply ok_ret. exact O.
Qed.
End Renumber.
End Realloc.
