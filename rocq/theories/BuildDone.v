(** The state in which the level loop of the tree builder ends. *)
From Coq Require Import List Arith ZArith NArith Lia Bool Permutation.
From Verif Require Import Base Tree Walk Traversal Fmm TreeBuild ArrayFacts BuildInv BuildScan BuildIds BuildSort
  BuildAdvance BuildRenumber BuildStep BuildNext BuildLoop.
Import ListNotations.

Record fin (inp : input) (st : state) (pth : nat -> list nat) : Prop := {
  f_inv : inv inp st pth;
  f_strict : forall l, l < nlev st -> lst st l < lst st (S l);
  f_tight : level_restrict inp = false -> forall l, l < nlev st -> lst st l + usd st l = lst st (S l);
  f_nonempty : forall l, l < nlev st -> 0 < usd st l;
  f_marks : forall b, used st b -> s_child st 0 b <> 0 -> s_has_children st b = true;
  f_pending : level_restrict inp && have_extent inp = false ->
    forall b, used st b -> s_has_children st b = true -> s_child st 0 b <> 0;
  f_center : forall b a, used st b -> a < idim inp -> s_center st b a = path_center inp (pth b) a;
  f_light : (max_weight inp < INT_MAX)%Z ->
    forall b, used st b -> s_child st 0 b = 0 -> (childweight inp (pth b) <= max_weight inp)%Z;
  f_split : level_restrict inp = false -> forall b, used st b -> s_child st 0 b <> 0 -> heavy inp (pth b) = true
}.

Lemma nth_removelast {A} (l : list A) k d : S k < length l -> nth k (removelast l) d = nth k l d.
Proof.
  revert k. induction l as [|x l IH]; intros k Hk; [cbn in Hk; lia|].
  destruct l as [|y l]; [cbn in Hk; lia|]. change (removelast (x :: y :: l)) with (x :: removelast (y :: l)).
  destruct k; [reflexivity|]. cbn [nth]. apply IH. cbn [length] in *. lia.
Qed.
Lemma removelast_length {A} (l : list A) : length (removelast l) = length l - 1.
Proof.
  induction l as [|x l IH]; auto. destruct l as [|y l]; auto.
  change (removelast (x :: y :: l)) with (x :: removelast (y :: l)). cbn [length] in *. rewrite IH. lia.
Qed.

(** dropping an empty last level *)
Section Drop.
Variable inp : input.
Variable st : state.
Variable pth : nat -> list nat.
Variable leaves : list nat.
Hypothesis I : inv inp st pth.
Hypothesis P : 1 < nlev st.
Hypothesis Z : usd st (nlev st - 1) = 0.
Let Y := i_layout inp st pth I.
Notation st7 := (with_level_counts st (removelast (s_lstart st)) (removelast (s_used st)) leaves).
Lemma drop_nlev : nlev st7 = nlev st - 1.
Proof. unfold nlev. cbn [with_level_counts s_used]. apply removelast_length. Qed.
Lemma drop_lst l : l < nlev st -> lst st7 l = lst st l.
Proof. intros Hl. unfold lst. cbn [with_level_counts s_lstart]. apply nth_removelast. rewrite (lay_len st Y). lia. Qed.
Lemma drop_usd l : S l < nlev st -> usd st7 l = usd st l.
Proof. intros Hl. unfold usd. cbn [with_level_counts s_used]. apply nth_removelast. auto. Qed.
Lemma drop_used b : used st7 b <-> used st b.
Proof.
  unfold used, used_at. rewrite drop_nlev. split.
  - intros [l [H1 H2]]. rewrite drop_lst, drop_usd in H2 by lia. exists l. split; [lia|auto].
  - intros [l [H1 H2]]. destruct (Nat.eq_dec l (nlev st - 1)) as [->|E]; [rewrite Z in H2; lia|].
    exists l. rewrite drop_lst, drop_usd by lia. split; [lia|auto].
Qed.
Lemma drop_inv : inv inp st7 pth.
Proof.
  pose proof I as [J1 J2 J3 J4 J5 J6 J7 J8 J9 J10 J11 J12 J13 J14 J15 J16 J17].
  assert (D := drop_used).
  split.
  - split.
    + rewrite drop_nlev. lia.
    + rewrite drop_nlev. cbn [with_level_counts s_lstart]. rewrite removelast_length, (lay_len st Y). lia.
    + rewrite drop_lst by lia. apply (lay_0 st Y).
    + rewrite drop_usd by lia. apply (lay_used_0 st Y).
    + intros l Hl. rewrite drop_nlev in Hl. rewrite !drop_lst, drop_usd by lia. apply (lay_used st Y). lia.
    + intros l b Hl. rewrite drop_nlev in Hl. rewrite !drop_lst by lia. apply (lay_level st Y). lia.
  - intros b U. apply D in U. apply (J2 b U).
  - intros b b' U U'. apply D in U, U'. apply (J3 b b' U U').
  - intros b m U. apply D in U. apply (J4 b m U).
  - intros b m U S Hm. apply D in U. rewrite D. apply (J5 b m U S Hm).
  - intros b U N. apply D in U. rewrite D. apply (J6 b U N).
  - exact J7.
  - exact J8.
  - intros b U. apply D in U. apply (J9 b U).
  - intros b i U. apply D in U. apply (J10 b i U).
  - intros b U. apply D in U. apply (J11 b U).
  - intros i Hi. rewrite D. apply (J12 i Hi).
  - intros b m U. apply D in U. apply (J13 b m U).
  - intros i H0 Hi. cbn [with_level_counts s_start_flag s_cumul s_start]. rewrite (J14 i H0 Hi).
    split; intros [b [U K]]; exists b; (split; [apply D; auto|auto]).
  - intros b k U. apply D in U. apply (J15 b k U).
  - intros b m U. apply D in U. apply (J16 b m U).
  - intros b U. rewrite D in U. apply (J17 b U).
Qed.
Lemma drop_fin : level_restrict inp = true ->
  (forall l, S l < nlev st -> lst st l < lst st (S l)) ->
  (forall l, S l < nlev st -> 0 < usd st l) ->
  (forall b, used st b -> s_child st 0 b <> 0 -> s_has_children st b = true) ->
  (forall b, used st b -> s_has_children st b = true -> s_child st 0 b <> 0) ->
  (forall b a, used st b -> a < idim inp -> s_center st b a = path_center inp (pth b) a) ->
  ((max_weight inp < INT_MAX)%Z ->
    forall b, used st b -> s_child st 0 b = 0 -> (childweight inp (pth b) <= max_weight inp)%Z) ->
  fin inp st7 pth.
Proof.
  intros LR H1 H2 H3 H4 H5 H6. assert (D := drop_used).
  split.
  - apply drop_inv.
  - intros l Hl. rewrite drop_nlev in Hl. rewrite !drop_lst by lia. apply H1. lia.
  - congruence.
  - intros l Hl. rewrite drop_nlev in Hl. rewrite drop_usd by lia. apply H2. lia.
  - intros b U. apply D in U. apply (H3 b U).
  - intros _ b U. apply D in U. apply (H4 b U).
  - intros b a U. apply D in U. apply (H5 b a U).
  - intros M b U. apply D in U. apply (H6 M b U).
  - congruence.
Qed.
End Drop.
Lemma control_fin inp st pth level force over final : fin inp st pth -> (forall b, ~ used st b -> force b = false) ->
  fin inp (with_control st level force over final) pth.
Proof.
  intros F FO. pose proof F as [F1 F2 F3 F4 F5 F6 F7 F8 F9]. split; auto. apply control_inv; auto.
Qed.

Section Fin.
Variable inp : input.
Notation np := (npart inp).
Notation nch := (nchild inp).
Hypothesis WT : forall u, u < np -> (0 <= weight inp u <= INT_MAX)%Z.
Hypothesis MW : (0 <= max_weight inp)%Z.
Hypothesis NPOS : 0 < np.
Hypothesis GU : 0 < nboxes_guess inp.

Lemma heavy_light p : (max_weight inp < INT_MAX)%Z -> heavy inp p = false -> (childweight inp p <= max_weight inp)%Z.
Proof.
  intros M E. unfold heavy in E. destruct (adaptive inp); [|discriminate]. apply Z.ltb_ge in E.
  unfold childweight. lia.
Qed.
Lemma rweight_root : rweight inp [] = zsum (map (weight inp) (seq 0 np)).
Proof. unfold rweight. do 2 f_equal. unfold reach. cbn [reach_from]. induction (seq 0 np); cbn [filter]; congruence. Qed.

Lemma init_good : s_level (initial_state inp) = 1 -> good inp (initial_state inp) (fun _ => []).
Proof.
  intros E. assert (U := initial_used inp). assert (I := initial_inv inp NPOS). split.
  - split; auto.
    + intros l Hl. unfold nlev in Hl. cbn in Hl. assert (l = 0) by lia. subst. unfold lst. cbn. lia.
    + intros _ l Hl. unfold nlev in Hl. cbn in Hl. assert (l = 0) by lia. subst. unfold lst, usd. cbn. lia.
    + intros b _ C. discriminate.
  - intros b a Ub Ha. apply U in Ub. subst. reflexivity.
  - intros b _ _ C. rewrite E in C. cbn in C. lia.
  - discriminate.
  - discriminate.
  - discriminate.
  - intros _ b _ C. cbn in C. congruence.
  - intros l Hl. unfold nlev in Hl. cbn in Hl. assert (l = 0) by lia. subst. unfold usd. cbn. lia.
  - exact GU.
Qed.
Lemma init_fin : s_level (initial_state inp) = 0 -> fin inp (initial_state inp) (fun _ => []).
Proof.
  intros E. assert (U := initial_used inp). assert (I := initial_inv inp NPOS). split; auto.
  - intros l Hl. unfold nlev in Hl. cbn in Hl. assert (l = 0) by lia. subst. unfold lst. cbn. lia.
  - intros _ l Hl. unfold nlev in Hl. cbn in Hl. assert (l = 0) by lia. subst. unfold lst, usd. cbn. lia.
  - intros l Hl. unfold nlev in Hl. cbn in Hl. assert (l = 0) by lia. subst. unfold usd. cbn. lia.
  - discriminate.
  - intros b a Ub Ha. apply U in Ub. subst. reflexivity.
  - intros M b Ub _. cbn [s_level initial_state] in E.
    destruct (Z.ltb_spec (max_weight inp) (zsum (map (weight inp) (seq 0 np)))); [discriminate|].
    assert (X := childweight_le inp WT []). rewrite rweight_root in X. lia.
Qed.
Lemma run_good st pth : run inp st pth -> good inp st pth.
Proof.
  induction 1 as [E|st pth st' pth' R IH T].
  - apply init_good; auto.
  - eapply trans_good; eauto.
Qed.

Section Ends.
Variable st : state.
Variable pth : nat -> list nat.
Hypothesis G : good inp st pth.
Let H := g_head inp st pth G.
Let I := h_inv inp st pth H.
Let Y := i_layout inp st pth I.
Notation L := (nlev st).
Notation nu := (nused inp st).
Lemma not_heavy_last b : nth L nu 0 = 0 -> used st b -> length (pth b) + 1 = L -> heavy inp (pth b) = false.
Proof.
  intros Z U E. apply not_true_is_false. intros T.
  assert (X := proj2 (nu_L_pos_iff inp WT MW st pth G _ (le_n _))). unfold nused, marks in Z. rewrite Z in X.
  specialize (X (ex_intro _ b (conj U (conj E T)))). lia.
Qed.
Lemma pth_level_lt b : used st b -> length (pth b) < L.
Proof. intros U. rewrite (i_len inp st pth I b U). apply (used_level st Y) in U. apply U. Qed.

Lemma stuck_fin : have_extent inp = true -> nth L nu 0 = 0 ->
  fin inp (with_control (marks inp st) (s_level st - 1) (s_force (marks inp st)) (s_oversize (marks inp st))
                       (s_final (marks inp st))) pth.
Proof.
  intros HE Z. assert (MG := marked_good inp WT MW st pth G). assert (MH := g_head _ _ _ MG).
  split.
  - apply control_inv; [apply MH|]. intros b U. apply (i_unused inp _ _ (h_inv _ _ _ MH) b U).
  - apply (h_strict _ _ _ MH).
  - apply (h_tight _ _ _ MH).
  - apply (g_nonempty _ _ _ MG).
  - apply (h_marks _ _ _ MH).
  - intros E b U S C. rewrite HE, andb_true_r in E.
    destruct (h_pending _ _ _ MH b U S C) as [[W1 W2]|[W1 _]]; [|congruence].
    change (s_level (marked inp (scanned inp st))) with (s_level st) in W1. rewrite (h_level _ _ _ H) in W1.
    rewrite not_heavy_last in W2; auto. discriminate.
  - apply (g_center _ _ _ MG).
  - intros M b U Lf. apply heavy_light; auto. assert (X := pth_level_lt b U).
    destruct (Nat.eq_dec (length (pth b) + 1) L) as [E|E]; [apply not_heavy_last; auto|].
    apply (g_light _ _ _ G b U Lf). rewrite (h_level _ _ _ H). lia.
  - apply (g_split _ _ _ MG).
Qed.

Section Split.
Variables (nl : list nat) (nbn : nat).
Hypothesis NB : lst st L + nth L nu 0 <= nbn.
Hypothesis NR : forall l, l < L -> nth l nu 0 <= lst st (S l) - lst st l.
Notation st5 := (st5 inp st nl nbn).
Notation pth5 := (pth5 inp st pth nl nbn).
Let I5 : inv inp st5 pth5 := advance_inv inp WT MW st pth H nl nbn NB NR.
Let Y5 : layout st5 := i_layout inp st5 pth5 I5.
Lemma nlev5' : nlev st5 = S L.
Proof. apply (nlev5 inp st pth H). Qed.
Lemma strict5 : 0 < nth L nu 0 -> forall l, l < nlev st5 -> lst st5 l < lst st5 (S l).
Proof.
  intros NE l Hl. rewrite nlev5' in Hl. destruct (Nat.eq_dec l L) as [->|E].
  - rewrite (lst5_last inp st pth H nl nbn NB), (lst5 inp st pth H nl nbn NB) by lia. lia.
  - rewrite !(lst5 inp st pth H nl nbn NB) by lia. apply (h_strict inp st pth H). lia.
Qed.
Lemma nonempty5 l : l < L -> 0 < usd st5 l.
Proof.
  intros Hl. rewrite usd5. assert (X := usd_le_nu inp st pth H nbn NB l Hl). assert (X2 := g_nonempty inp st pth G l Hl). lia.
Qed.
Lemma pth5_level_le b : used st5 b -> length (pth5 b) <= L.
Proof.
  intros U. rewrite (i_len inp st5 pth5 I5 b U). assert (X := used_level st5 Y5 b U). destruct X as [X _].
  rewrite nlev5' in X. lia.
Qed.
Lemma light_all5 : s_oversize (marks inp st) = false -> (max_weight inp < INT_MAX)%Z ->
  forall b, used st5 b -> s_child st5 0 b = 0 -> (childweight inp (pth5 b) <= max_weight inp)%Z.
Proof.
  intros O M b U Lf. assert (X := pth5_level_le b U).
  destruct (Nat.eq_dec (length (pth5 b)) L) as [E|E].
  - assert (S := small5 inp WT MW st pth G nl nbn NB NR b O U E). assert (X2 := childweight_le inp WT (pth5 b)). lia.
  - apply heavy_light; auto. apply (light5 inp WT MW st pth G nl nbn NB NR); auto. lia.
Qed.
Lemma split_fin : 0 < nth L nu 0 ->
  (level_restrict inp = false -> nbn = lst st L + nth L nu 0) ->
  s_oversize (marks inp st) = false -> fin inp st5 pth5.
Proof.
  intros NE TI O. split.
  - apply I5.
  - apply strict5; auto.
  - intros LR l Hl. rewrite nlev5' in Hl. rewrite usd5.
    destruct (Nat.eq_dec l L) as [->|E].
    + rewrite (lst5_last inp st pth H nl nbn NB), (lst5 inp st pth H nl nbn NB) by lia. rewrite TI; auto.
    + rewrite !(lst5 inp st pth H nl nbn NB) by lia. assert (X := h_tight inp st pth H LR l ltac:(lia)).
      assert (X2 := usd_le_nu inp st pth H nbn NB l ltac:(lia)). assert (X3 := NR l ltac:(lia)).
      unfold nused, marks in X3. lia.
  - intros l Hl. rewrite nlev5' in Hl.
    destruct (Nat.eq_dec l L) as [->|E]; [rewrite usd5; auto|apply nonempty5; lia].
  - apply (marks5 inp WT MW st pth G nl nbn NB NR).
  - intros _. apply (pending5 inp WT MW st pth G nl nbn NB NR).
  - apply (center5 inp WT MW st pth G nl nbn NB NR).
  - apply light_all5; auto.
  - apply (split5 inp WT MW st pth G nl nbn NB NR).
Qed.
Lemma final_fin leaves level over : s_final st = true -> nth L nu 0 = 0 -> s_oversize (marks inp st) = false ->
  fin inp (with_control (with_level_counts st5 (removelast (s_lstart st5)) (removelast (s_used st5)) leaves)
             level (s_force st5) over true) pth5.
Proof.
  intros F Z O. assert (LP := lay_pos st Y).
  assert (P : 1 < nlev st5) by (rewrite nlev5'; lia).
  assert (Z5 : usd st5 (nlev st5 - 1) = 0) by (rewrite nlev5', usd5; replace (S L - 1) with L by lia; auto).
  destruct (g_final inp st pth G F) as [LR _].
  apply control_fin.
  - apply drop_fin; auto.
    + intros l Hl. rewrite nlev5' in Hl. rewrite !(lst5 inp st pth H nl nbn NB) by lia. apply (h_strict inp st pth H). lia.
    + intros l Hl. rewrite nlev5' in Hl. apply nonempty5. lia.
    + apply (marks5 inp WT MW st pth G nl nbn NB NR).
    + apply (pending5 inp WT MW st pth G nl nbn NB NR).
    + apply (center5 inp WT MW st pth G nl nbn NB NR).
    + apply light_all5; auto.
  - intros b U. rewrite (drop_used inp st5 pth5 leaves I5 P Z5) in U. apply (i_unused inp st5 pth5 I5 b U).
Qed.
End Split.

Theorem ends_fin st' pth' : ends inp st pth st' pth' -> fin inp st' pth'.
Proof.
  intros E. destruct E as [E1 E2 E3|nl nbn NB NR E1 E2 E3|nl nbn force NB NR NE LR E1 RL O|nl nbn NB NR NE LR TI O].
  - apply stuck_fin; auto.
  - apply final_fin; auto.
  - apply control_fin.
    + apply split_fin; auto. congruence.
    + intros b U. apply not_true_is_false. intros F.
      destruct (force_facts inp WT MW st pth nl nbn force false G NB NR LR RL b F) as [_ [X _]]. contradiction.
  - apply split_fin; auto.
Qed.
End Ends.
End Fin.
