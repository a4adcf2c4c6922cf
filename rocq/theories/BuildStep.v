(** The loop invariant is kept by every trip through the level loop. *)
From Coq Require Import List Arith ZArith NArith Lia Bool Permutation.
From Verif Require Import Base Tree Walk Traversal Fmm TreeBuild ArrayFacts BuildInv BuildScan BuildIds BuildSort
  BuildAdvance BuildRenumber.
Import ListNotations.

(** the center the splitter computes for the box with a given path *)
Fixpoint center_down (inp : input) (l : nat) (c : Z) (p : list nat) (a : nat) : Z :=
  match p with
  | [] => c
  | m :: p' => center_down inp (S l)
      (c + morton_sign (idim inp) m a * (the_root_extent inp / i32_shl1 (1 + (l + 1))))%Z p' a
  end.
Definition path_center (inp : input) (p : list nat) (a : nat) : Z :=
  center_down inp 0 (bbox_min inp a + extent_along inp a / 2)%Z p a.
Lemma center_down_app inp l c p q a :
  center_down inp l c (p ++ q) a = center_down inp (l + length p) (center_down inp l c p a) q a.
Proof.
  revert l c. induction p as [|m p IH]; intros l c; cbn [app center_down length].
  - rewrite Nat.add_0_r. auto.
  - rewrite IH. f_equal. lia.
Qed.
Lemma path_center_snoc inp p m a : path_center inp (p ++ [m]) a =
  (path_center inp p a + morton_sign (idim inp) m a * (the_root_extent inp / i32_shl1 (1 + (length p + 1))))%Z.
Proof. unfold path_center. rewrite center_down_app. cbn [center_down]. auto. Qed.

(** ** The loop invariant *)
Record good (inp : input) (st : state) (pth : nat -> list nat) : Prop := {
  g_head : head inp st pth;
  g_center : forall b a, used st b -> a < idim inp -> s_center st b a = path_center inp (pth b) a;
  g_light : forall b, used st b -> s_child st 0 b = 0 -> length (pth b) + 1 < s_level st -> heavy inp (pth b) = false;
  g_over : s_oversize st = true -> exists b m, used st b /\ will inp st pth b /\ m < nchild inp /\
    (max_weight inp < subweight inp (pth b) m)%Z;
  g_force : forall b, s_force st b = true ->
    level_restrict inp = true /\ used st b /\ 0 < length (pth b) /\ length (pth b) + 3 <= s_level st;
  g_final : s_final st = true -> level_restrict inp = true /\
    (forall b, used st b -> s_child st 0 b = 0 -> heavy inp (pth b) = false) /\ (exists b, s_force st b = true);
  g_split : level_restrict inp = false -> forall b, used st b -> s_child st 0 b <> 0 -> heavy inp (pth b) = true;
  g_nonempty : forall l, l < nlev st -> 0 < usd st l;
  g_guess : 0 < s_guess st
}.

Section Heavy.
Variable inp : input.
Notation nch := (nchild inp).
Notation np := (npart inp).
Hypothesis WT : forall u, u < np -> (0 <= weight inp u <= INT_MAX)%Z.
Lemma zsum_le {X} (f g : X -> Z) l : (forall x, In x l -> f x <= g x)%Z -> (zsum (map f l) <= zsum (map g l))%Z.
Proof.
  induction l as [|x l IH]; intros H; cbn [map]; [reflexivity|]. unfold zsum in *. cbn [fold_right].
  assert (A := H x (or_introl eq_refl)). assert (B := IH (fun y Hy => H y (or_intror Hy))). lia.
Qed.
Lemma zsum_filter_le {X} (f : X -> Z) (p q : X -> bool) l : (forall x, In x l -> 0 <= f x)%Z ->
  (forall x, In x l -> p x = true -> q x = true) -> (zsum (map f (filter p l)) <= zsum (map f (filter q l)))%Z.
Proof.
  induction l as [|x l IH]; intros P H; [reflexivity|]. cbn [filter].
  assert (B := IH (fun y Hy => P y (or_intror Hy)) (fun y Hy => H y (or_intror Hy))).
  assert (F := P x (or_introl eq_refl)). assert (HX := H x (or_introl eq_refl)).
  destruct (p x) eqn:Px, (q x) eqn:Qx; cbn [map]; unfold zsum in *; cbn [fold_right]; try lia.
Qed.
Lemma rweight_app p q : (rweight inp (p ++ q) <= rweight inp p)%Z.
Proof.
  unfold rweight. apply zsum_filter_le.
  - intros u Hu. apply in_seq in Hu. apply WT. lia.
  - intros u _. apply reach_app.
Qed.
(** weight of the particles that go on to children *)
Definition childweight (p : list nat) : Z := zsum (map (fun m => rweight inp (p ++ [m])) (seq 0 nch)).
Lemma zsum_add {X} (f g : X -> Z) l : zsum (map (fun x => f x + g x)%Z l) = (zsum (map f l) + zsum (map g l))%Z.
Proof. induction l; cbn [map]; unfold zsum in *; cbn [fold_right]; auto. lia. Qed.
Lemma childweight_eq p : childweight p =
  zsum (map (weight inp) (filter (fun u => reach inp u p && (0 <? key inp u (length p))) (seq 0 np))).
Proof.
  unfold childweight.
  assert (X : forall k l, zsum (map (fun m => zsum (map (weight inp) (filter (fun u => reach inp u (p ++ [m])) l))) (seq 0 k))
    = zsum (map (weight inp) (filter (fun u => reach inp u p && ((0 <? key inp u (length p)) && (key inp u (length p) <=? k))) l))).
  { intros k l. induction l as [|u l IH].
    - cbn [filter map]. induction (seq 0 k); cbn [map]; unfold zsum in *; cbn [fold_right] in *; auto.
    - cbn [filter].
      transitivity (zsum (map (fun m => (if reach inp u (p ++ [m]) then weight inp u else 0) +
         zsum (map (weight inp) (filter (fun u => reach inp u (p ++ [m])) l)))%Z (seq 0 k))).
      { f_equal. apply map_ext. intros m. destruct (reach inp u (p ++ [m])); auto. }
      rewrite zsum_add, IH.
      assert (E : forall k, zsum (map (fun m => if reach inp u (p ++ [m]) then weight inp u else 0%Z) (seq 0 k)) =
        if reach inp u p && ((0 <? key inp u (length p)) && (key inp u (length p) <=? k)) then weight inp u else 0%Z).
      { clear. induction k.
        - destruct (reach inp u p); auto. cbn [andb]. destruct (Nat.ltb_spec 0 (key inp u (length p))); auto.
          destruct (Nat.leb_spec (key inp u (length p)) 0); auto. lia.
        - rewrite seq_S, map_app, zsum_app, IHk. cbn [map]. unfold zsum; cbn [fold_right].
          rewrite Nat.add_0_l, reach_snoc. destruct (reach inp u p); auto. cbn [andb].
          destruct (Nat.ltb_spec 0 (key inp u (length p))), (Nat.leb_spec (key inp u (length p)) k),
            (Nat.leb_spec (key inp u (length p)) (S k)), (Nat.eqb_spec (key inp u (length p)) (S k)); cbn [andb]; lia. }
      rewrite E. destruct (_ && _); auto. }
  specialize (X nch (seq 0 np)). unfold rweight. rewrite X. do 2 f_equal. apply filter_ext.
  intros u. assert (Z := key_le inp u (length p)). destruct (Nat.leb_spec (key inp u (length p)) nch); [|lia].
  rewrite andb_true_r. auto.
Qed.
Lemma childweight_le p : (childweight p <= rweight inp p)%Z.
Proof.
  rewrite childweight_eq. unfold rweight. apply zsum_filter_le.
  - intros u Hu. apply in_seq in Hu. apply WT. lia.
  - intros u _ E. apply andb_true_iff in E. tauto.
Qed.
Lemma rweight_child p m : m < nch -> (rweight inp (p ++ [m]) <= childweight p)%Z.
Proof.
  intros Hm. unfold childweight. assert (X := in_split m (seq 0 nch)). destruct X as [l1 [l2 E]]; [apply in_seq; lia|].
  rewrite E, map_app, zsum_app. cbn [map].
  assert (P : forall l, (0 <= zsum (map (fun m => rweight inp (p ++ [m])) l))%Z).
  { intros l. apply zsum_nonneg. intros x Hx. apply in_map_iff in Hx. destruct Hx as [k [<- _]]. apply rweight_nonneg; auto. }
  assert (P1 := P l1). assert (P2 := P l2). unfold zsum in *. cbn [fold_right]. lia.
Qed.
Lemma heavy_adaptive p : adaptive inp = true -> (heavy inp p = true <-> (max_weight inp < Z.min INT_MAX (childweight p))%Z).
Proof. intros A. unfold heavy. rewrite A. apply Z.ltb_lt. Qed.
Lemma LR_adaptive : level_restrict inp = true -> adaptive inp = true.
Proof. unfold level_restrict, adaptive. destruct (build_kind inp); auto; discriminate. Qed.
Lemma heavy_of_child p m : adaptive inp = true -> m < nch -> (max_weight inp < subweight inp p m)%Z -> heavy inp p = true.
Proof.
  intros A Hm E. apply heavy_adaptive; auto. unfold subweight in E. assert (X := rweight_child p m Hm). lia.
Qed.
Lemma heavy_parent p m : adaptive inp = true -> m < nch -> heavy inp (p ++ [m]) = true -> heavy inp p = true.
Proof.
  intros A Hm E. apply heavy_adaptive in E; auto. apply heavy_adaptive; auto.
  assert (X := rweight_child p m Hm). assert (X2 := childweight_le (p ++ [m])). lia.
Qed.
End Heavy.

Section Step.
Variable inp : input.
Notation np := (npart inp).
Notation nch := (nchild inp).
Hypothesis WT : forall u, u < np -> (0 <= weight inp u <= INT_MAX)%Z.
Hypothesis MW : (0 <= max_weight inp)%Z.
Variable st : state.
Variable pth : nat -> list nat.
Hypothesis G : good inp st pth.
Let H := g_head inp st pth G.
Let I := h_inv inp st pth H.
Let Y := i_layout inp st pth I.
Notation st1 := (scanned inp st).
Notation st2 := (marked inp st1).
Notation L := (nlev st).
Notation n := (lst st L).
Notation sp := (splits inp st1).
Notation ids := (split_box_ids inp st1).
Notation nu := (new_used st2 ids).

Lemma sp_will b : used st b -> (sp b = true <-> will inp st pth b).
Proof. apply (splits_iff inp WT st pth H). Qed.
Lemma max_fold_le l acc x : (fold_left Z.max l acc <= x)%Z <-> (acc <= x /\ forall y, In y l -> y <= x)%Z.
Proof.
  revert acc. induction l as [|y l IH]; intros acc; cbn [fold_left].
  - split; [intros; split; auto; intros y []|tauto].
  - rewrite IH. split.
    + intros [A B]. split; [lia|]. intros z [<-|Hz]; [lia|auto].
    + intros [A B]. split; [|intros z Hz; apply B; right; auto]. assert (X := B y (or_introl eq_refl)). lia.
Qed.
Lemma oversize_iff b : used st b ->
  (oversize inp st1 b = true <-> exists m, m < nch /\ (max_weight inp < subweight inp (pth b) m)%Z).
Proof.
  intros U. unfold oversize. rewrite Z.ltb_lt. unfold max_subbox_weight.
  assert (X := max_fold_le (map (s_wts st1 b) (seq 0 nch)) 0 (max_weight inp)).
  split.
  - intros E. destruct (existsb (fun m => (max_weight inp <? subweight inp (pth b) m)%Z) (seq 0 nch)) eqn:F.
    + apply existsb_exists in F. destruct F as [m [Hm F]]. apply in_seq in Hm. apply Z.ltb_lt in F. exists m. split; [lia|auto].
    + exfalso. apply (Z.lt_irrefl (max_weight inp)). eapply Z.lt_le_trans; [exact E|]. apply X. split; auto.
      intros y Hy. apply in_map_iff in Hy. destruct Hy as [m [<- Hm]]. apply in_seq in Hm.
      rewrite (scanned_wts inp WT st pth I b m U) by lia.
      apply Z.ltb_ge. apply not_true_is_false. intros T.
      assert (existsb (fun m => (max_weight inp <? subweight inp (pth b) m)%Z) (seq 0 nch) = true); [|congruence].
      apply existsb_exists. exists m. split; auto. apply in_seq. lia.
  - intros [m [Hm E]]. apply Z.nle_gt. intros C. apply X in C. destruct C as [_ C].
    specialize (C (s_wts st1 b m)). rewrite (scanned_wts inp WT st pth I b m U) in C by lia.
    assert (Z : In (subweight inp (pth b) m) (map (s_wts st1 b) (seq 0 nch))).
    { apply in_map_iff. exists m. split; [|apply in_seq; lia]. apply (scanned_wts inp WT st pth I b m U). lia. }
    specialize (C Z). lia.
Qed.
Lemma over2_iff : s_oversize st2 = true <->
  exists b m, used st b /\ will inp st pth b /\ m < nch /\ (max_weight inp < subweight inp (pth b) m)%Z.
Proof.
  cbn [marked with_split s_oversize]. cbn [scanned with_scan s_oversize s_level s_lstart].
  rewrite orb_true_iff. rewrite (h_level inp st pth H). fold (lst st L). split.
  - intros [E|E].
    + apply (g_over inp st pth G E).
    + apply existsb_exists in E. destruct E as [b [Hb E]]. apply in_seq in Hb. apply andb_true_iff in E. destruct E as [E1 E2].
      assert (U : used st b) by (apply (splits_used inp MW st pth H b); auto; lia).
      change (oversize inp st1 b = true) in E2. change (sp b = true) in E1.
      apply oversize_iff in E2; auto. destruct E2 as [m [Hm E2]]. exists b, m.
      split; auto. split; [apply sp_will; auto|]. auto.
  - intros [b [m [U [W [Hm E]]]]]. right. apply existsb_exists. exists b. assert (X := used_lt st Y b U).
    split; [apply in_seq; lia|]. apply andb_true_iff. split.
    + apply sp_will; auto.
    + apply oversize_iff; auto. exists m. auto.
Qed.

(** the retried state *)
Lemma marked_good : good inp st2 pth.
Proof.
  assert (MH := marked_head inp WT MW st pth H).
  split; auto.
  - apply (g_center inp st pth G).
  - apply (g_light inp st pth G).
  - apply over2_iff.
  - apply (g_force inp st pth G).
  - apply (g_final inp st pth G).
  - apply (g_split inp st pth G).
  - apply (g_nonempty inp st pth G).
  - apply (g_guess inp st pth G).
Qed.
End Step.

Lemma grow_spec fuel g k : 0 < g -> g <= grow fuel g k /\ (k <= g + fuel -> k <= grow fuel g k).
Proof.
  revert g. induction fuel; intros g Hg; cbn [grow].
  - split; lia.
  - destruct (Nat.ltb_spec g k).
    + destruct (IHfuel (2 * g)) as [A B]; [lia|]. split; [lia|]. intros C. apply B. lia.
    + split; lia.
Qed.
Lemma grow_ge g k : 0 < g -> k <= grow k g k.
Proof. intros. apply grow_spec; lia. Qed.
Lemma grow_pos fuel g k : 0 < g -> 0 < grow fuel g k.
Proof. intros. assert (X := grow_spec fuel g k H). lia. Qed.
Lemma guess_good inp st pth g : 0 < g -> good inp st pth -> good inp (with_guess st g) pth.
Proof.
  intros Hg G. pose proof G as [G1 G2 G3 G4 G5 G6 G7 G8 G9]. split; auto.
  pose proof G1 as [H1 H2 H3 H4 H5 H6 H7]. split; auto.
  pose proof H1 as [J1 J2 J3 J4 J5 J6 J7 J8 J9 J10 J11 J12 J13 J14 J15 J16 J17]. split; auto.
  pose proof J1 as [Y1 Y2 Y3 Y4 Y5 Y6]. split; auto.
Qed.

Section RenumberGood.
Variable inp : input.
Notation nch := (nchild inp).
Variable st : state.
Variable pth : nat -> list nat.
Hypothesis G : good inp st pth.
Hypothesis LR : level_restrict inp = true.
Let H := g_head inp st pth G.
Let I := h_inv inp st pth H.
Let Y := i_layout inp st pth I.
Variable ns : list nat.
Variable nbn : nat.
Hypothesis NSlen : length ns = S (nlev st).
Hypothesis NS0 : nth 0 ns 0 = 0.
Hypothesis NSle : forall l, l < nlev st -> nth l ns 0 + (lst st (S l) - lst st l) <= nth (S l) ns 0.
Notation st' := (renumbered inp st ns nbn).
Notation pt := (pth' inp st pth ns nbn).
Notation dst := (renumbering st ns).
Lemma renumber_will b : used st b -> (will inp st' pt (dst b) <-> will inp st pth b).
Proof.
  intros U. assert (X := used_lt st Y b U). unfold will.
  rewrite (pth'_dst inp st pth H ns nbn NSlen NS0 NSle) by auto.
  rewrite (force' inp st pth H ns nbn NSlen NS0 NSle) by auto. cbn [renumbered s_level]. tauto.
Qed.
Lemma renumber_good : good inp st' pt.
Proof.
  assert (UN := used_lt st Y). assert (UI := used'_inv inp st pth H ns nbn NSlen NS0).
  assert (P := pth'_dst inp st pth H ns nbn NSlen NS0 NSle).
  assert (C0 := child0_iff inp st pth H ns nbn NSlen NS0 NSle).
  assert (UD := used'_dst inp st pth H ns nbn NSlen NS0 NSle).
  split.
  - apply renumber_head; auto.
  - intros x a U Ha. destruct (UI x U) as [b [Ub ->]]. rewrite P by auto.
    rewrite (center' inp st pth H ns nbn NSlen NS0 NSle) by auto. apply (g_center inp st pth G); auto.
  - intros x U Lf Hl. destruct (UI x U) as [b [Ub ->]]. rewrite P in * by auto. apply C0 in Lf; auto.
    apply (g_light inp st pth G b); auto.
  - intros E. destruct (g_over inp st pth G E) as [b [m [U [W [Hm E2]]]]]. exists (dst b), m.
    split; [apply UD; auto|]. split; [apply renumber_will; auto|]. rewrite P by auto. auto.
  - intros x F.
    destruct (used_dec st' (layout' inp st pth H ns nbn NSlen NS0 NSle) x) as [U|U].
    + destruct (UI x U) as [b [Ub ->]]. rewrite (force' inp st pth H ns nbn NSlen NS0 NSle) in F by auto.
      destruct (g_force inp st pth G b F) as [F1 [F2 [F3 F4]]]. rewrite P by auto. auto.
    + destruct (i_unused inp _ _ (renumber_inv inp st pth H ns nbn NSlen NS0 NSle) x U) as [_ [_ [_ [F' _]]]]. congruence.
  - intros E. destruct (g_final inp st pth G E) as [F1 [F2 [b F3]]]. split; auto. split.
    + intros x U Lf. destruct (UI x U) as [b' [Ub ->]]. rewrite P by auto. apply C0 in Lf; auto.
    + exists (dst b). destruct (g_force inp st pth G b F3) as [_ [U _]]. rewrite (force' inp st pth H ns nbn NSlen NS0 NSle); auto.
  - congruence.
  - apply (g_nonempty inp st pth G).
  - cbn [renumbered s_guess]. apply grow_pos, (g_guess inp st pth G).
Qed.
End RenumberGood.
