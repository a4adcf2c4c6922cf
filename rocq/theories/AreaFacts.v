(** Peer lists, guiding boxes and area queries. *)
From Coq Require Import List Arith ZArith NArith Lia Bool Permutation.
From Verif Require Import Base Tree Spec SpecArea TreeFacts Walk WalkFacts Traversal GeomFacts TraversalLists Tools AreaQuery.
From Verif Require BuildGeom BuildInv.
Import ListNotations.

Section Area.
Variable t : tree.
Hypothesis W : wf_tree t.
Hypothesis F : flags_tell_leaves t.

Lemma has_child_leaf b : b < nboxes t -> (has_child t b = false <-> leaf t b).
Proof.
  intros Hb. rewrite <- (F b Hb). unfold has_child, has_source_child, has_target_child. rewrite flag_lor.
  destruct (flag _ HAS_SOURCE_CHILD_BOXES), (flag _ HAS_TARGET_CHILD_BOXES); cbn; intuition discriminate.
Qed.
Lemma has_child_anc x k : x < nboxes t -> k < box_level t x -> has_child t (anc t k x) = true.
Proof.
  intros Hx Hk. destruct (has_child t (anc t k x)) eqn:E; auto.
  apply has_child_leaf in E; [|apply anc_lt; auto].
  destruct (child_of_anc nat t W (@length nat) eq_refl x Hx (anc t k x)) as [m [Hm Hc]].
  - apply anc_lt; auto.
  - rewrite anc_level by (auto; lia). auto.
  - rewrite anc_level by (auto; lia). auto.
  - rewrite anc_level in Hc by (auto; lia). rewrite E in Hc by auto.
    pose proof (anc_pos t W (S k) x Hx ltac:(lia) Hk). lia.
Qed.

Lemma aq_cap l : nlevels t <= aq_max_levels t + l.
Proof.
  unfold aq_max_levels. pose proof (Nat.div_mod (nlevels t + 9) 10 ltac:(lia)).
  pose proof (Nat.mod_upper_bound (nlevels t + 9) 10 ltac:(lia)). lia.
Qed.
Lemma aq_walk {A} (visit : nat -> nat -> list A * bool) start : start < nboxes t ->
  run_walk t visit (aq_max_levels t) start =
  Some (dfs t visit (nlevels t - box_level t start) start 0).
Proof. intros. apply run_walk_correct; auto. apply aq_cap. Qed.

(** ** Peers *)
Definition no_adj_child (b c : nat) : bool :=
  forallb (fun m => let nc := box_child t m c in if nc =? 0 then true else negb (adj t b nc)) (seq 0 (nchildren t)).
Definition is_peer (b p : nat) : bool :=
  adj t b p && ((box_level t p =? box_level t b) || (box_level t p <? box_level t b) && no_adj_child b p).
Definition peer_list (b : nat) : list nat :=
  if b =? 0 then [0] else dfs t (peer_visit t b) (nlevels t) 0 0.

Lemma peer_kernel_ok b : peer_kernel t b = Some (peer_list b).
Proof.
  unfold peer_kernel, peer_list. destruct (b =? 0); auto.
  rewrite aq_walk by apply (wf_nboxes t W). rewrite (wf_root_level t W), Nat.sub_0_r. auto.
Qed.

Lemma leaf_no_adj_child b c : c < nboxes t -> has_child t c = false -> no_adj_child b c = true.
Proof.
  intros Hc E. apply has_child_leaf in E; auto. apply forallb_forall. intros m Hm. apply in_seq in Hm.
  rewrite E by lia. auto.
Qed.
(** the visitor, for a box at its level *)
Lemma peer_visit_at b c : b < nboxes t -> c < nboxes t -> 0 < box_level t c ->
  peer_visit t b c (box_level t c - 0 - 1) =
  if adj t b c then
    if (box_level t c =? box_level t b) || no_adj_child b c then ([c], false) else ([], true)
  else ([], false).
Proof.
  intros Hb Hc L. unfold peer_visit.
  replace (box_level t c - 0 - 1 + 1) with (box_level t c) by lia.
  replace (box_level t c - 0 - 1 + 2) with (S (box_level t c)) by lia.
  fold (adj t b c). destruct (adj t b c); auto.
  destruct (box_level t c =? box_level t b); auto. cbn [orb].
  match goal with |- context[if forallb ?f ?l then _ else _] => assert (E : forallb f l = no_adj_child b c) end.
  { unfold no_adj_child. rewrite eq_iff_eq_true, !forallb_forall.
    split; intros H m Hm; pose proof Hm as Hm'; apply H in Hm'; apply in_seq in Hm;
    (destruct (Nat.eqb_spec (box_child t m c) 0) as [|N]; auto);
    destruct (wf_child t W m c Hc ltac:(lia) N) as [_ [L' _]]; rewrite <- L' in *; exact Hm'. }
  rewrite E. destruct (has_child t c) eqn:HC; cbn [negb].
  - destruct (no_adj_child b c); auto.
  - rewrite leaf_no_adj_child by auto. auto.
Qed.

Lemma peer_in_range b x : b < nboxes t -> In x (peer_list b) -> x < nboxes t.
Proof.
  intros Hb. unfold peer_list. destruct (b =? 0). { intros [<-|[]]. apply (wf_nboxes t W). }
  intros H. apply dfs_in in H; auto using (wf_nboxes t W). destruct H as [c [d [H1 [H2 H3]]]].
  unfold peer_visit in H3. destruct (is_adj _ _ _ _ _); [|simpl in H3; tauto].
  destruct (_ =? _); [simpl in H3; intuition congruence|].
  destruct (negb _); [simpl in H3; intuition congruence|].
  destruct (forallb _ _); simpl in H3; intuition congruence.
Qed.

Lemma no_adj_child_anc b x k : b < nboxes t -> x < nboxes t -> k < box_level t x ->
  adj t b x = true -> no_adj_child b (anc t k x) = false.
Proof.
  intros Hb Hx Hk A. destruct (no_adj_child b (anc t k x)) eqn:E; auto. exfalso.
  destruct (child_of_anc nat t W (@length nat) eq_refl x Hx (anc t k x)) as [m [Hm Hc]].
  - apply anc_lt; auto.
  - rewrite anc_level by (auto; lia). auto.
  - rewrite anc_level by (auto; lia). auto.
  - rewrite anc_level in Hc by (auto; lia). unfold no_adj_child in E. rewrite forallb_forall in E.
    specialize (E m ltac:(apply in_seq; lia)). cbv beta zeta in E. rewrite Hc in E.
    pose proof (anc_pos t W (S k) x Hx ltac:(lia) Hk).
    destruct (Nat.eqb_spec (anc t (S k) x) 0); [lia|].
    rewrite (adj_anc_r t W) in E by auto. discriminate.
Qed.

Lemma peer_count b x : b < nboxes t -> x < nboxes t ->
  count x (peer_list b) = if is_peer b x then 1 else 0.
Proof.
  intros Hb Hx. unfold peer_list. destruct (Nat.eqb_spec b 0) as [->|H0].
  { rewrite count_cons, count_nil. unfold is_peer. destruct (Nat.eqb_spec x 0) as [->|N].
    - rewrite adj_root by auto. rewrite Nat.eqb_refl. auto.
    - pose proof (level_pos t W x Hx ltac:(lia)). rewrite (wf_root_level t W).
      destruct (Nat.eqb_spec (box_level t x) 0); [lia|]. destruct (Nat.ltb_spec (box_level t x) 0); [lia|].
      cbn. rewrite andb_false_r. auto. }
  pose proof (level_pos t W b Hb ltac:(lia)) as Lb.
  pose proof (dfs_count nat t W (peer_visit t b) 0 (count x) eq_refl (count_app x) x Hx) as DC.
  assert (OTHER : forall c, c < nboxes t -> 0 < box_level t c -> c <> x -> count x (fst (visit_at nat t (peer_visit t b) 0 c)) = 0).
  { intros c Hc Hl Hne. unfold visit_at. rewrite peer_visit_at by auto. destruct (adj t b c); auto.
    destruct (_ || _); auto. cbn [fst]. rewrite count_cons, count_nil.
    destruct (Nat.eqb_spec x c); [congruence|reflexivity]. }
  specialize (DC OTHER (nlevels t) 0 (wf_nboxes t W)).
  rewrite (wf_root_level t W) in DC. simpl in DC. rewrite DC by lia. clear DC.
  rewrite (anc_0 t W x Hx), Nat.eqb_refl, andb_true_r.
  destruct (Nat.ltb_spec 0 (box_level t x)) as [Lx|Lx]; cbn [andb].
  2:{ assert (x = 0) by (apply (level_0 t W); auto; lia). subst x. unfold is_peer.
      rewrite (wf_root_level t W). destruct (Nat.eqb_spec 0 (box_level t b)); [lia|].
      pose proof (no_adj_child_anc b b 0 Hb Hb Lb) as N. rewrite (anc_0 t W b Hb) in N.
      rewrite N. { rewrite !andb_false_r. auto. } apply adj_near; auto. apply near_refl; auto. }
  unfold visit_at. rewrite peer_visit_at by auto. unfold is_peer.
  destruct (adj t b x) eqn:A; [|cbn; destruct (forallb _ _); reflexivity]. cbn [andb].
  destruct (Nat.le_gt_cases (box_level t x) (box_level t b)) as [LE|GT].
  - match goal with |- (if ?f then _ else _) = _ => assert (FF : f = true) end.
    { apply forallb_forall. intros k Hk. apply in_seq in Hk.
      rewrite peer_visit_at by (auto using anc_lt; rewrite anc_level by (auto; lia); lia).
      rewrite (adj_anc_r t W) by auto. rewrite anc_level by (auto; lia).
      destruct (Nat.eqb_spec k (box_level t b)); [lia|].
      rewrite no_adj_child_anc by (auto; lia). reflexivity. }
    rewrite FF. destruct (Nat.eqb_spec (box_level t x) (box_level t b)); cbn [orb].
    + cbn [fst]. rewrite count_cons, Nat.eqb_refl. reflexivity.
    + destruct (Nat.ltb_spec (box_level t x) (box_level t b)); [|lia]. cbn [andb].
      destruct (no_adj_child b x); cbn [fst]; rewrite ?count_cons, ?Nat.eqb_refl; reflexivity.
  - destruct (Nat.eqb_spec (box_level t x) (box_level t b)); [lia|].
    destruct (Nat.ltb_spec (box_level t x) (box_level t b)); [lia|]. cbn [orb andb].
    match goal with |- (if ?f then _ else _) = _ => assert (FF : f = false) end.
    { destruct (forallb _ _) eqn:E; auto. rewrite forallb_forall in E.
      specialize (E (box_level t b) ltac:(apply in_seq; lia)).
      rewrite peer_visit_at in E by (auto using anc_lt; rewrite anc_level by (auto; lia); lia).
      rewrite (adj_anc_r t W) in E by auto. rewrite anc_level, Nat.eqb_refl in E by (auto; lia). discriminate. }
    rewrite FF. auto.
Qed.

Lemma peer_NoDup b : b < nboxes t -> NoDup (peer_list b).
Proof.
  intros Hb. apply NoDup_count. intros x.
  destruct (in_dec Nat.eq_dec x (peer_list b)) as [Hin|Hni].
  - pose proof (peer_in_range _ _ Hb Hin). rewrite peer_count by auto. destruct (is_peer b x); lia.
  - apply count_notIn in Hni. lia.
Qed.
Lemma peer_list_in b x : b < nboxes t -> (In x (peer_list b) <-> x < nboxes t /\ is_peer b x = true).
Proof.
  intros Hb. split.
  - intros Hin. pose proof (peer_in_range _ _ Hb Hin). split; auto. apply count_In in Hin.
    rewrite peer_count in Hin by auto. destruct (is_peer b x); auto; lia.
  - intros [Hx P]. apply count_In. rewrite peer_count, P by auto. lia.
Qed.
Lemma is_peer_spec b p : b < nboxes t -> p < nboxes t -> (is_peer b p = true <-> peer t b p).
Proof.
  intros Hb Hp. unfold is_peer, peer, touching_and_not_smaller.
  assert (AT : forall c, c < nboxes t -> (adj t b c = true <-> touching t b c)).
  { intros c Hc. rewrite adj_near, near_1_touching by auto. tauto. }
  assert (NC : no_adj_child b p = true <-> forall m, m < nchildren t -> box_child t m p <> 0 -> ~ touching t b (box_child t m p)).
  { unfold no_adj_child. rewrite forallb_forall. split.
    - intros H m Hm N T. specialize (H m ltac:(apply in_seq; lia)). cbv beta zeta in H.
      destruct (Nat.eqb_spec (box_child t m p) 0); [congruence|].
      apply AT in T; [|apply wf_child_lt; auto]. rewrite T in H. discriminate.
    - intros H m Hm. apply in_seq in Hm. destruct (Nat.eqb_spec (box_child t m p) 0) as [|N]; auto.
      specialize (H m ltac:(lia) N). destruct (adj t b (box_child t m p)) eqn:E; auto.
      apply AT in E; [|apply wf_child_lt; auto; lia]. tauto. }
  rewrite andb_true_iff, orb_true_iff, andb_true_iff, Nat.eqb_eq, Nat.ltb_lt, NC, AT by auto.
  split.
  - intros [T [E|[L N]]].
    + split; [split; auto; lia|]. intros m Hm C [_ X].
      destruct (wf_child t W m p Hp Hm C) as [_ [L _]]. lia.
    + split; [split; auto; lia|]. intros m Hm C [X _]. apply (N m); auto.
  - intros [[T L] N]. split; auto.
    destruct (Nat.eq_dec (box_level t p) (box_level t b)); auto. right. split; [lia|].
    intros m Hm C X. apply (N m Hm C). split; auto.
    destruct (wf_child t W m p Hp Hm C) as [_ [L' _]]. lia.
Qed.

Definition all_peers : csr := csr_of (map peer_list (seq 0 (nboxes t))).
Lemma find_peers_ok : find_peers t = Some all_peers.
Proof.
  unfold find_peers, all_peers. rewrite (run_all_map _ peer_list); auto. intros. apply peer_kernel_ok.
Qed.
Lemma all_peers_get b : b < nboxes t -> csr_get all_peers b = peer_list b.
Proof. intros Hb. unfold all_peers. rewrite csr_get_of by (rewrite map_length, seq_length; auto). apply nth_map_seq; auto. Qed.
Lemma all_peers_read b : b < nboxes t -> csr_read all_peers (Z.of_nat b) = Some (peer_list b).
Proof.
  intros Hb. unfold all_peers. rewrite csr_read_of by (rewrite map_length, seq_length; auto).
  f_equal. apply nth_map_seq; auto.
Qed.

(** two peers of one box are never nested *)
Lemma peers_apart b p q x : b < nboxes t -> x < nboxes t -> box_level t p <= box_level t x -> box_level t q <= box_level t x ->
  is_peer b p = true -> is_peer b q = true ->
  anc t (box_level t p) x = p -> anc t (box_level t q) x = q -> p = q.
Proof.
  intros Hb Hx.
  assert (K : forall p q, box_level t p < box_level t q -> box_level t q <= box_level t x ->
     is_peer b p = true -> is_peer b q = true -> anc t (box_level t p) x = p -> anc t (box_level t q) x = q -> False).
  { clear p q. intros p q L Lq Pp Pq Ap Aq.
    assert (Hq : q < nboxes t) by (rewrite <- Aq; apply anc_lt; auto).
    assert (Anc : anc t (box_level t p) q = p).
    { rewrite <- Aq at 1. rewrite anc_anc by (auto; lia). auto. }
    unfold is_peer in *. apply andb_true_iff in Pp, Pq. destruct Pp as [_ Pp], Pq as [A Pq].
    assert (box_level t q <= box_level t b).
    { apply orb_true_iff in Pq. rewrite andb_true_iff, Nat.eqb_eq, Nat.ltb_lt in Pq. lia. }
    pose proof (no_adj_child_anc b q (box_level t p) Hb Hq L A) as N. rewrite Anc in N. rewrite N in Pp.
    apply orb_true_iff in Pp. rewrite andb_false_r, Nat.eqb_eq in Pp. destruct Pp; [lia|discriminate]. }
  intros Lp Lq Pp Pq Ap Aq.
  destruct (Nat.lt_trichotomy (box_level t p) (box_level t q)) as [C|[C|C]].
  - exfalso. eapply (K p q); eauto.
  - congruence.
  - exfalso. eapply (K q p); eauto.
Qed.

(** ** The walk below the peers *)
Section Ball.
Variable bmin : nat -> Z.
Hypothesis BM : lower_corner t bmin.
Variable c : nat -> Z.
Variable r : Z.
Hypothesis Hr : (0 <= r)%Z.
Notation ov := (ball_overlap t c r).
Notation qc := (query_center t bmin c).
Notation qr := (query_radius t bmin c r).

Lemma ov_spec b : b < nboxes t -> (ov b = true <-> ball_meets_box t c r b).
Proof.
  intros Hb. unfold ball_overlap, ball_meets_box, in_closed_box. rewrite Z.leb_le, linf_le.
  pose proof (box_rad_pos t W b Hb) as P. split.
  - intros [_ H]. exists (fun i => Z.max (box_center t b i - box_rad t b) (Z.min (box_center t b i + box_rad t b) (c i)))%Z.
    split; intros i Hi; specialize (H i Hi); lia.
  - intros [x [X1 X2]]. split; [lia|]. intros i Hi. specialize (X1 i Hi). specialize (X2 i Hi). lia.
Qed.

Definition below (p x : nat) : bool := (box_level t p <=? box_level t x) && (anc t (box_level t p) x =? p).
Definition aq_list (p : nat) : list nat :=
  if negb (has_child t p) then (if ov p then [p] else [])
  else dfs t (aq_visit t c r) (nlevels t - box_level t p) p 0.
Lemma aq_peer_ok p : p < nboxes t -> aq_peer t c r p = Some (aq_list p).
Proof.
  intros Hp. unfold aq_peer, aq_list. rewrite (proj2 (Nat.ltb_lt _ _) Hp). cbn [negb].
  destruct (has_child t p); cbn [negb]; auto. rewrite aq_walk by auto. auto.
Qed.
Lemma aq_list_count p x : p < nboxes t -> x < nboxes t ->
  count x (aq_list p) = if negb (has_child t x) && ov x && below p x then 1 else 0.
Proof.
  intros Hp Hx. unfold aq_list, below. destruct (has_child t p) eqn:HP; cbn [negb].
  - pose proof (dfs_count nat t W (aq_visit t c r) (box_level t p) (count x) eq_refl (count_app x) x Hx) as DC.
    assert (OTHER : forall d, d < nboxes t -> box_level t p < box_level t d -> d <> x -> count x (fst (visit_at nat t (aq_visit t c r) (box_level t p) d)) = 0).
    { intros d Hd Hl Hne. unfold visit_at, aq_visit. destruct (negb _); auto. cbn [fst].
      destruct (ov d); auto. rewrite count_cons, count_nil. destruct (Nat.eqb_spec x d); [congruence|auto]. }
    specialize (DC OTHER (nlevels t - box_level t p) p Hp (le_n _) eq_refl).
    rewrite Nat.sub_diag in DC. rewrite DC. clear DC.
    destruct (Nat.eqb_spec (anc t (box_level t p) x) p) as [A|A]; [|rewrite !andb_false_r; auto].
    rewrite !andb_true_r.
    destruct (Nat.ltb_spec (box_level t p) (box_level t x)) as [L|L]; cbn [andb].
    + destruct (Nat.leb_spec (box_level t p) (box_level t x)); [|lia]. rewrite andb_true_r.
      match goal with |- (if ?f then _ else _) = _ => assert (FF : f = true) end.
      { apply forallb_forall. intros k Hk. apply in_seq in Hk. unfold visit_at, aq_visit.
        rewrite has_child_anc by (auto; lia). reflexivity. }
      rewrite FF. unfold visit_at, aq_visit. destruct (has_child t x); cbn; auto.
      destruct (ov x); cbn [andb]; rewrite ?count_cons, ?Nat.eqb_refl; reflexivity.
    + destruct (Nat.leb_spec (box_level t p) (box_level t x)) as [L'|]; [|rewrite andb_false_r; auto].
      assert (x = p).
      { assert (E : box_level t p = box_level t x) by lia. rewrite E, anc_self in A. auto. }
      subst x. rewrite HP. auto.
  - destruct (Nat.eqb_spec x p) as [->|N].
    + rewrite HP, Nat.leb_refl, anc_self, Nat.eqb_refl. cbn [negb andb].
      destruct (ov p); cbn [andb]; rewrite ?count_cons, ?Nat.eqb_refl; reflexivity.
    + assert (E : count x (if ov p then [p] else []) = 0).
      { destruct (ov p); auto. rewrite count_cons. destruct (Nat.eqb_spec x p); [congruence|auto]. }
      rewrite E. destruct (Nat.leb_spec (box_level t p) (box_level t x)) as [L|]; [|rewrite andb_false_r; auto].
      destruct (Nat.eqb_spec (anc t (box_level t p) x) p) as [A|]; [|rewrite !andb_false_r; auto]. exfalso.
      destruct (Nat.eq_dec (box_level t p) (box_level t x)) as [E'|N'].
      * rewrite E', anc_self in A. auto.
      * pose proof (has_child_anc x (box_level t p) Hx ltac:(lia)) as H. rewrite A in H. congruence.
Qed.

(** ** The guiding box *)
Lemma clamp_mono i x y : (x <= y -> clamp t bmin i x <= clamp t bmin i y)%Z.
Proof. unfold clamp. lia. Qed.

Lemma fold_max_mono (f : nat -> Z) l acc : (acc <= fold_left (fun a i => Z.max a (f i)) l acc)%Z.
Proof. revert acc. induction l as [|x l IH]; intros acc; simpl; [lia|]. specialize (IH (Z.max acc (f x))). lia. Qed.
Lemma fold_max_ge (f : nat -> Z) l acc i : In i l -> (f i <= fold_left (fun a i => Z.max a (f i)) l acc)%Z.
Proof.
  revert acc. induction l as [|x l IH]; intros acc; simpl; [tauto|]. intros [->|H]; auto.
  pose proof (fold_max_mono f l (Z.max acc (f i))). lia.
Qed.
Lemma fold2_mono (f : nat -> nat -> Z) l l' acc :
  (acc <= fold_left (fun a m => fold_left (fun a i => Z.max a (f m i)) l' a) l acc)%Z.
Proof.
  revert acc. induction l as [|m l IH]; intros acc; cbn [fold_left]; [lia|].
  eapply Z.le_trans; [|apply IH]. apply (fold_max_mono (f m)).
Qed.
Lemma fold2_ge (f : nat -> nat -> Z) l l' acc m i : In m l -> In i l' ->
  (f m i <= fold_left (fun a m => fold_left (fun a i => Z.max a (f m i)) l' a) l acc)%Z.
Proof.
  revert acc. induction l as [|m' l IH]; intros acc; [simpl; tauto|]. cbn [fold_left]. intros [->|H] Hi; auto.
  eapply Z.le_trans; [|apply fold2_mono]. apply (fold_max_ge (f m)). auto.
Qed.
Lemma qr_nonneg : (0 <= qr)%Z.
Proof. unfold query_radius. apply fold2_mono. Qed.
Lemma corner_qr m i : m < 2 ^ dim t -> i < dim t -> (Z.abs (corner t bmin c r m i - qc i) <= qr)%Z.
Proof.
  intros Hm Hi. unfold query_radius.
  apply (fold2_ge (fun m i => Z.abs (corner t bmin c r m i - qc i))); apply in_seq; lia.
Qed.
(** the clamped ball lies in the query ball *)
Lemma clamped_ball i x : i < dim t -> (Z.abs (x - c i) <= r)%Z -> (Z.abs (clamp t bmin i x - qc i) <= qr)%Z.
Proof.
  intros Hi Hx.
  assert (P : 0 < 2 ^ dim t) by (assert (2 ^ dim t <> 0) by (apply Nat.pow_nonzero; lia); lia).
  pose proof (corner_qr 0 i P Hi) as C0. unfold corner in C0. rewrite Nat.bits_0 in C0.
  assert (P1 : 2 ^ dim t - 1 < 2 ^ dim t) by lia.
  pose proof (corner_qr (2 ^ dim t - 1) i P1 Hi) as C1. unfold corner in C1.
  assert (TB : Nat.testbit (2 ^ dim t - 1) (dim t - 1 - i) = true).
  { rewrite Nat.sub_1_r, <- Nat.ones_equiv. apply Nat.ones_spec_low. lia. }
  rewrite TB in C1. clear TB. unfold query_center in *.
  pose proof (clamp_mono i (c i + - r) x ltac:(lia)). pose proof (clamp_mono i x (c i + r) ltac:(lia)).
  pose proof (clamp_mono i (c i + - r) (c i) ltac:(lia)). pose proof (clamp_mono i (c i) (c i + r) ltac:(lia)).
  lia.
Qed.

Lemma guide_testbit l a : a < dim t ->
  Nat.testbit (guide_morton t bmin c l) (dim t - 1 - a) = Z.odd (guide_bits t bmin c l a).
Proof.
  intros Ha. unfold guide_morton.
  rewrite (BuildGeom.lor_fold_testbit (fun a => Z.odd (guide_bits t bmin c l a)) (dim t) a Ha).
  - rewrite Nat.bits_0. cbn [orb]. replace (existsb (Nat.eqb a) (seq 0 (dim t))) with true; auto.
    symmetry. apply existsb_exists. exists a. split; [apply in_seq; lia|apply Nat.eqb_refl].
  - apply seq_NoDup.
  - intros x Hx. apply in_seq in Hx. lia.
Qed.
Lemma guide_lt l : guide_morton t bmin c l < nchildren t.
Proof.
  unfold guide_morton, nchildren.
  assert (X : forall ax acc, acc < 2 ^ dim t -> (forall a, In a ax -> a < dim t) ->
    fold_left (fun acc a => Nat.lor acc (Nat.shiftl (if Z.odd (guide_bits t bmin c l a) then 1 else 0)
                                                  (dim t - 1 - a))) ax acc < 2 ^ dim t).
  { induction ax as [|a ax IH]; intros acc Hacc Hax; simpl; auto.
    apply IH; [|intros; apply Hax; right; auto]. apply BuildInv.lor_lt_pow2; auto.
    assert (Ha := Hax a (or_introl eq_refl)).
    assert (P : 2 ^ (dim t - 1 - a) < 2 ^ dim t) by (apply Nat.pow_lt_mono_r; lia).
    destruct (Z.odd _); rewrite Nat.shiftl_mul_pow2; lia. }
  apply X.
  - assert (2 ^ dim t <> 0) by (apply Nat.pow_nonzero; lia). lia.
  - intros a Ha. apply in_seq in Ha. lia.
Qed.

(** the query center lies in the half-open box *)
Definition holds_center (b : nat) : Prop :=
  forall i, i < dim t -> (box_center t b i - box_rad t b <= qc i < box_center t b i + box_rad t b)%Z.
Lemma ext_rad l : l < nlevels t -> root_extent t = (2 ^ Z.of_nat (l + 1) * level_to_rad t l)%Z.
Proof. intros H. rewrite (rad_exact t W l H) at 1. apply Z.mul_comm. Qed.
Lemma root_holds : holds_center 0.
Proof.
  intros i Hi. unfold query_center, clamp, bbox_max. rewrite (BM i Hi).
  pose proof (wf_extent_pos t W) as P. pose proof (wf_level_lt t W 0 (wf_nboxes t W)) as L.
  unfold box_rad. rewrite (wf_root_level t W) in *.
  pose proof (ext_rad 0 L) as E. change (2 ^ Z.of_nat (0 + 1))%Z with 2%Z in E.
  assert (D : (0 <= root_extent t * 10000 / 10001 < root_extent t)%Z).
  { split; [apply Z.div_pos; lia|]. apply Z.div_lt_upper_bound; lia. }
  lia.
Qed.
Lemma child_holds b : b < nboxes t -> holds_center b ->
  box_child t (guide_morton t bmin c (box_level t b)) b <> 0 ->
  holds_center (box_child t (guide_morton t bmin c (box_level t b)) b).
Proof.
  intros Hb HC N i Hi. specialize (HC i Hi).
  destruct (wf_child t W _ b Hb (guide_lt (box_level t b)) N) as [_ [L C]].
  rewrite (C i Hi). unfold morton_sign. rewrite guide_testbit by auto.
  assert (Hc : box_child t (guide_morton t bmin c (box_level t b)) b < nboxes t) by (apply wf_child_lt; auto; apply guide_lt).
  pose proof (wf_level_lt t W _ Hc) as LL.
  set (h := box_child t (guide_morton t bmin c (box_level t b)) b) in *.
  assert (R : box_rad t b = (2 * box_rad t h)%Z).
  { unfold box_rad. rewrite L in *. apply rad_double; auto. }
  pose proof (box_rad_pos t W h Hc) as Pr.
  destruct (grid t W b Hb i Hi) as [g G].
  pose proof (wf_root_level t W) as RL. pose proof (BM i Hi) as B. unfold box_rad in B at 1. rewrite RL in B.
  assert (BITS : guide_bits t bmin c (box_level t b) i = ((qc i - bmin i) / (2 * box_rad t h))%Z).
  { unfold guide_bits. rewrite (ext_rad (box_level t h)) by auto. fold (box_rad t h).
    rewrite L. replace (1 + box_level t b) with (S (box_level t b)) by lia.
    replace (S (box_level t b) + 1) with (S (S (box_level t b))) by lia.
    rewrite (Nat2Z.inj_succ (S (box_level t b))), Z.pow_succ_r by lia.
    set (P := (2 ^ Z.of_nat (S (box_level t b)))%Z).
    assert (HP : (P <> 0)%Z) by (apply Z.pow_nonzero; lia).
    replace (2 * P * box_rad t h)%Z with (P * (2 * box_rad t h))%Z by ring.
    rewrite (Z.mul_comm (qc i - bmin i)). apply Z.div_mul_cancel_l; auto. lia. }
  rewrite BITS. rewrite R in *.
  assert (CASE : ((qc i - bmin i) / (2 * box_rad t h) = 2 * g /\ qc i < box_center t b i \/
                  (qc i - bmin i) / (2 * box_rad t h) = 2 * g + 1 /\ box_center t b i <= qc i)%Z).
  { destruct (Z.lt_ge_cases (qc i) (box_center t b i)) as [C1|C1]; [left|right]; split; auto; symmetry.
    - apply (Z.div_unique_pos _ _ _ (qc i - bmin i - 2 * box_rad t h * (2 * g))%Z); [|ring]. rewrite B. lia.
    - apply (Z.div_unique_pos _ _ _ (qc i - bmin i - 2 * box_rad t h * (2 * g + 1))%Z); [|ring]. rewrite B. lia. }
  destruct CASE as [[-> Q]|[-> Q]].
  - rewrite Z.odd_mul. change (Z.odd 2) with false. cbn [andb]. lia.
  - rewrite Z.odd_add, Z.odd_mul. change (Z.odd 2) with false. change (Z.odd 1) with true. cbn [andb xorb]. lia.
Qed.

Lemma guide_loop_ok fuel : forall b, b < nboxes t -> holds_center b -> (2 * qr <= level_to_rad t 0)%Z ->
  (box_level t b = 0 \/ (qr <= box_rad t b)%Z) -> nlevels t <= fuel + box_level t b ->
  exists g, guide_loop t bmin c r fuel b (box_level t b) = Some g /\ g < nboxes t /\ holds_center g /\ (qr <= box_rad t g)%Z.
Proof.
  induction fuel as [|fuel IH]; intros b Hb HC Q Inv Fu.
  { pose proof (wf_level_lt t W b Hb). lia. }
  pose proof qr_nonneg as Q0.
  assert (Rb : (qr <= box_rad t b)%Z).
  { destruct Inv as [E|]; auto. unfold box_rad. rewrite E. lia. }
  cbn [guide_loop]. rewrite (proj2 (Nat.ltb_lt _ _) Hb). cbn [negb].
  fold (box_rad t b).
  destruct (negb (has_child t b) || ((box_rad t b <? 2 * qr)%Z && (qr <=? box_rad t b)%Z)) eqn:ST.
  { exists b. auto. }
  apply orb_false_iff in ST. destruct ST as [_ ST].
  rewrite (proj2 (Z.leb_le _ _) Rb), andb_true_r in ST. apply Z.ltb_ge in ST.
  destruct (Nat.eqb_spec (box_child t (guide_morton t bmin c (box_level t b)) b) 0) as [|N].
  { exists b. auto. }
  destruct (wf_child t W _ b Hb (guide_lt (box_level t b)) N) as [_ [L _]].
  assert (Hc : box_child t (guide_morton t bmin c (box_level t b)) b < nboxes t) by (apply wf_child_lt; auto; apply guide_lt).
  pose proof (child_holds b Hb HC N) as CH.
  rewrite <- L. apply IH; auto.
  - right. unfold box_rad in *. rewrite L. pose proof (wf_level_lt t W _ Hc) as LL. rewrite L in LL.
    rewrite (rad_double t W) in ST by auto. lia.
  - lia.
Qed.
Lemma guiding_ok : exists g, guiding_box t bmin c r = Some g /\ g < nboxes t /\
  (g = 0 \/ holds_center g /\ (qr <= box_rad t g)%Z).
Proof.
  unfold guiding_box. destruct (Z.leb_spec (2 * qr) (level_to_rad t 0)).
  - destruct (guide_loop_ok (nlevels t) 0 (wf_nboxes t W) root_holds) as [g [G1 [G2 [G3 G4]]]]; auto.
    + left. apply (wf_root_level t W).
    + lia.
    + rewrite (wf_root_level t W) in G1. exists g. auto.
  - exists 0. split; auto. split; [apply (wf_nboxes t W)|auto].
Qed.

(** ** Boxes met by the clamped ball are adjacent to the guiding box *)
Lemma touch_grid a b (x y : nat -> Z) : a < nboxes t -> b < nboxes t -> box_level t b <= box_level t a ->
  in_closed_box t b x ->
  (forall i, i < dim t -> (box_center t a i - box_rad t a <= y i < box_center t a i + box_rad t a)%Z) ->
  (forall i, i < dim t -> (Z.abs (x i - y i) <= box_rad t a)%Z) ->
  adj t a b = true.
Proof.
  intros Ha Hb L X Y D. apply adj_near; auto. intros i Hi. change (Z.of_nat 1) with 1%Z.
  specialize (X i Hi). specialize (Y i Hi). specialize (D i Hi).
  destruct (grid t W a Ha i Hi) as [ga Ga]. destruct (grid t W b Hb i Hi) as [gb Gb].
  assert (E : box_rad t b = (2 ^ Z.of_nat (box_level t a - box_level t b) * box_rad t a)%Z).
  { unfold box_rad. rewrite (rad_pow t W _ (box_level t a - box_level t b)).
    - f_equal. f_equal. lia.
    - pose proof (wf_level_lt t W a Ha). lia. }
  set (k := (2 ^ Z.of_nat (box_level t a - box_level t b))%Z) in *.
  assert (Hk : (1 <= k)%Z) by (assert (0 < k)%Z by (apply Z.pow_pos_nonneg; lia); lia).
  pose proof (box_rad_pos t W a Ha) as P.
  set (o := (box_center t 0 i - level_to_rad t 0)%Z) in *. rewrite Ga, Gb, E in *. set (R := box_rad t a) in *.
  replace (o + (2*ga+1)*R - (o + (2*gb+1)*(k*R)))%Z with (((2*ga+1) - (2*gb+1)*k) * R)%Z by ring.
  replace ((2*(1-1)+1)*R + k*R)%Z with ((1 + k) * R)%Z by ring.
  rewrite Z.abs_mul, (Z.abs_eq R) by lia. apply Z.mul_le_mono_nonneg_r; [lia|].
  (* strictly less than k + 3 in units of R, and of the parity of k + 1 *)
  assert (S1 : (Z.abs ((2*ga+1) - (2*gb+1)*k) * R < (k + 3) * R)%Z).
  { replace R with (Z.abs R) at 1 by lia. rewrite <- Z.abs_mul.
    replace (((2*ga+1) - (2*gb+1)*k) * R)%Z with ((2*ga+1)*R - (2*gb+1)*(k*R))%Z by ring.
    assert (P2 : (0 < R /\ R = box_rad t a)%Z) by (split; auto).
    assert (Z.abs (x i - (o + (2*gb+1)*(k*R))) <= k * R)%Z by auto.
    replace ((k+3)*R)%Z with (k*R + 3*R)%Z by ring. 
    (* |ya - ca| <= R, |x - y| <= R, |x - cb| <= kR *)
    assert (Z.abs ((2*ga+1)*R - (2*gb+1)*(k*R)) <= k * R + 2 * R)%Z by lia. lia. }
  apply Z.mul_lt_mono_pos_r in S1; auto.
  assert (PAR : exists j, ((2*ga+1) - (2*gb+1)*k + (k+1) = 2 * j)%Z) by (exists (ga - gb*k + 1)%Z; ring).
  destruct PAR as [j J]. lia.
Qed.

(** x meets the ball and has a point in the region the centers are clamped to *)
Lemma reached g x : g < nboxes t -> (g = 0 \/ holds_center g /\ (qr <= box_rad t g)%Z) ->
  x < nboxes t -> leaf t x -> ball_meets_box t c r x ->
  (forall i, i < dim t -> (box_center t x i - box_rad t x <= bbox_max t bmin i)%Z) ->
  exists p, p < nboxes t /\ is_peer g p = true /\ below p x = true.
Proof.
  intros Hg G Hx Lf BB U. destruct G as [->|[HC Q]].
  { exists 0. split; auto. split.
    - unfold is_peer. rewrite adj_root, Nat.eqb_refl by auto. auto.
    - unfold below. rewrite (wf_root_level t W), (anc_0 t W x Hx). auto. }
  destruct BB as [y [Y1 Y2]].
  set (z := fun i => clamp t bmin i (y i)).
  assert (ZX : in_closed_box t x z).
  { intros i Hi. specialize (Y1 i Hi). specialize (U i Hi). unfold z, clamp.
    assert (bmin i <= box_center t x i - box_rad t x)%Z; [|lia].
    rewrite (BM i Hi). pose proof (near_anc_self t W 1 x 0 (le_n 1) Hx i Hi) as _.
    destruct (grid t W x Hx i Hi) as [gx Gx]. unfold box_rad at 1. rewrite (wf_root_level t W).
    (* boxes lie inside the root box *)
    assert (IN : forall k, (Z.abs (box_center t (anc t k x) i - box_center t x i) <= box_rad t (anc t k x) - box_rad t x)%Z).
    { intros k. unfold anc. induction (box_level t x - k) as [|j IH]; [change (up t 0 x) with x; lia|].
      change (up t (S j) x) with (box_parent t (up t j x)).
      destruct (Nat.eq_dec (up t j x) 0) as [E|N].
      - rewrite E, (wf_root_parent t W). rewrite E in IH. auto.
      - pose proof (up_lt t W j x Hx) as HU.
        pose proof (parent_center t W (up t j x) i HU ltac:(lia) Hi) as PC.
        pose proof (parent_rad t W (up t j x) HU ltac:(lia)). pose proof (box_rad_pos t W _ HU). lia. }
    specialize (IN 0). rewrite (anc_0 t W x Hx) in IN. unfold box_rad in IN at 1. rewrite (wf_root_level t W) in IN.
    unfold box_rad in *. lia. }
  assert (DZ : forall i, i < dim t -> (Z.abs (z i - qc i) <= box_rad t g)%Z).
  { intros i Hi. pose proof (clamped_ball i (y i) Hi (Y2 i Hi)). unfold z. lia. }
  destruct (Nat.le_gt_cases (box_level t g) (box_level t x)) as [L|L].
  - set (a := anc t (box_level t g) x).
    assert (La : box_level t a = box_level t g) by (apply anc_level; auto).
    assert (Ha : a < nboxes t) by (apply anc_lt; auto).
    exists a. split; auto. split.
    + unfold is_peer. rewrite La, Nat.eqb_refl. rewrite (touch_grid g a z qc); auto; [lia|].
      clear - ZX Hx W. unfold a, anc. induction (box_level t x - box_level t g) as [|j IH]; auto.
      change (up t (S j) x) with (box_parent t (up t j x)).
      destruct (Nat.eq_dec (up t j x) 0) as [E|N].
      * rewrite E, (wf_root_parent t W). rewrite E in IH. auto.
      * intros i Hi. specialize (IH i Hi). pose proof (up_lt t W j x Hx) as HU.
        pose proof (parent_center t W (up t j x) i HU ltac:(lia) Hi) as PC.
        pose proof (parent_rad t W (up t j x) HU ltac:(lia)). lia.
    + unfold below. rewrite La. fold a. rewrite Nat.eqb_refl, (proj2 (Nat.leb_le _ _) L). auto.
  - exists x. split; auto. split.
    + unfold is_peer. rewrite (touch_grid g x z qc) by (auto; lia).
      destruct (Nat.ltb_spec (box_level t x) (box_level t g)); [|lia].
      rewrite leaf_no_adj_child by (auto; apply has_child_leaf; auto). cbn. apply orb_true_r.
    + unfold below. rewrite Nat.leb_refl, anc_self, Nat.eqb_refl. auto.
Qed.

(** ** The leaves found for a ball *)
Lemma leaves_ok : exists g, guiding_box t bmin c r = Some g /\ g < nboxes t /\ (g = 0 \/ holds_center g /\ (qr <= box_rad t g)%Z) /\
  leaves_of_ball t bmin c r all_peers = Some (concat (map aq_list (peer_list g))).
Proof.
  destruct guiding_ok as [g [G1 [G2 G3]]]. exists g. repeat (split; auto).
  unfold leaves_of_ball. rewrite G1, all_peers_read by auto.
  rewrite (run_all_map _ aq_list); auto. intros p Hp. apply aq_peer_ok. eapply peer_in_range; eauto.
Qed.
Lemma leaves_count g x : g < nboxes t -> x < nboxes t ->
  count x (concat (map aq_list (peer_list g))) =
  if negb (has_child t x) && ov x && existsb (fun p => below p x) (peer_list g) then 1 else 0.
Proof.
  intros Hg Hx. rewrite count_concat, map_map.
  assert (E : map (fun p => count x (aq_list p)) (peer_list g) =
              map (fun p => if negb (has_child t x) && ov x && below p x then 1 else 0) (peer_list g)).
  { apply map_ext_in. intros p Hp. apply aq_list_count; auto. apply (peer_in_range g); auto. }
  rewrite E. clear E. destruct (negb (has_child t x) && ov x); cbn [andb].
  2:{ apply nsum_map_0. auto. }
  destruct (existsb (fun p => below p x) (peer_list g)) eqn:EX.
  - apply existsb_exists in EX. destruct EX as [p [Hp Bp]].
    rewrite (nsum_map_single _ _ p); auto.
    + rewrite Bp. auto.
    + apply peer_NoDup; auto.
    + intros q Hq N. destruct (below q x) eqn:Bq; auto. exfalso. apply N.
      unfold below in *. apply andb_true_iff in Bp, Bq. destruct Bp as [L1 A1], Bq as [L2 A2].
      apply Nat.leb_le in L1, L2. apply Nat.eqb_eq in A1, A2.
      apply peer_list_in in Hp, Hq; auto. apply (peers_apart g q p x); tauto.
  - apply nsum_map_0. intros p Hp. destruct (below p x) eqn:B; auto.
    assert (existsb (fun p => below p x) (peer_list g) = true) by (apply existsb_exists; eauto). congruence.
Qed.
Lemma leaves_range g x : g < nboxes t -> In x (concat (map aq_list (peer_list g))) -> x < nboxes t.
Proof.
  intros Hg H. apply in_concat_map in H. destruct H as [p [Hp H]].
  pose proof (peer_in_range _ _ Hg Hp) as Hpr. unfold aq_list in H. destruct (negb _).
  - destruct (ov p); [|destruct H]. destruct H as [<-|[]]. auto.
  - apply dfs_in in H; auto. destruct H as [d [k [H1 [H2 H3]]]]. unfold aq_visit in H3.
    destruct (negb _); [|destruct H3]. cbn [fst] in H3. destruct (ov d); [|destruct H3]. destruct H3 as [<-|[]]. auto.
Qed.
Hypothesis U : forall b, b < nboxes t -> leaf t b -> meets_unstretched t b.
Lemma reach_bbox b : b < nboxes t -> leaf t b -> forall i, i < dim t -> (box_center t b i - box_rad t b <= bbox_max t bmin i)%Z.
Proof.
  intros Hb Lf i Hi. destruct (U b Hb Lf) as [x [X1 X2]]. specialize (X1 i Hi). specialize (X2 i Hi).
  unfold bbox_max. rewrite (BM i Hi).
  assert (x i - (box_center t 0 i - box_rad t 0) <= root_extent t * 10000 / 10001)%Z.
  { apply Z.div_le_lower_bound; lia. }
  lia.
Qed.
Lemma leaves_exact : exists l, leaves_of_ball t bmin c r all_peers = Some l /\ NoDup l /\
  forall x, In x l <-> x < nboxes t /\ leaf t x /\ ball_meets_box t c r x.
Proof.
  destruct leaves_ok as [g [G1 [G2 [G3 G4]]]]. eexists. split; [exact G4|].
  split.
  - apply NoDup_count. intros x. destruct (in_dec Nat.eq_dec x (concat (map aq_list (peer_list g)))) as [Hin|Hni].
    + pose proof (leaves_range _ _ G2 Hin). rewrite leaves_count by auto. destruct (_ && _); lia.
    + apply count_notIn in Hni. lia.
  - intros x. split.
    + intros Hin. pose proof (leaves_range _ _ G2 Hin) as Hx. apply count_In in Hin. rewrite leaves_count in Hin by auto.
      destruct (has_child t x) eqn:HC; [cbn in Hin; lia|]. destruct (ov x) eqn:O; [|cbn in Hin; lia].
      split; auto. split; [apply has_child_leaf; auto|apply ov_spec; auto].
    + intros [Hx [Lf B]]. apply count_In. rewrite leaves_count by auto.
      destruct (reached g x G2 G3 Hx Lf B (reach_bbox x Hx Lf)) as [p [P1 [P2 P3]]].
      assert (H1 : has_child t x = false) by (apply has_child_leaf; auto). rewrite H1.
      assert (H2 : ov x = true) by (apply ov_spec; auto). rewrite H2.
      assert (H3 : existsb (fun p => below p x) (peer_list g) = true).
      { apply existsb_exists. exists p. split; auto. apply peer_list_in; auto. }
      rewrite H3. cbn. lia.
Qed.
End Ball.
End Area.
