(** Area queries on the device compute the lists of AreaQuery.v. *)
From Coq Require Import List Arith ZArith NArith Lia Bool.
From Verif Require Import Base Tree Walk Traversal TraversalLists Tools ToolsFacts SpecArea AreaQuery AreaFacts AreaMore Kernel Device DeviceFacts DeviceRuns
  ListBuilder ListBuilderFacts TravDevice DevTravGen DevTravHost DevTrav SpecDeviceTrav DevTravThm AreaDevice SpecDeviceArea.
Import ListNotations.

Definition no_params : trav_params := {|
  well_sep_is_n_away := 1;
  extents := {| targets_have_extent := false; stick_out_num := 0; stick_out_den := 1; eps_num := 0; eps_den := 1; from_sep_smaller_crit := static_linf;
    tgt_ext_center2 := fun _ _ => 0%Z; tgt_ext_radius2 := fun _ _ => 0%Z; box_source_counts_cumul := fun _ => 0; from_sep_smaller_min_nsources_cumul := 0 |};
  sources_are_targets := false; source_boxes_mask := fun _ => true; source_parent_boxes_mask := fun _ => true; level_start_box_nrs := fun _ => 0 |}.

(** ** The arithmetic depends on the coordinates of the axes only *)
Section Ext.
Variable t : tree.
Variable bmin : nat -> Z.
Variable c c' : nat -> Z.
Hypothesis E : forall i, i < dim t -> c i = c' i.
Lemma query_center_ext i : i < dim t -> query_center t bmin c i = query_center t bmin c' i.
Proof. intros H. unfold query_center. rewrite E; auto. Qed.
Lemma query_radius_ext r : query_radius t bmin c r = query_radius t bmin c' r.
Proof.
  unfold query_radius. generalize 0%Z. induction (seq 0 (2 ^ dim t)) as [|m l IH]; intros acc; cbn [fold_left]; auto.
  rewrite IH. f_equal. apply fold_max_ext. intros i I. apply in_seq in I. unfold corner. rewrite query_center_ext, E by lia. auto.
Qed.
Lemma fold_lor_ext (f g : nat -> nat) l : (forall i, In i l -> f i = g i) -> forall acc,
  fold_left (fun acc i => Nat.lor acc (f i)) l acc = fold_left (fun acc i => Nat.lor acc (g i)) l acc.
Proof.
  induction l as [|i l IH]; intros H acc; cbn [fold_left]; auto. rewrite (H i) by (left; auto). apply IH. intros j J. apply H. right; auto.
Qed.
Lemma guide_morton_ext l : guide_morton t bmin c l = guide_morton t bmin c' l.
Proof.
  unfold guide_morton. apply fold_lor_ext. intros i I. apply in_seq in I. unfold guide_bits. rewrite query_center_ext by lia. auto.
Qed.
End Ext.

Section Area.
Variable t : tree.
Hypothesis W : wf_tree t.
Notation S := (scalars_of t no_params false false).
Notation BK := (boxes_known t no_params false false).
Variable bmin : nat -> Z.

Section Kernels.
Variable K : kn.
Variable F : varr -> Prop.
Hypothesis FB : forall b, F (Base b).
Hypothesis B : BK K.
Notation centers := (center_ok t no_params false false K F FB B).
Notation levels := (level_ok t no_params false false K F FB B).
Notation flagsok := (flags_ok t no_params false false K F FB B).

Lemma childless_flag b : childless (box_flags t b) = negb (has_child t b).
Proof. reflexivity. Qed.
Lemma child_cell m b : m < nchildren t -> b < nboxes t -> cell K (Base BoxChildren) (z m * z (aligned S) + z b) (z (box_child t m b)).
Proof. apply (k_children t no_params false false K B). Qed.

(** area_query.py:393-473 *)
Lemma children_apart_ok i cen lev b next out : i < nboxes t -> b < nboxes t -> (forall a, a < dim t -> cen a = box_center t i a) -> forall slots, (forall m, In m slots -> m < nchildren t) ->
  gok K F (next (forallb (fun m => let nc := box_child t m b in if nc =? 0 then true else negb (is_adj t (box_center t i) (box_level t i) (box_center t nc) lev)) slots)) out ->
  gok K F (children_apart S cen (box_level t i) lev (z b) slots next) out.
Proof.
  intros Hi Hb EC. induction slots as [|m slots IH]; intros HS G; cbn [children_apart forallb] in *; auto.
  eapply (gcell K F); [apply FB|apply child_cell; auto; apply HS; left; auto|]. cbv zeta in *.
  assert (Hc : box_child t m b < nboxes t) by (apply (wf_child_lt t W); auto; apply HS; left; auto). set (nc := box_child t m b) in *. clearbody nc.
  rewrite zeqb0. assert (HS' : forall m', In m' slots -> m' < nchildren t) by (intros; apply HS; right; auto).
  destruct (nc =? 0); cbn [andb] in *; [auto|]. apply centers; auto. intros cc Ecc.
  rewrite (near_is_adj t no_params false false cen cc (box_center t i) (box_center t nc)) by auto.
  destruct (is_adj t (box_center t i) (box_level t i) (box_center t nc) lev); cbn [negb andb] in *; auto.
Qed.
Lemma peer_gen_ok i l : i < nboxes t -> peer_kernel t i = Some l -> gok K F (peer_gen S i) (map (tagged Peers) l).
Proof.
  intros Hi E. unfold peer_gen. apply centers; auto. intros c Ec. unfold peer_kernel in E. rewrite zeqb0.
  destruct (Nat.eqb_spec i 0) as [->|N0]; [injection E as <-; apply gen_put; reflexivity|]. apply levels; auto.
  rewrite <- (app_nil_r (map _ l)).
  refine (walk_room_ok t W no_params false false K F FB B nat (tagged Peers) (peer_visit t i) (aq_max_levels t) _ _ 0 _ l [] _ E); [|reflexivity].
  intros b ssz k out Hb G. rewrite zeqb0. destruct (Nat.eqb_spec b 0) as [->|Nb]; cbn [fst snd map app] in *; auto.
  apply centers; auto. intros cb Eb. rewrite (near_is_adj t no_params false false c cb (box_center t i) (box_center t b)) by auto.
  unfold peer_visit in *. destruct (is_adj t (box_center t i) (box_level t i) (box_center t b) (ssz + 1)); cbn [fst snd map app] in *; auto.
  destruct (ssz + 1 =? box_level t i); cbn [fst snd map app] in *; [apply gen_put; auto|].
  apply flagsok; auto. rewrite childless_flag. destruct (negb (has_child t b)); cbn [fst snd map app] in *; [apply gen_put; auto|].
  apply (children_apart_ok i); auto; [intros m I; apply in_seq in I; exact (proj2 I)|].
  change (nch S) with (nchildren t). cbv zeta in *.
  match goal with |- context [forallb ?p ?l] => destruct (forallb p l) end; cbn [fst snd map app] in *; auto. apply gen_put. auto.
Qed.

(** area_query.py:178-291 *)
Section Ball.
Variable c0 c : nat -> Z.
Variable r : Z.
Hypothesis EC : forall i, i < dim t -> c i = c0 i.
Lemma radius_eq : query_radius (scalar_tree S) bmin c r = query_radius t bmin c0 r.
Proof. exact (query_radius_ext t bmin c c0 EC r). Qed.
Lemma morton_eq l : guide_morton (scalar_tree S) bmin c l = guide_morton t bmin c0 l.
Proof. exact (guide_morton_ext t bmin c c0 EC l). Qed.
Lemma guide_gen_ok fuel : forall b level g next out, guide_loop t bmin c0 r fuel b level = Some g -> gok K F (next (z g)) out ->
  gok K F (guide_gen S bmin c r fuel (z b) level next) out.
Proof.
  induction fuel as [|fuel IH]; intros b level g next out E G; cbn [guide_loop guide_gen] in *; [discriminate|].
  destruct (Nat.ltb_spec b (nboxes t)) as [Hb|Hb]; cbn [negb] in E; [|discriminate].
  apply flagsok; auto. rewrite childless_flag. cbv zeta. rewrite radius_eq, morton_eq.
  change (level_to_rad (scalar_tree S) level) with (level_to_rad t level).
  destruct (negb (has_child t b) || ((level_to_rad t level <? 2 * query_radius t bmin c0 r)%Z && (query_radius t bmin c0 r <=? level_to_rad t level)%Z));
    [injection E as <-; auto|].
  eapply (gcell K F); [apply FB|apply child_cell; auto; apply guide_lt|]. rewrite zeqb0. cbv zeta in E.
  destruct (box_child t (guide_morton t bmin c0 level) b =? 0); [injection E as <-; auto|]. apply (IH _ _ g); auto.
Qed.
Lemma guiding_gen_ok g next out : guiding_box t bmin c0 r = Some g -> gok K F (next (z g)) out -> gok K F (guiding_gen S bmin c r next) out.
Proof.
  intros E G. unfold guiding_gen, guiding_box in *. rewrite radius_eq. change (level_to_rad (scalar_tree S) 0) with (level_to_rad t 0).
  destruct (2 * query_radius t bmin c0 r <=? level_to_rad t 0)%Z; [exact (guide_gen_ok _ 0 0 g _ _ E G)|injection E as <-; exact G].
Qed.

(** area_query.py:295-365 *)
Lemma leaf_gen_ok b next out : b < nboxes t -> gok K F next out ->
  gok K F (leaf_gen S c r (z b) next) (map (tagged Leaves) (if ball_overlap t c0 r b then [b] else []) ++ out).
Proof.
  intros Hb G. unfold leaf_gen. apply centers; auto. intros cb Eb. apply levels; auto.
  change (s_dim S) with (dim t). change (level_to_rad (scalar_tree S) (box_level t b)) with (box_rad t b).
  rewrite (linf_ext (dim t) c c0 cb (box_center t b)) by auto. fold (ball_overlap t c0 r b).
  replace (map (tagged Leaves) (if ball_overlap t c0 r b then [b] else [])) with (if ball_overlap t c0 r b then [(Leaves, z b)] else []) by (destruct (ball_overlap t c0 r b); auto).
  apply put_if_ok. auto.
Qed.
Lemma near_peer_ok peer l next out : aq_peer t c0 r peer = Some l -> gok K F next out ->
  gok K F (near_peer_gen S c r (z peer) next) (map (tagged Leaves) l ++ out).
Proof.
  intros E G. unfold aq_peer in E. destruct (Nat.ltb_spec peer (nboxes t)) as [Hp|]; cbn [negb] in E; [|discriminate].
  unfold near_peer_gen. apply flagsok; auto. rewrite childless_flag. destruct (negb (has_child t peer)).
  - injection E as <-. apply leaf_gen_ok; auto.
  - refine (walk_room_ok t W no_params false false K F FB B nat (tagged Leaves) (aq_visit t c0 r) (aq_max_levels t) _ _ peer _ l out G E).
    intros b ssz k o Hb GK. rewrite zeqb0. destruct (b =? 0); cbn [fst snd map app] in *; auto.
    apply flagsok; auto. rewrite childless_flag. unfold aq_visit in *. destruct (negb (has_child t b)); cbn [fst snd] in *; auto. apply leaf_gen_ok; auto.
Qed.
End Ball.
Lemma leaves_gen_ok i (c0 : nat -> Z) r peers l : F (Starts Peers) -> F (Lists Peers) -> rows_known K Peers peers ->
  (forall a, a < dim t -> cell K (Base (BallCoord a)) (z i) (c0 a)) -> cell K (Base BallRadii) (z i) r ->
  leaves_of_ball t bmin c0 r (csr_of peers) = Some l -> gok K F (leaves_gen S bmin i) (map (tagged Leaves) l).
Proof.
  intros F1 F2 RK CC CR E. unfold leaves_gen.
  refine (gloads_ok K F (seq 0 (dim t)) (fun a => (Base (BallCoord a), z i)) c0 _ _ _ _).
  { intros a I. apply in_seq in I. cbn [fst snd]. split; [apply FB|apply CC; lia]. }
  eapply (gcell K F); [apply FB|exact CR|]. cbv zeta. set (c := fun a => nth a (map c0 (seq 0 (dim t))) 0%Z).
  assert (EC : forall a, a < dim t -> c a = c0 a) by (intros a Ha; unfold c; apply nth_map_seq; auto). clearbody c.
  unfold leaves_of_ball in E. destruct (guiding_box t bmin c0 r) as [g|] eqn:EG; [|discriminate].
  destruct (csr_read (csr_of peers) (z g)) as [ps|] eqn:ER; [|discriminate]. apply csr_read_rows in ER. destruct ER as [Hg ->].
  destruct (run_all (aq_peer t c0 r) (nth g peers [])) as [rows|] eqn:EA; [|discriminate]. cbn [option_map] in E. injection E as <-.
  apply (guiding_gen_ok c0 c r EC g); auto. apply run_all_rows in EA. destruct EA as [h [-> HH]].
  rewrite concat_map, map_map. rewrite <- (app_nil_r (concat _)).
  apply (over_list_ok K F Peers peers g _ (fun p => map (tagged Leaves) (h p))); auto; [|reflexivity].
  intros p nx out I G. apply (near_peer_ok c0 c r EC p (h p)); auto.
Qed.
End Kernels.

(** ** Calls of the list builder *)
Lemma one_list {R} l (K : kn) m g (ll : list (list nat)) (next : (lname -> built_list) -> host varr R) Q : length ll = m ->
  (forall i, i < m -> gok K (vfree [(l, false)]) (g i) (map (tagged l) (nth i ll []))) ->
  (forall K' b, vsame (vfree [(l, false)]) K K' -> rows_known K' l ll -> num_entries (b l) = length (concat ll) -> okv K' (next b) Q) ->
  okv K (build_lists lname_eq [(l, false)] m g next) Q.
Proof.
  intros L G H.
  refine (build_lists_ok tarray lname tarray_eq lname_eq [(l, false)] _ m g (fun i => map (tagged l) (nth i ll [])) K next Q G _).
  { constructor; [intros []|constructor]. }
  intros K' b SM BT. destruct (BT l false (or_introl eq_refl)) as [X1 X2 X3 _]. cbn [kept] in *.
  assert (Y : vrows m (fun i => map (tagged l) (nth i ll [])) l = map (map z) ll) by (apply rows_map; auto; intros i Hi; apply entries_tagged).
  rewrite Y in *. apply H; auto.
  - split.
    + replace (map (@length Z) (map (map z) ll)) with (map (@length nat) ll) in X2; [exact X2|]. rewrite map_map. apply map_ext. intros r. rewrite map_length. auto.
    + rewrite <- concat_map in X3. exact X3.
  - rewrite X1. cbn [num_entries]. rewrite <- concat_map, map_length. auto.
Qed.

(** the arrays of an area query: those of the tree and the balls *)
Definition query_array (a : varr) : Prop := match a with Base (BallCoord _) | Base BallRadii => True | _ => tree_array a end.
Definition balls_known (balls : list ball) (K : kn) : Prop := forall j, j < length balls ->
  (forall a, a < dim t -> cell K (Base (BallCoord a)) (z j) (fst (nth j balls no_ball) a)) /\ cell K (Base BallRadii) (z j) (snd (nth j balls no_ball)).
Lemma balls_same balls (G : varr -> Prop) K K' : vsame G K K' -> (forall a, query_array a -> G a) -> balls_known balls K -> balls_known balls K'.
Proof.
  intros SM Q H j Hj. destruct (H j Hj) as [A C]. split; [intros a Ha|]; apply (same_cell G K K'); auto; apply Q; exact Logic.I.
Qed.
Lemma query_free outs a : query_array a -> vfree outs a.
Proof. destruct a as [[]| | | | | | | | |]; cbn; tauto. Qed.

Definition peer_rows : list (list nat) := map (peer_list t) (seq 0 (nboxes t)).
Lemma peers_step {R} (K : kn) (next : host varr R) Q : BK K ->
  (forall K', vsame (vfree [(Peers, false)]) K K' -> rows_known K' Peers peer_rows -> okv K' next Q) -> okv K (peers_program S next) Q.
Proof.
  intros B H. unfold peers_program. apply (one_list Peers K (nboxes t) _ peer_rows).
  - unfold peer_rows. rewrite map_length, seq_length. auto.
  - intros i Hi. unfold peer_rows. rewrite (nth_map_seq (peer_list t)) by auto. apply (peer_gen_ok K); auto; [intros b; exact Logic.I|apply peer_kernel_ok; auto].
  - intros K' b SM RK _. auto.
Qed.
Lemma query_step {R} (K : kn) given balls rows (next : nat -> host varr R) Q : BK K -> balls_known balls K ->
  (given = true -> rows_known K Peers peer_rows) -> length rows = length balls ->
  (forall j, j < length balls -> leaves_of_ball t bmin (fst (nth j balls no_ball)) (snd (nth j balls no_ball)) (all_peers t) = Some (nth j rows [])) ->
  (forall K', vsame (fun a => vfree [(Peers, false)] a /\ vfree [(Leaves, false)] a) K K' -> rows_known K' Peers peer_rows -> rows_known K' Leaves rows -> okv K' (next (length (concat rows))) Q) ->
  okv K (query_program S bmin given (length balls) next) Q.
Proof.
  intros B BL GV LR E H. unfold query_program.
  assert (STEP : forall K1, vsame (vfree [(Peers, false)]) K K1 -> BK K1 -> balls_known balls K1 -> rows_known K1 Peers peer_rows ->
    okv K1 (build_lists lname_eq [(Leaves, false)] (length balls) (leaves_gen S bmin) (fun b => next (num_entries (b Leaves)))) Q).
  { intros K1 S1 B1 BL1 RK1. apply (one_list Leaves K1 _ _ rows); auto.
    - intros j Hj. destruct (BL1 j Hj) as [C1 C2].
      apply (leaves_gen_ok K1 _ (fun b => Logic.I) B1 j (fst (nth j balls no_ball)) (snd (nth j balls no_ball)) peer_rows); auto; reflexivity.
    - intros K2 b S2 RK2 NE. rewrite NE. apply H; auto.
      + eapply same_trans; [eapply same_less; [|exact S1]|eapply same_less; [|exact S2]]; intros a [X Y]; auto.
      + destruct RK1 as [X Y]. split; apply (same_list tarray lname (vfree [(Leaves, false)]) K1 K2); auto; reflexivity. }
  destruct given.
  - apply STEP; auto. apply same_refl.
  - apply peers_step; auto. intros K1 S1 RK1. apply STEP; auto.
    + apply (boxes_known_same t no_params false false (vfree [(Peers, false)]) K K1); auto. intros a A. apply free_tree. auto.
    + apply (balls_same balls (vfree [(Peers, false)]) K K1); auto. apply query_free.
Qed.

(** ** Expanded starts *)
Lemma bsearch_item_ok (K : kn) (G : varr -> option (nat -> option Z)) arr len v next j : G (Starts Leaves) = None ->
  (forall k, k < len -> cell K (Starts Leaves) (z k) (arr k)) ->
  item_ok K G (next (z j)) -> forall fuel l r, l < r -> r <= len -> (arr l <= v)%Z -> bsearch_loop fuel arr len v l r = Some (Some j) ->
  item_ok K G (bsearch_item fuel len v l r next) /\
  forall a k, stores K (next (z j)) a k -> stores K (bsearch_item fuel len v l r next) a k.
Proof.
  intros GN C O. induction fuel as [|fuel IH]; intros l r L R A E; cbn [bsearch_loop bsearch_item] in *; [discriminate|]. cbv zeta in *.
  assert (D : 2 * ((r - l) / 2) <= r - l < 2 * ((r - l) / 2) + 2).
  { assert (X := Nat.div_mod (r - l) 2 ltac:(lia)). assert (Y := Nat.mod_upper_bound (r - l) 2 ltac:(lia)). lia. }
  set (i := l + (r - l) / 2) in *. assert (I : l <= i < r) by (unfold i; lia). assert (HI : i = l \/ l < i) by lia. clearbody i.
  assert (CI := C i ltac:(lia)).
  destruct (Z.leb_spec (arr i) v) as [C1|C1]; cbn [andb] in E.
  - destruct (Nat.eqb_spec i (len - 1)) as [E1|E1]; cbn [orb] in E.
    { injection E as <-. split; [apply (item_cell K G _ _ (arr i)); auto|intros a k S1; apply (stores_cell K _ _ (arr i)); auto];
      rewrite (proj2 (Z.leb_le _ _) C1); auto. }
    assert (CJ := C (i + 1) ltac:(lia)). replace (z (i + 1)) with (z i + 1)%Z in CJ by lia.
    destruct (Z.ltb_spec v (arr (i + 1))) as [E2|E2].
    { injection E as <-. split; [apply (item_cell K G _ _ (arr i)); auto|intros a k S1; apply (stores_cell K _ _ (arr i)); auto];
      rewrite (proj2 (Z.leb_le _ _) C1); [apply (item_cell K G _ _ (arr (i + 1))); auto|apply (stores_cell K _ _ (arr (i + 1))); auto];
      rewrite (proj2 (Z.ltb_lt _ _) E2); auto. }
    destruct (IH i r) as [X Y]; auto; [lia|].
    split; [apply (item_cell K G _ _ (arr i)); auto|intros a k S1; apply (stores_cell K _ _ (arr i)); auto];
      rewrite (proj2 (Z.leb_le _ _) C1); [apply (item_cell K G _ _ (arr (i + 1))); auto|apply (stores_cell K _ _ (arr (i + 1))); auto];
      rewrite (proj2 (Z.ltb_ge _ _) E2); auto.
  - destruct (IH l i) as [X Y]; auto; [destruct HI as [->|]; lia|lia|].
    split; [apply (item_cell K G _ _ (arr i)); auto|intros a k S1; apply (stores_cell K _ _ (arr i)); auto];
      rewrite (proj2 (Z.leb_gt _ _) C1); auto.
Qed.
Lemma expand_step {R} (K : kn) rows es (next : host varr R) Q : rows_known K Leaves rows -> expand_starts (csr_of rows) = Some es ->
  (forall K', vsame (fun a => a <> Base ExpandedStarts) K K' -> vlist K' (Base ExpandedStarts) (map z es) -> okv K' next Q) ->
  okv K (Alloc (Base ExpandedStarts) (z (length (concat rows))) (Assign (Base ExpandedStarts) 0 (repeat 0%Z (length (concat rows)))
    (Launch (length (concat rows)) (expand_item (length rows + 1)) next))) Q.
Proof.
  intros RK E H. set (n := length (concat rows)) in *. set (res := Base ExpandedStarts : varr).
  apply (ok_alloc varr varr_eq); [lia|]. set (K1 := k_alloc varr varr_eq K res (z n)).
  assert (L1 : len K1 res = Some (z n)) by apply alloc_len.
  apply (ok_assign varr varr_eq K1 res 0 (repeat 0%Z n) (z n)); auto; [rewrite repeat_length; lia|].
  set (K2 := k_assign varr varr_eq K1 res 0 (repeat 0%Z n)).
  assert (S2 : vsame (fun a => a <> res) K K2).
  { eapply same_trans; [|apply same_assign; tauto]. eapply same_trans; [|apply same_alloc; tauto]. apply same_refl. }
  assert (L2 : len K2 res = Some (z n)) by exact L1.
  clearbody K2. clear K1 L1.
  assert (LE := starts_length rows). assert (LS : length (starts (csr_of rows)) = length rows + 1) by (rewrite LE; lia).
  assert (ST : forall k, k < length rows + 1 -> cell K2 (Starts Leaves) (z k) (z (nth k (starts (csr_of rows)) 0))).
  { intros k Hk. apply (same_cell (fun a => a <> res) K K2); auto; [discriminate|]. apply vlist_cell_z; [exact (proj1 RK)|]. rewrite LS. auto. }
  unfold expand_starts in E. cbn [lists csr_of] in E. fold n in E. rewrite LS in E.
  set (arr := fun j => z (nth j (starts (csr_of rows)) 0)) in *.
  set (f := fun i => match bsearch arr (length rows + 1) (z i) with Some (Some j) => Some j | _ => None end).
  assert (FE : run_all f (seq 0 n) = Some es) by exact E.
  assert (LEN : length es = n /\ forall i, i < n -> f i = Some (nth i es 0)).
  { clear - FE. assert (X : forall (l : list nat) r, run_all f l = Some r -> length r = length l /\ forall i, i < length l -> f (nth i l 0) = Some (nth i r 0)).
    { induction l as [|x l IH]; intros r X; cbn [run_all] in X; [injection X as <-; split; auto; cbn; intros; lia|].
      destruct (f x) as [y|] eqn:EX; [|discriminate]. destruct (run_all f l) as [ys|]; [|discriminate]. injection X as <-.
      destruct (IH ys eq_refl) as [A B]. split; [cbn; lia|]. intros [|i] Hi; cbn [nth length] in *; auto. apply B. lia. }
    destruct (X _ _ FE) as [A B]. rewrite seq_length in A, B. split; auto. intros i Hi. specialize (B i Hi). rewrite seq_nth in B by auto. exact B. }
  destruct LEN as [LEN FN].
  assert (IT : forall i, i < n -> item_ok K2 (F_one res (fun k => Some (z (nth k es 0)))) (expand_item (length rows + 1) i) /\ stores K2 (expand_item (length rows + 1) i) res i).
  { intros i Hi. specialize (FN i Hi). unfold f, bsearch in FN. unfold expand_item. cbv zeta.
    assert (A0 := ST 0 ltac:(lia)). change (z 0) with 0%Z in A0 at 1. fold (arr 0) in A0.
    assert (NX : item_ok K2 (F_one res (fun k => Some (z (nth k es 0)))) (Store res (z i) (z (nth i es 0)) Finish)) by (apply (item_one K2 res n); auto; exact Logic.I).
    destruct (Z.ltb_spec (z i) (arr 0)) as [C0|C0].
    - exfalso. discriminate.
    - destruct (bsearch_loop (Datatypes.S (length rows + 1)) arr (length rows + 1) (z i) 0 (length rows + 1)) as [[j|]|] eqn:EB; try discriminate. injection FN as ->.
      destruct (bsearch_item_ok K2 (F_one res (fun k => Some (z (nth k es 0)))) arr (length rows + 1) (z i) (fun j => Store res (z i) j Finish) (nth i es 0)
        ltac:(apply F_one_other; discriminate) ST NX (Datatypes.S (length rows + 1)) 0 (length rows + 1) ltac:(lia) ltac:(lia) C0 EB) as [X Y].
      split; [apply (item_cell K2 _ _ _ (arr 0)); auto|apply (stores_cell K2 _ _ (arr 0)); auto];
        rewrite (proj2 (Z.ltb_ge _ _) C0); auto. apply Y. apply stores_here. }
  apply (launch_one K2 res n (fun k => Some (z (nth k es 0)))); auto.
  - intros i Hi. apply IT. auto.
  - intros k w Hk _. left. exists k. split; auto. apply IT. auto.
  - intros K3 S3 L3 V3. apply H; [eapply same_trans; eauto|]. apply is_list_of; rewrite map_length, LEN; auto.
    intros k Hk. rewrite V3. change 0%Z with (z 0). rewrite map_nth. auto.
Qed.
End Area.

(** ** From the arguments on the device to the lists on the device *)
Lemma boxes_on_device t d : device_has_boxes t d -> boxes_known t no_params false false (all_of d).
Proof.
  intros [A1 A2 A3 A4].
  assert (IX : forall r k : nat, (z ((nboxes t + 31) / 32 * 32) * z r + z k)%Z = z (r * ((nboxes t + 31) / 32 * 32) + k)) by (intros r k; set (st := (nboxes t + 31) / 32 * 32); clearbody st; lia).
  constructor; unfold aligned; cbn [scalars_of s_nboxes].
  - intros a b Ha Hb. rewrite IX. apply (row_cell d _ _ _ _ a b A1); auto.
  - intros b Hb. apply (starts_cell d _ _ _ b A3 Hb).
  - intros m b Hm Hb. rewrite (Z.mul_comm (z m)), IX. apply (row_cell d _ _ _ _ m b A2); auto.
  - intros b Hb. apply (starts_cell d _ _ _ b A4 Hb).
Qed.
Lemma balls_on_device t balls d : device_has_balls t balls d -> balls_known t balls (all_of d).
Proof.
  intros [A B] j Hj. split; [intros a Ha; exact (starts_cell d _ _ _ j (A a Ha) Hj)|exact (starts_cell d _ _ _ j B Hj)].
Qed.
Lemma peer_rows_csr t : all_peers t = csr_of (peer_rows t).
Proof. reflexivity. Qed.

Theorem peers_on_device t d : wf_tree t -> device_has_boxes t d ->
  safe varr varr_eq (peers_program (query_scalars t) (Ret tt)) d /\
  forall r d', completes varr varr_eq (peers_program (query_scalars t) (Ret tt)) d r d' -> exists peers, find_peers t = Some peers /\ lists_are d' Peers peers.
Proof.
  intros W D.
  refine (peers_step t W (all_of d) (Ret tt) (fun _ d' => exists peers, find_peers t = Some peers /\ lists_are d' Peers peers) (boxes_on_device t d D) _ d (all_agrees d)).
  intros K' _ RK. apply ok_ret. intros d' A'. exists (all_peers t). split; [apply find_peers_ok; auto|]. rewrite peer_rows_csr. apply (rows_lists K'); auto.
Qed.
(** [given]: the device holds peer lists already *)
Definition given_peers (t : tree) (given : bool) (d : device varr) : Prop := given = true -> exists peers, find_peers t = Some peers /\ lists_are d Peers peers.
Lemma given_known t given d : wf_tree t -> given_peers t given d -> given = true -> rows_known (all_of d) Peers (peer_rows t).
Proof.
  intros W G E. destruct (G E) as [peers [F L]]. rewrite (find_peers_ok t W) in F. injection F as <-. apply lists_rows. rewrite <- peer_rows_csr. auto.
Qed.
Theorem query_on_device t bmin balls given d : wf_tree t -> lower_corner t bmin -> device_has_boxes t d -> device_has_balls t balls d -> given_peers t given d ->
  safe varr varr_eq (area_query_program (query_scalars t) bmin given (length balls)) d /\
  forall r d', completes varr varr_eq (area_query_program (query_scalars t) bmin given (length balls)) d r d' ->
    exists aq, area_query t bmin balls = Some aq /\ r = length (lists aq) /\ lists_are d' Leaves aq.
Proof.
  intros W BM D DB G. destruct (area_query_rows t W bmin BM balls) as [rows [LR [E N]]].
  refine (query_step t W bmin (all_of d) given balls rows (fun n => Ret n) (fun r d' => exists aq, area_query t bmin balls = Some aq /\ r = length (lists aq) /\ lists_are d' Leaves aq)
    (boxes_on_device t d D) (balls_on_device t balls d DB) (given_known t given d W G) LR N _ d (all_agrees d)).
  intros K' _ _ RK. apply ok_ret. intros d' A'. exists (csr_of rows). split; [auto|]. split; [reflexivity|]. apply (rows_lists K'); auto.
Qed.
Theorem expand_on_device t bmin balls given d : wf_tree t -> lower_corner t bmin -> device_has_boxes t d -> device_has_balls t balls d -> given_peers t given d ->
  safe varr varr_eq (expand_program (query_scalars t) bmin given (length balls)) d /\
  forall r d', completes varr varr_eq (expand_program (query_scalars t) bmin given (length balls)) d r d' ->
    exists aq es, area_query t bmin balls = Some aq /\ expand_starts aq = Some es /\ r = length (lists aq) /\ lists_are d' Leaves aq /\ array_is d' (Base ExpandedStarts) es.
Proof.
  intros W BM D DB G. destruct (area_query_rows t W bmin BM balls) as [rows [LR [E N]]]. assert (EX := expand_ok rows).
  refine (query_step t W bmin (all_of d) given balls rows _ (fun r d' => exists aq es, area_query t bmin balls = Some aq /\ expand_starts aq = Some es /\
      r = length (lists aq) /\ lists_are d' Leaves aq /\ array_is d' (Base ExpandedStarts) es)
    (boxes_on_device t d D) (balls_on_device t balls d DB) (given_known t given d W G) LR N _ d (all_agrees d)).
  intros K1 _ _ RK. rewrite <- LR. apply (expand_step bmin K1 rows (owners rows)); auto. intros K' S' VL. apply ok_ret. intros d' A'.
  exists (csr_of rows), (owners rows). split; [auto|]. split; [auto|]. split; [reflexivity|]. split; [|apply (vlist_array K'); auto].
  apply (rows_lists K'); auto. destruct RK as [X Y]. split; apply (same_list tarray lname (fun a => a <> Base ExpandedStarts) K1 K'); auto; discriminate.
Qed.

(** ** The entries read off the device are those of the lists *)
Lemma slice_nth (l : list nat) : forall n s, s + n <= length l -> firstn n (skipn s l) = map (fun k => nth k l 0) (seq s n).
Proof.
  induction n as [|n IH]; intros s H; cbn [seq map firstn]; auto.
  rewrite <- IH by lia. clear IH. revert s H. induction l as [|x l IHl]; intros s H; cbn [length] in H; [lia|].
  destruct s as [|s]; [reflexivity|]. cbn [skipn nth]. apply IHl. lia.
Qed.
Lemma entries_of_lists d l ll j : lists_are d l (csr_of ll) -> j < length ll -> entries_of d l j = csr_get (csr_of ll) j.
Proof.
  intros [[S1 S2] [L1 L2]] Hj. assert (SL := starts_length ll). unfold entries_of, csr_get. rewrite !S2 by lia. rewrite !Nat2Z.id. replace (j + 1) with (S j) by lia.
  rewrite !starts_nth by lia. assert (TT := total_S ll j Hj). assert (TL := total_mono ll (S j) (length ll) ltac:(lia) (le_n _)). rewrite total_all in TL.
  rewrite slice_nth by (cbn [lists csr_of]; lia). apply map_ext_in. intros k I. apply in_seq in I. rewrite L2 by (cbn [lists csr_of]; lia). apply Nat2Z.id.
Qed.
Lemma query_entries t bmin balls aq d : wf_tree t -> lower_corner t bmin -> area_query t bmin balls = Some aq -> lists_are d Leaves aq ->
  forall j, j < length balls -> entries_of d Leaves j = csr_get aq j.
Proof.
  intros W BM E L j Hj. destruct (area_query_rows t W bmin BM balls) as [rows [LR [E' _]]]. rewrite E in E'. injection E' as ->. apply entries_of_lists; auto. lia.
Qed.
Lemma peer_entries t peers d : wf_tree t -> find_peers t = Some peers -> lists_are d Peers peers ->
  forall b, b < nboxes t -> entries_of d Peers b = csr_get peers b.
Proof.
  intros W E L b Hb. rewrite (find_peers_ok t W) in E. injection E as <-. apply (entries_of_lists d Peers (peer_rows t)); auto.
  unfold peer_rows. rewrite map_length, seq_length. auto.
Qed.
