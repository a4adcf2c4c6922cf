(** Permuted particles, the tables of children and centers, and the box info kernel on the
    device (BuildDeviceEnd.v). *)
From Coq Require Import List Arith ZArith NArith Lia Bool Permutation.
From Verif Require Import Base Tree Walk Traversal Fmm SpecFmm TreeBuild ArrayFacts Kernel Device DeviceRules DeviceFacts BuildDevice
  BuildDeviceEnd BuildInv BuildPrune BuildSplit BuildFinish BuildView DevMorton DevTake DevPrune DevSplit.
Import ListNotations.

(** ** Launches in which work item [i] touches arrays that are stored to only at [i] *)
Section Own.
Variable arr : Type.
Variable arr_eq : forall a b : arr, {a = b} + {a <> b}.
Notation known := (Device.known arr).
(** [w]: something has been stored *)
Fixpoint own_ok (K : known) (F : arr -> option (nat -> option Z)) (i : nat) (w : bool) (p : item arr) : Prop :=
  match p with
  | Finish => True
  | Load a k next => exists m v, len K a = Some m /\ (0 <= k < m)%Z /\ val K a (Z.to_nat k) = Some v /\
                       (F a = None \/ (k = z i /\ w = false)) /\ own_ok K F i w (next v)
  | Store a k v next => exists m f, len K a = Some m /\ k = z i /\ (0 <= k < m)%Z /\ F a = Some f /\ f i = Some v /\
                       own_ok K F i true next
  end.
Lemma own_evals K F i w p : own_ok K F i w p -> evals K p (touches_of K p).
Proof.
  revert w. induction p as [|a k next IH|a k v next IH]; intros w; cbn [own_ok touches_of]; [constructor| |].
  - intros [m [v [L [B [V [_ O]]]]]]. rewrite V. rewrite <- (Z2Nat.id k) at 1 by lia.
    apply (ev_load arr K a (Z.to_nat k) m v); auto; [lia|]. eapply IH; eauto.
  - intros [m [f [L [_ [B [_ [_ O]]]]]]]. rewrite <- (Z2Nat.id k) at 1 by lia.
    apply (ev_store arr K a (Z.to_nat k) m v); auto; [lia|]. eapply IH; eauto.
Qed.
Lemma own_get K F i w p a k : own_ok K F i w p -> In (Get a k) (touches_of K p) -> F a = None \/ (k = i /\ w = false).
Proof.
  revert w. induction p as [|a' k' next IH|a' k' v next IH]; intros w; cbn [own_ok touches_of]; [contradiction| |].
  - intros [m [v [L [B [V [N O]]]]]]. rewrite V. intros [E|I]; [|apply (IH v w); auto].
    injection E as <- <-. destruct N as [N|[-> N]]; auto. right. rewrite Nat2Z.id. auto.
  - intros [m [f [L [_ [B [_ [_ O]]]]]]] [E|I]; [discriminate|]. destruct (IH true O I) as [N|[_ N]]; [auto|discriminate].
Qed.
Lemma own_put K F i w p a k v : own_ok K F i w p -> In (Put a k v) (touches_of K p) -> k = i /\ exists f, F a = Some f /\ f k = Some v.
Proof.
  revert w. induction p as [|a' k' next IH|a' k' u next IH]; intros w; cbn [own_ok touches_of]; [contradiction| |].
  - intros [m [u [L [B [V [N O]]]]]]. rewrite V. intros [E|I]; [discriminate|]. apply (IH u w); auto.
  - intros [m [f [L [E0 [B [E1 [E2 O]]]]]]] [E|I]; [|apply (IH true); auto]. injection E as -> <- ->. subst k'. rewrite Nat2Z.id.
    split; eauto.
Qed.
Lemma own_order K F i w p : own_ok K F i w p -> forall x y a k v, touches_of K p = x ++ Get a k :: y -> ~ In (Put a k v) x.
Proof.
  revert w. induction p as [|a' k' next IH|a' k' u next IH]; intros w; cbn [own_ok touches_of]; intros O x y a k v E P.
  - destruct x; discriminate.
  - destruct O as [m [u [L [B [V [N O]]]]]]. rewrite V in E. destruct x as [|t x]; [destruct P|]. injection E as <- E.
    destruct P as [P|P]; [discriminate|]. apply (IH u w O x y a k v); auto.
  - destruct O as [m [f [L [E0 [B [E1 [E2 O]]]]]]]. destruct x as [|t x]; [destruct P|]. injection E as <- E.
    destruct P as [P|P]; [|apply (IH true O x y a k v); auto]. injection P as -> _ _.
    assert (G : In (Get a k) (touches_of K next)) by (rewrite E; apply in_or_app; right; left; auto).
    destruct (own_get K F i true next a k O G) as [N|[_ N]]; [congruence|discriminate].
Qed.
Lemma ok_launch_index {R} K n code F (next : host arr R) Q :
  (forall i, i < n -> own_ok K F i false (code i)) ->
  (forall a f m k w, F a = Some f -> len K a = Some m -> (z k < m)%Z -> f k = Some w ->
     (exists i, i < n /\ stores K (code i) a k) \/ val K a k = Some w) ->
  ok arr arr_eq (upd K F) next Q -> ok arr arr_eq K (Launch n code next) Q.
Proof.
  intros IT CO O. apply ok_launch_own with (F := F) (T := fun i => touches_of K (code i)); auto.
  - intros i Hi. apply (own_evals K F i false). auto.
  - intros i j a k v Hi Hj N P G. destruct (own_put K F i false _ a k v (IT i Hi) P) as [-> [f [E _]]].
    destruct (own_get K F j false _ a i (IT j Hj) G) as [C|[C _]]; [congruence|auto].
  - intros i x y a k v Hi E. apply (own_order K F i false _ (IT i Hi) x y a k v E).
  - intros i a k v Hi P. apply (own_put K F i false _ a k v (IT i Hi) P).
  - intros a f m k w E L B V. destruct (CO a f m k w E L B V) as [[i [Hi S]]|]; auto. left.
    destruct (stores_touch arr K _ a k S) as [v P]. exists i, v. auto.
Qed.
Lemma own_load K F i w a k next m n f : has K a m n f -> k < n -> F a = None \/ (k = i /\ w = false) -> own_ok K F i w (next (f k)) ->
  own_ok K F i w (Load a (z k) next).
Proof.
  intros [A B C] Hk N O. exists (z m), (f k). split; auto. split; [lia|]. rewrite Nat2Z.id. split; auto. split; auto.
  destruct N as [N|[-> N]]; auto.
Qed.
Lemma own_store K F i w a v next m f : len K a = Some (z m) -> i < m -> F a = Some f -> f i = Some v ->
  own_ok K F i true next -> own_ok K F i w (Store a (z i) v next).
Proof. intros L B E V O. exists (z m), f. split; auto. split; auto. split; [lia|]. auto. Qed.
End Own.
Arguments own_ok {arr}.
Ltac ld H ::= first [apply (item_load _ _ _ _ _ _ _ _ _ H)|apply (stores_load _ _ _ _ _ _ _ _ _ _ H)|apply (own_load _ _ _ _ _ _ _ _ _ _ _ H)].

(** ** Arrays per axis *)
Section Axes.
Variable inp : input.
Notation np := (npart inp).
Lemma in_axes a : In a (axes inp) <-> a < idim inp.
Proof. unfold axes. rewrite in_seq. lia. Qed.
Lemma allocs_ok {R} (to : nat -> parray) m K (next : host parray R) Q :
  (forall a b, to a = to b -> a = b) ->
  (forall K', keeps (fun x => exists a, x = to a) K K' -> (forall a, a < idim inp -> len K' (to a) = Some (z m)) -> okp K' next Q) ->
  okp K (each (axes inp) (fun a nx => Alloc (to a) (z m) nx) next) Q.
Proof.
  intros INJ O. apply ok_each_inv with (Inv := fun l K' => keeps (fun x => exists a, x = to a) K K' /\
    forall a, a < idim inp -> ~ In a l -> len K' (to a) = Some (z m)).
  - split; [apply keeps_refl|]. intros a Ha N. destruct N. apply in_axes. auto.
  - intros a l K' nx _ [KE L] C. apply ok_alloc; [lia|]. apply C. split.
    + eapply keeps_trans; [exact KE|]. apply keeps_alloc. eauto.
    + intros b Hb N. cbn [k_alloc len]. destruct (parray_eq (to b) (to a)) as [E|NE]; auto. apply L; auto.
      intros [->|I]; auto.
  - intros K' [KE L]. apply O; auto.
Qed.
Lemma permute_ok {R} (to : nat -> parray) (axis_of : parray -> option nat) ids idf m K (next : host parray R) Q :
  (forall a, axis_of (to a) = Some a) -> (forall x a, axis_of x = Some a -> x = to a) -> axis_of ids = None -> (forall a, axis_of (Kept a) = None) ->
  has K ids m m (fun k => z (idf k)) -> (forall k, k < m -> idf k < np) ->
  (forall a, a < idim inp -> has K (Kept (Coords a)) np np (fun u => coord inp u a)) ->
  (forall a, a < idim inp -> len K (to a) = Some (z m)) ->
  (forall K', keeps (fun x => exists a, x = to a) K K' ->
     (forall a, a < idim inp -> has K' (to a) m m (fun k => coord inp (idf k) a)) -> okp K' next Q) ->
  okp K (Launch m (permute_item inp ids to) next) Q.
Proof.
  intros A1 A2 A3 A4 HI BI HC HL O.
  set (F := fun x => match axis_of x with Some a => if a <? idim inp then Some (fun k => Some (coord inp (idf k) a)) else None | None => None end).
  assert (FT : forall a, a < idim inp -> F (to a) = Some (fun k => Some (coord inp (idf k) a))).
  { intros a Ha. unfold F. rewrite A1. destruct (Nat.ltb_spec a (idim inp)); [auto|lia]. }
  apply ok_launch_items with (F := F).
  - intros i Hi. unfold permute_item. ld HI; auto; [unfold F; rewrite A3; auto|].
    apply item_for_each; [|exact Logic.I]. intros a nx Ia N. apply in_axes in Ia. assert (H := HC a Ia).
    ld H; [apply BI; auto|unfold F; rewrite A4; auto|]. apply item_store with (m := m) (f := fun k => Some (coord inp (idf k) a)); auto.
  - intros x f c k w E L B V. left. unfold F in E. destruct (axis_of x) as [a|] eqn:AX; [|discriminate].
    destruct (Nat.ltb_spec a (idim inp)) as [Ha|]; [|discriminate]. apply A2 in AX. subst x. rewrite (HL a Ha) in L. injection L as <-.
    exists k. split; [lia|]. unfold permute_item. ld HI; [lia|]. apply stores_for_each with (x := a); [apply in_axes; auto| |].
    + intros nx. assert (H := HC a Ha). ld H; [apply BI; lia|]. apply stores_here.
    + intros b nx Ib S. apply in_axes in Ib. assert (H := HC b Ib). ld H; [apply BI; lia|]. apply stores_later. auto.
  - apply O.
    + apply keeps_upd. intros x N. unfold F. destruct (axis_of x) as [a|] eqn:AX; auto. destruct N. exists a. auto.
    + intros a Ha. eapply has_upd_some; [apply FT; auto|apply HL; auto|auto|auto].
Qed.
Lemma radii_ok {R} (ids to : parray) idf m K (next : host parray R) Q : ids <> to -> to <> Kept Radii ->
  has K ids m m (fun k => z (idf k)) -> (forall k, k < m -> idf k < np) -> has K (Kept Radii) np np (rad_of inp) ->
  (forall K', keeps (fun x => x = to) K K' -> has K' to m m (fun k => rad_of inp (idf k)) -> okp K' next Q) ->
  okp K (Alloc to (z m) (Launch m (radii_item ids to) next)) Q.
Proof.
  intros N1 N2 HI BI HR O. apply ok_alloc; [lia|]. set (K1 := k_alloc _ _ K to (z m)).
  assert (HI1 : has K1 ids m m (fun k => z (idf k))) by (apply has_alloc_other; auto).
  assert (HR1 : has K1 (Kept Radii) np np (rad_of inp)) by (apply has_alloc_other; auto).
  apply launch_only with (a := to) (m := m) (f := fun k => rad_of inp (idf k)) (cov := m); auto.
  - unfold K1. cbn [k_alloc len]. destruct (parray_eq to to); auto. contradiction.
  - intros i Hi. unfold radii_item. ld HI1; auto; [apply only_other; auto|]. ld HR1; [apply BI; auto|apply only_other; auto|].
    apply item_store with (m := m) (f := fun k => Some (rad_of inp (idf k))); auto; [|apply only_same|exact Logic.I].
    unfold K1. cbn [k_alloc len]. destruct (parray_eq to to); auto. contradiction.
  - intros k Hk. left. exists k. split; auto. unfold radii_item. ld HI1; auto. ld HR1; [apply BI; auto|]. apply stores_here.
  - intros K2 KE H. apply O; auto. eapply keeps_trans; [apply keeps_alloc|exact KE]. auto.
Qed.

(** ** Rows of a table *)
Definition table (al n : nat) (v : nat -> nat -> Z) (k : nat) : Z := if k mod al <? n then v (k / al) (k mod al) else 0%Z.
Lemma table_at al n v r b : b < n -> n <= al -> table al n v (r * al + b) = v r b.
Proof.
  intros Hb L. unfold table. rewrite Nat.add_comm, Nat.mod_add, Nat.div_add, Nat.mod_small, Nat.div_small by lia.
  destruct (Nat.ltb_spec b n); [auto|lia].
Qed.
Lemma rows_ok {R} (T : parray) (A : nat -> parray) rows n al (rm : nat) (v : nat -> nat -> Z) K (next : host parray R) Q :
  (forall r, A r <> T) -> 0 < n -> n <= al -> has K T (rows * al) (rows * al) (fun _ => 0%Z) ->
  (forall r, r < rows -> has K (A r) rm n (v r)) ->
  (forall K', keeps (fun x => x = T) K K' -> has K' T (rows * al) (rows * al) (table al n v) -> okp K' next Q) ->
  okp K (each (seq 0 rows) (fun r nx => Launch n (row_item (A r) T r al) nx) next) Q.
Proof.
  intros NE NP NL HT HA O.
  apply ok_each_inv with (Inv := fun l K' => keeps (fun x => x = T) K K' /\
    has K' T (rows * al) (rows * al) (fun k => if k / al <? rows - length l then table al n v k else 0%Z)).
  - split; [apply keeps_refl|]. rewrite seq_length, Nat.sub_diag. apply (has_ext _ _ _ _ _ _ _ HT). auto.
  - intros r l K' nx [l0 E] [KE H] C. destruct (seq_parts _ _ _ _ E) as [-> EL]. cbn [length] in H.
    replace (rows - S (length l)) with (length l0) in H by lia.
    assert (HA' : has K' (A (length l0)) rm n (v (length l0))) by (apply KE; auto; apply HA; lia).
    apply launch_only with (a := T) (m := rows * al) (cov := rows * al)
      (f := fun k => if k / al <? rows - length l then table al n v k else 0%Z); auto; [apply H| | |].
    + intros i Hi. unfold row_item. ld HA'; auto; [apply only_other; auto|].
      apply item_store with (m := rows * al) (f := fun k => Some (if k / al <? rows - length l then table al n v k else 0%Z)); auto;
        [apply H|nia|apply only_same| |exact Logic.I].
      f_equal. replace ((length l0 * al + i) / al) with (length l0) by (rewrite Nat.add_comm, Nat.div_add, Nat.div_small by lia; auto).
      destruct (Nat.ltb_spec (length l0) (rows - length l)); [|lia]. apply table_at; auto.
    + intros k Hk. assert (DM := Nat.div_mod k al ltac:(lia)). assert (MB := Nat.mod_upper_bound k al ltac:(lia)).
      destruct (Nat.eq_dec (k / al) (length l0)) as [E0|N0].
      * destruct (Nat.lt_ge_cases (k mod al) n) as [Hm|Hm].
        -- left. exists (k mod al). split; auto. unfold row_item. ld HA'; auto.
           replace (length l0 * al + k mod al) with k by (rewrite <- E0; lia). apply stores_here.
        -- right. destruct H as [_ _ HV]. rewrite HV by auto. f_equal. rewrite E0. rewrite (proj2 (Nat.ltb_ge _ _)) by lia.
           rewrite (proj2 (Nat.ltb_lt _ _)) by lia. unfold table. rewrite (proj2 (Nat.ltb_ge _ _)) by lia. auto.
      * right. destruct H as [_ _ HV]. rewrite HV by auto. f_equal.
        destruct (Nat.ltb_spec (k / al) (length l0)), (Nat.ltb_spec (k / al) (rows - length l)); auto; lia.
    + intros K2 KE2 H2. apply C. split; auto. eapply keeps_trans; eauto.
  - intros K' [KE H]. apply O; auto. apply (has_ext _ _ _ _ _ _ _ H). intros k Hk. cbn [length].
    rewrite (proj2 (Nat.ltb_lt _ _)); auto. apply Nat.div_lt_upper_bound; lia.
Qed.
End Axes.

Lemma zmask_nat a b m f : b <= a -> zmask (z a - z b) m f = mask_if (negb (a - b =? 0)) m f.
Proof.
  intros H. unfold zmask, mask_if. replace (z a - z b)%Z with (z (a - b)) by lia. rewrite z_eqb0. destruct (a - b =? 0); auto.
Qed.
Lemma zmask_nat0 a m f : zmask (z a) m f = mask_if (negb (a =? 0)) m f.
Proof. unfold zmask, mask_if. rewrite z_eqb0. destruct (a =? 0); auto. Qed.

(** ** Particles that stay in their box, for boxes marked as having children: a leading part of
    the particles in the range of the box, whether or not the box has been split *)
Section Stay.
Variable inp : input.
Variable ps : pstate.
Variable q : nat -> list nat.
Variable sp : nat -> bool.
Hypothesis P : pinv inp ps q sp.
Hypothesis NS : nsrc inp <= npart inp.
Hypothesis SAME : same inp = true -> nsrc inp = npart inp.
Hypothesis EXT : have_extent inp = true -> same inp = false.
Notation np := (npart inp).
Notation n := (p_nboxes ps).
Notation start := (p_start ps).
Notation cumul := (p_cumul ps).
Notation R := (the_split inp ps).
Notation isS := (is_source_particle inp ps).
Notation isT := (is_target_particle inp ps).
Notation own := (own inp q sp).
Lemma stay x : x < n -> exists k, k <= own x /\ forall (val : nat -> nat),
  scatter (map (fun i => (p_box ps i, val i)) (filter (last_nonchild ps) (seq 0 np))) (fun _ => 0) x = if k =? 0 then 0 else val (start x + k - 1).
Proof.
  intros Hx. set (c := p_nonchild ps x). exists (if c <=? own x then c else 0). assert (OL := own_le inp ps q sp P x Hx).
  split; [destruct (Nat.leb_spec c (own x)); lia|]. intros val.
  assert (W : forall v, In (x, v) (map (fun i => (p_box ps i, val i)) (filter (last_nonchild ps) (seq 0 np))) <-> 0 < c <= own x /\ v = val (start x + c - 1)).
  { intros v. rewrite in_map_iff. split.
    - intros [i [E Hi]]. assert (E1 := f_equal fst E). assert (E2 := f_equal snd E). cbn [fst snd] in E1, E2. clear E. apply filter_In in Hi. destruct Hi as [Hi C]. apply in_seq in Hi.
      unfold last_nonchild in C. rewrite E1 in C. fold c in C. apply Nat.eqb_eq in C.
      apply (own_range inp ps q sp P x i Hx ltac:(lia)) in E1. split; [lia|]. rewrite <- E2. f_equal. lia.
    - intros [C ->]. assert (NP := pi_range_np _ _ _ _ P x Hx ltac:(lia)).
      assert (B : p_box ps (start x + c - 1) = x) by (apply (own_range inp ps q sp P); auto; lia).
      exists (start x + c - 1). split; [rewrite B; auto|]. apply filter_In. split; [apply in_seq; lia|].
      unfold last_nonchild. rewrite B. fold c. apply Nat.eqb_eq. lia. }
  destruct (Nat.leb_spec c (own x)) as [C|C]; [destruct (Nat.eqb_spec c 0) as [E|E]|].
  - apply scatter_notin. intros v Hv. apply W in Hv. lia.
  - apply scatter_in_eq; [apply W; split; auto; lia|]. intros v Hv. apply W in Hv. tauto.
  - apply scatter_notin. intros v Hv. apply W in Hv. lia.
Qed.
Lemma stay_counts x : x < n -> exists k, k <= cumul x /\
  nonchild_source_count inp R x = cntr (src_pos inp ps) (start x) (start x + k) /\ nonchild_target_count inp R x = cntr (tgt_pos inp ps) (start x) (start x + k).
Proof.
  intros Hx. unfold nonchild_source_count, nonchild_target_count. assert (OL := own_le inp ps q sp P x Hx).
  destruct (have_extent inp) eqn:HE; [|exists 0; split; [lia|]; rewrite Nat.add_0_r, !cntr_empty by auto; auto].
  assert (SM := EXT eq_refl). destruct (stay x Hx) as [k [Hk ST]]. exists k. split; [lia|].
  unfold the_split, src_pos, tgt_pos. rewrite SM. cbn [orb split_particles sp_source_nonchild sp_target_nonchild].
  rewrite (ST (fun i => source_numbers inp ps i + (if isS i then 1 else 0) - source_numbers inp ps (start (p_box ps i)))).
  rewrite (ST (fun i => i - source_numbers inp ps i + 1 - (if isS i then 1 else 0) - (start (p_box ps i) - source_numbers inp ps (start (p_box ps i))))).
  destruct (Nat.eqb_spec k 0) as [E|E]; [rewrite E, Nat.add_0_r, !cntr_empty by auto; auto|].
  assert (X := pi_range_np _ _ _ _ P x Hx ltac:(lia)).
  assert (B : p_box ps (start x + k - 1) = x) by (apply (own_range inp ps q sp P); auto; lia). rewrite B.
  rewrite !source_numbers_eq by lia. change (cntr (fun i => isS i)) with (cntr isS). change (cntr (fun i => isT i)) with (cntr isT). split.
  - rewrite <- cnt_S. replace (S (start x + k - 1)) with (start x + k) by lia. rewrite (cnt_cntr isS (start x)) by lia. lia.
  - rewrite <- !cnt_complement. assert (Z := cnt_S isT (start x + k - 1)). replace (S (start x + k - 1)) with (start x + k) in Z by lia.
    rewrite isT_S in Z. rewrite (cnt_cntr isT (start x)) in Z by lia. destruct (isS (start x + k - 1)); cbn [negb] in Z; lia.
Qed.
(** ... and so for every box *)
Lemma stay_info x : x < n -> exists k k', k <= cumul x /\ k' <= cumul x /\
  info_source_nonchild inp ps R x = cntr (src_pos inp ps) (start x) (start x + k) /\ info_target_nonchild inp ps R x = cntr (tgt_pos inp ps) (start x) (start x + k').
Proof.
  intros Hx. unfold info_source_nonchild, info_target_nonchild. rewrite !kernel_map_lt by auto.
  destruct (p_has_children ps x); [destruct (stay_counts x Hx) as [k [Hk [A B]]]; exists k, k; auto|].
  exists (cumul x), (cumul x). rewrite <- (fin_source_cumul inp ps q sp), <- (fin_target_cumul inp ps q sp) by auto. split; [auto|]. split; [auto|].
  assert (FC := fin_source_cumul inp ps q sp P NS SAME x Hx). assert (FT := fin_target_cumul inp ps q sp P NS SAME x Hx).
  destruct (same inp) eqn:SM.
  - unfold the_split. rewrite SM. auto.
  - split; auto. rewrite FC, FT. assert (X := src_tgt_sum inp ps (start x) (start x + cumul x) SM). lia.
Qed.
End Stay.

Section Info.
Variable inp : input.
Variable ps : pstate.
Variable q : nat -> list nat.
Variable sp : nat -> bool.
Variable room : nat.
Hypothesis P : pinv inp ps q sp.
Hypothesis NS : nsrc inp <= npart inp.
Hypothesis SAME : same inp = true -> nsrc inp = npart inp.
Hypothesis EXT : have_extent inp = true -> same inp = false.
Notation np := (npart inp).
Notation nch := (nchild inp).
Notation n := (p_nboxes ps).
Notation start := (p_start ps).
Notation cumul := (p_cumul ps).
Notation R := (the_split inp ps).
Notation ntgt := (ntgt inp).
Notation al := (aligned_nboxes (p_nboxes ps)).
Notation split_facts := (split_facts inp ps room).

Definition kept_or_split (x : parray) : Prop :=
  match x with
  | Kept _ | Nonchild | SourceIds | TargetIds | SortedTargets | SourceStarts | SourceCounts | SourceNonchild
  | TargetStarts | TargetCounts | TargetNonchild => True
  | _ => False
  end.
Lemma split_facts_keep (W : parray -> Prop) K K' : keeps W K K' -> (forall x, kept_or_split x -> ~ W x) -> split_facts K -> split_facts K'.
Proof.
  intros KE N B. destruct B as [B H1 H2 H3 H4 H5 H6 H7 H8 H9].
  assert (B' : box_facts inp ps room K') by (apply (box_facts_keep _ _ _ W K K' KE); auto; [intros a|]; apply N; exact Logic.I).
  constructor; auto; intros; apply KE; auto; apply N; named_arrays; destruct (same inp); exact Logic.I.
Qed.

(** ** Permuted particles *)
Record point_facts (K : knownp) : Prop := {
  tf_split : split_facts K;
  tf_src : forall a, a < idim inp -> has K (Sources a) (nsrc inp) (nsrc inp) (fun k => coord inp (sp_source_ids R k) a);
  tf_tgt : forall a, a < idim inp -> has K (target_points inp a) ntgt ntgt (fun k => coord inp (sp_target_ids R k) a);
  tf_srad : have_extent inp = true -> has K SourceRadii (nsrc inp) (nsrc inp) (fun k => rad_of inp (sp_source_ids R k));
  tf_trad : have_extent inp = true -> has K TargetRadii ntgt ntgt (fun k => rad_of inp (sp_target_ids R k))
}.
Definition kept_or_points (x : parray) : Prop :=
  kept_or_split x \/ match x with Sources _ | Targets _ | SourceRadii | TargetRadii => True | _ => False end.
Lemma point_facts_keep (W : parray -> Prop) K K' : keeps W K K' -> (forall x, kept_or_points x -> ~ W x) -> point_facts K -> point_facts K'.
Proof.
  intros KE N B. destruct B as [B H1 H2 H3 H4].
  assert (B' : split_facts K') by (apply (split_facts_keep W K K' KE); auto; intros x Hx; apply N; left; auto).
  constructor; auto; intros; apply KE; auto; apply N; right; named_arrays; try destruct (same inp); exact Logic.I.
Qed.
Lemma sids_lt k : k < nsrc inp -> sp_source_ids R k < np.
Proof.
  intros Hk. destruct (source_position inp ps q sp P NS SAME k Hk) as [i [Hi [_ [_ ->]]]]. apply (BuildSplit.user_lt inp ps q sp P); auto.
Qed.
Lemma tids_lt k : k < ntgt -> sp_target_ids R k < np.
Proof.
  intros Hk. destruct (target_position inp ps q sp P NS SAME k Hk) as [i [Hi [_ [_ ->]]]]. apply (BuildSplit.user_lt inp ps q sp P); auto.
Qed.
Definition axis_of_source (x : parray) : option nat := match x with Sources a => Some a | _ => None end.
Definition axis_of_target (x : parray) : option nat := match x with Targets a => Some a | _ => None end.
Lemma points_ok {Res} K (next : host parray Res) Q : split_facts K -> (forall K', point_facts K' -> okp K' next Q) ->
  okp K (permute_program inp next) Q.
Proof.
  intros B O. unfold permute_program. apply allocs_ok; [intros a b E; congruence|]. intros K1 KE1 L1.
  assert (B1 : split_facts K1) by (apply (split_facts_keep _ _ _ KE1); auto; intros x Hx [a ->]; destruct Hx). clear K KE1 B.
  apply (permute_ok inp Sources axis_of_source _ (sp_source_ids R)); auto.
  { intros x a E. destruct x; try discriminate. injection E as ->. auto. }
  { unfold source_ids. destruct (same inp); auto. }
  { apply (sf_sids _ _ _ _ B1). }
  { exact sids_lt. }
  { apply (bf_coords _ _ _ _ (sf_box _ _ _ _ B1)). }
  intros K2 KE2 HS. assert (B2 : split_facts K2) by (apply (split_facts_keep _ _ _ KE2); auto; intros x Hx [a ->]; destruct Hx). clear K1 KE2 B1 L1.
  assert (CA : {same inp = true} + {same inp = false}) by (destruct (same inp); auto). destruct CA as [SM|SM]; rewrite SM.
  - apply O. assert (NT : ntgt = nsrc inp) by (unfold BuildFinish.ntgt; rewrite SM, SAME; auto).
    assert (NE : have_extent inp = true -> False) by (intros HE; specialize (EXT HE); congruence).
    constructor; auto; [|intros HE; destruct (NE HE)|intros HE; destruct (NE HE)].
    intros a Ha. unfold target_points. rewrite SM, NT. apply (has_ext _ _ _ _ _ _ _ (HS a Ha)). intros k _.
    unfold the_split. rewrite SM. reflexivity.
  - assert (NT : ntgt = np - nsrc inp) by (unfold BuildFinish.ntgt; rewrite SM; auto).
    apply allocs_ok; [intros a b E; congruence|]. intros K3 KE3 L3.
    assert (B3 : split_facts K3) by (apply (split_facts_keep _ _ _ KE3); auto; intros x Hx [a ->]; destruct Hx).
    assert (HS3 : forall a, a < idim inp -> has K3 (Sources a) (nsrc inp) (nsrc inp) (fun k => coord inp (sp_source_ids R k) a)).
    { intros a Ha. apply KE3; auto. intros [b E]. discriminate. }
    clear K2 KE3 B2 HS. rewrite <- NT in L3 |- *.
    apply (permute_ok inp Targets axis_of_target _ (sp_target_ids R)); auto.
    { intros x a E. destruct x; try discriminate. injection E as ->. auto. }
    { unfold target_ids. rewrite SM. auto. }
    { apply (sf_tids _ _ _ _ B3). }
    { exact tids_lt. }
    { apply (bf_coords _ _ _ _ (sf_box _ _ _ _ B3)). }
    intros K4 KE4 HT. assert (B4 : split_facts K4) by (apply (split_facts_keep _ _ _ KE4); auto; intros x Hx [a ->]; destruct Hx).
    assert (HS4 : forall a, a < idim inp -> has K4 (Sources a) (nsrc inp) (nsrc inp) (fun k => coord inp (sp_source_ids R k) a)).
    { intros a Ha. apply KE4; auto. intros [b E]. discriminate. }
    clear K3 KE4 B3 HS3 L3.
    assert (CE : {have_extent inp = true} + {have_extent inp = false}) by (destruct (have_extent inp); auto).
    destruct CE as [HE|HE]; rewrite HE.
    + apply (radii_ok inp _ _ (sp_source_ids R)); auto.
      { unfold source_ids. rewrite SM. discriminate. }
      { discriminate. }
      { apply (sf_sids _ _ _ _ B4). }
      { exact sids_lt. }
      { apply (bf_radii _ _ _ _ (sf_box _ _ _ _ B4)); auto. }
      intros K5 KE5 HR. assert (B5 : split_facts K5) by (apply (split_facts_keep _ _ _ KE5); auto; intros x Hx ->; destruct Hx).
      assert (HS5 : forall a, a < idim inp -> has K5 (Sources a) (nsrc inp) (nsrc inp) (fun k => coord inp (sp_source_ids R k) a))
        by (intros a Ha; apply KE5; auto; discriminate).
      assert (HT5 : forall a, a < idim inp -> has K5 (Targets a) ntgt ntgt (fun k => coord inp (sp_target_ids R k) a))
        by (intros a Ha; apply KE5; auto; discriminate).
      apply (radii_ok inp _ _ (sp_target_ids R)); auto.
      { unfold target_ids. rewrite SM. discriminate. }
      { discriminate. }
      { apply (sf_tids _ _ _ _ B5). }
      { exact tids_lt. }
      { apply (bf_radii _ _ _ _ (sf_box _ _ _ _ B5)); auto. }
      intros K6 KE6 HR6. apply O. constructor.
      * apply (split_facts_keep _ _ _ KE6); auto; intros x Hx ->; destruct Hx.
      * intros a Ha. apply KE6; auto. discriminate.
      * intros a Ha. unfold target_points. rewrite SM. apply KE6; auto. discriminate.
      * intros _. apply KE6; auto. discriminate.
      * auto.
    + apply O. constructor; auto; [|congruence|congruence]. intros a Ha. unfold target_points. rewrite SM. auto.
Qed.

(** ** Tables *)
Record table_facts (K : knownp) : Prop := {
  gf_points : point_facts K;
  gf_child : has K ChildTable (nch * al) (nch * al) (table al n (fun m b => z (p_child ps m b)));
  gf_center : has K CenterTable (idim inp * al) (idim inp * al) (table al n (fun a b => p_center ps b a))
}.
Definition kept_or_tables (x : parray) : Prop := kept_or_points x \/ x = ChildTable \/ x = CenterTable.
Lemma table_facts_keep (W : parray -> Prop) K K' : keeps W K K' -> (forall x, kept_or_tables x -> ~ W x) -> table_facts K -> table_facts K'.
Proof.
  intros KE N B. destruct B as [B H1 H2].
  assert (B' : point_facts K') by (apply (point_facts_keep W K K' KE); auto; intros x Hx; apply N; left; auto).
  constructor; auto; intros; apply KE; auto; apply N; right; auto.
Qed.
Lemma n_aligned : n <= al.
Proof.
  unfold aligned_nboxes. assert (X := Nat.div_mod (n + 31) 32 ltac:(lia)). assert (Y := Nat.mod_upper_bound (n + 31) 32 ltac:(lia)). lia.
Qed.
Ltac keep_facts := let x := fresh in let Hx := fresh in let E := fresh in
  intros x Hx E; cbn beta in E; decompose [or ex and] E; subst x; unfold kept_or_tables, kept_or_points, kept_or_split in Hx;
  decompose [or] Hx; try contradiction; discriminate.
Lemma tables_ok {Res} K (next : host parray Res) Q : point_facts K -> (forall K', table_facts K' -> okp K' next Q) ->
  okp K (gather_program inp n next) Q.
Proof.
  intros B O. unfold gather_program. assert (NA := n_aligned). assert (NP := pi_pos _ _ _ _ P).
  apply ok_alloc; [lia|]. apply ok_alloc; [lia|]. set (K1 := k_alloc _ _ _ CenterTable _).
  assert (KE : keeps (fun x => x = ChildTable \/ x = CenterTable) K K1) by (unfold K1; eapply keeps_trans; apply keeps_alloc; auto).
  assert (B1 : point_facts K1) by (apply (point_facts_keep _ _ _ KE); auto; keep_facts).
  assert (T1 : has K1 ChildTable (nch * al) (nch * al) (fun _ => 0%Z)).
  { unfold K1. apply has_alloc_other; [discriminate|]. apply has_alloc_same; auto. }
  assert (T2 : has K1 CenterTable (idim inp * al) (idim inp * al) (fun _ => 0%Z)) by (apply has_alloc_same; auto).
  clearbody K1. clear K KE B.
  apply (rows_ok ChildTable (fun m => Kept (Children m)) nch n al room (fun m b => z (p_child ps m b))); auto; [discriminate| |].
  { intros m Hm. apply (bf_child _ _ _ _ (sf_box _ _ _ _ (tf_split _ B1))). auto. }
  intros K2 KE H1. assert (B2 : point_facts K2) by (apply (point_facts_keep _ _ _ KE); auto; keep_facts).
  assert (T2' : has K2 CenterTable (idim inp * al) (idim inp * al) (fun _ => 0%Z)) by (apply KE; auto; discriminate).
  apply (rows_ok CenterTable (fun a => Kept (Centers a)) (idim inp) n al room (fun a b => p_center ps b a)); auto; [discriminate| |].
  { intros a Ha. apply (bf_center _ _ _ _ (sf_box _ _ _ _ (tf_split _ B2))). auto. }
  intros K3 KE3 H2. apply O. constructor; auto.
  - apply (point_facts_keep _ _ _ KE3); auto; keep_facts.
  - apply KE3; auto. discriminate.
Qed.

(** ** Box info *)
Notation snc := (info_source_nonchild inp ps R).
Notation tnc := (info_target_nonchild inp ps R).
Notation flags := (info_flags inp ps R).
Lemma counts_le x : x < n -> sp_source_cumul R x <= cumul x.
Proof.
  intros Hx. rewrite (fin_source_cumul inp ps q sp) by auto.
  assert (X := cntr_le (src_pos inp ps) (start x) (start x + cumul x)). lia.
Qed.
Lemma nonchild_le x : x < n -> p_has_children ps x = true ->
  nonchild_source_count inp R x <= sp_source_cumul R x /\ nonchild_target_count inp R x <= sp_target_cumul R x.
Proof.
  intros Hx _. destruct (stay_counts inp ps q sp P NS SAME EXT x Hx) as [k [Hk [-> ->]]].
  rewrite (fin_source_cumul inp ps q sp), (fin_target_cumul inp ps q sp) by auto.
  rewrite (cntr_split (src_pos inp ps) (start x) (start x + k) (start x + cumul x)) by lia.
  rewrite (cntr_split (tgt_pos inp ps) (start x) (start x + k) (start x + cumul x)) by lia. lia.
Qed.
Record info_facts (K : knownp) : Prop := {
  nf_box : box_facts inp ps room K;
  nf_sids : has K (source_ids inp) (nsrc inp) (nsrc inp) (fun i => z (sp_source_ids R i));
  nf_sorted : has K SortedTargets ntgt ntgt (fun i => z (sp_sorted_target_ids R i));
  nf_sstart : has K (source_starts inp) (part_room inp ps room) n (fun b => z (sp_source_starts R b));
  nf_scount : has K (source_counts inp) (part_room inp ps room) n (fun b => z (sp_source_cumul R b));
  nf_tstart : has K (target_starts inp) (part_room inp ps room) n (fun b => z (sp_target_starts R b));
  nf_tcount : has K (target_counts inp) (part_room inp ps room) n (fun b => z (sp_target_cumul R b));
  nf_src : forall a, a < idim inp -> has K (Sources a) (nsrc inp) (nsrc inp) (fun k => coord inp (sp_source_ids R k) a);
  nf_tgt : forall a, a < idim inp -> has K (target_points inp a) ntgt ntgt (fun k => coord inp (sp_target_ids R k) a);
  nf_srad : have_extent inp = true -> has K SourceRadii (nsrc inp) (nsrc inp) (fun k => rad_of inp (sp_source_ids R k));
  nf_trad : have_extent inp = true -> has K TargetRadii ntgt ntgt (fun k => rad_of inp (sp_target_ids R k));
  nf_child : has K ChildTable (nch * al) (nch * al) (table al n (fun m b => z (p_child ps m b)));
  nf_center : has K CenterTable (idim inp * al) (idim inp * al) (table al n (fun a b => p_center ps b a));
  nf_flags : has K Flags n n (fun b => Z.of_N (flags b));
  nf_snc : has K (source_nonchild) n n (fun b => z (snc b));
  nf_tnc : has K (target_nonchild inp) n n (fun b => z (tnc b))
}.
Definition info_after (x : parray) : option (nat -> option Z) :=
  match x with
  | Flags => Some (fun k => Some (Z.of_N (flags k)))
  | SourceNonchild => Some (fun k => Some (z (snc k)))
  | TargetNonchild => if same inp then None else Some (fun k => Some (z (tnc k)))
  | _ => None
  end.
Lemma same_snc_tnc b : same inp = true -> tnc b = snc b.
Proof.
  intros SM. assert (HE : have_extent inp = false) by (destruct (have_extent inp); auto; specialize (EXT eq_refl); congruence).
  unfold info_target_nonchild, info_source_nonchild, nonchild_source_count, nonchild_target_count. rewrite SM, HE. auto.
Qed.
Section Launch.
Variable K : knownp.
Hypothesis G : table_facts K.
Hypothesis HF : has K Flags n n (fun _ => 0%Z).
Hypothesis HSN : has K SourceNonchild n n (fun b => z (nonchild_source_count inp R b)).
Hypothesis HTN : same inp = false -> has K TargetNonchild n n (fun b => z (nonchild_target_count inp R b)).
Notation code := (info_item inp (source_counts inp) (target_counts inp) source_nonchild (target_nonchild inp)).
Lemma info_item_ok i : i < n -> own_ok K info_after i false (code i).
Proof.
  intros Hi. assert (B := sf_box _ _ _ _ (tf_split _ (gf_points _ G))).
  assert (HC := bf_cumul _ _ _ _ B). assert (HM := bf_marks _ _ _ _ B).
  assert (HSC := sf_scount _ _ _ _ (tf_split _ (gf_points _ G))). assert (HTC := sf_tcount _ _ _ _ (tf_split _ (gf_points _ G))).
  assert (FS : info_after (source_counts inp) = None) by (unfold source_counts; destruct (same inp); auto).
  assert (FT : info_after (target_counts inp) = None) by (unfold target_counts; destruct (same inp); auto).
  assert (CL := counts_le i Hi). assert (NL := nonchild_le i Hi).
  unfold info_item. ld HC; auto.
  assert (REST : own_ok K info_after i false (
    (fun ns nt => Load (Kept HasChildren) (z i) (fun has =>
     if (has =? 0)%Z then
       if same inp then
         Store source_nonchild (z i) (z (cumul i)) (
         Store Flags (z i) (Z.of_N (zmask (z (cumul i)) (N.lor IS_SOURCE_BOX IS_TARGET_BOX) 0)) Finish)
       else
         Load (source_counts inp) (z i) (fun sc =>
         Store source_nonchild (z i) sc (
         Store (target_nonchild inp) (z i) (z (cumul i) - sc)%Z (
         Store Flags (z i) (Z.of_N (zmask (z (cumul i) - sc) IS_TARGET_BOX (zmask sc IS_SOURCE_BOX 0))) Finish)))
     else
       let f0 := HAS_SOURCE_OR_TARGET_CHILD_BOXES in
       let own f := zmask nt IS_TARGET_BOX (zmask ns IS_SOURCE_BOX f) in
       if same inp then
         Store Flags (z i) (Z.of_N (own (zmask (z (cumul i) - (ns + nt)) HAS_SOURCE_OR_TARGET_CHILD_BOXES f0))) Finish
       else
         Load (source_counts inp) (z i) (fun sc =>
         Load (target_counts inp) (z i) (fun tc =>
         Store Flags (z i)
           (Z.of_N (own (zmask (tc - nt) HAS_TARGET_CHILD_BOXES (zmask (sc - ns) HAS_SOURCE_CHILD_BOXES f0)))) Finish))))
      (z (nonchild_source_count inp R i)) (z (nonchild_target_count inp R i)))).
  { cbv beta. ld HM; auto. cbv zeta.
    destruct (p_has_children ps i) eqn:CH; cbn [bool_z Z.eqb].
    - specialize (NL eq_refl). destruct NL as [NL1 NL2].
      destruct (same inp) eqn:SM.
      + assert (HE : have_extent inp = false) by (destruct (have_extent inp); auto).
        apply own_store with (m := n) (f := fun k => Some (Z.of_N (flags k))); auto; [apply HF| |exact Logic.I].
        unfold info_flags. rewrite kernel_map_lt by auto. rewrite CH, SM. f_equal. f_equal.
        assert (Z1 : nonchild_source_count inp R i = 0) by (unfold nonchild_source_count; rewrite HE; auto).
        assert (Z2 : nonchild_target_count inp R i = 0) by (unfold nonchild_target_count; rewrite HE; auto). rewrite Z1, Z2.
        rewrite !zmask_nat0. rewrite <- (zmask_nat (cumul i) (0 + 0)) by lia. reflexivity.
      + ld HSC; auto. ld HTC; auto. apply own_store with (m := n) (f := fun k => Some (Z.of_N (flags k))); auto; [apply HF| |exact Logic.I].
        unfold info_flags. rewrite kernel_map_lt by auto. rewrite CH, SM. f_equal. f_equal.
        rewrite !zmask_nat0, !zmask_nat by auto. reflexivity.
    - destruct (same inp) eqn:SM.
      + apply own_store with (m := n) (f := fun k => Some (z (snc k))); auto; [apply HSN| |].
        * unfold info_source_nonchild. rewrite kernel_map_lt by auto. rewrite CH, SM. auto.
        * apply own_store with (m := n) (f := fun k => Some (Z.of_N (flags k))); auto; [apply HF| |exact Logic.I].
          unfold info_flags. rewrite kernel_map_lt by auto. rewrite CH, SM. rewrite zmask_nat0. auto.
      + ld HSC; auto. apply own_store with (m := n) (f := fun k => Some (z (snc k))); auto; [apply HSN| |].
        * unfold info_source_nonchild. rewrite kernel_map_lt by auto. rewrite CH, SM. auto.
        * unfold target_nonchild. rewrite SM. apply own_store with (m := n) (f := fun k => Some (z (tnc k))); auto.
          -- apply HTN; auto.
          -- cbn [info_after]. rewrite SM. auto.
          -- unfold info_target_nonchild. rewrite kernel_map_lt by auto. rewrite CH, SM. f_equal. lia.
          -- apply own_store with (m := n) (f := fun k => Some (Z.of_N (flags k))); auto; [apply HF| |exact Logic.I].
             unfold info_flags. rewrite kernel_map_lt by auto. rewrite CH, SM. rewrite zmask_nat by auto. rewrite zmask_nat0. auto. }
  cbv beta in REST |- *.
  assert (CE : {have_extent inp = true} + {have_extent inp = false}) by (destruct (have_extent inp); auto).
  destruct CE as [HE|HE]; rewrite HE.
  - assert (SM := EXT HE). assert (HTN' := HTN SM). unfold source_nonchild at 1. ld HSN; auto. unfold target_nonchild at 1. rewrite SM. ld HTN'; auto.
    unfold target_nonchild in REST. rewrite SM in REST. unfold target_nonchild. rewrite SM. exact REST.
  - assert (Z1 : nonchild_source_count inp R i = 0) by (unfold nonchild_source_count; rewrite HE; auto).
    assert (Z2 : nonchild_target_count inp R i = 0) by (unfold nonchild_target_count; rewrite HE; auto). rewrite Z1, Z2 in REST. exact REST.
Qed.
Lemma info_stores k a : k < n ->
  a = Flags \/ (p_has_children ps k = false /\ (a = SourceNonchild \/ (same inp = false /\ a = TargetNonchild))) -> stores K (code k) a k.
Proof.
  intros Hi A. assert (B := sf_box _ _ _ _ (tf_split _ (gf_points _ G))).
  assert (HC := bf_cumul _ _ _ _ B). assert (HM := bf_marks _ _ _ _ B).
  assert (HSC := sf_scount _ _ _ _ (tf_split _ (gf_points _ G))). assert (HTC := sf_tcount _ _ _ _ (tf_split _ (gf_points _ G))).
  unfold info_item. ld HC; auto.
  assert (REST : forall ns nt, stores K (Load (Kept HasChildren) (z k) (fun has =>
     if (has =? 0)%Z then
       if same inp then
         Store source_nonchild (z k) (z (cumul k)) (
         Store Flags (z k) (Z.of_N (zmask (z (cumul k)) (N.lor IS_SOURCE_BOX IS_TARGET_BOX) 0)) Finish)
       else
         Load (source_counts inp) (z k) (fun sc =>
         Store source_nonchild (z k) sc (
         Store (target_nonchild inp) (z k) (z (cumul k) - sc)%Z (
         Store Flags (z k) (Z.of_N (zmask (z (cumul k) - sc) IS_TARGET_BOX (zmask sc IS_SOURCE_BOX 0))) Finish)))
     else
       let f0 := HAS_SOURCE_OR_TARGET_CHILD_BOXES in
       let own f := zmask nt IS_TARGET_BOX (zmask ns IS_SOURCE_BOX f) in
       if same inp then
         Store Flags (z k) (Z.of_N (own (zmask (z (cumul k) - (ns + nt)) HAS_SOURCE_OR_TARGET_CHILD_BOXES f0))) Finish
       else
         Load (source_counts inp) (z k) (fun sc =>
         Load (target_counts inp) (z k) (fun tc =>
         Store Flags (z k)
           (Z.of_N (own (zmask (tc - nt) HAS_TARGET_CHILD_BOXES (zmask (sc - ns) HAS_SOURCE_CHILD_BOXES f0)))) Finish)))) a k).
  { intros ns nt. ld HM; auto. cbv zeta.
    destruct (p_has_children ps k) eqn:CH; cbn [bool_z Z.eqb].
    - destruct A as [->|[A _]]; [|discriminate].
      destruct (same inp) eqn:SM; [apply stores_here|]. ld HSC; auto. ld HTC; auto. apply stores_here.
    - destruct (same inp) eqn:SM.
      + destruct A as [->|[_ [->|[A _]]]]; [apply stores_later, stores_here|apply stores_here|discriminate].
      + ld HSC; auto. unfold target_nonchild. rewrite SM.
        destruct A as [->|[_ [->|[_ ->]]]]; [apply stores_later, stores_later, stores_here|apply stores_here|apply stores_later, stores_here]. }
  assert (CE : {have_extent inp = true} + {have_extent inp = false}) by (destruct (have_extent inp); auto).
  destruct CE as [HE|HE]; rewrite HE; [|apply REST].
  assert (SM := EXT HE). assert (HTN' := HTN SM). unfold source_nonchild at 1. ld HSN; auto.
  unfold target_nonchild at 1. rewrite SM. ld HTN'; auto. specialize (REST (z (nonchild_source_count inp R k)) (z (nonchild_target_count inp R k))).
  rewrite SM in REST. exact REST.
Qed.
Lemma info_launch {Res} (next : host parray Res) Q : okp (upd K info_after) next Q -> okp K (Launch n code next) Q.
Proof.
  intros O. apply ok_launch_index with (F := info_after); auto; [exact info_item_ok|].
  intros a f m k w E L Hk V. destruct a; try discriminate E; cbn [info_after] in E.
  - injection E as <-. injection V as V. assert (Hn : k < n) by (destruct HSN as [A _ _]; rewrite A in L; injection L as <-; lia).
    destruct (p_has_children ps k) eqn:CH; [right|left; exists k; split; auto; apply info_stores; auto].
    destruct HSN as [_ _ A]. rewrite A by auto. rewrite <- V. f_equal. f_equal. unfold info_source_nonchild. rewrite kernel_map_lt, CH by auto. auto.
  - assert (SM : same inp = false) by (destruct (same inp); [discriminate|auto]). assert (HT := HTN SM). rewrite SM in E. injection E as <-. injection V as V.
    assert (Hn : k < n) by (destruct HT as [A _ _]; rewrite A in L; injection L as <-; lia).
    destruct (p_has_children ps k) eqn:CH; [right|left; exists k; split; auto; apply info_stores; auto].
    destruct HT as [_ _ A]. rewrite A by auto. rewrite <- V. f_equal. f_equal. unfold info_target_nonchild. rewrite kernel_map_lt, CH by auto. auto.
  - assert (Hn : k < n) by (destruct HF as [A _ _]; rewrite A in L; injection L as <-; lia). left. exists k. split; auto.
    apply info_stores; auto.
Qed.
End Launch.
Lemma info_ok {Res} K (next : host parray Res) Q : table_facts K -> (forall K', info_facts K' -> okp K' next Q) ->
  okp K (info_program inp n next) Q.
Proof.
  intros G O. unfold info_program. apply ok_alloc; [lia|]. set (K1 := k_alloc _ _ K Flags (z n)).
  assert (KE : keeps (fun x => x = Flags) K K1) by (apply keeps_alloc; auto).
  assert (G1 : table_facts K1) by (apply (table_facts_keep _ _ _ KE); auto; keep_facts).
  assert (HF : has K1 Flags n n (fun _ => 0%Z)) by (apply has_alloc_same; auto). clearbody K1. clear K KE G.
  assert (FIN : forall K, box_facts inp ps room K -> table_facts K -> has K Flags n n (fun _ => 0%Z) ->
    has K SourceNonchild n n (fun b => z (nonchild_source_count inp R b)) ->
    (same inp = false -> has K TargetNonchild n n (fun b => z (nonchild_target_count inp R b))) ->
    okp K (Launch n (info_item inp (source_counts inp) (target_counts inp) source_nonchild (target_nonchild inp)) next) Q).
  { intros K B G HF0 HSN HTN. apply info_launch; auto. apply O.
    assert (KE : keeps (fun x => x = Flags \/ x = SourceNonchild \/ x = TargetNonchild) K (upd K info_after)).
    { apply keeps_upd. intros b Hb. destruct b; auto; exfalso; apply Hb; auto. }
    destruct G as [T GC GX]. destruct T as [S TS TT TR1 TR2]. destruct S as [SB S1 S2 S3 S4 S5 S6 S7 S8 S9].
    constructor; try (intros; apply KE; [not_written|auto]).
    - apply (box_facts_keep _ _ _ _ _ _ KE); auto; [intros a|]; not_written.
    - eapply has_upd_some; [reflexivity|apply HF0|auto|auto].
    - eapply has_upd_some; [reflexivity|apply HSN|auto|auto].
    - unfold target_nonchild. assert (CA : {same inp = true} + {same inp = false}) by (destruct (same inp); auto). destruct CA as [SM|SM]; rewrite SM.
      + eapply has_upd_some; [reflexivity|apply HSN|auto|]. intros k Hk. cbv beta. rewrite (same_snc_tnc k SM). auto.
      + eapply has_upd_some; [cbn [info_after]; rewrite SM; reflexivity|apply (HTN SM)|auto|auto]. }
  assert (CE : {have_extent inp = true} + {have_extent inp = false}) by (destruct (have_extent inp); auto).
  destruct CE as [HE|HE]; rewrite HE.
  - apply FIN; auto.
    + apply (sf_box _ _ _ _ (tf_split _ (gf_points _ G1))).
    + apply (has_ext _ _ _ _ _ _ _ (sf_snc _ _ _ _ (tf_split _ (gf_points _ G1)) HE)). intros k _. unfold nonchild_source_count. rewrite HE. auto.
    + intros _. apply (has_ext _ _ _ _ _ _ _ (sf_tnc _ _ _ _ (tf_split _ (gf_points _ G1)) HE)). intros k _. unfold nonchild_target_count. rewrite HE. auto.
  - assert (Z1 : forall b, nonchild_source_count inp R b = 0) by (intros; unfold nonchild_source_count; rewrite HE; auto).
    assert (Z2 : forall b, nonchild_target_count inp R b = 0) by (intros; unfold nonchild_target_count; rewrite HE; auto).
    apply ok_alloc; [lia|]. set (K2 := k_alloc _ _ K1 SourceNonchild (z n)).
    assert (KE : keeps (fun x => x = SourceNonchild) K1 K2) by (apply keeps_alloc; auto).
    assert (SPLIT : forall (W : parray -> Prop) K', (forall x, W x -> x = SourceNonchild \/ x = TargetNonchild) -> keeps W K1 K' -> table_facts K').
    { intros W K' HW KE'. assert (N : forall x, x <> SourceNonchild -> x <> TargetNonchild -> ~ W x) by (intros x N1 N2 Wx; destruct (HW x Wx); auto).
      destruct G1 as [T GC GX]. destruct T as [S TS TT TR1 TR2]. destruct S as [SB S1 S2 S3 S4 S5 S6 S7 S8 S9].
      constructor; [constructor; [constructor|..]|..]; try (intros; congruence);
        try (intros; apply KE'; [apply N; named_arrays; try destruct (same inp); discriminate|auto]).
      apply (box_facts_keep _ _ _ W K1 K' KE'); auto; [intros a|]; apply N; discriminate. }
    assert (G2 : table_facts K2) by (apply (SPLIT _ _ (fun x H => or_introl H) KE)).
    assert (HSN : has K2 SourceNonchild n n (fun b => z (nonchild_source_count inp R b))).
    { apply (has_ext _ _ _ _ _ (fun _ => 0%Z)); [apply has_alloc_same; auto|]. intros k _. rewrite Z1. auto. }
    assert (HF2 : has K2 Flags n n (fun _ => 0%Z)) by (apply KE; auto; discriminate).
    assert (CA : {same inp = true} + {same inp = false}) by (destruct (same inp); auto). destruct CA as [SM|SM]; rewrite SM.
    + apply FIN; auto; [apply (sf_box _ _ _ _ (tf_split _ (gf_points _ G2)))|congruence].
    + apply ok_alloc; [lia|]. set (K3 := k_alloc _ _ K2 TargetNonchild (z n)).
      assert (KE3 : keeps (fun x => x = SourceNonchild \/ x = TargetNonchild) K1 K3).
      { unfold K3, K2. eapply keeps_trans; apply keeps_alloc; auto. }
      assert (G3 : table_facts K3) by (apply (SPLIT _ _ (fun x H => H) KE3)).
      assert (HTN : has K3 TargetNonchild n n (fun b => z (nonchild_target_count inp R b))).
      { apply (has_ext _ _ _ _ _ (fun _ => 0%Z)); [apply has_alloc_same; auto|]. intros k _. rewrite Z2. auto. }
      apply FIN; auto; [apply (sf_box _ _ _ _ (tf_split _ (gf_points _ G3)))|apply has_alloc_other; [discriminate|auto]|apply has_alloc_other; [discriminate|auto]].
Qed.
End Info.
