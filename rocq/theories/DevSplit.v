(** Splitting sources from targets on the device (BuildDeviceEnd.v): the arrays hold what
    [split_particles] and [share_particles] of TreeBuild.v say. *)
From Coq Require Import List Arith ZArith NArith Lia Bool Permutation.
From Verif Require Import Base Tree Walk Traversal Fmm SpecFmm TreeBuild ArrayFacts Kernel Device DeviceRules DeviceFacts BuildDevice
  BuildDeviceEnd BuildInv BuildPrune BuildSplit BuildFinish BuildView DevMorton DevTake DevPrune.
Import ListNotations.

Ltac named_arrays := unfold source_ids, target_ids, source_starts, target_starts, source_counts, target_counts, source_nonchild,
  target_nonchild, target_points, target_min, target_max in *.
Ltac not_written ::= solve [cbn beta; unfold scan_array; let E := fresh in intros E; decompose [or ex and] E; discriminate |
  cbn beta; intros ?; discriminate | cbn beta; intros [] |
  cbn beta; named_arrays; match goal with |- context [same ?i] => destruct (same i) end;
  let E := fresh in intros E; decompose [or ex and] E; discriminate ].

Section Split.
Variable inp : input.
Variable ps : pstate.
Variable q : nat -> list nat.
Variable sp : nat -> bool.
Variable room : nat.
Hypothesis P : pinv inp ps q sp.
Hypothesis NS : nsrc inp <= npart inp.
Hypothesis SAME : same inp = true -> nsrc inp = npart inp.
Notation np := (npart inp).
Notation nch := (nchild inp).
Notation n := (p_nboxes ps).
Notation user := (p_user ps).
Notation start := (p_start ps).
Notation cumul := (p_cumul ps).
Notation boxof := (p_box ps).
Notation R := (the_split inp ps).
Notation isS := (is_source_particle inp ps).
Notation isT := (is_target_particle inp ps).
Notation sn := (source_numbers inp ps).
Notation ntgt := (ntgt inp).

(** what is known after pruning *)
Record box_facts (K : knownp) : Prop := {
  bf_user : has K (Kept UserIds) np np (fun i => z (user i));
  bf_box : has K (Kept BoxIds) np np (fun i => z (boxof i));
  bf_start : has K (Kept Starts) room n (fun b => z (start b));
  bf_cumul : has K (Kept Counts) room n (fun b => z (cumul b));
  bf_nonchild : have_extent inp = true -> has K Nonchild n n (fun b => z (p_nonchild ps b));
  bf_parent : has K (Kept Parents) room n (fun b => z (p_parent ps b));
  bf_level : has K (Kept Levels) room n (fun b => z (p_blevel ps b));
  bf_marks : has K (Kept HasChildren) room n (fun b => bool_z (p_has_children ps b));
  bf_child : forall m, m < nch -> has K (Kept (Children m)) room n (fun b => z (p_child ps m b));
  bf_center : forall a, a < idim inp -> has K (Kept (Centers a)) room n (fun b => p_center ps b a);
  bf_coords : forall a, a < idim inp -> has K (Kept (Coords a)) np np (fun u => coord inp u a);
  bf_radii : have_extent inp = true -> has K (Kept Radii) np np (rad_of inp)
}.
Lemma box_facts_keep (W : parray -> Prop) K K' : keeps W K K' -> (forall a, ~ W (Kept a)) -> ~ W Nonchild ->
  box_facts K -> box_facts K'.
Proof.
  intros KE N1 N2 B. destruct B. constructor; intros; apply KE; auto.
Qed.
(** length of the box arrays of sources and targets *)
Definition part_room : nat := if same inp then room else n.
Record split_facts (K : knownp) : Prop := {
  sf_box : box_facts K;
  sf_sids : has K (source_ids inp) (nsrc inp) (nsrc inp) (fun i => z (sp_source_ids R i));
  sf_tids : has K (target_ids inp) ntgt ntgt (fun i => z (sp_target_ids R i));
  sf_sorted : has K SortedTargets ntgt ntgt (fun i => z (sp_sorted_target_ids R i));
  sf_sstart : has K (source_starts inp) part_room n (fun b => z (sp_source_starts R b));
  sf_scount : has K (source_counts inp) part_room n (fun b => z (sp_source_cumul R b));
  sf_snc : have_extent inp = true -> has K SourceNonchild n n (fun b => z (sp_source_nonchild R b));
  sf_tstart : has K (target_starts inp) part_room n (fun b => z (sp_target_starts R b));
  sf_tcount : has K (target_counts inp) part_room n (fun b => z (sp_target_cumul R b));
  sf_tnc : have_extent inp = true -> has K TargetNonchild n n (fun b => z (sp_target_nonchild R b))
}.

(** ** Walks to the root *)
Section Walks.
Variable K : knownp.
Variable F : parray -> option (nat -> option Z).
Variable i : nat.
Hypothesis HP : has K (Kept Parents) room n (fun b => z (p_parent ps b)).
Hypothesis HS : has K (Kept Starts) room n (fun b => z (start b)).
Hypothesis HC : has K (Kept Counts) room n (fun b => z (cumul b)).
Hypothesis HN : has K SourceNumbers np np (fun k => z (sn k)).
Hypothesis FK : forall a, F (Kept a) = None.
Hypothesis FN : F SourceNumbers = None.
Lemma step_parent b f : b < n -> b < S f -> p_parent ps b <> b -> p_parent ps b < n /\ p_parent ps b < f.
Proof.
  intros Hb Hf NE. assert (B0 : b <> 0) by (intros ->; apply NE, (pi_parent0 _ _ _ _ P)).
  assert (L := q_lt inp ps q sp P b Hb B0). lia.
Qed.
Lemma starts_walk_ok f1 f2 next : F SourceStarts = Some f1 -> F TargetStarts = Some f2 ->
  len K SourceStarts = Some (z n) -> len K TargetStarts = Some (z n) -> item_ok K F next ->
  forall f b, b < n -> b < f ->
  (forall x, In x (walk_up ps f (fun b => i =? start b) b) -> f1 x = Some (z (sn i)) /\ f2 x = Some (z i - z (sn i))%Z) ->
  item_ok K F (starts_walk (S f) (z i) (z (sn i)) (z (start b)) (z b) next).
Proof.
  intros E1 E2 L1 L2 O. induction f as [|f IH]; intros b Hb Hf V; [lia|]. change (starts_walk (S (S f))) with
    (fun (i source_nr start box : Z) (next : pprog) => if (i =? start)%Z then
      Store SourceStarts box source_nr (
      Store TargetStarts box (i - source_nr)%Z (
      Load (Kept Parents) box (fun p =>
      if (p =? box)%Z then next
      else Load (Kept Starts) p (fun s => starts_walk (S f) i source_nr s p next)))) else next). cbn beta.
  rewrite z_eqb. cbn [walk_up] in V. destruct (i =? start b); auto.
  destruct (V b (or_introl eq_refl)) as [V1 V2].
  apply item_store with (m := n) (f := f1); auto. apply item_store with (m := n) (f := f2); auto.
  ld HP; auto. rewrite z_eqb. destruct (Nat.eqb_spec (p_parent ps b) b) as [|NE]; auto.
  destruct (step_parent b f Hb Hf NE) as [A B]. ld HS; auto. apply IH; auto. intros x Hx. apply V. right. exact Hx.
Qed.
Lemma starts_walk_next next a k : stores K next a k -> forall f b, b < n -> b < f ->
  stores K (starts_walk (S f) (z i) (z (sn i)) (z (start b)) (z b) next) a k.
Proof.
  intros S0. induction f as [|f IH]; intros b Hb Hf; [lia|]. cbn [starts_walk]. cbn [starts_walk] in IH.
  rewrite z_eqb. destruct (i =? start b); auto.
  apply stores_later, stores_later. ld HP; auto. rewrite z_eqb. destruct (Nat.eqb_spec (p_parent ps b) b) as [|NE]; auto.
  destruct (step_parent b f Hb Hf NE) as [A B]. ld HS; auto.
Qed.
Lemma starts_walk_stores next x a : a = SourceStarts \/ a = TargetStarts -> forall f b, b < n -> b < f ->
  In x (walk_up ps f (fun b => i =? start b) b) ->
  stores K (starts_walk (S f) (z i) (z (sn i)) (z (start b)) (z b) next) a x.
Proof.
  intros A0. induction f as [|f IH]; intros b Hb Hf I; [lia|]. cbn [starts_walk]. cbn [starts_walk] in IH.
  rewrite z_eqb. cbn [walk_up] in I. destruct (i =? start b); [|destruct I]. destruct I as [->|I].
  - destruct A0 as [-> | ->]; [apply stores_here|apply stores_later, stores_here].
  - apply stores_later, stores_later. ld HP; auto. rewrite z_eqb. destruct (Nat.eqb_spec (p_parent ps b) b) as [|NE]; [destruct I|].
    destruct (step_parent b f Hb Hf NE) as [A B]. ld HS; auto.
Qed.
Notation ends := (fun b => i + 1 =? start b + cumul b).
Lemma end_eqb b : (z i + 1 =? z (start b) + z (cumul b))%Z = (i + 1 =? start b + cumul b).
Proof. rewrite <- z_eqb. f_equal; lia. Qed.
Lemma counts_walk_ok f1 f2 next : F SourceCounts = Some f1 -> F TargetCounts = Some f2 ->
  len K SourceCounts = Some (z n) -> len K TargetCounts = Some (z n) -> item_ok K F next ->
  forall f b, b < n -> b < f ->
  (forall x, In x (walk_up ps f ends b) -> start x < np /\ f1 x = Some (z (sn i) + bool_z (isS i) - z (sn (start x)))%Z /\
     f2 x = Some (z i - z (sn i) + 1 - bool_z (isS i) - (z (start x) - z (sn (start x))))%Z) ->
  item_ok K F (counts_walk (S f) (z i) (z (sn i)) (bool_z (isS i)) (z (start b)) (z (cumul b)) (z b) next).
Proof.
  intros E1 E2 L1 L2 O. induction f as [|f IH]; intros b Hb Hf V; [lia|]. cbn [counts_walk]. cbn [counts_walk] in IH.
  rewrite end_eqb. cbn [walk_up] in V. destruct (i + 1 =? start b + cumul b); auto.
  destruct (V b (or_introl eq_refl)) as [V0 [V1 V2]]. ld HN; auto.
  apply item_store with (m := n) (f := f1); auto. apply item_store with (m := n) (f := f2); auto.
  ld HP; auto. rewrite z_eqb. destruct (Nat.eqb_spec (p_parent ps b) b) as [|NE]; auto.
  destruct (step_parent b f Hb Hf NE) as [A B]. ld HS; auto. ld HC; auto. apply IH; auto. intros x Hx. apply V. right. exact Hx.
Qed.
Lemma counts_walk_next next a k : stores K next a k -> forall f b, b < n -> b < f ->
  (forall x, In x (walk_up ps f ends b) -> start x < np) ->
  stores K (counts_walk (S f) (z i) (z (sn i)) (bool_z (isS i)) (z (start b)) (z (cumul b)) (z b) next) a k.
Proof.
  intros S0. induction f as [|f IH]; intros b Hb Hf V; [lia|]. cbn [counts_walk]. cbn [counts_walk] in IH.
  rewrite end_eqb. cbn [walk_up] in V. destruct (i + 1 =? start b + cumul b); auto.
  ld HN; [apply V; left; auto|].
  apply stores_later, stores_later. ld HP; auto. rewrite z_eqb. destruct (Nat.eqb_spec (p_parent ps b) b) as [|NE]; auto.
  destruct (step_parent b f Hb Hf NE) as [A B]. ld HS; auto. ld HC; auto. apply IH; auto. intros x Hx. apply V. right. exact Hx.
Qed.
Lemma counts_walk_stores next x a : a = SourceCounts \/ a = TargetCounts -> forall f b, b < n -> b < f ->
  (forall x, In x (walk_up ps f ends b) -> start x < np) ->
  In x (walk_up ps f ends b) ->
  stores K (counts_walk (S f) (z i) (z (sn i)) (bool_z (isS i)) (z (start b)) (z (cumul b)) (z b) next) a x.
Proof.
  intros A0. induction f as [|f IH]; intros b Hb Hf V I; [lia|]. cbn [counts_walk]. cbn [counts_walk] in IH.
  rewrite end_eqb. cbn [walk_up] in I, V. destruct (i + 1 =? start b + cumul b); [|destruct I].
  ld HN; [apply V; left; auto|]. destruct I as [->|I].
  - destruct A0 as [-> | ->]; [apply stores_here|apply stores_later, stores_here].
  - apply stores_later, stores_later. ld HP; auto. rewrite z_eqb. destruct (Nat.eqb_spec (p_parent ps b) b) as [|NE]; [destruct I|].
    destruct (step_parent b f Hb Hf NE) as [A B]. ld HS; auto. ld HC; auto. apply IH; auto. intros y Hy. apply V. right. exact Hy.
Qed.
End Walks.

(** ** The launch *)
Lemma z_ltb a b : (z a <? z b)%Z = (a <? b).
Proof. destruct (Nat.ltb_spec a b); [apply Z.ltb_lt; lia|apply Z.ltb_ge; lia]. Qed.
Lemma sn_le k : k < np -> sn k <= k.
Proof. intros H. rewrite (source_numbers_eq inp ps k H). assert (X := cnt_complement inp ps k). assert (Y := cnt_le isS k). lia. Qed.
Lemma sn_mono k k' : k <= k' -> k' < np -> sn k <= sn k' /\ k - sn k <= k' - sn k'.
Proof.
  intros L H. rewrite !source_numbers_eq by lia. rewrite <- !cnt_complement. split; apply cnt_le_mono; auto.
Qed.
Definition incl_s (i : nat) : nat := sn i + (if isS i then 1 else 0).
Definition incl_t (i : nat) : nat := i - sn i + 1 - (if isS i then 1 else 0).
Lemma incl_z i s : s <= i -> i < np ->
  (z (sn i) + bool_z (isS i) - z (sn s))%Z = z (incl_s i - sn s) /\
  (z i - z (sn i) + 1 - bool_z (isS i) - (z s - z (sn s)))%Z = z (incl_t i - (s - sn s)).
Proof.
  intros L H. assert (A := sn_mono s i L H). assert (B := sn_le i H). assert (C := sn_le s ltac:(lia)).
  unfold incl_s, incl_t. destruct (isS i) eqn:E; cbn [bool_z]; [|split; lia]. split; [lia|].
  destruct (Nat.eq_dec (sn i) i) as [|]; lia.
Qed.
Section Launch.
Hypothesis DIFF : same inp = false.
Notation S' := (split_particles inp ps).
Definition finder_after (x : parray) : option (nat -> option Z) :=
  match x with
  | SourceIds => Some (fun k => Some (z (sp_source_ids S' k)))
  | TargetIds => Some (fun k => Some (z (sp_target_ids S' k)))
  | SortedTargets => Some (fun k => Some (z (sp_sorted_target_ids S' k)))
  | SourceStarts => Some (fun k => Some (z (sp_source_starts S' k)))
  | SourceCounts => Some (fun k => Some (z (sp_source_cumul S' k)))
  | SourceNonchild => if have_extent inp then Some (fun k => Some (z (sp_source_nonchild S' k))) else None
  | TargetStarts => Some (fun k => Some (z (sp_target_starts S' k)))
  | TargetCounts => Some (fun k => Some (z (sp_target_cumul S' k)))
  | TargetNonchild => if have_extent inp then Some (fun k => Some (z (sp_target_nonchild S' k))) else None
  | _ => None
  end.
Lemma split_eq : R = S'.
Proof. unfold the_split. rewrite DIFF. auto. Qed.
Lemma src_pos_isS i : src_pos inp ps i = isS i.
Proof. unfold src_pos. rewrite DIFF. auto. Qed.
Lemma tgt_pos_isT i : tgt_pos inp ps i = isT i.
Proof. unfold tgt_pos. rewrite DIFF. auto. Qed.
Lemma cnt_isS k : cnt (src_pos inp ps) k = cnt isS k.
Proof. apply cnt_ext. intros; apply src_pos_isS. Qed.
Lemma cnt_isT k : cnt (tgt_pos inp ps) k = cnt isT k.
Proof. apply cnt_ext. intros; apply tgt_pos_isT. Qed.

Lemma ids_source i : i < np -> isS i = true -> sn i < nsrc inp /\ sp_source_ids S' (sn i) = user i.
Proof.
  intros Hi E. rewrite source_numbers_eq, <- cnt_isS by auto. rewrite <- split_eq. split.
  - rewrite <- (cnt_src inp ps q sp P NS SAME). apply rank_lt; auto. rewrite src_pos_isS. auto.
  - apply source_ids_rank; auto. rewrite src_pos_isS. auto.
Qed.
Lemma ids_target i : i < np -> isS i = false ->
  i - sn i < np - nsrc inp /\ sp_target_ids S' (i - sn i) = user i /\
  nsrc inp <= user i < np /\ sp_sorted_target_ids S' (user i - nsrc inp) = i - sn i.
Proof.
  intros Hi E. assert (T : tgt_pos inp ps i = true) by (rewrite tgt_pos_isT; unfold is_target_particle; rewrite E; auto).
  rewrite source_numbers_eq, <- cnt_complement, <- cnt_isT by auto. rewrite <- split_eq.
  assert (NT : ntgt = np - nsrc inp) by (unfold BuildFinish.ntgt; rewrite DIFF; auto).
  assert (B : tgt_base inp = nsrc inp) by (unfold tgt_base; rewrite DIFF; auto).
  assert (L : cnt (tgt_pos inp ps) i < ntgt).
  { rewrite <- (cnt_tgt inp ps q sp P NS SAME). apply rank_lt; auto. }
  assert (E2 : sp_target_ids R (cnt (tgt_pos inp ps) i) = user i) by (apply target_ids_rank; auto).
  assert (U := tgt_user inp ps q sp P NS SAME i Hi T). rewrite B, NT in U.
  split; [lia|]. split; auto. split; [lia|].
  assert (X := sorted_target_ids_inv inp ps q sp P NS SAME _ L). rewrite E2, B in X. exact X.
Qed.
Lemma box_own i : i < np -> boxof i < n /\ start (boxof i) <= i < start (boxof i) + cumul (boxof i).
Proof.
  intros Hi. destruct (pi_box _ _ _ _ P i Hi) as [Hb [Rb _]]. split; auto. apply (reach_in inp ps q sp P); auto.
Qed.
Lemma starts_values i x : i < np -> In x (starts_here ps i) ->
  sp_source_starts S' x = sn i /\ sp_target_starts S' x = i - sn i.
Proof.
  intros Hi H. apply (starts_here_iff inp ps q sp P i x Hi) in H. destruct H as [Hx [C E]].
  cbn [split_particles sp_source_starts sp_target_starts].
  rewrite (scatter_starts inp ps q sp P (fun i => sn i)), (scatter_starts inp ps q sp P (fun i => i - sn i)) by auto.
  destruct (Nat.eqb_spec (cumul x) 0); [lia|]. rewrite E. auto.
Qed.
Lemma counts_values i x : i < np -> In x (ends_here ps i) -> start x <= i /\
  sp_source_cumul S' x = incl_s i - sn (start x) /\ sp_target_cumul S' x = incl_t i - (start x - sn (start x)).
Proof.
  intros Hi H. apply (ends_here_iff inp ps q sp P i x Hi) in H. destruct H as [Hx [C E]]. split; [lia|].
  cbn [split_particles sp_source_cumul sp_target_cumul].
  rewrite (scatter_ends inp ps q sp P (fun i b => incl_s i - sn (start b))),
          (scatter_ends inp ps q sp P (fun i b => incl_t i - (start b - sn (start b)))) by auto.
  destruct (Nat.eqb_spec (cumul x) 0); [lia|]. replace (start x + cumul x - 1) with i by lia. auto.
Qed.
Lemma nonchild_values i : i < np -> last_nonchild ps i = true ->
  sp_source_nonchild S' (boxof i) = incl_s i - sn (start (boxof i)) /\
  sp_target_nonchild S' (boxof i) = incl_t i - (start (boxof i) - sn (start (boxof i))).
Proof.
  intros Hi L. cbn [split_particles sp_source_nonchild sp_target_nonchild].
  assert (A : In i (filter (last_nonchild ps) (seq 0 np))) by (apply filter_In; split; auto; apply in_seq; lia).
  assert (B : forall y, In y (filter (last_nonchild ps) (seq 0 np)) -> boxof y = boxof i -> y = i).
  { intros y Hy E. apply filter_In in Hy. destruct Hy as [_ Hy]. unfold last_nonchild in Hy, L. rewrite E in Hy.
    apply Nat.eqb_eq in Hy, L. lia. }
  split.
  - apply (scatter_map_in boxof (fun i => incl_s i - sn (start (boxof i)))); [exact A|].
    intros y Hy E. rewrite (B y Hy E). auto.
  - apply (scatter_map_in boxof (fun i => incl_t i - (start (boxof i) - sn (start (boxof i))))); [exact A|].
    intros y Hy E. rewrite (B y Hy E). auto.
Qed.
Section Item.
Variable K : knownp.
Hypothesis B : box_facts K.
Hypothesis HN : has K SourceNumbers np np (fun k => z (sn k)).
Hypothesis L1 : has K SourceIds (nsrc inp) (nsrc inp) (fun _ => 0%Z).
Hypothesis L2 : has K TargetIds (np - nsrc inp) (np - nsrc inp) (fun _ => 0%Z).
Hypothesis L3 : has K SortedTargets (np - nsrc inp) (np - nsrc inp) (fun _ => 0%Z).
Hypothesis L4 : has K SourceStarts n n (fun _ => 0%Z).
Hypothesis L5 : has K SourceCounts n n (fun _ => 0%Z).
Hypothesis L6 : has K TargetStarts n n (fun _ => 0%Z).
Hypothesis L7 : has K TargetCounts n n (fun _ => 0%Z).
Hypothesis L8 : have_extent inp = true -> has K SourceNonchild n n (fun _ => 0%Z).
Hypothesis L9 : have_extent inp = true -> has K TargetNonchild n n (fun _ => 0%Z).
Let HU := bf_user K B.
Let HB := bf_box K B.
Let HS := bf_start K B.
Let HC := bf_cumul K B.
Let HP := bf_parent K B.
Lemma HX : have_extent inp = true -> has K Nonchild n n (fun b => z (p_nonchild ps b)).
Proof. exact (bf_nonchild K B). Qed.

Lemma finder_item_ok i : i < np -> item_ok K finder_after (finder_item inp n i).
Proof.
  intros Hi. destruct (box_own i Hi) as [Hb Ho]. unfold finder_item. ld HN; auto. ld HB; auto. ld HS; auto. ld HC; auto. ld HU; auto.
  rewrite z_ltb. fold (isS i). cbn zeta.
  apply (starts_walk_ok K finder_after i HP HS (fun a => eq_refl) (fun k => Some (z (sp_source_starts S' k)))
           (fun k => Some (z (sp_target_starts S' k)))); auto; try apply L4; try apply L6.
  2:{ intros x Hx. destruct (starts_values i x Hi Hx) as [-> ->]. assert (X := sn_le i Hi). split; auto. f_equal. lia. }
  assert (CW : item_ok K finder_after (counts_walk (S n) (z i) (z (sn i)) (bool_z (isS i)) (z (start (boxof i))) (z (cumul (boxof i)))
    (z (boxof i)) (if isS i then Store SourceIds (z (sn i)) (z (user i)) Finish
       else Store TargetIds (z i - z (sn i)) (z (user i)) (Store SortedTargets (z (user i) - z (nsrc inp)) (z i - z (sn i)) Finish)))).
  { apply (counts_walk_ok K finder_after i HP HS HC HN (fun a => eq_refl) eq_refl (fun k => Some (z (sp_source_cumul S' k)))
           (fun k => Some (z (sp_target_cumul S' k)))); auto; try apply L5; try apply L7.
    2:{ intros x Hx. destruct (counts_values i x Hi Hx) as [Hx1 [-> ->]]. destruct (incl_z i (start x) Hx1 Hi) as [-> ->].
        split; auto. lia. }
    destruct (isS i) eqn:E.
    - destruct (ids_source i Hi E) as [A1 A2].
      apply item_store with (m := nsrc inp) (f := fun k => Some (z (sp_source_ids S' k))); auto; [apply L1|rewrite A2; auto|exact Logic.I].
    - destruct (ids_target i Hi E) as [A1 [A2 [A3 A4]]]. assert (X := sn_le i Hi).
      replace (z i - z (sn i))%Z with (z (i - sn i)) by lia. replace (z (user i) - z (nsrc inp))%Z with (z (user i - nsrc inp)) by lia.
      apply item_store with (m := np - nsrc inp) (f := fun k => Some (z (sp_target_ids S' k))); auto; [apply L2|rewrite A2; auto|].
      apply item_store with (m := np - nsrc inp) (f := fun k => Some (z (sp_sorted_target_ids S' k))); auto; [apply L3|lia|rewrite A4; auto|exact Logic.I]. }
  destruct (have_extent inp) eqn:HE; auto.
  assert (HX' := HX HE). ld HX'; auto.
  destruct (Z.eqb_spec (z i + 1) (z (start (boxof i)) + z (p_nonchild ps (boxof i)))) as [E|]; auto.
  assert (LN : last_nonchild ps i = true) by (unfold last_nonchild; apply Nat.eqb_eq; lia).
  destruct (nonchild_values i Hi LN) as [V1 V2]. destruct (incl_z i (start (boxof i)) ltac:(lia) Hi) as [W1 W2].
  ld HN; [lia|auto|]. rewrite W1, W2.
  apply item_store with (m := n) (f := fun k => Some (z (sp_source_nonchild S' k))); auto;
    [apply L8; auto|cbn [finder_after]; rewrite HE; auto|rewrite V1; auto|].
  apply item_store with (m := n) (f := fun k => Some (z (sp_target_nonchild S' k))); auto;
    [apply L9; auto|cbn [finder_after]; rewrite HE; auto|rewrite V2; auto].
Qed.
Lemma ends_lt i x : i < np -> In x (ends_here ps i) -> start x < np.
Proof. intros Hi H. destruct (counts_values i x Hi H). lia. Qed.
(** what an item stores *)
Definition finder_tail (i : nat) : pprog :=
  if isS i then Store SourceIds (z (sn i)) (z (user i)) Finish
  else Store TargetIds (z i - z (sn i)) (z (user i)) (Store SortedTargets (z (user i) - z (nsrc inp)) (z i - z (sn i)) Finish).
Definition finder_counts (i : nat) : pprog :=
  counts_walk (S n) (z i) (z (sn i)) (bool_z (isS i)) (z (start (boxof i))) (z (cumul (boxof i))) (z (boxof i)) (finder_tail i).
Definition finder_own (i : nat) : pprog :=
  if have_extent inp then
    Load Nonchild (z (boxof i)) (fun nonchild =>
    if (z i + 1 =? z (start (boxof i)) + nonchild)%Z then
      Load SourceNumbers (z (start (boxof i))) (fun n0 =>
      Store SourceNonchild (z (boxof i)) (z (sn i) + bool_z (isS i) - n0)%Z (
      Store TargetNonchild (z (boxof i)) (z i - z (sn i) + 1 - bool_z (isS i) - (z (start (boxof i)) - n0))%Z (finder_counts i)))
    else finder_counts i)
  else finder_counts i.
Lemma finder_stores i a k : i < np ->
  stores K (starts_walk (S n) (z i) (z (sn i)) (z (start (boxof i))) (z (boxof i)) (finder_own i)) a k ->
  stores K (finder_item inp n i) a k.
Proof.
  intros Hi H. destruct (box_own i Hi) as [Hb Ho]. unfold finder_item. ld HN; auto. ld HB; auto. ld HS; auto. ld HC; auto. ld HU; auto.
  rewrite z_ltb. exact H.
Qed.
Lemma finder_stores_starts i x a : i < np -> a = SourceStarts \/ a = TargetStarts -> In x (starts_here ps i) ->
  stores K (finder_item inp n i) a x.
Proof.
  intros Hi A I. destruct (box_own i Hi) as [Hb _]. apply finder_stores; auto. apply starts_walk_stores; auto.
Qed.
Lemma finder_stores_own i a k : i < np -> stores K (finder_own i) a k -> stores K (finder_item inp n i) a k.
Proof.
  intros Hi H. destruct (box_own i Hi) as [Hb _]. apply finder_stores; auto. apply starts_walk_next; auto.
Qed.
Lemma finder_stores_nonchild i a : i < np -> have_extent inp = true -> a = SourceNonchild \/ a = TargetNonchild ->
  last_nonchild ps i = true -> stores K (finder_item inp n i) a (boxof i).
Proof.
  intros Hi HE A LN. destruct (box_own i Hi) as [Hb Ho]. apply finder_stores_own; auto. unfold finder_own. rewrite HE.
  assert (HX' := HX HE). ld HX'; auto. unfold last_nonchild in LN. apply Nat.eqb_eq in LN.
  destruct (Z.eqb_spec (z i + 1) (z (start (boxof i)) + z (p_nonchild ps (boxof i)))) as [E|]; [|lia].
  ld HN; [lia|]. destruct A as [-> | ->]; [apply stores_here|apply stores_later, stores_here].
Qed.
Lemma finder_stores_counted i a k : i < np -> stores K (finder_counts i) a k -> stores K (finder_item inp n i) a k.
Proof.
  intros Hi H. destruct (box_own i Hi) as [Hb Ho]. apply finder_stores_own; auto. unfold finder_own.
  destruct (have_extent inp) eqn:HE; auto. assert (HX' := HX HE). ld HX'; auto.
  destruct (Z.eqb_spec (z i + 1) (z (start (boxof i)) + z (p_nonchild ps (boxof i)))) as [E|]; auto.
  ld HN; [lia|]. apply stores_later, stores_later. auto.
Qed.
Lemma finder_stores_counts i x a : i < np -> a = SourceCounts \/ a = TargetCounts -> In x (ends_here ps i) ->
  stores K (finder_item inp n i) a x.
Proof.
  intros Hi A I. destruct (box_own i Hi) as [Hb _]. apply finder_stores_counted; auto. apply counts_walk_stores; auto.
  intros y Hy. apply (ends_lt i); auto.
Qed.
Lemma finder_stores_tail i a k : i < np -> stores K (finder_tail i) a k -> stores K (finder_item inp n i) a k.
Proof.
  intros Hi H. destruct (box_own i Hi) as [Hb _]. apply finder_stores_counted; auto. apply counts_walk_next; auto.
  intros y Hy. apply (ends_lt i); auto.
Qed.

Lemma finder_launch {Res} (next : host parray Res) Q : okp (upd K finder_after) next Q -> okp K (Launch np (finder_item inp n) next) Q.
Proof.
  intros O. apply ok_launch_items with (F := finder_after); auto; [exact finder_item_ok|].
  intros a f m k w E L Hk V.
  assert (ZERO : forall c v, has K a c c (fun _ => 0%Z) -> z v = w -> v = 0 -> val K a k = Some w).
  { intros c v H1 H2 H3. destruct H1 as [A1 _ A3]. rewrite A1 in L. injection L as <-. rewrite A3 by lia. f_equal. lia. }
  assert (BND : forall c v, has K a c c v -> k < c).
  { intros c v [A1 _ _]. rewrite A1 in L. injection L as <-. lia. }
  destruct a; try discriminate E; cbn [finder_after] in E.
  - (* user_source_ids *) left. assert (Hn := BND _ _ L1). rewrite <- (cnt_src inp ps q sp P NS SAME) in Hn.
    destruct (rank_surj _ _ _ Hn) as [i [Hi [E1 E2]]]. exists i. split; auto. apply finder_stores_tail; auto.
    rewrite src_pos_isS in E1. rewrite cnt_isS in E2. unfold finder_tail. rewrite E1. rewrite source_numbers_eq, E2 by auto. apply stores_here.
  - left. assert (Hn := BND _ _ L2). assert (NT : ntgt = np - nsrc inp) by (unfold BuildFinish.ntgt; rewrite DIFF; auto).
    rewrite <- NT, <- (cnt_tgt inp ps q sp P NS SAME) in Hn. destruct (rank_surj _ _ _ Hn) as [i [Hi [E1 E2]]]. exists i. split; auto.
    apply finder_stores_tail; auto. rewrite tgt_pos_isT in E1. rewrite cnt_isT, cnt_complement in E2. unfold finder_tail.
    unfold is_target_particle in E1. destruct (isS i); [discriminate E1|]. rewrite <- source_numbers_eq in E2 by auto.
    assert (X := sn_le i Hi). replace (z i - z (sn i))%Z with (z k) by lia. apply stores_here.
  - left. assert (Hn := BND _ _ L3). destruct (perm_surj np user (nsrc inp + k) (pi_perm _ _ _ _ P)) as [i [Hi E1]]; [lia|].
    exists i. split; auto. apply finder_stores_tail; auto. unfold finder_tail, is_source_particle.
    destruct (Nat.ltb_spec (user i) (nsrc inp)); [lia|]. apply stores_later.
    replace (z (user i) - z (nsrc inp))%Z with (z k) by lia. apply stores_here.
  - assert (Hn := BND _ _ L4). injection E as <-. injection V as V. destruct (Nat.eq_dec (cumul k) 0) as [C0|C0].
    + right. apply (ZERO _ (sp_source_starts S' k) L4 V). rewrite (source_starts_eq inp ps q sp P k Hn), C0. auto.
    + left. exists (start k). assert (X := pi_range_np _ _ _ _ P k Hn ltac:(lia)). split; [lia|].
      apply finder_stores_starts; auto; [lia|]. apply (starts_here_iff inp ps q sp P); lia.
  - assert (Hn := BND _ _ L5). injection E as <-. injection V as V. destruct (Nat.eq_dec (cumul k) 0) as [C0|C0].
    + right. apply (ZERO _ (sp_source_cumul S' k) L5 V). rewrite (source_cumul_eq inp ps q sp P k Hn), C0, Nat.add_0_r. apply cntr_empty. auto.
    + left. exists (start k + cumul k - 1). assert (X := pi_range_np _ _ _ _ P k Hn ltac:(lia)). split; [lia|].
      apply finder_stores_counts; auto; [lia|]. apply (ends_here_iff inp ps q sp P); lia.
  - destruct (have_extent inp) eqn:HE; [|discriminate]. assert (Hn := BND _ _ (L8 eq_refl)). injection E as <-. injection V as V.
    cbn [split_particles sp_source_nonchild] in V.
    destruct (scatter_cases (map (fun i => (boxof i, incl_s i - sn (start (boxof i)))) (filter (last_nonchild ps) (seq 0 np))) (fun _ => 0) k)
      as [[v [Iv _]]|[_ Ev]].
    + left. apply in_map_iff in Iv. destruct Iv as [i [Ei Iv]]. apply filter_In in Iv. destruct Iv as [Iv LN]. apply in_seq in Iv.
      exists i. split; [lia|]. replace k with (boxof i) by congruence. apply finder_stores_nonchild; auto. lia.
    + right. apply (ZERO _ _ (L8 eq_refl) V). exact Ev.
  - assert (Hn := BND _ _ L6). injection E as <-. injection V as V. destruct (Nat.eq_dec (cumul k) 0) as [C0|C0].
    + right. apply (ZERO _ (sp_target_starts S' k) L6 V). rewrite (target_starts_eq inp ps q sp P k Hn), C0. auto.
    + left. exists (start k). assert (X := pi_range_np _ _ _ _ P k Hn ltac:(lia)). split; [lia|].
      apply finder_stores_starts; auto; [lia|]. apply (starts_here_iff inp ps q sp P); lia.
  - assert (Hn := BND _ _ L7). injection E as <-. injection V as V. destruct (Nat.eq_dec (cumul k) 0) as [C0|C0].
    + right. apply (ZERO _ (sp_target_cumul S' k) L7 V). rewrite (target_cumul_eq inp ps q sp P k Hn), C0, Nat.add_0_r. apply cntr_empty. auto.
    + left. exists (start k + cumul k - 1). assert (X := pi_range_np _ _ _ _ P k Hn ltac:(lia)). split; [lia|].
      apply finder_stores_counts; auto; [lia|]. apply (ends_here_iff inp ps q sp P); lia.
  - destruct (have_extent inp) eqn:HE; [|discriminate]. assert (Hn := BND _ _ (L9 eq_refl)). injection E as <-. injection V as V.
    cbn [split_particles sp_target_nonchild] in V.
    destruct (scatter_cases (map (fun i => (boxof i, incl_t i - (start (boxof i) - sn (start (boxof i))))) (filter (last_nonchild ps) (seq 0 np))) (fun _ => 0) k)
      as [[v [Iv _]]|[_ Ev]].
    + left. apply in_map_iff in Iv. destruct Iv as [i [Ei Iv]]. apply filter_In in Iv. destruct Iv as [Iv LN]. apply in_seq in Iv.
      exists i. split; [lia|]. replace k with (boxof i) by congruence. apply finder_stores_nonchild; auto. lia.
    + right. apply (ZERO _ _ (L9 eq_refl) V). exact Ev.
Qed.
End Item.
End Launch.

(** ** The whole step *)
Hypothesis EXT : have_extent inp = true -> same inp = false.
Theorem split_ok {Res} K (next : host parray Res) Q : box_facts K ->
  (forall K', split_facts K' -> okp K' next Q) -> okp K (split_program inp n next) Q.
Proof.
  intros B O. unfold split_program.
  assert (CA : {same inp = true} + {same inp = false}) by (destruct (same inp); auto). destruct CA as [SM|SM]; rewrite SM.
  - assert (RE : R = share_particles inp ps) by (unfold the_split; rewrite SM; auto).
    assert (NT : ntgt = np) by (unfold BuildFinish.ntgt; rewrite SM; auto).
    apply ok_alloc; [lia|]. set (K1 := k_alloc _ _ K SortedTargets (z np)).
    assert (KE : keeps (fun x => x = SortedTargets) K K1) by (apply keeps_alloc; auto).
    assert (B1 : box_facts K1) by (apply (box_facts_keep _ _ _ KE); auto; discriminate).
    assert (HU := bf_user K1 B1).
    apply launch_only with (a := SortedTargets) (m := np) (f := fun k => z (sp_sorted_target_ids R k)) (cov := np); auto.
    + intros i Hi. unfold reverse_item. ld HU; auto. assert (U := BuildSplit.user_lt inp ps q sp P i Hi).
      apply item_store with (m := np) (f := fun k => Some (z (sp_sorted_target_ids R k))); auto; [|exact Logic.I].
      f_equal. f_equal. rewrite RE. cbn [share_particles sp_sorted_target_ids].
      apply (scatter_map_in user (fun i => i)); [apply in_seq; lia|]. intros y Hy E. apply in_seq in Hy.
      apply (perm_inj np user); auto; [apply (pi_perm _ _ _ _ P)|lia].
    + intros k Hk. left. destruct (perm_surj np user k (pi_perm _ _ _ _ P) Hk) as [i [Hi E]]. exists i. split; auto.
      unfold reverse_item. ld HU; auto. rewrite E. apply stores_here.
    + intros K2 KE2 H2. apply O.
      assert (B2 : box_facts K2) by (apply (box_facts_keep _ _ _ KE2); auto; discriminate).
      assert (NE : have_extent inp = true -> False) by (intros HE; specialize (EXT HE); congruence).
      destruct B2 eqn:EB. rewrite RE in H2. constructor; auto; unfold source_ids, target_ids, source_starts, target_starts, source_counts, target_counts, part_room;
        rewrite ?SM, ?NT, ?RE, ?SAME; auto; intros HE; destruct (NE HE).
  - assert (NT : ntgt = np - nsrc inp) by (unfold BuildFinish.ntgt; rewrite SM; auto).
    apply ok_alloc; [lia|]. set (K1 := k_alloc _ _ K SourceNumbers (z np)).
    assert (KE : keeps (fun x => x = SourceNumbers) K K1) by (apply keeps_alloc; auto).
    assert (B1 : box_facts K1) by (apply (box_facts_keep _ _ _ KE); auto; discriminate).
    assert (HN1 : has K1 SourceNumbers np np (fun _ => 0%Z)) by (apply has_alloc_same; auto).
    clearbody K1. clear K KE B.
    apply scan_plain with (f := fun i => bool_z (isS i)).
    { intros K' i KE L Hi. assert (HU : has K' (Kept UserIds) np np (fun i => z (user i))) by (apply KE; [no_scan|apply (bf_user K1 B1)]).
      unfold counter_input. split.
      - ld HU; auto. rewrite z_ltb. fold (isS i). apply item_store with (m := np) (f := fun k => Some (bool_z (isS k))); auto. exact Logic.I.
      - ld HU; auto. apply stores_here. }
    intros K2 KE H2. assert (B2 : box_facts K2) by (apply (box_facts_keep _ _ _ KE); auto; [intros a|]; no_scan).
    assert (HN2 : has K2 SourceNumbers np np (fun _ => 0%Z)) by (apply KE; [no_scan|auto]). clear K1 KE B1 HN1.
    assert (H2' : has K2 Out1 np np (fun k => z (cnt isS (S k)))) by (apply (has_ext _ _ _ _ _ _ _ H2); intros k _; apply scan_count_plain).
    clear H2.
    apply launch_only with (a := SourceNumbers) (m := np) (f := fun k => z (sn k)) (cov := np); auto; [apply HN2| | |].
    { intros i Hi. destruct i as [|j]; cbn [counter_output].
      - apply (item_store _ K2 (only SourceNumbers (fun k => Some (z (sn k)))) SourceNumbers 0 0%Z Finish np (fun k => Some (z (sn k)))); auto;
          [apply HN2|rewrite source_numbers_eq by auto; auto|exact Logic.I].
      - ld H2'; [lia|auto|]. apply item_store with (m := np) (f := fun k => Some (z (sn k))); auto; [apply HN2| |exact Logic.I].
        rewrite source_numbers_eq by auto. auto. }
    { intros k Hk. left. exists k. split; auto. destruct k as [|j]; cbn [counter_output].
      - apply (stores_here _ K2 SourceNumbers 0).
      - ld H2'; [lia|]. apply stores_here. }
    intros K3 KE HN. assert (B3 : box_facts K3) by (apply (box_facts_keep _ _ _ KE); auto; discriminate). clear K2 KE B2 HN2 H2'.
    apply ok_alloc; [lia|]. apply ok_alloc; [lia|]. apply ok_alloc; [lia|]. apply ok_alloc; [lia|]. apply ok_alloc; [lia|].
    apply ok_alloc; [lia|]. apply ok_alloc; [lia|].
    set (K4 := k_alloc _ _ _ TargetCounts (z n)).
    set (nx := fun K' => okp K' (Launch np (finder_item inp n) next) Q).
    set (W := fun x => x = SourceIds \/ x = TargetIds \/ x = SortedTargets \/ x = SourceStarts \/ x = SourceCounts \/ x = TargetStarts \/ x = TargetCounts).
    assert (KE : keeps W K3 K4).
    { unfold K4, W. do 6 (eapply keeps_trans; [|apply keeps_alloc; auto 10]). apply keeps_alloc; auto. }
    assert (B4 : box_facts K4) by (apply (box_facts_keep _ _ _ KE); auto; [intros a|]; unfold W; not_written).
    assert (HN4 : has K4 SourceNumbers np np (fun k => z (sn k))) by (apply KE; auto; unfold W; not_written).
    assert (L1 : has K4 SourceIds (nsrc inp) (nsrc inp) (fun _ => 0%Z)) by (unfold K4; repeat (apply has_alloc_other; [discriminate|]); apply has_alloc_same; auto).
    assert (L2 : has K4 TargetIds (np - nsrc inp) (np - nsrc inp) (fun _ => 0%Z)) by (unfold K4; repeat (apply has_alloc_other; [discriminate|]); apply has_alloc_same; auto).
    assert (L3 : has K4 SortedTargets (np - nsrc inp) (np - nsrc inp) (fun _ => 0%Z)) by (unfold K4; repeat (apply has_alloc_other; [discriminate|]); apply has_alloc_same; auto).
    assert (L4 : has K4 SourceStarts n n (fun _ => 0%Z)) by (unfold K4; repeat (apply has_alloc_other; [discriminate|]); apply has_alloc_same; auto).
    assert (L5 : has K4 SourceCounts n n (fun _ => 0%Z)) by (unfold K4; repeat (apply has_alloc_other; [discriminate|]); apply has_alloc_same; auto).
    assert (L6 : has K4 TargetStarts n n (fun _ => 0%Z)) by (unfold K4; repeat (apply has_alloc_other; [discriminate|]); apply has_alloc_same; auto).
    assert (L7 : has K4 TargetCounts n n (fun _ => 0%Z)) by (unfold K4; repeat (apply has_alloc_other; [discriminate|]); apply has_alloc_same; auto).
    clearbody K4. clear K3 KE B3 HN.
    assert (FIN : forall K, box_facts K -> has K SourceNumbers np np (fun k => z (sn k)) ->
      has K SourceIds (nsrc inp) (nsrc inp) (fun _ => 0%Z) -> has K TargetIds (np - nsrc inp) (np - nsrc inp) (fun _ => 0%Z) ->
      has K SortedTargets (np - nsrc inp) (np - nsrc inp) (fun _ => 0%Z) -> has K SourceStarts n n (fun _ => 0%Z) ->
      has K SourceCounts n n (fun _ => 0%Z) -> has K TargetStarts n n (fun _ => 0%Z) -> has K TargetCounts n n (fun _ => 0%Z) ->
      (have_extent inp = true -> has K SourceNonchild n n (fun _ => 0%Z)) -> (have_extent inp = true -> has K TargetNonchild n n (fun _ => 0%Z)) ->
      okp K (Launch np (finder_item inp n) next) Q).
    { intros K B HN M1 M2 M3 M4 M5 M6 M7 M8 M9. apply finder_launch; auto. apply O.
      assert (RE : R = split_particles inp ps) by (unfold the_split; rewrite SM; auto).
      constructor; unfold source_ids, target_ids, source_starts, target_starts, source_counts, target_counts, part_room; rewrite ?SM, ?NT, ?RE.
      - apply (box_facts_keep (fun x => finder_after x <> None) K); auto.
        apply keeps_upd. intros b Hb. destruct (finder_after b); auto. destruct Hb. discriminate.
      - eapply has_upd_some; [reflexivity|apply M1|auto|auto].
      - eapply has_upd_some; [reflexivity|apply M2|auto|auto].
      - eapply has_upd_some; [reflexivity|apply M3|auto|auto].
      - eapply has_upd_some; [reflexivity|apply M4|auto|auto].
      - eapply has_upd_some; [reflexivity|apply M5|auto|auto].
      - intros HE. eapply has_upd_some; [cbn [finder_after]; rewrite HE; reflexivity|apply M8; auto|auto|auto].
      - eapply has_upd_some; [reflexivity|apply M6|auto|auto].
      - eapply has_upd_some; [reflexivity|apply M7|auto|auto].
      - intros HE. eapply has_upd_some; [cbn [finder_after]; rewrite HE; reflexivity|apply M9; auto|auto|auto]. }
    assert (CE : {have_extent inp = true} + {have_extent inp = false}) by (destruct (have_extent inp); auto).
    destruct CE as [HE|HE]; rewrite HE.
    + apply ok_alloc; [lia|]. apply ok_alloc; [lia|]. set (K5 := k_alloc _ _ _ TargetNonchild (z n)).
      assert (KE : keeps (fun x => x = SourceNonchild \/ x = TargetNonchild) K4 K5).
      { unfold K5. eapply keeps_trans; apply keeps_alloc; auto. }
      apply FIN; try (apply KE; [not_written|assumption]).
      * apply (box_facts_keep _ _ _ KE); auto; [intros a|]; not_written.
      * intros _. unfold K5. apply has_alloc_other; [discriminate|]. apply has_alloc_same; auto.
      * intros _. apply has_alloc_same; auto.
    + apply FIN; auto; congruence.
Qed.
End Split.
