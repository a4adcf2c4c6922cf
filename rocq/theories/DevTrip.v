(** The level loop on the device (BuildDevice.v) computes the level loop of TreeBuild.v. *)
From Coq Require Import List Arith ZArith NArith Lia Bool Permutation.
From Verif Require Import Base Tree Walk Traversal Fmm TreeBuild ArrayFacts Kernel Device DeviceRules BuildDevice BuildInv
  BuildScan BuildIds BuildSort BuildAdvance BuildRenumber BuildStep BuildNext BuildLoop BuildDone BuildTerm BuildPrune BuildView DevMorton
  DevSplitScan DevSplitter DevParticles DevRealloc DevRestrict.
Import ListNotations.

(** the boxes fit into the arrays, also after the loop *)
Definition fits (inp : input) (st : state) : Prop :=
  last (s_lstart st) 0 <= s_guess st /\ length (s_lstart st) <= nlevels_max inp.
(** The result of a trip or of the loop as told by the model *)
Definition as_modelled (inp : input) (o : outcome) (r : trip_result) (d : device array) : Prop :=
  match o with
  | Continue st' => r = Again (host_of st') /\ agrees (view inp st' nothing) d /\ roomy inp st'
  | Done st' => r = Left (host_of st') /\ agrees (view inp st' nothing) d /\ fits inp st'
  | Failed e => r = Raised e
  end.

Section Trip.
Variable inp : input.
Notation nch := (nchild inp).
Notation np := (npart inp).
Hypothesis WT : forall u, u < np -> (0 <= weight inp u <= INT_MAX)%Z.
Hypothesis MW : (0 <= max_weight inp)%Z.
Hypothesis NPOS : 0 < np.
Hypothesis GU : 0 < nboxes_guess inp.

Section One.
Variable st : state.
Variable pth : nat -> list nat.
Hypothesis G : good inp st pth.
Hypothesis RM : roomy inp st.
Let H := g_head inp st pth G.
Let I := h_inv inp st pth H.
Let Y := i_layout inp st pth I.
Notation L := (nlev st).
Notation n := (lst st L).
Notation st1 := (scanned inp st).
Notation st2 := (marked inp st1).
Notation ids := (split_box_ids inp st1).
Notation nu := (new_used st2 ids).
Notation nl := (new_leaves inp st2 nu).
Notation ids_tmp := (ids_tmp inp st).

Lemma read_used_refines {R} starts : forall (next : list nat -> host array R) (Q : R -> device array -> Prop),
  (forall s, In s starts -> 0 < s <= n) ->
  okd (view inp st2 ids_tmp) (next (map (fun s => ids (s - 1) - s) starts)) Q ->
  okd (view inp st2 ids_tmp) (read_used starts next) Q.
Proof.
  induction starts as [|s starts IH]; intros next Q B O; cbn [read_used map] in *; auto.
  assert (Bs := B s (or_introl eq_refl)). assert (RG := r_guess inp st RM).
  replace (z s - 1)%Z with (z (s - 1)) by lia.
  apply (ok_peek array array_eq _ SplitIds (s - 1) (z (s_guess st)) (z (ids (s - 1)))).
  - reflexivity.
  - lia.
  - cbn [view val cellv DevSplitScan.ids_tmp]. destruct (Nat.ltb_spec (s - 1) n); [auto|lia].
  - apply IH; [intros; apply B; right; auto|].
    replace (Z.to_nat (z (ids (s - 1)) - z s)) with (ids (s - 1) - s) by lia. exact O.
Qed.
Lemma starts_bounds s : In s (tl (s_lstart st)) -> 0 < s <= n.
Proof.
  intros J. assert (LEN := lay_len st Y). assert (L0 := lay_0 st Y).
  destruct (In_nth _ _ 0 J) as [i [Hi E]].
  assert (E' : lst st (S i) = s).
  { unfold lst. destruct (s_lstart st) as [|x l] eqn:EL; [cbn in Hi; lia|]. cbn [tl] in *. cbn [nth]. exact E. }
  assert (Hi' : S i <= L) by (destruct (s_lstart st); cbn [tl length] in *; lia).
  assert (A := lst_le st Y (S i) L Hi' (le_n _)). assert (B := lst_le st Y 1 (S i) ltac:(lia) Hi').
  assert (C := lay_used st Y 0 (lay_pos st Y)). assert (D := lay_used_0 st Y). lia.
Qed.
Lemma read_oversize_refines {R} K (next : bool -> host array R) (Q : R -> device array -> Prop) :
  len K Oversize = Some 1%Z -> val K Oversize 0 = Some (bool_z (s_oversize st2)) ->
  okd K (next (level_restrict inp && s_oversize st2)) Q -> okd K (read_oversize_lr inp next) Q.
Proof.
  intros L1 V1 O. unfold read_oversize_lr. destruct (level_restrict inp); auto.
  apply (ok_peek array array_eq _ Oversize 0 1%Z (bool_z (s_oversize st2))); auto; [lia|]. rewrite bool_z_nz. exact O.
Qed.
Lemma forget_tmp {R} s t (h : host array R) (Q : R -> device array -> Prop) :
  okd (view inp s nothing) h Q -> okd (view inp s t) h Q.
Proof.
  intros O. apply (ok_weaken array array_eq _ _ _ _ O). intros d. apply known_weaken; auto.
  intros a m k v _ _. cbn [view val]. destruct a; cbn [cellv nothing]; auto; discriminate.
Qed.

Lemma nboxes_eq : last (s_lstart st) 0 <= s_guess st.
Proof.
  assert (E : last (s_lstart st) 0 = n).
  { unfold lst. assert (LEN := lay_len st Y). destruct (exists_last (l := s_lstart st)) as [l [x EL]].
    - intros Z. rewrite Z in LEN. discriminate.
    - rewrite EL in *. rewrite app_length in LEN. cbn [length] in LEN. rewrite last_last, app_nth2 by lia.
      replace (nlev st - length l) with 0 by lia. reflexivity. }
  rewrite E. apply (r_guess inp st RM).
Qed.

Section Split.
Variable nbn : nat.
Hypothesis NM : s_level st + 1 < nlevels_max inp.
Hypothesis NB : n + nth L nu 0 <= nbn.
Hypothesis NR : forall l, l < L -> nth l nu 0 <= lst st (S l) - lst st l.
Hypothesis GB : nbn <= s_guess st.
Notation s5 := (st5 inp st nl nbn).

Lemma control_roomy s level force over final : roomy inp s -> roomy inp (with_control s level force over final).
Proof. intros [A B C]. constructor; auto. Qed.
Lemma s5_roomy : roomy inp s5.
Proof. apply (advance_roomy inp WT NPOS GU st pth G RM nl nbn NB NR GB). Qed.
Lemma oversize_cell s t : len (view inp s t) Oversize = Some 1%Z /\ val (view inp s t) Oversize 0 = Some (bool_z (s_oversize s)).
Proof. split; reflexivity. Qed.

(** the end of a trip that does not force a split *)
Lemma finish_refines force t :
  okd (view inp (with_control s5 (s_level s5) force (s_oversize s5) (s_final s5)) t)
    (Peek Oversize 0%Z (fun over =>
      if (over =? 0)%Z then Ret (Left (mkHost (s_level st) (s_lstart st ++ [nbn]) nu nl (s_final st) (s_guess st)))
      else Assign Oversize 0%Z [0%Z] (Ret (Again (mkHost (s_level st + 1) (s_lstart st ++ [nbn]) nu nl false (s_guess st))))))
    (as_modelled inp (if negb (s_oversize s5) then Done (with_control s5 (s_level s5) force (s_oversize s5) (s_final s5))
                      else Continue (with_control s5 (s_level s5 + 1) force false false))).
Proof.
  apply (ok_peek array array_eq _ Oversize 0 1%Z (bool_z (s_oversize s5))); [reflexivity|lia|reflexivity|].
  destruct (s_oversize s5) eqn:E; cbn [bool_z Z.eqb negb].
  - apply (ok_assign array array_eq _ _ 0) with (n := 1%Z); [reflexivity|cbn [length]; lia|].
    apply ok_ret. intros d A. split; [reflexivity|]. split; [|apply control_roomy, s5_roomy].
    revert A. apply known_weaken; [auto|]. intros a m k v Lm Hk. cbn [k_assign view val].
    destruct a; chain; cbn [cellv nothing]; auto; try discriminate. cbn [view len lenv] in Lm. injection Lm as <-.
    assert (k = 0) by lia. subst k. auto.
  - apply forget_tmp. apply ok_ret. intros d A. split; [reflexivity|]. split; [exact A|].
    change (last (s_lstart st ++ [nbn]) 0 <= s_guess st /\ length (s_lstart st ++ [nbn]) <= nlevels_max inp).
    rewrite last_last, app_length. cbn [length]. assert (HL := h_level inp st pth H). assert (LEN := lay_len st Y). lia.
Qed.

Lemma split_refines : okd (view inp st2 ids_tmp) (split_program inp (host_of st2) nu nl nbn) (as_modelled inp (after_split inp s5 nbn)).
Proof.
  unfold split_program. cbn [host_of BuildDevice.h_level h_lstart h_used h_leaves h_final h_guess].
  assert (HL := h_level inp st pth H). assert (NUL := nu_length inp st pth H). assert (LEN := lay_len st Y).
  assert (R5 := s5_roomy).
  assert (I5 := advance_inv inp WT MW st pth H nl nbn NB NR).
  assert (NV : nlev s5 = S (s_level s5)) by (rewrite (nlev5 inp st pth H); f_equal; symmetry; exact HL).
  assert (LL : nbn = lst s5 (nlev s5)) by (rewrite (nlev5 inp st pth H); symmetry; apply (lst5_last inp st pth H nl nbn NB)).
  apply (advance_refines inp WT MW st pth G RM NM nl nbn NB NR GB).
  change (s_level st2) with (s_level st). change (s_lstart st2) with (s_lstart st). change (s_final st2) with (s_final st).
  change (s_guess st2) with (s_guess st).
  unfold after_split. cbv zeta. change (s_final s5) with (s_final st). change (s_level s5) with (s_level st) at 1.
  change (s_used s5) with nu.
  destruct (s_final st) eqn:F.
  - apply (ok_peek array array_eq _ Oversize 0 1%Z (bool_z (s_oversize s5))); [reflexivity|lia|reflexivity|].
    rewrite bool_z_nz. destruct (s_oversize s5 || negb (nth (s_level st) nu 0 =? 0)) eqn:E.
    + apply ok_ret. intros d A. reflexivity.
    + apply orb_false_iff in E. destruct E as [E1 E2]. apply negb_false_iff, Nat.eqb_eq in E2.
      apply ok_ret. intros d A. split; [reflexivity|]. split.
      2:{ change (last (removelast (s_lstart st ++ [nbn])) 0 <= s_guess st /\ length (removelast (s_lstart st ++ [nbn])) <= nlevels_max inp).
          rewrite removelast_last. rewrite LEN. assert (X := nboxes_eq). lia. }
      revert A. apply known_weaken; [auto|].
      intros a m k v Lm Hk. cbn [view val]. destruct a; cbn [cellv nothing]; auto; try discriminate;
        cbn [with_control with_level_counts s_lstart s_used].
      * change (s_lstart s5) with (s_lstart st ++ [nbn]). rewrite removelast_last, app_length. cbn [length].
        destruct (Nat.ltb_spec k (length (s_lstart st))); [|discriminate]. destruct (Nat.ltb_spec k (length (s_lstart st) + 1)); [|lia].
        rewrite app_nth1 by auto. auto.
      * change (s_used s5) with nu. intros X. rewrite <- X. do 2 f_equal.
        rewrite removelast_firstn_len, NUL. cbn [Nat.pred]. rewrite HL in E2.
        destruct (Nat.lt_trichotomy k L) as [C|[C|C]].
        -- rewrite <- (firstn_skipn L nu) at 1. rewrite app_nth1 by (rewrite firstn_length, NUL; lia). auto.
        -- subst k. rewrite E2. symmetry. apply nth_overflow. rewrite firstn_length, NUL. lia.
        -- rewrite !nth_overflow; auto; [rewrite firstn_length|]; rewrite NUL; lia.
  - destruct (level_restrict inp) eqn:LR.
    + (* level restriction *)
      assert (RG : s_guess s5 = s_guess st) by reflexivity.
      apply (ok_assign array array_eq _ _ 0) with (n := z (s_guess st)).
      { cbn [view len lenv]. rewrite LR. reflexivity. }
      { rewrite repeat_length. lia. }
      assert (TOT := restrict_levels_total inp NPOS GU s5 (pth5 inp st pth nl nbn) nbn (rev (seq 1 (s_level st - 2))) I5 NV LL (fun _ => false) false).
      change (s_level s5) with (s_level st) at 1.
      destruct (restrict_levels inp s5 nbn (rev (seq 1 (s_level st - 2))) (fun _ => false) false) as [[force did]|] eqn:RL; [|congruence]. clear TOT.
      apply (ok_weaken array array_eq _ (view inp (sf s5 (fun _ => false)) ids_tmp)).
      2:{ intros d. apply known_weaken; [auto|]. intros a m k v Lm Hk. cbn [k_assign view val].
          destruct a; chain; cbn [cellv]; auto. cbn [view len lenv] in Lm. rewrite LR in Lm. injection Lm as <-.
          change (s_guess (sf s5 (fun _ => false))) with (s_guess st) in Hk.
          intros <-. rewrite repeat_length. cbn [Nat.leb andb Nat.add]. destruct (Nat.ltb_spec k (s_guess st)); [|lia].
          rewrite (nth_error_nth' _ 0%Z) by (rewrite repeat_length; lia). rewrite nth_repeat. auto. }
      change (mkHost (s_level st) (s_lstart st ++ [nbn]) nu nl false (s_guess st)) with
        (mkHost (s_level s5) (s_lstart s5) (s_used s5) (s_leaves s5) false (s_guess s5)).
      rewrite <- F at 1. change (s_final st) with (s_final s5) at 1.
      change (mkHost (s_level s5) (s_lstart s5) (s_used s5) (s_leaves s5) (s_final s5) (s_guess s5)) with (host_of s5).
      apply (restrict_refines inp NPOS GU s5 (pth5 inp st pth nl nbn) I5 NV LR nbn LL) with (force' := force) (did' := did).
      * change (s_guess s5) with (s_guess st). exact GB.
      * intros l J. apply in_rev, in_seq in J. rewrite NV. change (s_level s5) with (s_level st). lia.
      * exact RL.
      * apply (ok_peek array array_eq _ Oversize 0 1%Z (bool_z (s_oversize s5))); [reflexivity|lia|reflexivity|].
        unfold sf. change (s_final s5) with (s_final st). rewrite F.
        assert (FIN := finish_refines force ids_tmp). rewrite F in FIN. change (s_final s5) with (s_final st) in FIN. rewrite F in FIN.
        destruct (s_oversize s5) eqn:E; cbn [bool_z Z.eqb andb negb] in *.
        -- exact FIN.
        -- destruct did; [|exact FIN]. apply forget_tmp. apply ok_ret. intros d A. split; [reflexivity|]. split; [|apply control_roomy, R5].
           revert A. apply known_weaken; auto.
    + assert (FIN := finish_refines (s_force s5) ids_tmp). rewrite F in FIN. change (s_final s5) with (s_final st) in FIN. rewrite F in FIN.
      apply (ok_post array array_eq _ _ _ _ FIN). intros r d. destruct (s_oversize s5) eqn:E; cbn [negb]; auto.
      intros [A [B C]]. split; [|split; [|exact C]].
      * rewrite A. unfold host_of. cbn [with_control s_level s_lstart s_used s_leaves s_final s_guess]. rewrite <- F. reflexivity.
      * revert B. apply known_weaken; [auto|]. intros a m k v Lm Hk. cbn [view val]. destruct a; cbn [cellv nothing]; auto.
        cbn [with_control s_oversize]. rewrite E. auto.
Qed.
End Split.

Theorem trip_refines : okd (view inp st nothing) (trip inp (host_of st)) (as_modelled inp (step inp st)).
Proof.
  unfold trip, step. cbn [host_of BuildDevice.h_level h_lstart h_used h_leaves h_final h_guess].
  destruct (Nat.leb_spec (nlevels_max inp) (s_level st + 1)) as [C|NM]; [apply ok_ret; intros d A; reflexivity|].
  assert (HL := h_level inp st pth H).
  apply (morton_scan_refines inp st pth G RM).
  change (nth (s_level st) (s_lstart st) 0) with (lst st (s_level st)) at 1. rewrite HL at 2.
  apply (split_scan_refines inp st pth G RM NM).
  change (marks inp st) with st2.
  apply read_used_refines; [apply starts_bounds|].
  change (1 :: map (fun s => ids (s - 1) - s) (tl (s_lstart st))) with nu.
  apply read_oversize_refines; [reflexivity|reflexivity|]. cbv zeta.
  change (new_leaves inp (host_state (host_of st)) nu) with nl.
  set (hs := host_state (host_of st)).
  assert (MN : minimal_new_length inp hs nu nl (level_restrict inp && s_oversize st2) = minimal_new_length inp st2 nu nl (s_oversize st2)).
  { unfold minimal_new_length. change (s_level hs) with (s_level st2). rewrite andb_assoc, andb_diag. auto. }
  rewrite MN. set (mn := minimal_new_length inp st2 nu nl (s_oversize st2)).
  change (minimal_length hs nu) with (minimal_length st2 nu). change (needs_renumbering hs nu) with (needs_renumbering st2 nu).
  change (new_lstart inp hs nu nl) with (new_lstart inp st2 nu nl). change (s_lstart st2) with (s_lstart st). change (s_guess st2) with (s_guess st).
  change (s_final st2) with (s_final st).
  change (host_of st) with (host_of st2).
  assert (MH := marked_head inp WT MW st pth H). assert (R2 : roomy inp st2) by (apply (marks_roomy inp st RM)).
  assert (GP := g_guess inp st pth G).
  destruct (needs_renumbering st2 nu) eqn:NRN.
  - destruct (level_restrict inp) eqn:LR; cbn [negb]; [|apply ok_ret; intros d A; reflexivity].
    destruct (list_eq_dec Nat.eq_dec (s_lstart st) (new_lstart inp st2 nu nl)) as [E|E]; [apply ok_ret; intros d A; reflexivity|].
    assert (NSlen := new_lstart_length inp st2 pth MH nu nl). assert (NS0 := new_lstart_0 inp st2 nu nl).
    assert (NSle := new_lstart_le inp st2 pth MH nu nl).
    assert (NBB : nth (nlev st2) (new_lstart inp st2 nu nl) 0 <= nth (s_level st) (new_lstart inp st2 nu nl) 0 + mn).
    { rewrite HL. change (nlev st2) with L. lia. }
    apply (renumber_refines inp st2 pth MH R2 GP ids_tmp); auto.
    + change (nlev st2) with L. lia.
    + intros d A. split; [reflexivity|]. split; [exact A|].
      apply (renumber_roomy inp WT MW NPOS GU st pth G RM); auto.
  - assert (TOT := not_renumber inp st pth G NRN). destruct TOT as [NR TOT].
    change (nsum (map (minimal_length st2 nu) (seq 0 (s_level st))) = n) in TOT. rewrite TOT.
    assert (MG : nth L nu 0 <= mn) by apply (min_new_ge inp st pth G).
    destruct (Nat.ltb_spec (s_guess st) (n + mn)) as [CG|CG].
    + apply (realloc_refines inp st2 pth MH R2 GP ids_tmp). intros d A. split; [reflexivity|]. split; [exact A|].
      apply (guess_roomy inp NPOS GU st RM). apply (grow_spec (n + mn) (s_guess st) (n + mn) GP).
    + assert (SP := split_refines (n + mn) NM ltac:(lia) NR CG).
      change (st5 inp st nl (n + mn)) with (advance inp st st2 ids nu nl (n + mn)) in SP.
      destruct (nth (s_level st) (s_lstart st) 0 =? n + mn); cbn [andb]; [|exact SP].
      destruct (s_final st) eqn:F; cbn [negb]; [rewrite andb_false_r; exact SP|]. rewrite andb_true_r.
      destruct (have_extent inp); [|apply ok_ret; intros d A; reflexivity].
      apply forget_tmp. apply ok_ret. intros d A. split; [cbn [with_control]; unfold host_of; cbn [s_level s_lstart s_used s_leaves s_final s_guess]; rewrite <- F; reflexivity|]. split; [exact A|].
      change (last (s_lstart st) 0 <= s_guess st /\ length (s_lstart st) <= nlevels_max inp).
      assert (LEN := lay_len st Y). assert (X := nboxes_eq). lia.
Qed.
End One.

(** *** The loop *)
Lemma trips_refine fuel : forall st pth, good inp st pth -> roomy inp st ->
  okd (view inp st nothing) (trips inp fuel (host_of st)) (as_modelled inp (loop inp fuel st)).
Proof.
  induction fuel as [|fuel IH]; intros st pth G RM; cbn [trips loop]; [apply ok_ret; intros; reflexivity|].
  apply (ok_bind array array_eq) with (P := as_modelled inp (step inp st)); [apply (trip_refines st pth G RM)|].
  intros r d M. assert (SC := step_cases inp WT MW st pth G).
  destruct (step inp st) as [st'|st'|e]; cbn [as_modelled] in M.
  - destruct M as [-> [A R']]. destruct SC as [pt T]. exact (IH st' pt (trans_good inp WT MW st pth st' pt G T) R' d A).
  - destruct M as [-> [A FI]].
    apply (ok_ret array array_eq (view inp st' nothing) (Left (host_of st')) (as_modelled inp (Done st'))); [|exact A].
    intros d' A'. split; auto.
  - subst r. apply (ok_ret array array_eq (mkKnown (fun _ => None) (fun _ _ => None)) (Raised e) (as_modelled inp (Failed e))).
    + intros. reflexivity.
    + split; discriminate.
Qed.

(** *** Before the loop *)
(** what the device holds when the level loop program starts: tree_build.py:323-452 *)
Definition given : known := mkKnown
  (fun x => match x with
   | RefineWeights => Some (z np)
   | Coords a => if a <? idim inp then Some (z np) else None
   | Radii => if have_extent inp then Some (z np) else None
   | _ => None end)
  (fun x k => match x with
   | RefineWeights => Some (weight inp k)
   | Coords a => Some (coord inp k a)
   | Radii => Some (radius_of inp k)
   | _ => None end).

Lemma in_seq_map {B} (mk : nat -> B) m c : (forall a b, mk a = mk b -> a = b) -> (In (mk m) (map mk (seq 0 c)) <-> m < c).
Proof.
  intros J. rewrite in_map_iff. split.
  - intros [k [E K]]. apply J in E. subst k. apply in_seq in K. lia.
  - intros K. exists m. split; auto. apply in_seq. lia.
Qed.
Lemma in_field_map (mk : field -> array) f : (forall a b, mk a = mk b -> a = b) -> (In (mk f) (map mk (fields inp)) <-> field_in inp f = true).
Proof.
  intros J. rewrite in_map_iff, <- field_in_iff. split.
  - intros [k [E K]]. apply J in E. subst k. auto.
  - intros K. exists f. auto.
Qed.
Ltac absent :=
  match goal with
  | J : ~ In (Children _) (map Children _) |- _ => apply J, (in_seq_map Children); [congruence|assumption]
  | J : ~ In (Centers _) (map Centers _) |- _ => apply J, (in_seq_map Centers); [congruence|assumption]
  | J : ~ In (MortonBin _) (map MortonBin _) |- _ => apply J, (in_field_map MortonBin); [congruence|assumption]
  | J : ~ In (BoxBin _) (map BoxBin _) |- _ => apply J, (in_field_map BoxBin); [congruence|assumption]
  end.

Lemma centers_assigned {R} K (next : host array R) (Q : R -> device array -> Prop) :
  (forall a, a < idim inp -> len K (Centers a) = Some (z (nboxes_guess inp))) ->
  (forall a, idim inp <= a -> len K (Centers a) = None) ->
  okd (mkKnown (len K) (fun x k => match x, k with
       | Centers a, 0 => Some (bbox_min inp a + extent_along inp a / 2)%Z
       | _, _ => val K x k end)) next Q ->
  okd K (each (axes inp) (fun a nx => Assign (Centers a) 0%Z [(bbox_min inp a + extent_along inp a / 2)%Z] nx) next) Q.
Proof.
  intros LC LN O.
  set (P := fun l' : list nat => mkKnown (len K) (fun x k => match x, k with
    | Centers a, 0 => if idim inp - length l' <=? a then val K x k else Some (bbox_min inp a + extent_along inp a / 2)%Z
    | _, _ => val K x k end)).
  apply (ok_weaken array array_eq _ (P (axes inp))).
  2:{ intros d. unfold P. apply known_weaken; [auto|]. intros x m k v _ _. cbn [val]. unfold axes. rewrite seq_length, Nat.sub_diag.
      destruct x; auto. destruct k; auto. }
  apply (ok_each array array_eq).
  - intros a l' nx [l0 E] O'.
    assert (LL : a = length l0 /\ idim inp = length l0 + S (length l')).
    { unfold axes in E. assert (EL := f_equal (@length nat) E). rewrite seq_length, app_length in EL. cbn [length] in EL.
      split; [|lia]. assert (EN := f_equal (fun x => nth (length l0) x 0) E). cbn beta in EN. rewrite seq_nth in EN by lia.
      rewrite app_nth2, Nat.sub_diag in EN by lia. cbn [nth] in EN. lia. }
    destruct LL as [LL LE]. clear E.
    apply (ok_assign array array_eq _ _ 0) with (n := z (nboxes_guess inp)).
    + cbn [P len]. apply LC. lia.
    + cbn [length]. lia.
    + apply (ok_weaken array array_eq _ _ _ _ O'). intros d. unfold P. apply known_weaken; [auto|].
      intros x m k v Lm Hk. cbn [k_assign val]. destruct x; chain; auto.
      * injection E as ->. destruct k; cbn [Nat.leb Nat.ltb Nat.add length andb nth_error Nat.sub]; auto.
        destruct (Nat.leb_spec (idim inp - length l') a); [lia|]. auto.
      * destruct k; auto. cbn [length]. assert (a0 <> a) by congruence.
        destruct (Nat.leb_spec (idim inp - length l') a0), (Nat.leb_spec (idim inp - S (length l')) a0); auto; lia.
  - apply (ok_weaken array array_eq _ _ _ _ O). intros d. unfold P. apply known_weaken; [auto|].
    intros x m k v Lm Hk. cbn [val length len] in *. destruct x; auto. destruct k; auto.
    rewrite Nat.sub_0_r. destruct (Nat.leb_spec (idim inp) a); auto.
    rewrite LN in Lm by auto. discriminate.
Qed.

Theorem setup_refines {R} (next : hstate -> host array R) (Q : R -> device array -> Prop) : 2 <= nlevels_max inp ->
  okd (view inp (initial_state inp) nothing) (next (host_of (initial_state inp))) Q ->
  okd given (setup inp next) Q.
Proof.
  intros NL O. unfold setup.
  apply ok_alloc; [lia|].
  apply (ok_assign array array_eq _ _ 0) with (n := z np); [reflexivity|rewrite map_length, seq_length; lia|].
  apply (ok_each_alloc array array_eq) with (mk := MortonBin); [lia|].
  do 4 (apply ok_alloc; [lia|]).
  apply (ok_each_alloc array array_eq) with (mk := BoxBin); [lia|].
  do 2 (apply ok_alloc; [lia|]).
  apply (ok_each_alloc array array_eq) with (mk := Children); [lia|].
  apply (ok_each_alloc array array_eq) with (mk := Centers); [lia|].
  apply centers_assigned.
  { intros a Ha. cbn [k_allocs len]. destruct (in_dec array_eq (Centers a) (map Centers (axes inp))) as [J|J]; auto.
    destruct J. apply (in_seq_map Centers); [congruence|auto]. }
  { intros a Ha. cbn [k_allocs k_alloc k_assign len]. chain; auto.
    unfold axes in J. apply (in_seq_map Centers) in J; [lia|congruence]. }
  do 2 (apply ok_alloc; [lia|]).
  apply (ok_assign array array_eq _ _ 0) with (n := z (nboxes_guess inp)); [reflexivity|cbn [length]; lia|].
  apply ok_alloc; [lia|]. apply ok_alloc; [destruct (level_restrict inp); lia|].
  apply (ok_assign array array_eq _ _ 0) with (n := z (nboxes_guess inp)).
  { cbn [k_alloc k_assign k_allocs len]. chain; auto. }
  { cbn [length]; lia. }
  do 4 (apply ok_alloc; [lia|]).
  apply (ok_assign array array_eq _ _ 0) with (n := z (nlevels_max inp)); [reflexivity|cbn [length]; lia|].
  apply (ok_assign array array_eq _ _ 1) with (n := z (nlevels_max inp)); [reflexivity|cbn [length]; lia|].
  apply (ok_assign array array_eq _ _ 0) with (n := z (nlevels_max inp)); [reflexivity|cbn [length]; lia|].
  apply (ok_weaken array array_eq _ _ _ _ O). intros d. apply known_weaken.
  - intros x m. cbn [view len k_assign k_alloc k_allocs]. destruct x; cbn [lenv]; try discriminate; chain; auto; unfold axes in *;
      cbn [given len]; auto.
    all: try (match goal with |- (if ?c then _ else _) = _ -> Some _ = _ => destruct c; [auto|discriminate] end).
    all: match goal with |- (if ?c then _ else _) = _ -> None = _ => destruct c eqn:F; [exfalso|auto] end; try apply Nat.ltb_lt in F.
    all: absent.
  - intros x m k v Lm Hk. cbn [view val len k_assign k_alloc k_allocs] in *.
    destruct x; cbn [lenv cellv nothing initial_state s_user s_box s_start_flag s_bins s_wts s_start s_cumul s_parent s_child s_center s_blevel s_has_children s_force s_lstart s_used s_oversize s_guess] in *; try discriminate; chain; auto; unfold axes in *.
    all: try (match type of Lm with (if ?c then _ else _) = _ => destruct c eqn:F; [exfalso|discriminate] end; try apply Nat.ltb_lt in F; absent).
    + intros <-. injection Lm as <-. rewrite map_length, seq_length. cbn [Nat.leb andb Nat.add]. rewrite Nat.sub_0_r.
      destruct (Nat.ltb_spec k np); [|lia]. rewrite nth_error_map, (nth_error_nth' _ 0) by (rewrite seq_length; lia).
      cbn [option_map]. rewrite seq_nth by lia. reflexivity.
    + destruct f; auto.
    + destruct k as [|[|k]]; auto.
    + destruct k as [|[|k]]; auto.
    + destruct k as [|[|k]]; auto.
    + destruct k as [|[|[|k]]]; auto; discriminate.
    + destruct k as [|[|[|k]]]; auto.
Qed.

Theorem level_loop_refines : 2 <= nlevels_max inp ->
  okd given (level_loop_program inp) (as_modelled inp (level_loop inp)).
Proof.
  intros NL. unfold level_loop_program, level_loop. apply setup_refines; auto.
  cbn [host_of BuildDevice.h_level]. cbv zeta. destruct (s_level (initial_state inp)) as [|l] eqn:E; cbn [Nat.eqb].
  - apply ok_ret. intros d A. split; [unfold host_of; rewrite E; reflexivity|]. split; [exact A|].
    split; cbn [initial_state s_lstart s_guess last length]; lia.
  - assert (E1 : s_level (initial_state inp) = 1).
    { revert E. cbn [initial_state s_level]. destruct (_ <? _)%Z; auto. discriminate. }
    apply (trips_refine _ (initial_state inp)) with (pth := fun _ => []).
    + apply (init_good inp NPOS GU E1).
    + apply (initial_roomy inp NPOS GU).
Qed.
End Trip.
