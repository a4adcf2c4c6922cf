(** Splitting boxes and renumbering particles on the device (BuildDevice.v) computes [advance]
    of TreeBuild.v. *)
From Coq Require Import List Arith ZArith NArith Lia Bool Permutation.
From Verif Require Import Base Tree Walk Traversal Fmm TreeBuild ArrayFacts Kernel Device DeviceRules BuildDevice BuildInv
  BuildScan BuildIds BuildSort BuildAdvance BuildRenumber BuildStep BuildNext BuildLoop BuildTerm BuildPrune BuildView DevMorton
  DevSplitScan DevSplitter.
Import ListNotations.

(** the binary search finds the field *)
Lemma count_for_branch_val d : forall base cnt j, j < 2 ^ d ->
  count_for_branch d base cnt (z (base + j)) = cnt (Cnt (S (base + j))).
Proof.
  induction d as [|d IH]; intros base cnt j Hj; cbn [count_for_branch].
  - cbn in Hj. assert (j = 0) by lia. subst j. rewrite Nat.add_0_r. auto.
  - cbn [Nat.pow] in Hj. destruct (Z.ltb_spec (z (base + j)) (z (base + 2 ^ d))) as [C|C].
    + apply IH. lia.
    + replace (base + j) with (base + 2 ^ d + (j - 2 ^ d)) by lia. apply IH. lia.
Qed.

Section Particles.
Variable inp : input.
Notation nch := (nchild inp).
Notation np := (npart inp).
Hypothesis WT : forall u, u < np -> (0 <= weight inp u <= INT_MAX)%Z.
Hypothesis MW : (0 <= max_weight inp)%Z.
Variable st : state.
Variable pth : nat -> list nat.
Hypothesis G : good inp st pth.
Hypothesis RM : roomy inp st.
Hypothesis NM : s_level st + 1 < nlevels_max inp.
Let H := g_head inp st pth G.
Let I := h_inv inp st pth H.
Let Y := i_layout inp st pth I.
Notation L := (nlev st).
Notation n := (lst st L).
Notation st1 := (scanned inp st).
Notation st2 := (marked inp st1).
Notation sp := (splits inp st1).
Notation ids := (split_box_ids inp st1).
Notation nu := (new_used st2 ids).
Notation ids_tmp := (ids_tmp inp st).
Notation level := (s_level st).
Notation moves := (moves inp st).
Notation nid := (nid inp st).
Variables (nl : list nat) (nbn : nat).
Hypothesis NB : n + nth L nu 0 <= nbn.
Hypothesis NR : forall l, l < L -> nth l nu 0 <= lst st (S l) - lst st l.
Hypothesis GB : nbn <= s_guess st.
Notation st3 := (with_level_counts st2 (s_lstart st2 ++ [nbn]) nu nl).
Notation st4 := (splitter inp st3 nbn ids).
Notation s5 := (st5 inp st nl nbn).
Notation mn := (morton_nrs inp st).
Notation bc := (bin_counts inp st mn).
Notation ti := (target_index inp st3 mn bc).
Notation tb := (target_box inp st3 ids mn).
Notation bv := (bv inp st nl nbn).
Notation bvs := (bvs inp st nl nbn).

(** after the boxes have been split *)
Definition st4b : state := with_particles st4 (s_user st) (s_box st) (s_blevel s5).
Definition new0 (x : array) : option (Z * (nat -> option Z)) :=
  match x with NewUserIds | NewBoxIds => zeros (z np) | _ => None end.
Definition new1 (x : array) : option (Z * (nat -> option Z)) :=
  match x with
  | NewUserIds => Some (z np, fun k => Some (z (s_user s5 k)))
  | NewBoxIds => Some (z np, fun k => Some (z (s_box s5 k)))
  | _ => None
  end.
Notation K4 := (extend (view inp st4b ids_tmp) new0).

Lemma blevel_used b : used st b -> s_blevel s5 b = s_blevel st b.
Proof.
  intros U. rewrite (blevel5 inp st pth H nl nbn NB). assert (X := used_lt st Y b U).
  destruct (Nat.leb_spec (n + nth L nu 0) b); [lia|]. cbn [andb].
  apply (level4_old inp WT st pth H nl nbn NB NR). apply (used_not_new inp st pth H nl nbn NB NR b U).
Qed.
Definition mine (i : nat) : field -> Z := field_of (fields inp) (map (fun f => scan_out inp st f i) (fields inp)).
Lemma mine_cnt i j : i < np -> j <= nch -> mine i (Cnt j) = z (bc i j).
Proof.
  intros Hi Hj. unfold mine. destruct (field_in inp (Cnt j)) eqn:F.
  - apply field_in_iff in F. rewrite (field_of_map (fields inp) (fun f => scan_out inp st f i)) by auto. auto.
  - rewrite (field_of_notin (fields inp) (fun f => scan_out inp st f i)) by (rewrite field_in_iff; congruence).
    destruct j; cbn [field_in] in F.
    + rewrite (bc_0 inp st pth G i Hi F). auto.
    + apply Nat.ltb_ge in F. lia.
Qed.
Lemma mn_no_extent i : i < np -> have_extent inp = false -> mn i <> 0.
Proof.
  intros Hi X. rewrite (mn_val inp st pth I i Hi).
  assert (K := key_no_extent inp (s_user st i) (length (pth (s_box st i))) X). lia.
Qed.
Lemma get_count_val i : i < np -> get_count inp (mine i) (z (mn i) - 1) = z (bc i (mn i)).
Proof.
  intros Hi. assert (LE := mn_le inp st pth I i Hi). unfold get_count. destruct (mn i) as [|m] eqn:E.
  - destruct (have_extent inp) eqn:X; [|destruct (mn_no_extent i Hi X E)]. cbn [andb]. replace (z 0 - 1 =? -1)%Z with true by auto.
    apply mine_cnt; lia.
  - replace (z (S m) - 1 =? -1)%Z with false by (symmetry; apply Z.eqb_neq; lia). rewrite andb_false_r.
    replace (z (S m) - 1)%Z with (z (0 + m)) by lia.
    rewrite count_for_branch_val.
    + apply mine_cnt; auto.
    + exact LE.
Qed.
Lemma zsum_ext (f g : nat -> Z) l : (forall x, In x l -> f x = g x) -> zsum (map f l) = zsum (map g l).
Proof. intros E. f_equal. apply map_ext_in. auto. Qed.
Lemma target_val i : i < np -> moves (s_box st i) ->
  (z (s_start st (s_box st i)) + get_count inp (mine i) (z (mn i) - 1) - 1
   + (if 0 <=? z (mn i) - 1 then bvs (s_box st i) (Cnt 0) else 0)
   + zsum (map (fun m => if z m <? z (mn i) - 1 then bvs (s_box st i) (Cnt (S m)) else 0) (seq 0 nch)))%Z = z (ti i).
Proof.
  intros Hi M. assert (U := moves_used inp MW st pth H _ M). rewrite get_count_val by auto.
  unfold target_index. change (s_box st3 i) with (s_box st i). rewrite (proj2 (do_split_moves inp WT st pth H nl nbn _) M).
  change (s_start st3) with (s_start st).
  assert (B1 : 1 <= bc i (mn i)).
  { rewrite (bc_val inp st i (mn i) Hi (mn_le inp st pth I i Hi)).
    assert (X := seg_leaf inp st pth I i Hi (moves_leaf inp WT MW st pth H _ M)). rewrite X.
    assert (R := own_range inp st pth I i Hi). rewrite cntr_S, Nat.eqb_refl by lia. lia. }
  replace (if 0 <=? z (mn i) - 1 then bvs (s_box st i) (Cnt 0) else 0)%Z
    with (z (if 0 <? mn i then s_bins st3 (s_box st i) 0 else 0)).
  2:{ destruct (Nat.ltb_spec 0 (mn i)), (Z.leb_spec 0 (z (mn i) - 1)); try lia.
      symmetry. apply (bvs_cnt inp st pth G NM nl nbn NB GB _ 0 U). lia. }
  rewrite (zsum_ext _ (fun m => z (if S m <? mn i then s_bins st3 (s_box st i) (S m) else 0))).
  - rewrite (zsum_z (fun m => if S m <? mn i then s_bins st3 (s_box st i) (S m) else 0)). lia.
  - intros m Hm. apply in_seq in Hm. destruct (Nat.ltb_spec (S m) (mn i)), (Z.ltb_spec (z m) (z (mn i) - 1)); try lia.
    apply (bvs_cnt inp st pth G NM nl nbn NB GB _ (S m) U). lia.
Qed.
Lemma target_box_val i : i < np -> moves (s_box st i) ->
  (if have_extent inp && (z (mn i) - 1 =? -1)%Z then z (s_box st i) else (z (ids (s_box st i)) - z nch + (z (mn i) - 1))%Z) = z (tb i).
Proof.
  intros Hi M. rewrite (tb_moves inp WT st pth H nl nbn i M). destruct (mn i) as [|m] eqn:E.
  - destruct (have_extent inp) eqn:X; [|destruct (mn_no_extent i Hi X E)]. reflexivity.
  - replace (z (S m) - 1 =? -1)%Z with false by (symmetry; apply Z.eqb_neq; lia). rewrite andb_false_r.
    rewrite <- (new_box_id_val inp st pth H _ m (proj1 M) (proj2 M)). unfold new_box_id.
    assert (IV := ids_val inp st pth H _ (proj1 M)). destruct (level_spec st Y _ (proj1 M)) as [L1 L2].
    rewrite cntr_S, (proj2 M) in IV by lia. lia.
Qed.

Definition renumber_touches (i : nat) : list (touch array) :=
  Get BoxIds i :: test_touches inp level (s_has_children st2 (s_box st i)) (s_force st (s_box st i)) (s_blevel st (s_box st i)) (s_box st i) ++
  (if do_split inp st3 (s_box st i) then
     Get MortonNrs i :: map (fun f => Get (BoxBin f) (s_box st i)) (fields inp) ++ map (fun f => Get (MortonBin f) i) (fields inp) ++
     [Get Starts (s_box st i); Get UserIds i; Put NewUserIds (ti i) (z (s_user st i)); Get SplitIds (s_box st i);
      Put NewBoxIds (ti i) (z (tb i))]
   else [Get UserIds i; Put NewUserIds (ti i) (z (s_user st i)); Put NewBoxIds (ti i) (z (tb i))]).
Lemma renumber_evals i : i < np -> evals K4 (renumber_item inp level i) (renumber_touches i).
Proof.
  intros Hi. assert (Hb := box_lt inp st pth G i Hi). assert (Hg := box_guess inp st pth G RM i Hi).
  assert (U : used st (s_box st i)) by apply (i_box inp st pth I i Hi). assert (HT := ti_lt inp WT MW st pth H nl nbn i Hi).
  unfold renumber_item, renumber_touches.
  eapply ev_load; [reflexivity|lia|reflexivity|]. change (s_box st4b i) with (s_box st i).
  apply split_test_evals with (g := z (s_guess st)).
  - reflexivity.
  - lia.
  - reflexivity.
  - reflexivity.
  - intros _. cbn [extend val new0 view cellv]. change (s_blevel st4b) with (s_blevel s5). rewrite (blevel_used _ U). auto.
  - intros LR. cbn [extend new0 view len val lenv cellv]. rewrite LR. split; reflexivity.
  - change (s_has_children st2 (s_box st i) && (s_blevel st (s_box st i) + 1 =? level) || level_restrict inp && s_force st (s_box st i))
      with (do_split inp st3 (s_box st i)).
    destruct (do_split inp st3 (s_box st i)) eqn:D.
    + apply (do_split_moves inp WT st pth H nl nbn) in D.
      eapply ev_load; [reflexivity|lia|reflexivity|].
      apply evals_load_struct with (g := bv (s_box st i)) (n := z (s_guess st)).
      { intros f Hf. apply field_in_iff in Hf. cbn [extend new0 view len val lenv cellv]. rewrite Hf. destruct f; repeat split; auto; lia. }
      apply evals_load_struct with (g := fun f => scan_out inp st f i) (n := z np).
      { intros f Hf. apply field_in_iff in Hf. cbn [extend new0 view len val lenv cellv]. rewrite Hf. repeat split; auto. lia. }
      eapply ev_load with (v := z (s_start st (s_box st i))).
      { reflexivity. }
      { change (s_guess st4b) with (s_guess st). lia. }
      { cbn [extend val new0 view cellv]. change (s_start st4b) with (s_start s5). rewrite (start5_old inp WT MW st pth H nl nbn NB NR _ U). auto. }
      cbv zeta. fold (mine i). fold (bvs (s_box st i)). rewrite (target_val i Hi D).
      eapply ev_load; [reflexivity|lia|reflexivity|]. change (s_user st4b i) with (s_user st i).
      eapply ev_store; [reflexivity|lia|].
      eapply ev_load with (v := z (ids (s_box st i))).
      { reflexivity. }
      { change (s_guess st4b) with (s_guess st). lia. }
      { cbn [extend val new0 view cellv DevSplitScan.ids_tmp]. destruct (Nat.ltb_spec (s_box st i) n); [auto|lia]. }
      rewrite (target_box_val i Hi D). eapply ev_store; [reflexivity|lia|constructor].
    + assert (NM' : ~ moves (s_box st i)) by (intros M; apply (do_split_moves inp WT st pth H nl nbn) in M; congruence).
      rewrite (ti_stay inp WT st pth H nl nbn i Hi NM') in *. rewrite (tb_stay inp WT st pth H nl nbn i NM').
      eapply ev_load; [reflexivity|lia|reflexivity|].
      eapply ev_store; [reflexivity|lia|]. eapply ev_store; [reflexivity|lia|constructor].
Qed.
Lemma renumber_puts i a k v : In (Put a k v) (renumber_touches i) <->
  k = ti i /\ ((a = NewUserIds /\ v = z (s_user st i)) \/ (a = NewBoxIds /\ v = z (tb i))).
Proof.
  unfold renumber_touches. split.
  - intros X. destruct X as [X|X]; [discriminate|]. apply in_app_or in X. destruct X as [X|X]; [destruct (test_puts _ _ _ _ _ _ _ _ _ X)|].
    touches X; injection X as <- <- <-; auto.
  - intros [-> [[-> ->]|[-> ->]]]; right; apply in_or_app; right; destruct (do_split inp st3 (s_box st i)).
    + right. apply in_or_app. right. apply in_or_app. right. right. right. left. auto.
    + right. left. auto.
    + right. apply in_or_app. right. apply in_or_app. right. do 4 right. left. auto.
    + do 2 right. left. auto.
Qed.
Lemma renumber_gets i a k : In (Get a k) (renumber_touches i) -> match a with NewUserIds | NewBoxIds => False | _ => True end.
Proof.
  unfold renumber_touches. intros X. destruct X as [X|X]; [injection X as <- _; exact Logic.I|]. apply in_app_or in X. destruct X as [X|X].
  - apply test_gets in X. destruct X as [_ [->|[->|[-> _]]]]; exact Logic.I.
  - touches X; injection X as <- _; exact Logic.I.
Qed.
Lemma renumber_launch {R} (next : host array R) (Q : R -> device array -> Prop) :
  okd (extend (view inp st4b ids_tmp) new1) next Q -> okd K4 (Launch np (renumber_item inp level) next) Q.
Proof.
  intros O. apply ok_launch_sep with (T := renumber_touches) (K' := extend (view inp st4b ids_tmp) new1); auto.
  - intros i Hi. apply renumber_evals; auto.
  - intros i j a k v Hi Hj X Z. apply renumber_puts in X. apply renumber_gets in Z. destruct X as [_ [[-> _]|[-> _]]]; exact Z.
  - intros i a k v Hi X. apply renumber_puts in X. destruct X as [-> [[-> ->]|[-> ->]]]; cbn [extend val new1].
    + rewrite (user5 inp WT MW st pth H nl nbn NB i Hi). auto.
    + rewrite (box5 inp WT MW st pth H nl nbn NB i Hi). auto.
  - intros a m. cbn [extend len]. destruct a; cbn [new0 new1 zeros]; auto.
  - intros a m k w. cbn [extend len val]. destruct a; cbn [new0 new1 zeros]; auto; intros Lm Hk E; injection Lm as <-; left;
      destruct (ti_surj inp WT MW st pth H nl nbn k ltac:(lia)) as [i [Hi <-]].
    + exists i, (z (s_user st i)). split; auto. apply renumber_puts. auto.
    + exists i, (z (tb i)). split; auto. apply renumber_puts. auto.
Qed.

Theorem advance_refines {R} (next : host array R) (Q : R -> device array -> Prop) :
  okd (view inp s5 ids_tmp) next Q -> okd (view inp st2 ids_tmp) (advance_program inp (host_of st2) nu nbn next) Q.
Proof.
  intros O. assert (HL := h_level inp st pth H). assert (LEN := lay_len st Y). assert (NUL := nu_length inp st pth H).
  unfold advance_program. cbn [host_of BuildDevice.h_level h_lstart]. change (s_level st2) with level. change (s_lstart st2) with (s_lstart st).
  rewrite (app_nth1 (s_lstart st)) by (rewrite LEN, HL; lia).
  apply (ok_assign array array_eq) with (n := z (nlevels_max inp)); [reflexivity|cbn [length]; lia|].
  apply (ok_assign array array_eq _ _ 0) with (n := z (nlevels_max inp)); [reflexivity|rewrite map_length, NUL; lia|].
  apply (ok_weaken array array_eq _ (view inp st3 ids_tmp)).
  2:{ intros d. apply known_weaken.
      - intros a m. cbn [k_assign view len]. auto.
      - intros a m k v Lm Hk E. cbn [k_assign val]. destruct a; chain; try exact E.
        + cbn [view val cellv with_level_counts s_lstart] in E. rewrite app_length in E. cbn [length] in E.
          change (s_lstart st2) with (s_lstart st) in E.
          destruct (Nat.leb_spec (level + 1) k), (Nat.ltb_spec k (level + 1 + length [z nbn])); cbn [andb length] in *.
          * assert (k = level + 1) by lia. subst k. rewrite Nat.sub_diag. cbn [nth_error].
            destruct (Nat.ltb_spec (level + 1) (length (s_lstart st) + 1)); [|lia].
            rewrite app_nth2 in E by lia. replace (level + 1 - length (s_lstart st)) with 0 in E by lia. exact E.
          * destruct (Nat.ltb_spec k (length (s_lstart st) + 1)); [lia|discriminate].
          * cbn [view val cellv]. change (s_lstart st2) with (s_lstart st).
            destruct (Nat.ltb_spec k (length (s_lstart st) + 1)); [|lia]. destruct (Nat.ltb_spec k (length (s_lstart st))); [|lia].
            rewrite app_nth1 in E by lia. exact E.
          * cbn [view val cellv]. change (s_lstart st2) with (s_lstart st).
            destruct (Nat.ltb_spec k (length (s_lstart st) + 1)); [|lia]. destruct (Nat.ltb_spec k (length (s_lstart st))); [|lia].
            rewrite app_nth1 in E by lia. exact E.
        + cbn [view val cellv with_level_counts s_used] in E. assert (EV : v = z (nth k nu 0)) by congruence. subst v. rewrite map_length. cbn [Nat.leb andb].
          destruct (Nat.ltb_spec k (0 + length nu)) as [C|C].
          * rewrite Nat.sub_0_r. rewrite nth_error_map. rewrite (nth_error_nth' nu 0) by lia. reflexivity.
          * cbn [view val cellv]. change (s_used st2) with (s_used st).
            rewrite (nth_overflow nu) by lia. rewrite (nth_overflow (s_used st)); auto. unfold nlev in NUL. lia. }
  apply (splitter_launch inp WT MW st pth G RM NM nl nbn NB NR GB).
  apply (ok_assign array array_eq) with (n := z (s_guess st)); [reflexivity|rewrite repeat_length; fold (lst st level); rewrite HL; lia|].
  apply ok_alloc; [lia|]. apply ok_alloc; [lia|].
  apply (ok_weaken array array_eq _ K4).
  2:{ intros d. apply known_weaken.
      - intros a m. cbn [k_alloc k_assign extend len]. destruct a; cbn [new0 zeros]; chain; auto.
      - intros a m k v Lm Hk. cbn [k_alloc k_assign extend val]. destruct a; cbn [new0 zeros]; chain; auto.
        cbn [view val cellv]. change (s_blevel st4b) with (s_blevel s5). rewrite (blevel5 inp st pth H nl nbn NB). intros X.
        rewrite repeat_length. fold (lst st level). rewrite HL.
        destruct (Nat.leb_spec (n + nth L nu 0) k) as [C1|C1], (Nat.ltb_spec k nbn) as [C2|C2]; cbn [andb] in *;
          destruct (Nat.ltb_spec k (n + nth L nu 0 + (nbn - (n + nth L nu 0)))); try lia; try exact X.
        rewrite <- X. rewrite (nth_error_nth' _ (z L)) by (rewrite repeat_length; lia).
        rewrite nth_repeat. auto. }
  apply renumber_launch. apply ok_move. apply ok_move.
  apply (ok_weaken array array_eq _ _ _ _ O). intros d. apply known_weaken.
  - intros a m. cbn [k_move extend len view]. destruct a; cbn [lenv new1]; chain; auto; try discriminate.
  - intros a m k v Lm Hk. cbn [k_move extend val view]. destruct a; cbn [cellv new1]; chain; auto.
Qed.
End Particles.
