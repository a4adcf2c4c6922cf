(** The split box id scan of the tree builder on the device (BuildDevice.v) computes the scan of
    TreeBuild.v. *)
From Coq Require Import List Arith ZArith NArith Lia Bool Permutation.
From Verif Require Import Base Tree Walk Traversal Fmm TreeBuild ArrayFacts Kernel Device DeviceRules BuildDevice BuildInv
  BuildScan BuildIds BuildSort BuildAdvance BuildRenumber BuildStep BuildNext BuildLoop BuildTerm BuildPrune BuildView DevMorton.
Import ListNotations.

Lemma seg_scan_ext_pos {A} (st st' : nat -> bool) (op : A -> A -> A) (f f' : nat -> A) k :
  (forall i, 0 < i -> i <= k -> st i = st' i) -> (forall i, i <= k -> f i = f' i) -> seg_scan st op f k = seg_scan st' op f' k.
Proof.
  induction k as [|k IH]; intros H1 H2; cbn [seg_scan]; [apply H2; lia|].
  rewrite (H1 (S k)), (H2 (S k)), IH by (intros; try apply H1; try apply H2; lia). auto.
Qed.
Lemma eqb_z a b : (z a =? z b)%Z = (a =? b).
Proof. destruct (Nat.eqb_spec a b) as [->|N]; [apply Z.eqb_refl|]. apply Z.eqb_neq. lia. Qed.

Section SplitScan.
Variable inp : input.
Notation nch := (nchild inp).
Notation np := (npart inp).
Hypothesis WT : forall u, u < np -> (0 <= weight inp u <= INT_MAX)%Z.
Hypothesis MW : (0 <= max_weight inp)%Z.
Variable st : state.
Variable pth : nat -> list nat.
Hypothesis G : good inp st pth.
Hypothesis RM : roomy inp st.
Hypothesis NM : s_level st + 1 < nlevels_max inp.
Let H := g_head inp st pth G.
Let I := h_inv inp st pth H.
Let Y := i_layout inp st pth I.
Notation L := (nlev st).
Notation n := (lst st L).
Notation st1 := (scanned inp st).
Notation st2 := (marks inp st).
Notation sp := (splits inp st1).
Notation ids := (split_box_ids inp st1).
Notation bins_tmp := (bins_tmp inp st).
Notation level := (s_level st).

Definition first_part (i : nat) : nat :=
  if i =? lst st (s_blevel st i) then lst st (s_blevel st i + 1) + usd st (s_blevel st i + 1) else 0.
Lemma needed_val i : boxes_needed inp st1 i = first_part i + if sp i then nch else 0.
Proof. reflexivity. Qed.
Definition new_segment (i : nat) : bool := (i =? 0) || negb (s_blevel st i =? s_blevel st (i - 1)).

Definition split_tmp0 (x : array) : option (Z * (nat -> option Z)) :=
  match x with ScanIn (Cnt 0) | ScanOut (Cnt 0) | ScanStart => zeros (z n) | _ => None end.
Definition split_tmp1 (x : array) : option (Z * (nat -> option Z)) :=
  match x with
  | ScanIn (Cnt 0) => Some (z n, fun i => Some (z (boxes_needed inp st1 i)))
  | ScanOut (Cnt 0) => zeros (z n)
  | ScanStart => Some (z n, fun i => Some (bool_z (new_segment i)))
  | _ => None end.
Definition split_tmp2 (x : array) : option (Z * (nat -> option Z)) :=
  match x with
  | ScanOut (Cnt 0) => Some (z n, fun i => if i <? n then Some (z (ids i)) else None)
  | _ => None end.
Definition ids_tmp (x : array) (k : nat) : option Z :=
  match x with SplitIds => if k <? n then Some (z (ids k)) else None | _ => bins_tmp x k end.

Definition weight_gets (i : nat) : list (touch array) := map (fun m => Get (BoxBin (Wt m)) i) (seq 0 nch).
Definition needs_touches (i : nat) : list (touch array) :=
  (if (s_blevel st i + 1 =? level) && negb (adaptive inp) then [Get Counts i] else []) ++
  (if (s_blevel st i + 1 =? level) && overfull inp st1 i then [] else if level_restrict inp then [Get ForceSplit i] else []).
Definition split_input_touches (i : nat) : list (touch array) :=
  Get Levels i :: (if i =? 0 then [] else [Get Levels i; Get Levels (i - 1)]) ++
  Put ScanStart i (bool_z (new_segment i)) :: Get LevelStarts (s_blevel st i) ::
  (if i =? lst st (s_blevel st i) then [Get LevelStarts (s_blevel st i + 1); Get LevelUsed (s_blevel st i + 1)] else []) ++
  (if have_extent inp then [Get (BoxBin (Cnt 0)) i] else []) ++
  weight_gets i ++ needs_touches i ++
  (if sp i then Put HasChildren i 1%Z :: weight_gets i ++ (if oversize inp st1 i then [Put Oversize 0 1%Z] else []) else []) ++
  [Put (ScanIn (Cnt 0)) i (z (boxes_needed inp st1 i))].

Notation K0 := (extend (view inp st1 bins_tmp) split_tmp0).
Lemma n_guess : n <= s_guess st.
Proof. apply (r_guess inp st RM). Qed.
Lemma weights_evals i next T : i < n -> evals K0 (next (map (s_wts st1 i) (seq 0 nch))) T ->
  evals K0 (load_all (map (fun m => (BoxBin (Wt m), z i)) (seq 0 nch)) next) (weight_gets i ++ T).
Proof.
  intros Hi E. assert (X := n_guess). apply (evals_axes K0 (fun m => BoxBin (Wt m))) with (g := s_wts st1 i) (n := z (s_guess st)); auto.
  intros m Hm. apply in_seq in Hm. cbn [extend len val split_tmp0 view lenv cellv field_in].
  destruct (Nat.ltb_spec m nch); [|lia]. repeat split; auto. lia.
Qed.
Lemma needs_evals i nonchild (next : bool -> item array) T : i < n ->
  nonchild = z (if have_extent inp then s_bins st1 i 0 else 0) ->
  evals K0 (next (sp i)) T ->
  evals K0 (needs_split inp level (z i) (z (s_blevel st i)) nonchild (map (s_wts st1 i) (seq 0 nch)) next) (needs_touches i ++ T).
Proof.
  intros Hi -> E. assert (X := n_guess). unfold needs_split, needs_touches. cbv zeta.
  assert (LV : (z (s_blevel st i) + 1 =? z level)%Z = (s_blevel st i + 1 =? level)) by (rewrite <- eqb_z; f_equal; lia).
  rewrite LV. unfold splits in E. change (s_blevel st1 i) with (s_blevel st i) in E. change (s_level st1) with level in E.
  assert (FORCED : forall r, sp i = r || (level_restrict inp && s_force st i) -> r = false ->
     evals K0 (if level_restrict inp then Load ForceSplit (z i) (fun v => next (negb (v =? 0)%Z)) else next false)
       ((if level_restrict inp then [Get ForceSplit i] else []) ++ T)).
  { intros r Er ->. cbn [orb] in Er. destruct (level_restrict inp) eqn:LR; cbn [andb app] in *.
    - eapply ev_load with (v := bool_z (s_force st i)).
      + cbn [extend len split_tmp0 view lenv]. rewrite LR. reflexivity.
      + cbn [s_guess scanned with_scan]. lia.
      + reflexivity.
      + rewrite bool_z_nz. unfold splits in Er. change (s_blevel st1 i) with (s_blevel st i) in Er.
        change (s_level st1) with level in Er. rewrite LR in Er. cbn [andb] in Er. rewrite Er in E. exact E.
    - unfold splits in Er. change (s_blevel st1 i) with (s_blevel st i) in Er. change (s_level st1) with level in Er.
      rewrite LR in Er. cbn [andb] in Er. rewrite Er in E. exact E. }
  destruct (s_blevel st i + 1 =? level) eqn:C; cbn [andb] in *.
  - unfold overfull in *. destruct (adaptive inp) eqn:AD; cbn [negb app].
    + change (fold_left add_sat (map (s_wts st1 i) (seq 0 nch)) 0%Z) with (box_refine_weight inp st1 i).
      destruct (max_weight inp <? box_refine_weight inp st1 i)%Z eqn:W.
      * exact E.
      * apply (FORCED false); auto. unfold splits, overfull. change (s_blevel st1 i) with (s_blevel st i).
        change (s_level st1) with level. rewrite C, AD, W. auto.
    + eapply ev_load; [reflexivity|cbn [s_guess scanned with_scan]; lia|reflexivity|].
      change (s_cumul st1 i) with (s_cumul st i).
      change (s_cumul st1 i) with (s_cumul st i) in E.
      destruct (0 <=? z (s_cumul st i) - z (if have_extent inp then s_bins st1 i 0 else 0))%Z eqn:W.
      * exact E.
      * apply (FORCED false); auto. unfold splits, overfull. change (s_blevel st1 i) with (s_blevel st i).
        change (s_level st1) with level. change (s_cumul st1 i) with (s_cumul st i). rewrite C, AD, W. auto.
  - apply (FORCED false); auto. unfold splits. change (s_blevel st1 i) with (s_blevel st i).
    change (s_level st1) with level. rewrite C. auto.
Qed.
Lemma split_input_evals i : i < n -> evals K0 (split_input inp level i) (split_input_touches i).
Proof.
  intros Hi. assert (X := n_guess). destruct (level_spec st Y i Hi) as [L1 L2].
  assert (HL := h_level inp st pth H). assert (LEN := lay_len st Y).
  unfold split_input, split_input_touches.
  eapply ev_load; [reflexivity|cbn [s_guess scanned with_scan]; lia|reflexivity|].
  change (s_blevel st1 i) with (s_blevel st i).
  (* after the flag *)
  assert (A : forall flag, flag = bool_z (new_segment i) -> evals K0 (Store ScanStart (z i) flag (
      Load LevelStarts (z (s_blevel st i)) (fun first =>
      (fun body => if (z i =? first)%Z
                   then Load LevelStarts (z (s_blevel st i) + 1)%Z (fun s1 => Load LevelUsed (z (s_blevel st i) + 1)%Z (fun u1 => body (s1 + u1)%Z))
                   else body 0%Z) (fun r0 =>
      (fun body => if have_extent inp then Load (BoxBin (Cnt 0)) (z i) body else body 0%Z) (fun nonchild =>
      load_all (map (fun m => (BoxBin (Wt m), z i)) (seq 0 nch)) (fun wts =>
      needs_split inp level (z i) (z (s_blevel st i)) nonchild wts (fun sp =>
      if sp then
        Store HasChildren (z i) 1%Z (
        load_all (map (fun m => (BoxBin (Wt m), z i)) (seq 0 nch)) (fun wts' =>
        (fun body => if (max_weight inp <? fold_left Z.max wts' 0)%Z then Store Oversize 0%Z 1%Z body else body) (
        Store (ScanIn (Cnt 0)) (z i) (r0 + z nch)%Z Finish)))
      else Store (ScanIn (Cnt 0)) (z i) r0 Finish)))))))
    (Put ScanStart i (bool_z (new_segment i)) :: Get LevelStarts (s_blevel st i) ::
     (if i =? lst st (s_blevel st i) then [Get LevelStarts (s_blevel st i + 1); Get LevelUsed (s_blevel st i + 1)] else []) ++
     (if have_extent inp then [Get (BoxBin (Cnt 0)) i] else []) ++
     weight_gets i ++ needs_touches i ++
     (if sp i then Put HasChildren i 1%Z :: weight_gets i ++ (if oversize inp st1 i then [Put Oversize 0 1%Z] else []) else []) ++
     [Put (ScanIn (Cnt 0)) i (z (boxes_needed inp st1 i))])).
  { intros flag ->. eapply ev_store; [reflexivity|lia|].
    eapply ev_load with (v := z (lst st (s_blevel st i))).
    { reflexivity. }
    { lia. }
    { cbn [extend val split_tmp0 view cellv]. change (s_lstart st1) with (s_lstart st).
      destruct (Nat.ltb_spec (s_blevel st i) (length (s_lstart st))); [reflexivity|lia]. }
    rewrite eqb_z.
    (* after the first part *)
    assert (B : forall r0, r0 = z (first_part i) -> evals K0
        ((fun body => if have_extent inp then Load (BoxBin (Cnt 0)) (z i) body else body 0%Z) (fun nonchild =>
         load_all (map (fun m => (BoxBin (Wt m), z i)) (seq 0 nch)) (fun wts =>
         needs_split inp level (z i) (z (s_blevel st i)) nonchild wts (fun sp =>
         if sp then
           Store HasChildren (z i) 1%Z (
           load_all (map (fun m => (BoxBin (Wt m), z i)) (seq 0 nch)) (fun wts' =>
           (fun body => if (max_weight inp <? fold_left Z.max wts' 0)%Z then Store Oversize 0%Z 1%Z body else body) (
           Store (ScanIn (Cnt 0)) (z i) (r0 + z nch)%Z Finish)))
         else Store (ScanIn (Cnt 0)) (z i) r0 Finish))))
       ((if have_extent inp then [Get (BoxBin (Cnt 0)) i] else []) ++
        weight_gets i ++ needs_touches i ++
        (if sp i then Put HasChildren i 1%Z :: weight_gets i ++ (if oversize inp st1 i then [Put Oversize 0 1%Z] else []) else []) ++
        [Put (ScanIn (Cnt 0)) i (z (boxes_needed inp st1 i))])).
    { intros r0 ->.
      assert (D : forall nonchild, nonchild = z (if have_extent inp then s_bins st1 i 0 else 0) -> evals K0
         (load_all (map (fun m => (BoxBin (Wt m), z i)) (seq 0 nch)) (fun wts =>
         needs_split inp level (z i) (z (s_blevel st i)) nonchild wts (fun sp =>
         if sp then
           Store HasChildren (z i) 1%Z (
           load_all (map (fun m => (BoxBin (Wt m), z i)) (seq 0 nch)) (fun wts' =>
           (fun body => if (max_weight inp <? fold_left Z.max wts' 0)%Z then Store Oversize 0%Z 1%Z body else body) (
           Store (ScanIn (Cnt 0)) (z i) (z (first_part i) + z nch)%Z Finish)))
         else Store (ScanIn (Cnt 0)) (z i) (z (first_part i)) Finish)))
        (weight_gets i ++ needs_touches i ++
        (if sp i then Put HasChildren i 1%Z :: weight_gets i ++ (if oversize inp st1 i then [Put Oversize 0 1%Z] else []) else []) ++
        [Put (ScanIn (Cnt 0)) i (z (boxes_needed inp st1 i))])).
      { intros nc Enc. apply weights_evals; auto. apply needs_evals; auto. rewrite needed_val. destruct (sp i).
        - cbn [app]. rewrite <- app_assoc. eapply ev_store; [reflexivity|cbn [s_guess scanned with_scan]; lia|]. apply weights_evals; auto.
          change (fold_left Z.max (map (s_wts st1 i) (seq 0 nch)) 0%Z) with (max_subbox_weight inp st1 i).
          unfold oversize. replace (z (first_part i) + z nch)%Z with (z (first_part i + nch)) by lia.
          destruct (max_weight inp <? max_subbox_weight inp st1 i)%Z; cbn [app].
          + apply (ev_store array K0 Oversize 0) with (n := 1%Z); [reflexivity|lia|].
            eapply ev_store; [reflexivity|lia|constructor].
          + eapply ev_store; [reflexivity|lia|constructor].
        - cbn [app]. rewrite Nat.add_0_r. eapply ev_store; [reflexivity|lia|constructor]. }
      destruct (have_extent inp) eqn:HE; cbn [app].
      - eapply ev_load.
        + cbn [extend len split_tmp0 view lenv field_in]. rewrite HE. reflexivity.
        + cbn [s_guess scanned with_scan]. lia.
        + reflexivity.
        + apply D. auto.
      - apply D. auto. }
    unfold first_part in B. destruct (i =? lst st (s_blevel st i)) eqn:E0; cbn [app].
    - replace (z (s_blevel st i) + 1)%Z with (z (s_blevel st i + 1)) by lia.
      eapply ev_load with (v := z (lst st (s_blevel st i + 1))).
      { reflexivity. }
      { lia. }
      { cbn [extend val split_tmp0 view cellv]. change (s_lstart st1) with (s_lstart st).
        destruct (Nat.ltb_spec (s_blevel st i + 1) (length (s_lstart st))); [reflexivity|lia]. }
      eapply ev_load with (v := z (usd st (s_blevel st i + 1))).
      { reflexivity. }
      { lia. }
      { reflexivity. }
      apply B. lia.
    - apply B. auto. }
  destruct (Nat.eqb_spec i 0) as [E0|N0]; cbn [app].
  - apply A. unfold new_segment. subst i. reflexivity.
  - replace (z i - 1)%Z with (z (i - 1)) by lia.
    eapply ev_load; [reflexivity|cbn [s_guess scanned with_scan]; lia|reflexivity|].
    eapply ev_load; [reflexivity|cbn [s_guess scanned with_scan]; lia|reflexivity|].
    change (s_blevel st1 i) with (s_blevel st i). change (s_blevel st1 (i - 1)) with (s_blevel st (i - 1)). rewrite eqb_z.
    apply A. unfold new_segment. destruct (Nat.eqb_spec i 0); [lia|]. reflexivity.
Qed.

Lemma split_input_puts i a k v : In (Put a k v) (split_input_touches i) <->
  (a = ScanStart /\ k = i /\ v = bool_z (new_segment i)) \/
  (sp i = true /\ a = HasChildren /\ k = i /\ v = 1%Z) \/
  (sp i = true /\ oversize inp st1 i = true /\ a = Oversize /\ k = 0 /\ v = 1%Z) \/
  (a = ScanIn (Cnt 0) /\ k = i /\ v = z (boxes_needed inp st1 i)).
Proof.
  unfold split_input_touches, needs_touches, weight_gets. split.
  - intros X. touches X; injection X as <- <- <-; auto 10.
  - intros [[-> [-> ->]]|[[E [-> [-> ->]]]|[[E [E' [-> [-> ->]]]]|[-> [-> ->]]]]]; right; apply in_or_app; right; [left; auto| | |];
      right; right; apply in_or_app; right; apply in_or_app; right; apply in_or_app; right; apply in_or_app; right; apply in_or_app.
    + left. rewrite E. left. auto.
    + left. rewrite E. right. apply in_or_app. right. rewrite E'. left. auto.
    + right. left. auto.
Qed.
Lemma split_input_gets i a k : In (Get a k) (split_input_touches i) ->
  match a with Levels | LevelStarts | LevelUsed | BoxBin _ | Counts | ForceSplit => True | _ => False end.
Proof.
  unfold split_input_touches, needs_touches, weight_gets. intros X. touches X; injection X as <- _; exact Logic.I.
Qed.
Lemma boxes_n : nth (s_level st1) (s_lstart st1) 0 = n.
Proof. change (s_level st1) with level. rewrite (h_level inp st pth H). reflexivity. Qed.
Lemma split_launch_1 {R} (next : host array R) (Q : R -> device array -> Prop) :
  okd (extend (view inp st2 bins_tmp) split_tmp1) next Q ->
  okd K0 (Launch n (split_input inp level) next) Q.
Proof.
  assert (BN := boxes_n).
  intros O. apply ok_launch_sep with (T := split_input_touches) (K' := extend (view inp st2 bins_tmp) split_tmp1); auto.
  - intros i Hi. apply split_input_evals; auto.
  - intros i j a k v Hi Hj X Z. apply split_input_puts in X. apply split_input_gets in Z.
    destruct X as [[-> _]|[[_ [-> _]]|[[_ [_ [-> _]]]|[-> _]]]]; exact Z.
  - intros i a k v Hi X. apply split_input_puts in X. destruct X as [[-> [-> ->]]|[[E [-> [-> ->]]]|[[E [E' [-> [-> ->]]]]|[-> [-> ->]]]]].
    + reflexivity.
    + cbn [extend val split_tmp1 view cellv]. unfold marks, marked, with_split. cbn [s_has_children]. rewrite BN.
      rewrite kernel_map_lt by auto. rewrite E, orb_true_r. reflexivity.
    + cbn [extend val split_tmp1 view cellv]. unfold marks, marked, with_split. cbn [s_oversize]. rewrite BN.
      replace (existsb _ _) with true; [rewrite orb_true_r; reflexivity|]. symmetry. apply existsb_exists. exists i.
      split; [apply in_seq; lia|]. rewrite E, E'. auto.
    + reflexivity.
  - intros a m. cbn [extend len view]. destruct a; try (destruct f as [[|q]|q]); cbn [split_tmp0 split_tmp1 zeros lenv]; auto.
  - intros a m k w. cbn [extend len val view].
    destruct a; try (destruct f as [[|q]|q]); cbn [split_tmp0 split_tmp1 zeros lenv cellv]; auto; try discriminate; intros Lm Hk E.
    + unfold marks, marked, with_split in E. cbn [s_has_children] in E. rewrite BN in E. destruct (Nat.lt_ge_cases k n) as [Hn|Hn].
      * rewrite kernel_map_lt in E by auto. destruct (sp k) eqn:S.
        -- left. exists k, 1%Z. split; auto. apply split_input_puts. auto 10.
        -- right. rewrite orb_false_r in E. exact E.
      * rewrite kernel_map_ge in E by auto. right. exact E.
    + unfold marks, marked, with_split in E. cbn [s_oversize] in E. rewrite BN in E. injection Lm as <-. assert (k = 0) by lia. subst k.
      destruct (existsb _ (seq 0 n)) eqn:X.
      * left. apply existsb_exists in X. destruct X as [i [Hi X]]. apply in_seq in Hi. apply andb_true_iff in X. destruct X as [X1 X2].
        exists i, 1%Z. split; [lia|]. apply split_input_puts. auto 10.
      * right. rewrite orb_false_r in E. exact E.
    + injection Lm as <-. left. exists k, w. split; [lia|]. injection E as <-. apply split_input_puts. auto 10.
    + injection Lm as <-. left. exists k, w. split; [lia|]. injection E as <-. apply split_input_puts. auto 10.
Qed.
Lemma split_scan_ok {R} (next : host array R) (Q : R -> device array -> Prop) :
  okd (extend (view inp st2 bins_tmp) split_tmp2) next Q ->
  okd (extend (view inp st2 bins_tmp) split_tmp1) (Scan split_scan next) Q.
Proof.
  intros O. apply ok_scan with (n := n).
  - intros p [<-|[]]. reflexivity.
  - reflexivity.
  - apply (ok_weaken array array_eq _ _ _ _ O). intros d. apply known_weaken.
    + intros a m. cbn [k_scan extend len]. destruct a; try (destruct f as [[|q]|q]); cbn [split_tmp1 split_tmp2 zeros lenv view len]; auto; discriminate.
    + intros a m k v Lm Hk E. cbn [k_scan val]. unfold result_part. cbn [split_scan scan_parts scan_flag find fst snd].
      destruct (array_eq a (ScanOut (Cnt 0))) as [->|N].
      * cbn [extend len val split_tmp1 split_tmp2] in *. injection Lm as <-.
        destruct (Nat.ltb_spec k n) as [Hn|]; [|lia]. injection E as <-.
        replace (forallb _ _) with true by (symmetry; apply forallb_forall; auto). cbn [andb].
        f_equal. rewrite seg_scan_z. f_equal. unfold split_box_ids. rewrite boxes_n, kernel_map_lt by auto.
        apply seg_scan_ext_pos; auto. intros i Hi _. rewrite bool_z_nz. unfold new_segment. destruct (Nat.eqb_spec i 0); [lia|]. reflexivity.
      * destruct a; try (destruct f as [[|q]|q]); try (destruct (N eq_refl));
          cbn [extend val len split_tmp1 split_tmp2 view cellv lenv] in *; first [exact E|discriminate E].
Qed.
Lemma split_launch_2 {R} (next : host array R) (Q : R -> device array -> Prop) :
  okd (view inp st2 ids_tmp) next Q -> okd (extend (view inp st2 bins_tmp) split_tmp2) (Launch n split_output next) Q.
Proof.
  assert (X := n_guess). intros O.
  apply ok_launch_sep with (T := fun i => [Get (ScanOut (Cnt 0)) i; Put SplitIds i (z (ids i))]) (K' := view inp st2 ids_tmp); auto.
  - intros i Hi. unfold split_output. eapply ev_load with (v := z (ids i)).
    + reflexivity.
    + lia.
    + cbn [extend val split_tmp2]. destruct (Nat.ltb_spec i n); [auto|lia].
    + eapply ev_store; [reflexivity|cbn [s_guess marks marked with_split scanned with_scan]; lia|constructor].
  - intros i j a k v Hi Hj Z W. touches Z. touches W. congruence.
  - intros i a k v Hi Z. touches Z. injection Z as <- <- <-. cbn [view val cellv ids_tmp]. destruct (Nat.ltb_spec i n); [auto|lia].
  - intros a m. cbn [extend len view]. destruct a; try (destruct f as [[|q]|q]); cbn [split_tmp2 lenv]; auto; discriminate.
  - intros a m k w. cbn [extend len val view]. destruct a; try (destruct f as [[|q]|q]); try discriminate; auto; cbn [split_tmp2 lenv cellv ids_tmp]; intros Lm Hk E; auto.
    destruct (Nat.ltb_spec k n) as [Hn|]; [|discriminate E]. injection E as <-. left. exists k, (z (ids k)). split; auto. right. left. auto.
Qed.
Theorem split_scan_refines {R} (next : host array R) (Q : R -> device array -> Prop) :
  okd (view inp st2 ids_tmp) next Q -> okd (view inp st1 bins_tmp) (split_scan_program inp level n next) Q.
Proof.
  intros O. unfold split_scan_program. apply ok_alloc; [lia|]. apply ok_alloc; [lia|]. apply ok_alloc; [lia|].
  apply (ok_weaken array array_eq _ K0).
  - apply split_launch_1, split_scan_ok, split_launch_2, O.
  - intros d. apply known_weaken.
    + intros a m. cbn [k_alloc extend len]. destruct a; try (destruct f as [[|q]|q]); cbn [split_tmp0 view len lenv zeros]; try discriminate; chain; auto.
    + intros a m k v Lm _. revert Lm. cbn [k_alloc extend len val]. destruct a; try (destruct f as [[|q]|q]); cbn [split_tmp0 view len lenv zeros]; try discriminate; chain; auto.
Qed.
End SplitScan.
