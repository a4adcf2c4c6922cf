(** The level restriction on the device (BuildDevice.v) computes [restrict_levels] of
    TreeBuild.v. *)
From Coq Require Import List Arith ZArith NArith Lia Bool Permutation.
From Verif Require Import Base Tree Walk Traversal Fmm TreeBuild ArrayFacts Kernel Device DeviceRules BuildDevice BuildInv
  BuildScan BuildIds BuildSort BuildAdvance BuildRenumber BuildStep BuildNext BuildLoop BuildTerm BuildPrune BuildView DevMorton
  DevSplitScan DevSplitter DevParticles.
Import ListNotations.

Lemma choose_below {A} (P : nat -> A -> Prop) (a0 : A) m :
  (forall i, i < m -> exists x, P i x) -> exists f, forall i, i < m -> P i (f i).
Proof.
  induction m as [|m IH]; intros E; [exists (fun _ => a0); intros; lia|].
  destruct IH as [f F]; [auto|]. destruct (E m) as [x X]; auto.
  exists (fun i => if i =? m then x else f i). intros i Hi. destruct (Nat.eqb_spec i m) as [->|]; auto. apply F. lia.
Qed.
Lemma linf_ext d f g f' g' : (forall a, a < d -> f a = f' a) -> (forall a, a < d -> g a = g' a) -> linf_dist d f g = linf_dist d f' g'.
Proof.
  intros E1 E2. unfold linf_dist. apply fold_left_ext_in'. intros x a Ha. apply in_seq in Ha. rewrite E1, E2 by lia. auto.
Qed.

Lemma no_hits (l : list nat) hits : existsb (fun h => h) hits = false -> filter snd (combine l hits) = [].
Proof.
  revert l. induction hits as [|h hits IH]; intros [|x l] E; cbn [combine filter existsb] in *; auto.
  apply orb_false_iff in E. destruct E as [-> E]. cbn [snd]. auto.
Qed.

Section Restrict.
Variable inp : input.
Notation nch := (nchild inp).
Notation np := (npart inp).
Hypothesis NPOS : 0 < np.
Hypothesis GU : 0 < nboxes_guess inp.
Variable s : state.
Variable pth : nat -> list nat.
Hypothesis I : inv inp s pth.
Hypothesis NL : nlev s = S (s_level s).
Hypothesis LR : level_restrict inp = true.
Variable n : nat.
Hypothesis EN : n = lst s (nlev s).
Hypothesis GB : n <= s_guess s.
Let Y := i_layout inp s pth I.
Let W : walkable (tree_of_state inp s n) := tree_of_state_walkable inp NPOS GU s pth n I (Nat.eq_le_incl _ _ NL) EN.
Variable tmp : array -> nat -> option Z.
Notation t := (tree_of_state inp s n).
Notation cap := (restrict_stack (s_level s)).
Notation level := (s_level s).
Definition sf (force : nat -> bool) : state := with_control s (s_level s) force (s_oversize s) (s_final s).
Definition kf (force : nat -> bool) (up : Z) : known :=
  extend (view inp (sf force) tmp) (fun x => match x with UpperSplit => Some (1%Z, fun _ => Some up) | _ => None end).

Section Level.
Variables (lev box : nat) (force : nat -> bool) (up : Z).
Hypothesis HB : box < n.
Notation K := (kf force up).
Notation visit := (restrict_visit s t lev force box).

Fixpoint stack_ok (stack : list (nat * nat)) : Prop :=
  match stack with [] => True | (p, m) :: s' => p < n /\ s_blevel s p = length s' /\ stack_ok s' end.
Definition zstack (stack : list (nat * nat)) : list (Z * nat) := map (fun pm => (z (fst pm), snd pm)) stack.
Lemma pop_advance stack : forall par mor,
  pop inp (zstack stack) (z par) mor = option_map (fun r => let '(s', p', m') := r in (zstack s', z p', m')) (walk_advance nch stack par mor).
Proof.
  induction stack as [|[p m] stack IH]; intros par mor; cbn [pop walk_advance zstack map fst snd];
    destruct (S mor <? nch); auto.
Qed.
Lemma advance_ok stack : forall par mor s' p' m', walk_advance nch stack par mor = Some (s', p', m') ->
  par < n -> s_blevel s par = length stack -> stack_ok stack ->
  p' < n /\ s_blevel s p' = length s' /\ stack_ok s' /\ m' < nch.
Proof.
  induction stack as [|[p m] stack IH]; intros par mor s' p' m' E Hp Hl Hs; cbn [walk_advance] in E;
    destruct (Nat.ltb_spec (S mor) nch) as [C|C].
  - injection E as <- <- <-. auto.
  - discriminate.
  - injection E as <- <- <-. auto.
  - cbn [stack_ok] in Hs. destruct Hs as [H1 [H2 H3]]. apply (IH p m s' p' m' E); auto.
Qed.

(** what a work item does: [hit] says whether a box that is too small was found *)
Definition touches_ok (hit : bool) (T : list (touch array)) : Prop :=
  (forall a k v, In (Put a k v) T -> hit = true /\ v = 1%Z /\ ((a = ForceSplit /\ k = box) \/ (a = UpperSplit /\ k = 0))) /\
  (hit = true -> In (Put ForceSplit box 1%Z) T /\ In (Put UpperSplit 0 1%Z) T) /\
  (forall a k, In (Get a k) T -> match a with
     | Children _ | Centers _ | HasChildren => True | ForceSplit => s_blevel s k = lev + 1 | _ => False end).
Lemma touches_ok_gets hit T l : touches_ok hit T ->
  (forall x, In x l -> exists a k, x = Get a k /\ match a with
     | Children _ | Centers _ | HasChildren => True | ForceSplit => s_blevel s k = lev + 1 | _ => False end) ->
  touches_ok hit (l ++ T).
Proof.
  intros [A [B C]] D. split; [|split].
  - intros a k v X. apply in_app_or in X. destruct X as [X|X]; [|apply A; auto]. destruct (D _ X) as [a' [k' [E _]]]. discriminate E.
  - intros X. split; apply in_or_app; right; apply B; auto.
  - intros a k X. apply in_app_or in X. destruct X as [X|X]; [|apply C; auto]. destruct (D _ X) as [a' [k' [E M]]]. injection E as -> ->. exact M.
Qed.
Lemma touches_ok_none : touches_ok false [].
Proof. split; [|split]; [intros a k v []|discriminate|intros a k []]. Qed.
Definition nonempty {A} (l : list A) : bool := negb (length l =? 0).

Lemma center_known c : c < n -> forall a, In a (axes inp) ->
  len K (Centers a) = Some (z (s_guess s)) /\ (z c < z (s_guess s))%Z /\ val K (Centers a) c = Some (s_center s c a).
Proof.
  intros Hc a Ha. apply in_seq in Ha. unfold kf. cbn [extend view len val lenv cellv].
  destruct (Nat.ltb_spec a (idim inp)); [|lia]. repeat split. lia.
Qed.
Lemma walk_evals : forall fuel stack par mor out, walk t visit cap fuel stack par mor = Some out ->
  par < n -> s_blevel s par = length stack -> stack_ok stack -> mor < nch ->
  exists T, evals K (BuildDevice.restrict_walk inp cap lev (z box) fuel (zstack stack) (z par) mor) T /\ touches_ok (nonempty out) T.
Proof.
  induction fuel as [|fuel IH]; intros stack par mor out E Hp Hl Hs Hm; cbn [walk] in E; [discriminate|].
  change (nboxes t) with n in E. destruct (Nat.ltb_spec par n) as [_|]; [|lia]. cbn [negb] in E.
  change (box_child t mor par) with (s_child s mor par) in E. change (nchildren t) with nch in E.
  set (c := s_child s mor par) in *.
  assert (ADV : forall o,
    match walk_advance nch stack par mor with
    | Some (s', p', m') => option_map (app o) (walk t visit cap fuel s' p' m')
    | None => Some o end = Some out ->
    exists T rest, evals K (match pop inp (zstack stack) (z par) mor with
      | None => Finish | Some (s', p', m') => BuildDevice.restrict_walk inp cap lev (z box) fuel s' p' m' end) T /\
      touches_ok (nonempty rest) T /\ out = o ++ rest).
  { intros o X. rewrite pop_advance. destruct (walk_advance nch stack par mor) as [[[s' p'] m']|] eqn:A; cbn [option_map].
    - destruct (walk t visit cap fuel s' p' m') as [rest|] eqn:R; [|discriminate]. injection X as <-.
      destruct (advance_ok stack par mor s' p' m' A Hp Hl Hs) as [B1 [B2 [B3 B4]]].
      destruct (IH s' p' m' rest R B1 B2 B3 B4) as [T [T1 T2]]. exists T, rest. auto.
    - injection X as <-. exists [], []. split; [constructor|]. split; [apply touches_ok_none|]. rewrite app_nil_r. auto. }
  cbn [BuildDevice.restrict_walk]. assert (ZL : length (zstack stack) = length stack) by apply map_length. rewrite ZL.
  assert (CL : c < n) by apply (wk_child_lt t W mor par Hp Hm).
  assert (LC : len K (Children mor) = Some (z (s_guess s))).
  { unfold kf. cbn [extend view len lenv]. destruct (Nat.ltb_spec mor nch); [reflexivity|lia]. }
  assert (G1 : forall x a k, x = Get a k -> (match a with Children _ | Centers _ | HasChildren => True | ForceSplit => s_blevel s k = lev + 1 | _ => False end) ->
    exists a k, x = Get a k /\ match a with Children _ | Centers _ | HasChildren => True | ForceSplit => s_blevel s k = lev + 1 | _ => False end).
  { intros x a k -> M. exists a, k. auto. }
  assert (VC : val K (Children mor) par = Some (z c)) by reflexivity.
  assert (LOAD : forall p hit, (exists T, evals K (p (z c)) T /\ touches_ok hit T) ->
    exists T, evals K (Load (Children mor) (z par) p) T /\ touches_ok hit T).
  { intros p hit [T [T1 T2]]. exists ([Get (Children mor) par] ++ T). split.
    - cbn [app]. eapply ev_load; [exact LC|lia|exact VC|exact T1].
    - apply touches_ok_gets; auto. intros x [<-|[]]. apply (G1 _ _ _ eq_refl). exact Logic.I. }
  apply LOAD. clear LOAD. cbv beta.
  replace (z c =? 0)%Z with (c =? 0) by (destruct (Nat.eqb_spec c 0), (Z.eqb_spec (z c) 0); lia).
  replace (z c =? z box)%Z with (c =? box) by (destruct (Nat.eqb_spec c box), (Z.eqb_spec (z c) (z box)); lia).
  assert (QUIET : forall p,
    (match walk_advance nch stack par mor with
     | Some (s', p', m') => option_map (app []) (walk t visit cap fuel s' p' m')
     | None => Some [] end = Some out) ->
    p = match pop inp (zstack stack) (z par) mor with
      | None => Finish | Some (s', p', m') => BuildDevice.restrict_walk inp cap lev (z box) fuel s' p' m' end ->
    exists T, evals K p T /\ touches_ok (nonempty out) T).
  { intros p X ->. destruct (ADV [] X) as [T [rest [T1 [T2 ->]]]]. exists T. auto. }
  destruct (c =? 0) eqn:C0; [apply QUIET; auto|]. unfold restrict_visit at 1 in E.
  destruct (c =? box) eqn:CB; [apply QUIET; auto|].
  assert (LV : s_blevel s c = length stack + 1).
  { apply Nat.eqb_neq in C0. destruct (wk_child t W mor par Hp Hm C0) as [_ X]. cbn [tree_of_state box_level box_child] in X. fold c in X. lia. }
  assert (LOADC : forall p hit, (exists T, evals K (p (map (s_center s box) (axes inp)) (map (s_center s c) (axes inp))) T /\ touches_ok hit T) ->
    exists T, evals K (load_all (map (fun a => (Centers a, z box)) (axes inp)) (fun xb =>
      load_all (map (fun a => (Centers a, z c)) (axes inp)) (fun xc => p xb xc))) T /\ touches_ok hit T).
  { intros p hit [T [T1 T2]].
    exists (map (fun a => Get (Centers a) box) (axes inp) ++ map (fun a => Get (Centers a) c) (axes inp) ++ T). split.
    - apply evals_axes with (g := s_center s box) (n := z (s_guess s)); [apply center_known; auto|].
      apply evals_axes with (g := s_center s c) (n := z (s_guess s)); [apply center_known; auto|]. exact T1.
    - apply touches_ok_gets.
      + apply touches_ok_gets; auto. intros x X. apply in_map_iff in X. destruct X as [a [<- _]]. apply (G1 _ _ _ eq_refl). exact Logic.I.
      + intros x X. apply in_map_iff in X. destruct X as [a [<- _]]. apply (G1 _ _ _ eq_refl). exact Logic.I. }
  apply LOADC. clear LOADC. cbv beta.
  replace (is_adj (geometry inp) (fun a => nth a (map (s_center s c) (axes inp)) 0%Z) (length stack + 1)
             (fun a => nth a (map (s_center s box) (axes inp)) 0%Z) lev)
    with (is_adj t (s_center s c) (length stack + 1) (s_center s box) lev).
  2:{ unfold is_adj, is_adj_nbhd. cbn [geometry dim tree_of_state]. unfold level_to_rad. cbn [root_extent geometry tree_of_state].
      rewrite (linf_ext (idim inp) (s_center s c) (s_center s box) (fun a => nth a (map (s_center s c) (axes inp)) 0%Z)
                 (fun a => nth a (map (s_center s box) (axes inp)) 0%Z)); auto; intros a Ha; unfold axes; rewrite nth_axes; auto. }
  destruct (is_adj t (s_center s c) (length stack + 1) (s_center s box) lev); [|apply QUIET; auto].
  assert (LOADH : forall p hit, (exists T, evals K (p (bool_z (s_has_children s c))) T /\ touches_ok hit T) ->
    exists T, evals K (Load HasChildren (z c) p) T /\ touches_ok hit T).
  { intros p hit [T [T1 T2]]. exists ([Get HasChildren c] ++ T). split.
    - cbn [app]. eapply ev_load with (n := z (s_guess s)); [reflexivity|lia|reflexivity|exact T1].
    - apply touches_ok_gets; auto. intros x [<-|[]]. apply (G1 _ _ _ eq_refl). exact Logic.I. }
  apply LOADH. clear LOADH. cbv beta.
  destruct (s_has_children s c); cbn [bool_z Z.eqb].
  - destruct (length stack + 1 <=? 1 + lev); [|apply QUIET; auto].
    destruct (length stack <? cap); [|discriminate E].
    destruct (walk t visit cap fuel ((par, mor) :: stack) c 0) as [rest|] eqn:R; [|discriminate E]. injection E as <-. cbn [app].
    destruct (IH ((par, mor) :: stack) c 0 rest R CL) as [T [T1 T2]].
    + cbn [length]. lia.
    + cbn [stack_ok]. auto.
    + apply nch_pos.
    + exists T. auto.
  - (* a leaf *)
    assert (HIT : (match walk_advance nch stack par mor with
       | Some (s', p', m') => option_map (app [c]) (walk t visit cap fuel s' p' m')
       | None => Some [c] end = Some out) ->
      exists T, evals K (Store ForceSplit (z box) 1%Z (Store UpperSplit 0%Z 1%Z (
        if S mor <? nch then Finish else match pop inp (zstack stack) (z par) mor with
        | None => Finish | Some (s', p', m') => BuildDevice.restrict_walk inp cap lev (z box) fuel s' p' m' end))) T /\
        touches_ok (nonempty out) T).
    { intros X. destruct (ADV [c] X) as [T [rest [T1 [T2 ->]]]]. cbn [nonempty app length Nat.eqb negb].
      assert (P : forall T hit, touches_ok hit T -> touches_ok true ([Put ForceSplit box 1%Z; Put UpperSplit 0 1%Z] ++ T)).
      { intros T' hit [P1 [P2 P3]]. split; [|split].
        - intros a k v [Z|[Z|Z]]; [injection Z as <- <- <-; auto|injection Z as <- <- <-; auto|].
          destruct (P1 a k v Z) as [_ P4]. auto.
        - intros _. split; [left; auto|right; left; auto].
        - intros a k [Z|[Z|Z]]; try discriminate Z. apply P3; auto. }
      assert (S1 : forall p T, evals K p T -> evals K (Store ForceSplit (z box) 1%Z (Store UpperSplit 0%Z 1%Z p)) ([Put ForceSplit box 1%Z; Put UpperSplit 0 1%Z] ++ T)).
      { intros p T' Ev. cbn [app]. eapply ev_store with (n := z (s_guess s)).
        - unfold kf. cbn [extend view len lenv]. rewrite LR. reflexivity.
        - lia.
        - apply (ev_store array K UpperSplit 0 1%Z); [reflexivity|lia|exact Ev]. }
      destruct (S mor <? nch).
      - exists ([Put ForceSplit box 1%Z; Put UpperSplit 0 1%Z] ++ []). split; [apply S1; constructor|]. apply (P [] false touches_ok_none).
      - exists ([Put ForceSplit box 1%Z; Put UpperSplit 0 1%Z] ++ T). split; [apply S1; auto|]. apply (P T _ T2). }
    destruct (length stack + 1 =? 2 + lev) eqn:E2; cbn [orb] in E; [apply HIT; auto|].
    destruct (length stack + 1 =? 1 + lev) eqn:E1; cbn [andb] in E; [|apply QUIET; auto].
    assert (LOADF : forall p hit, (exists T, evals K (p (bool_z (force c))) T /\ touches_ok hit T) ->
      exists T, evals K (Load ForceSplit (z c) p) T /\ touches_ok hit T).
    { intros p hit [T [T1 T2]]. exists ([Get ForceSplit c] ++ T). split.
      - cbn [app]. eapply ev_load with (n := z (s_guess s)); [|lia|reflexivity|exact T1].
        unfold kf. cbn [extend view len lenv]. rewrite LR. reflexivity.
      - apply touches_ok_gets; auto. intros x [<-|[]]. apply (G1 _ _ _ eq_refl). apply Nat.eqb_eq in E1. lia. }
    apply LOADF. clear LOADF. cbv beta. destruct (force c); cbn [bool_z Z.eqb]; [apply HIT; auto|apply QUIET; auto].
Qed.
End Level.

Lemma item_evals lev first i (force : nat -> bool) up h : first + i < n -> restrict_box inp s n lev force (first + i) = Some h ->
  exists T, evals (kf force up) (restrict_item inp level n first lev i) T /\ touches_ok lev (first + i) h T.
Proof.
  intros Hb E. unfold restrict_box in E. unfold restrict_item.
  assert (LH : forall T hit, touches_ok lev (first + i) hit T -> touches_ok lev (first + i) hit ([Get HasChildren (first + i)] ++ T)).
  { intros T hit X. apply touches_ok_gets; auto. intros x [<-|[]]. exists HasChildren, (first + i). auto. }
  destruct (s_has_children s (first + i)) eqn:HC.
  - injection E as <-. exists ([Get HasChildren (first + i)] ++ []). split; [|apply LH, touches_ok_none].
    cbn [app]. eapply ev_load with (n := z (s_guess s)); [reflexivity|lia|reflexivity|].
    change (s_has_children (sf force)) with (s_has_children s). rewrite HC. constructor.
  - unfold run_walk in E. destruct (walk _ _ _ _ _ _ _) as [out|] eqn:R; [|discriminate E]. injection E as <-.
    destruct (walk_evals lev (first + i) force up Hb (nch * n) [] 0 0 out R) as [T [T1 T2]].
    + rewrite EN. apply (used_lt s Y), (used_0 s Y).
    + apply (level_0 s Y).
    + exact Logic.I.
    + apply nch_pos.
    + exists ([Get HasChildren (first + i)] ++ T). split; [|apply LH; exact T2].
      cbn [app]. eapply ev_load with (n := z (s_guess s)); [reflexivity|lia|reflexivity|].
      change (s_has_children (sf force)) with (s_has_children s). rewrite HC. exact T1.
Qed.

Lemma level_launch {R} l (force : nat -> bool) hits (next : host array R) (Q : R -> device array -> Prop) : l < nlev s ->
  let first := nth l (s_lstart s) 0 in
  let cnt := nth l (s_used s) 0 in
  run_all (restrict_box inp s n l force) (seq first cnt) = Some hits ->
  okd (kf (scatter (map (fun bh => (fst bh, true)) (filter snd (combine (seq first cnt) hits))) force) (bool_z (existsb (fun h => h) hits))) next Q ->
  okd (kf force 0%Z) (Launch cnt (restrict_item inp level n first l) next) Q.
Proof.
  intros Hl first cnt E O. destruct (run_all_combine _ _ _ E) as [LH CB]. rewrite seq_length in LH.
  assert (HU := lay_used s Y l Hl). fold (lst s l) in first. fold (usd s l) in cnt. fold first in HU. fold cnt in HU.
  assert (M := lst_le s Y (S l) (nlev s) ltac:(lia) (le_n _)).
  assert (CI : forall i, i < cnt -> In (first + i, nth i hits false) (combine (seq first cnt) hits)).
  { intros i Hi. replace (first + i, nth i hits false) with (nth i (combine (seq first cnt) hits) (0, false)).
    - apply nth_In. rewrite combine_length, seq_length. lia.
    - rewrite combine_nth by (rewrite seq_length; lia). rewrite seq_nth by auto. auto. }
  assert (LV : forall i, i < cnt -> s_blevel s (first + i) = l) by (intros i Hi; apply (lay_level s Y l); fold first; lia).
  destruct (choose_below (fun i T => evals (kf force 0%Z) (restrict_item inp level n first l i) T /\ touches_ok l (first + i) (nth i hits false) T)
     [] cnt) as [T HT].
  { intros i Hi. apply item_evals; [lia|]. apply (CB _ _ (CI i Hi)). }
  set (f' := scatter _ force) in *.
  assert (F1 : forall i, i < cnt -> nth i hits false = true -> f' (first + i) = true).
  { intros i Hi X. unfold f'. apply scatter_in_eq.
    - apply in_map_iff. exists (first + i, true). split; auto. apply filter_In. split; auto. rewrite <- X. auto.
    - intros v V. apply in_map_iff in V. destruct V as [bh [V _]]. congruence. }
  apply ok_launch_sep with (T := T) (K' := kf f' (bool_z (existsb (fun h => h) hits))).
  - intros i Hi. apply (HT i Hi).
  - intros i j a k v Hi Hj X Z. destruct (HT i Hi) as [_ [P1 _]]. destruct (HT j Hj) as [_ [_ [_ P3]]].
    destruct (P1 a k v X) as [_ [_ [[-> ->]|[-> ->]]]]; specialize (P3 _ _ Z); cbn beta iota in P3; auto.
    rewrite (LV i Hi) in P3. lia.
  - intros i a k v Hi X. destruct (HT i Hi) as [_ [P1 _]]. destruct (P1 a k v X) as [HH [-> [[-> ->]|[-> ->]]]]; cbn [kf extend view val cellv sf with_control s_force].
    + rewrite (F1 i Hi HH). auto.
    + replace (existsb (fun h => h) hits) with true; auto. symmetry. apply existsb_exists. exists true. split; auto.
      rewrite <- HH. apply nth_In. lia.
  - intros a m. unfold kf. cbn [extend view len]. destruct a; auto.
  - intros a m k w. unfold kf. cbn [extend view len val]. destruct a; auto; intros Lm Hk; cbn [cellv sf with_control s_force].
    + intros X. unfold f' in X. destruct (scatter_cases (map (fun bh : nat * bool => (fst bh, true)) (filter snd (combine (seq first cnt) hits))) force k)
        as [[v [V1 V2]]|[V1 V2]].
      * left. apply in_map_iff in V1. destruct V1 as [[b h] [V1 V3]]. cbn [fst] in V1. injection V1 as -> <-.
        apply filter_In in V3. destruct V3 as [V3 V4]. cbn [snd] in V4. subst h.
        destruct (In_nth _ _ (0, false) V3) as [i [Hi Ei]]. rewrite combine_length, seq_length in Hi.
        rewrite combine_nth in Ei by (rewrite seq_length; lia). rewrite seq_nth in Ei by lia. injection Ei as <- Ei.
        exists i, 1%Z. split; [lia|]. destruct (HT i ltac:(lia)) as [_ [_ [P2 _]]]. apply P2; auto.
      * right. rewrite V2 in X. exact X.
    + intros X. destruct (existsb (fun h => h) hits) eqn:EX; [left|right; auto]. apply existsb_exists in EX. destruct EX as [h [J ->]].
      destruct (In_nth _ _ false J) as [i [Hi Ei]]. exists i, 1%Z. split; [lia|]. destruct (HT i ltac:(lia)) as [_ [_ [P2 _]]].
      assert (k = 0) by (injection Lm as <-; lia). subst k. apply P2; auto.
  - exact O.
Qed.

Theorem restrict_refines {R} levels : forall (force : nat -> bool) did force' did' (next : bool -> host array R) (Q : R -> device array -> Prop),
  (forall l, In l levels -> l < nlev s) ->
  restrict_levels inp s n levels force did = Some (force', did') ->
  okd (view inp (sf force') tmp) (next did') Q ->
  okd (view inp (sf force) tmp) (restrict_program inp (host_of s) n levels did next) Q.
Proof.
  induction levels as [|l levels IH]; intros force did force' did' next Q B E O; cbn [restrict_levels restrict_program] in *.
  - injection E as <- <-. exact O.
  - cbn [host_of h_used h_lstart BuildDevice.h_level].
    destruct (run_all _ _) as [hits|] eqn:RA; [|discriminate E].
    apply (ok_assign array array_eq _ _ 0) with (n := 1%Z); [reflexivity|cbn [length]; lia|].
    apply (ok_weaken array array_eq _ (kf force 0%Z)).
    2:{ intros d. unfold kf. apply known_weaken.
        - intros a m. cbn [extend k_assign view len]. destruct a; auto.
        - intros a m k v Lm Hk. cbn [extend k_assign view val]. destruct a; chain; auto. cbn [extend len] in Lm. injection Lm as <-.
          assert (k = 0) by lia. subst k. cbn [length Nat.leb Nat.ltb Nat.add andb Nat.sub nth_error]. auto. }
    apply (level_launch l force hits _ _ (B l (or_introl eq_refl)) RA).
    assert (FORGET : forall f u (h : host array R), okd (view inp (sf f) tmp) h Q -> okd (kf f u) h Q).
    { intros f u h X. apply (ok_weaken array array_eq _ _ _ _ X). intros d. unfold kf. apply known_weaken.
      - intros a m. cbn [extend view len]. destruct a; auto.
      - intros a m k v Lm Hk. cbn [extend view val]. destruct a; auto. discriminate. }
    apply (ok_peek array array_eq _ UpperSplit 0 1%Z (bool_z (existsb (fun h => h) hits))); [reflexivity|lia|reflexivity|].
    destruct (existsb (fun h => h) hits) eqn:EX; cbn [bool_z Z.eqb]; apply FORGET.
    + apply (IH _ _ force' did'); auto. intros l' J. apply B. right; auto.
    + injection E as <- <-. rewrite no_hits by auto. exact O.
Qed.
End Restrict.
