(** The level loop of the tree builder: reachable states, results, termination. *)
From Coq Require Import List Arith ZArith NArith Lia Bool Permutation.
From Verif Require Import Base Tree Walk Traversal Fmm TreeBuild ArrayFacts BuildInv BuildScan BuildIds BuildSort
  BuildAdvance BuildRenumber BuildStep BuildNext.
Import ListNotations.

Definition marks (inp : input) (st : state) : state := marked inp (scanned inp st).
Definition nused (inp : input) (st : state) : list nat := new_used (marks inp st) (split_box_ids inp (scanned inp st)).

(** a trip that ends at the head of the loop again *)
Inductive trans (inp : input) (st : state) (pth : nat -> list nat) : state -> (nat -> list nat) -> Prop :=
| t_guess g : 0 < g -> trans inp st pth (with_guess (marks inp st) g) pth
| t_renumber ns nbn : level_restrict inp = true -> length ns = S (nlev st) -> nth 0 ns 0 = 0 ->
    (forall l, l < nlev st -> nth l ns 0 + (lst st (S l) - lst st l) <= nth (S l) ns 0) ->
    trans inp st pth (renumbered inp (marks inp st) ns nbn) (pth' inp (marks inp st) pth ns nbn)
| t_split nl nbn force did :
    lst st (nlev st) + nth (nlev st) (nused inp st) 0 <= nbn ->
    (forall l, l < nlev st -> nth l (nused inp st) 0 <= lst st (S l) - lst st l) ->
    0 < nth (nlev st) (nused inp st) 0 ->
    (level_restrict inp = false -> nbn = lst st (nlev st) + nth (nlev st) (nused inp st) 0) ->
    s_final st = false ->
    (if level_restrict inp
     then restrict_levels inp (st5 inp st nl nbn) nbn (rev (seq 1 (s_level (st5 inp st nl nbn) - 2))) (fun _ => false) false
          = Some (force, did)
     else force = s_force st /\ did = false) ->
    (s_oversize (marks inp st) = true \/ did = true) ->
    trans inp st pth
      (with_control (st5 inp st nl nbn) (s_level (st5 inp st nl nbn) + 1) force false (negb (s_oversize (marks inp st)) && did))
      (pth5 inp st pth nl nbn).

(** a trip that leaves the loop *)
Inductive ends (inp : input) (st : state) (pth : nat -> list nat) : state -> (nat -> list nat) -> Prop :=
| e_stuck : have_extent inp = true -> s_final st = false -> nth (nlev st) (nused inp st) 0 = 0 ->
    ends inp st pth (with_control (marks inp st) (s_level st - 1) (s_force (marks inp st)) (s_oversize (marks inp st))
                       (s_final (marks inp st))) pth
| e_final nl nbn :
    lst st (nlev st) + nth (nlev st) (nused inp st) 0 <= nbn ->
    (forall l, l < nlev st -> nth l (nused inp st) 0 <= lst st (S l) - lst st l) ->
    s_final st = true -> nth (nlev st) (nused inp st) 0 = 0 -> s_oversize (marks inp st) = false ->
    ends inp st pth
      (with_control (with_level_counts (st5 inp st nl nbn) (removelast (s_lstart (st5 inp st nl nbn)))
                       (removelast (s_used (st5 inp st nl nbn))) (s_leaves (st5 inp st nl nbn)))
         (s_level (st5 inp st nl nbn) - 1) (s_force (st5 inp st nl nbn)) false true)
      (pth5 inp st pth nl nbn)
| e_restricted nl nbn force :
    lst st (nlev st) + nth (nlev st) (nused inp st) 0 <= nbn ->
    (forall l, l < nlev st -> nth l (nused inp st) 0 <= lst st (S l) - lst st l) ->
    0 < nth (nlev st) (nused inp st) 0 -> level_restrict inp = true -> s_final st = false ->
    restrict_levels inp (st5 inp st nl nbn) nbn (rev (seq 1 (s_level (st5 inp st nl nbn) - 2))) (fun _ => false) false
      = Some (force, false) ->
    s_oversize (marks inp st) = false ->
    ends inp st pth (with_control (st5 inp st nl nbn) (s_level (st5 inp st nl nbn)) force false false)
      (pth5 inp st pth nl nbn)
| e_plain nl nbn :
    lst st (nlev st) + nth (nlev st) (nused inp st) 0 <= nbn ->
    (forall l, l < nlev st -> nth l (nused inp st) 0 <= lst st (S l) - lst st l) ->
    0 < nth (nlev st) (nused inp st) 0 -> level_restrict inp = false ->
    nbn = lst st (nlev st) + nth (nlev st) (nused inp st) 0 ->
    s_oversize (marks inp st) = false ->
    ends inp st pth (st5 inp st nl nbn) (pth5 inp st pth nl nbn).

Inductive run (inp : input) : state -> (nat -> list nat) -> Prop :=
| run_init : s_level (initial_state inp) = 1 -> run inp (initial_state inp) (fun _ => [])
| run_trans st pth st' pth' : run inp st pth -> trans inp st pth st' pth' -> run inp st' pth'.

Section Loop.
Variable inp : input.
Notation np := (npart inp).
Notation nch := (nchild inp).
Hypothesis WT : forall u, u < np -> (0 <= weight inp u <= INT_MAX)%Z.
Hypothesis MW : (0 <= max_weight inp)%Z.

Section One.
Variable st : state.
Variable pth : nat -> list nat.
Hypothesis G : good inp st pth.
Let H := g_head inp st pth G.
Let I := h_inv inp st pth H.
Let Y := i_layout inp st pth I.
Notation st2 := (marks inp st).
Notation nu := (nused inp st).
Notation L := (nlev st).
Notation n := (lst st L).
Notation nl := (new_leaves inp st2 nu).

Lemma level_length_val l : level_length st2 l = lst st (S l) - lst st l.
Proof. unfold level_length. replace (l + 1) with (S l) by lia. reflexivity. Qed.
Lemma not_renumber : needs_renumbering st2 nu = false ->
  (forall l, l < L -> nth l nu 0 <= lst st (S l) - lst st l) /\
  nsum (map (minimal_length st2 nu) (seq 0 (s_level st))) = n.
Proof.
  intros E. rewrite (h_level inp st pth H).
  assert (X : forall l, l < L -> minimal_length st2 nu l <= lst st (S l) - lst st l).
  { intros l Hl. apply Nat.nlt_ge. intros C. assert (needs_renumbering st2 nu = true); [|congruence].
    apply existsb_exists. exists l. split.
    - change (s_level st2) with (s_level st). rewrite (h_level inp st pth H). apply in_seq. lia.
    - rewrite level_length_val. apply Nat.ltb_lt. auto. }
  split.
  - intros l Hl. assert (Z := X l Hl). unfold minimal_length in Z. lia.
  - rewrite (map_ext_in _ (fun l => lst st (S l) - lst st l)).
    2:{ intros l Hl. apply in_seq in Hl. assert (Z := X l ltac:(lia)). unfold minimal_length in *.
        rewrite level_length_val in *. lia. }
    assert (T : forall k, k <= L -> nsum (map (fun l => lst st (S l) - lst st l) (seq 0 k)) = lst st k).
    { induction k; intros Hk.
      - cbn. symmetry. apply (lay_0 st Y).
      - rewrite seq_S, map_app, nsum_app, IHk by lia. cbn [map Nat.add].
        assert (Z := lst_le st Y k (S k)). unfold nsum. cbn [fold_right]. lia. }
    apply T. auto.
Qed.
Lemma over_nu : s_oversize st2 = true -> 0 < nth L nu 0.
Proof.
  intros O. apply (over2_iff inp WT MW st pth G) in O. destruct O as [b [m [U [W [Hm E]]]]].
  apply (proj2 (nu_L_pos_iff inp WT MW st pth G _ (le_n _))). exists b. split; auto. rewrite <- (h_level inp st pth H).
  destruct W as [W|[LR F]]; auto. exfalso.
  destruct (g_force inp st pth G b F) as [_ [_ [_ F4]]].
  assert (Lf := h_force inp st pth H LR b U F).
  assert (LI := g_light inp st pth G b U Lf ltac:(lia)).
  rewrite (heavy_of_child inp WT (pth b) m) in LI; auto; [discriminate|apply LR_adaptive; auto].
Qed.
Lemma min_new_0 : minimal_new_length inp st2 nu nl (s_oversize st2) = 0 <-> nth L nu 0 = 0.
Proof.
  unfold minimal_new_length. change (s_level st2) with (s_level st). rewrite (h_level inp st pth H).
  assert (X := over_nu). destruct (level_restrict inp && s_oversize st2) eqn:E.
  - apply andb_true_iff in E. destruct E as [_ E]. specialize (X E). lia.
  - lia.
Qed.
Lemma min_new_ge : nth L nu 0 <= minimal_new_length inp st2 nu nl (s_oversize st2).
Proof. unfold minimal_new_length. change (s_level st2) with (s_level st). rewrite (h_level inp st pth H). lia. Qed.
Lemma min_new_tight : level_restrict inp = false -> minimal_new_length inp st2 nu nl (s_oversize st2) = nth L nu 0.
Proof.
  intros LR. unfold minimal_new_length. change (s_level st2) with (s_level st). rewrite LR, (h_level inp st pth H). cbn. lia.
Qed.
Lemma plain_no_renumber : level_restrict inp = false -> needs_renumbering st2 nu = false.
Proof.
  intros LR. apply not_true_is_false. intros E. apply existsb_exists in E. destruct E as [l [Hl E]]. apply in_seq in Hl.
  change (s_level st2) with (s_level st) in Hl. rewrite (h_level inp st pth H) in Hl.
  apply Nat.ltb_lt in E. unfold minimal_length in E. rewrite level_length_val in E.
  assert (T := h_tight inp st pth H LR l ltac:(lia)).
  assert (NU : nth l nu 0 = usd st l).
  { destruct l as [|l]; [symmetry; apply (lay_used_0 st Y)|].
    unfold nused. rewrite (nu_S inp st pth H) by lia.
    assert (Z : nsp inp st l = 0).
    { apply cntr_none. intros b B1 B2. apply not_true_is_false. intros S.
      assert (Hb : b < n) by (assert (X := lst_le st Y (Datatypes.S l) L); lia).
      assert (U := splits_used inp MW st pth H b Hb S).
      apply (sp_will inp WT st pth G b U) in S. destruct S as [[S _]|[S _]]; [|congruence].
      rewrite (i_len inp st pth I b U), (h_level inp st pth H) in S.
      rewrite (lay_level st Y l b) in S; lia. }
    rewrite Z. lia. }
  lia.
Qed.
Lemma final_nothing : s_final st = true -> nth L nu 0 = 0 /\ s_oversize st2 = false.
Proof.
  intros F. destruct (g_final inp st pth G F) as [LR [F2 _]].
  assert (Z : nth L nu 0 = 0).
  { destruct (Nat.eq_dec (nth L nu 0) 0) as [|E]; auto. exfalso.
    assert (P : 0 < nth L nu 0) by lia. apply (proj1 (nu_L_pos_iff inp WT MW st pth G _ (le_n _))) in P.
    destruct P as [b [U [E1 E2]]]. rewrite F2 in E2; auto; [discriminate|].
    destruct (Nat.eq_dec (s_child st 0 b) 0) as [|N]; auto. exfalso.
    destruct (i_split inp st pth I b 0 U N (nch_pos inp)) as [U' E'].
    assert (X := i_len inp st pth I _ U'). rewrite E', app_length in X. cbn [length] in X.
    apply (used_level st Y) in U'. destruct U' as [U' _]. lia. }
  split; auto. apply not_true_is_false. intros O. apply over_nu in O. lia.
Qed.

Definition assertion_reason : Prop := have_extent inp = false /\ s_final st = false /\ nth L nu 0 = 0.
Lemma list_neq_of_nth (a b : list nat) k : nth k a 0 <> nth k b 0 -> a <> b.
Proof. intros N E. apply N. congruence. Qed.

Lemma step_cases :
  match step inp st with
  | Continue st' => exists pt, trans inp st pth st' pt
  | Done st' => exists pt, ends inp st pth st' pt
  | Failed MaxLevelsExceeded => nlevels_max inp <= s_level st + 1
  | Failed AssertionFailed => assertion_reason
  | Failed WalkFailed => level_restrict inp = true /\ exists nl nbn,
      lst st (nlev st) + nth (nlev st) (nused inp st) 0 <= nbn /\
      (forall l, l < nlev st -> nth l (nused inp st) 0 <= lst st (S l) - lst st l) /\
      0 < nth (nlev st) (nused inp st) 0 /\
      restrict_levels inp (st5 inp st nl nbn) nbn (rev (seq 1 (s_level (st5 inp st nl nbn) - 2))) (fun _ => false) false = None
  | Failed OutOfFuel => False
  end.
Proof.
  unfold step. destruct (Nat.leb_spec (nlevels_max inp) (s_level st + 1)) as [C|C]; auto. cbv zeta.
  change (marked inp (scanned inp st)) with st2.
  change (new_used st2 (split_box_ids inp (scanned inp st))) with nu.
  set (mn := minimal_new_length inp st2 nu nl (s_oversize st2)).
  destruct (needs_renumbering st2 nu) eqn:NRN.
  - destruct (level_restrict inp) eqn:LR; [|rewrite plain_no_renumber in NRN; auto; discriminate]. cbn [negb].
    assert (MG := marked_good inp WT MW st pth G). assert (MH := g_head inp _ _ MG).
    assert (LE := new_lstart_le inp st2 pth MH nu nl).
    destruct (list_eq_dec Nat.eq_dec (s_lstart st2) (new_lstart inp st2 nu nl)) as [E|E].
    + exfalso. apply existsb_exists in NRN. destruct NRN as [l [Hl NRN]]. apply in_seq in Hl.
      change (s_level st2) with (s_level st) in Hl. rewrite (h_level inp st pth H) in Hl.
      apply Nat.ltb_lt in NRN. unfold minimal_length in NRN. rewrite level_length_val in NRN.
      assert (X := new_lstart_ge_nu inp st2 pth MH nu nl l ltac:(change (nlev st2) with L; lia)).
      rewrite <- E in X. change (lst st l + nth l nu 0 <= lst st (S l)) in X. lia.
    + eexists. apply t_renumber; auto.
      * apply (new_lstart_length inp st2 pth MH).
      * apply new_lstart_0.
  - destruct (not_renumber NRN) as [NR TOT]. rewrite TOT.
    assert (MZ := min_new_0). assert (MG := min_new_ge). assert (MT := min_new_tight). fold mn in MZ, MG, MT.
    destruct (Nat.ltb_spec (s_guess st2) (n + mn)) as [CG|CG].
    + eexists. apply t_guess. apply grow_pos, (g_guess inp st pth G).
    + change (nth (s_level st) (s_lstart st2) 0) with (lst st (s_level st)). rewrite (h_level inp st pth H).
      change (advance inp st st2 (split_box_ids inp (scanned inp st)) nu nl (n + mn)) with (st5 inp st nl (n + mn)).
      assert (NB : n + nth L nu 0 <= n + mn) by lia.
      change (s_final st2) with (s_final st).
      assert (AS : forall nz : 0 < nth L nu 0 \/ s_final st = true, match after_split inp (st5 inp st nl (n + mn)) (n + mn) with
        | Continue st' => exists pt, trans inp st pth st' pt
        | Done st' => exists pt, ends inp st pth st' pt
        | Failed MaxLevelsExceeded => nlevels_max inp <= L + 1
        | Failed AssertionFailed => assertion_reason
        | Failed WalkFailed => level_restrict inp = true /\ exists nl nbn,
            lst st (nlev st) + nth (nlev st) (nused inp st) 0 <= nbn /\
            (forall l, l < nlev st -> nth l (nused inp st) 0 <= lst st (S l) - lst st l) /\
            0 < nth (nlev st) (nused inp st) 0 /\
            restrict_levels inp (st5 inp st nl nbn) nbn (rev (seq 1 (s_level (st5 inp st nl nbn) - 2))) (fun _ => false) false = None
        | Failed OutOfFuel => False end).
      { intros nz. unfold after_split. cbv zeta.
        change (s_final (st5 inp st nl (n + mn))) with (s_final st).
        change (s_oversize (st5 inp st nl (n + mn))) with (s_oversize st2).
        change (s_level (st5 inp st nl (n + mn))) with (s_level st) at 1.
        rewrite (h_level inp st pth H).
        change (nth L (s_used (st5 inp st nl (n + mn))) 0) with (nth L nu 0).
        destruct (s_final st) eqn:F.
        - destruct (final_nothing F) as [F1 F2]. rewrite F1, F2. cbn [orb negb Nat.eqb].
          eexists. apply (e_final inp st pth nl (n + mn)); auto.
        - destruct nz as [nz|nz]; [|discriminate].
          destruct (level_restrict inp) eqn:LR.
          + destruct (restrict_levels _ _ _ _ _ _) as [[force did]|] eqn:RL.
            2:{ split; auto. exists nl, (n + mn). repeat split; auto. }
            destruct (s_oversize st2) eqn:O; cbn [negb andb].
            * eexists. assert (T := t_split inp st pth nl (n + mn) force did NB NR nz). rewrite LR, O in T.
              apply T; auto.
            * destruct did.
              -- eexists. assert (T := t_split inp st pth nl (n + mn) force true NB NR nz). rewrite LR, O in T.
                 apply T; auto.
              -- eexists. apply (e_restricted inp st pth nl (n + mn) force); auto.
          + specialize (MT eq_refl). rewrite MT in *. destruct (s_oversize st2) eqn:O; cbn [negb].
            * eexists. assert (T := t_split inp st pth nl (n + nth L nu 0) (s_force st) false NB NR nz). rewrite LR, O in T.
              apply T; auto.
            * eexists. apply (e_plain inp st pth nl (n + nth L nu 0)); auto. }
      destruct (Nat.eqb_spec n (n + mn)) as [E|E].
      * assert (Z : nth L nu 0 = 0) by (apply MZ; lia).
        destruct (s_final st) eqn:F.
        -- rewrite andb_false_r. cbn [negb]. apply AS. auto.
        -- cbn [negb]. rewrite andb_true_r. destruct (have_extent inp) eqn:X.
           ++ exists pth. rewrite <- (h_level inp st pth H). assert (T := e_stuck inp st pth X F Z).
              change (s_final (marks inp st)) with (s_final st) in T. rewrite F in T. exact T.
           ++ split; auto.
      * apply AS. left. destruct (Nat.eq_dec (nth L nu 0) 0) as [Z|Z]; [|lia]. apply MZ in Z. lia.
Qed.
End One.

Lemma force_facts st pth nl nbn force did : good inp st pth ->
  lst st (nlev st) + nth (nlev st) (nused inp st) 0 <= nbn ->
  (forall l, l < nlev st -> nth l (nused inp st) 0 <= lst st (S l) - lst st l) ->
  level_restrict inp = true ->
  restrict_levels inp (st5 inp st nl nbn) nbn (rev (seq 1 (s_level (st5 inp st nl nbn) - 2))) (fun _ => false) false = Some (force, did) ->
  forall b, force b = true -> level_restrict inp = true /\ used (st5 inp st nl nbn) b /\
    0 < length (pth5 inp st pth nl nbn b) /\ length (pth5 inp st pth nl nbn b) + 2 <= nlev st /\
    s_has_children (st5 inp st nl nbn) b = false.
Proof.
  intros G NB NR LR RL b F. assert (H := g_head inp st pth G).
  destruct (restrict_levels_marks _ _ _ _ _ _ _ _ RL) as [_ [R2 _]].
  destruct (R2 b F) as [D|[l [Hl [Hb HC]]]]; [discriminate|]. apply in_rev, in_seq in Hl.
  assert (EL : s_level (st5 inp st nl nbn) = nlev st) by apply (h_level inp st pth H). rewrite EL in Hl.
  assert (I5 := advance_inv inp WT MW st pth H nl nbn NB NR).
  assert (UA : used_at (st5 inp st nl nbn) l b).
  { split; [rewrite (nlev5 inp st pth H); lia|exact Hb]. }
  assert (U : used (st5 inp st nl nbn) b) by (exists l; auto).
  rewrite (i_len inp _ _ I5 b U), (used_at_level _ (i_layout inp _ _ I5) l b UA).
  split; auto. split; auto. split; [lia|]. split; [lia|auto].
Qed.

Lemma trans_good st pth st' pth' : good inp st pth -> trans inp st pth st' pth' -> good inp st' pth'.
Proof.
  intros G T. assert (H := g_head inp st pth G). inversion T; subst.
  - apply guess_good; auto. apply marked_good; auto.
  - apply renumber_good; auto. apply marked_good; auto.
  - apply next_good; auto.
    + intros b F. destruct (level_restrict inp) eqn:LR.
      * apply (force_facts st pth nl nbn force did) with (b := b) in H5; auto. rewrite LR in H5. exact H5.
      * destruct H5 as [-> _]. destruct (g_force inp st pth G b F) as [Z _]. congruence.
    + intros E. apply andb_true_iff in E. destruct E as [E1 E2]. subst did. apply negb_true_iff in E1.
      destruct (level_restrict inp) eqn:LR; [|destruct H5; discriminate]. split; auto. split; auto.
      destruct (restrict_levels_marks _ _ _ _ _ _ _ _ H5) as [_ [_ R3]]. destruct (R3 eq_refl) as [R|R]; [discriminate|auto].
Qed.
End Loop.
