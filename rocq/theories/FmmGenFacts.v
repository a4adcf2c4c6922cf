(** Proofs about the FMM driver with an arbitrary expansion wrangler. *)
From Coq Require Import List Arith ZArith NArith Lia Bool Permutation.
From Verif Require Import Base Tree Spec TreeFacts Traversal SpecTraversal TraversalLists Coverage
  CoverageThm ListFacts LevelStarts MergeFacts Fmm SpecFmm FmmFacts FmmThm FmmGen SpecFmmGen.
Import ListNotations.

(** ** Output arrays *)
Lemma out_add_eq {X : cmonoid} (out : nat -> X) start cnt pot j :
  out_add out start cnt pot j = if covers start cnt j then op (out j) (pot j) else out j.
Proof.
  unfold out_add, covers. revert out start. induction cnt as [|cnt IH]; intros out start; simpl.
  - destruct (Nat.leb_spec start j), (Nat.ltb_spec j (start + 0)); simpl; auto; lia.
  - rewrite IH.
    destruct (Nat.leb_spec (S start) j), (Nat.ltb_spec j (S start + cnt)), (Nat.eqb_spec j start),
      (Nat.leb_spec start j), (Nat.ltb_spec j (start + S cnt)); simpl; subst; auto; lia.
Qed.
Lemma fold_out_add {X : cmonoid} {A} (l : list A) (s c : A -> nat) (pot : A -> nat -> X) out j :
  fold_left (fun out x => out_add out (s x) (c x) (pot x)) l out j =
  op (out j) (msum (map (fun x => if covers (s x) (c x) j then pot x j else e0) l)).
Proof.
  revert out. induction l as [|x l IH]; intros out; simpl; [rewrite op_0_r; auto|].
  rewrite IH, out_add_eq. destruct (covers _ _ _); rewrite ?op_0, ?op_assoc; auto.
Qed.

Lemma entries_msum {X : cmonoid} boxes c b (f : nat -> X) :
  msum (map f (entries boxes c b)) =
  msum (map (fun i => if Nat.eqb (nth i boxes 0) b then msum (map f (csr_get c i)) else e0) (seq 0 (length boxes))).
Proof.
  unfold entries. rewrite msum_map_concat, map_map. apply msum_map_ext. intros i _.
  destruct (_ =? _); auto.
Qed.
Lemma entries_index boxes c i : NoDup boxes -> i < length boxes ->
  entries boxes c (nth i boxes 0) = csr_get c i.
Proof.
  intros ND Hi. unfold entries.
  assert (G : forall l, NoDup l -> (forall k, In k l -> k < length boxes) -> In i l ->
    concat (map (fun k => if nth k boxes 0 =? nth i boxes 0 then csr_get c k else []) l) = csr_get c i).
  { induction l as [|k l IH]; intros NDl Hl Hin; [destruct Hin|]. inversion NDl; subst.
    cbn [map concat]. destruct (Nat.eqb_spec (nth k boxes 0) (nth i boxes 0)) as [e|ne].
    - assert (k = i) by (apply (proj1 (NoDup_nth boxes 0) ND); auto; apply Hl; left; auto). subst k.
      rewrite (proj2 (concat_nil_Forall _)); [apply app_nil_r|].
      apply Forall_forall. intros r Hr. apply in_map_iff in Hr. destruct Hr as [k [<- Hk]].
      destruct (Nat.eqb_spec (nth k boxes 0) (nth i boxes 0)) as [e'|]; auto.
      assert (k = i) by (apply (proj1 (NoDup_nth boxes 0) ND); auto; apply Hl; right; auto). congruence.
    - destruct Hin as [->|Hin]; [congruence|]. simpl. apply IH; auto. intros; apply Hl; right; auto. }
  apply G; [apply seq_NoDup| |apply in_seq; lia]. intros k Hk. apply in_seq in Hk. lia.
Qed.

(** nested loops over levels as one loop *)
Lemma fold_nested {A B S} (g : A -> S -> B -> S) (h : A -> list B) la s :
  fold_left (fun s a => fold_left (g a) (h a) s) la s =
  fold_left (fun s q => g (fst q) s (snd q)) (concat (map (fun a => map (pair a) (h a)) la)) s.
Proof.
  revert s. induction la as [|a la IH]; intros s; simpl; auto. rewrite fold_left_app, IH. f_equal.
  clear. generalize (h a). intros l. revert s. induction l; intros s; simpl; auto.
Qed.

(** ** Storage of expansions: boxes of one level have distinct slots *)
Section Storage.
Variable t : tree.
Hypothesis W : wf_tree t.
Variable starts : nat -> nat.
Hypothesis LS : level_sorted t starts.
Context {X : cmonoid}.

Definition at_box (s : storage X) (b : nat) : X := view_get starts s (box_level t b) b.

Lemma start_le b : b < nboxes t -> starts (box_level t b) <= b.
Proof. intros H. apply LS; auto. apply (wf_level_lt t W); auto. Qed.

Lemma at_view_set s b v x : b < nboxes t -> x < nboxes t ->
  at_box (view_set starts s (box_level t b) b v) x = if x =? b then v else at_box s x.
Proof.
  intros Hb Hx. unfold at_box, view_get, view_set. pose proof (start_le b Hb). pose proof (start_le x Hx).
  destruct (Nat.eqb_spec x b) as [->|NE]. { rewrite !Nat.eqb_refl. auto. }
  destruct (Nat.eqb_spec (box_level t x) (box_level t b)) as [e|]; auto.
  destruct (Nat.eqb_spec (x - starts (box_level t x)) (b - starts (box_level t b))) as [e2|]; auto.
  exfalso. apply NE. rewrite e in *. lia.
Qed.

Lemma fold_step {A} (step : storage X -> A -> storage X) (key : A -> nat) (F : storage X -> A -> X) l :
  NoDup (map key l) ->
  (forall s q x, In q l -> x < nboxes t -> at_box (step s q) x = if x =? key q then F s q else at_box s x) ->
  (forall s s' q, In q l ->
     (forall x, x < nboxes t -> ~ In x (map key l) \/ x = key q -> at_box s x = at_box s' x) -> F s q = F s' q) ->
  (forall q, In q l -> key q < nboxes t) ->
  forall s0, (forall q, In q l -> at_box (fold_left step l s0) (key q) = F s0 q) /\
    (forall x, x < nboxes t -> ~ In x (map key l) -> at_box (fold_left step l s0) x = at_box s0 x).
Proof.
  intros ND H1 H2 H3 s0.
  assert (G : forall done todo s, l = done ++ todo ->
    (forall q, In q done -> at_box s (key q) = F s0 q) ->
    (forall x, x < nboxes t -> ~ In x (map key done) -> at_box s x = at_box s0 x) ->
    (forall q, In q l -> at_box (fold_left step todo s) (key q) = F s0 q) /\
    (forall x, x < nboxes t -> ~ In x (map key l) -> at_box (fold_left step todo s) x = at_box s0 x)).
  { intros done todo. revert done. induction todo as [|q todo IH]; intros done s E D1 D2; simpl.
    - rewrite app_nil_r in E. subst done. auto.
    - assert (Hq : In q l) by (rewrite E; apply in_app_iff; right; left; auto).
      assert (Nq : ~ In (key q) (map key done)).
      { rewrite E, map_app in ND. apply NoDup_remove_2 in ND. intros Hin. apply ND. apply in_app_iff. auto. }
      assert (EF : F s q = F s0 q).
      { apply H2; auto. intros x Hx [Hx2| ->].
        - apply D2; auto. intros Hin. apply Hx2. rewrite E, map_app. apply in_app_iff. auto.
        - apply D2; auto. }
      apply (IH (done ++ [q])).
      + rewrite <- app_assoc. auto.
      + intros q' Hq'. apply in_app_iff in Hq'.
        assert (Hq'l : In q' l) by (rewrite E; apply in_app_iff; destruct Hq' as [|[->|[]]]; [left|right; left]; auto).
        rewrite H1 by auto. destruct (Nat.eqb_spec (key q') (key q)) as [e|ne].
        * destruct Hq' as [Hq'|[->|[]]]; [|auto]. exfalso. apply Nq. rewrite <- e. apply in_map. auto.
        * destruct Hq' as [Hq'|[->|[]]]; [auto|congruence].
      + intros x Hx Hn. rewrite map_app in Hn. rewrite H1 by auto.
        destruct (Nat.eqb_spec x (key q)) as [->|].
        * exfalso. apply Hn. apply in_app_iff. right. left. auto.
        * apply D2; auto. intros Hin. apply Hn. apply in_app_iff. auto. }
  apply (G [] l s0); auto. intros ? [].
Qed.

(** the boxes of a level-delimited list, level by level *)
Definition by_levels (ls bl : list nat) : list (nat * nat) :=
  concat (map (fun lev => map (pair lev) (slice bl (nth lev ls 0) (nth (lev + 1) ls 0))) (seq 0 (nlevels t))).

Lemma by_levels_in ls bl q : level_delimited t ls bl -> (forall x, In x bl -> x < nboxes t) ->
  (In q (by_levels ls bl) <-> In (snd q) bl /\ fst q = box_level t (snd q)).
Proof.
  intros LD Hr. unfold by_levels. rewrite in_concat_map. split.
  - intros [lev [Hl Hq]]. apply in_seq in Hl. apply in_map_iff in Hq. destruct Hq as [b [<- Hb]].
    apply (in_level_slice t) in Hb; auto; [|lia]. simpl. intuition.
  - intros [H1 H2]. destruct q as [lev b]. simpl in *. subst lev. exists (box_level t b).
    pose proof (wf_level_lt t W b (Hr b H1)). split; [apply in_seq; lia|].
    apply in_map. apply (in_level_slice t); auto.
Qed.
Lemma nodup_levels {A} (key : A -> nat) (f : nat -> list A) n :
  (forall l, l < n -> NoDup (map key (f l))) ->
  (forall l q, l < n -> In q (f l) -> box_level t (key q) = l) ->
  NoDup (map key (concat (map f (seq 0 n)))).
Proof.
  intros H1 H2. induction n as [|n IH]; [constructor|].
  rewrite seq_S, map_app, concat_app, map_app. apply NoDup_app_intro.
  - apply IH; intros; auto.
  - cbn [map concat]. rewrite app_nil_r. apply H1. lia.
  - intros x Hx Hy. cbn [map concat] in Hy. rewrite app_nil_r in Hy.
    apply in_map_iff in Hx. destruct Hx as [q [E Hq]]. apply in_concat_map in Hq. destruct Hq as [l [Hl Hq]].
    apply in_seq in Hl. apply H2 in Hq; [|lia].
    apply in_map_iff in Hy. destruct Hy as [q' [E' Hq']]. apply H2 in Hq'; [|lia].
    rewrite E in Hq. rewrite E' in Hq'. simpl in Hq'. lia.
Qed.
Lemma by_levels_nodup ls bl : level_delimited t ls bl -> NoDup bl -> NoDup (map snd (by_levels ls bl)).
Proof.
  intros LD ND. unfold by_levels. apply nodup_levels.
  - intros l Hl. rewrite map_map. cbn [snd]. rewrite map_id, LD by auto. apply NoDup_filter; auto.
  - intros l q Hl Hq. apply in_map_iff in Hq. destruct Hq as [b [<- Hb]].
    apply (in_level_slice t) in Hb; tauto.
Qed.
(** ... with row numbers *)
Definition rows_by_levels (ls bl : list nat) : list (nat * nat) :=
  concat (map (fun lev => map (pair lev) (seq 0 (length (slice bl (nth lev ls 0) (nth (lev + 1) ls 0)))))
              (seq 0 (nlevels t))).
Definition row_box (ls bl : list nat) (q : nat * nat) : nat :=
  nth (snd q) (slice bl (nth (fst q) ls 0) (nth (fst q + 1) ls 0)) 0.

Lemma nth_slice (bl : list nat) s e k : k < length (slice bl s e) ->
  nth k (slice bl s e) 0 = nth (s + k) bl 0 /\ s + k < length bl.
Proof.
  unfold slice. intros H. rewrite firstn_length, skipn_length in H. split; [|lia].
  assert (G : forall (l : list nat) n i, i < n -> nth i (firstn n l) 0 = nth i l 0).
  { induction l as [|x l IH]; intros [|n] [|i]; simpl; intros; auto; try lia. apply IH. lia. }
  rewrite G by lia. clear. revert bl. induction s; intros bl; simpl; auto.
  destruct bl; simpl; [destruct k; auto|auto].
Qed.
Lemma rows_in ls bl q : level_delimited t ls bl -> (forall x, In x bl -> x < nboxes t) ->
  In q (rows_by_levels ls bl) ->
  let i := nth (fst q) ls 0 + snd q in
  i < length bl /\ row_box ls bl q = nth i bl 0 /\ fst q = box_level t (row_box ls bl q) /\
  In (row_box ls bl q) bl.
Proof.
  intros LD Hr Hq. cbv zeta. unfold rows_by_levels in Hq. apply in_concat_map in Hq.
  destruct Hq as [lev [Hl Hq]]. apply in_seq in Hl. apply in_map_iff in Hq. destruct Hq as [k [<- Hk]].
  apply in_seq in Hk. cbn [fst snd]. unfold row_box. cbn [fst snd].
  destruct (nth_slice bl (nth lev ls 0) (nth (lev + 1) ls 0) k ltac:(lia)) as [E1 E2].
  assert (Hin : In (nth k (slice bl (nth lev ls 0) (nth (lev + 1) ls 0)) 0)
                   (slice bl (nth lev ls 0) (nth (lev + 1) ls 0))) by (apply nth_In; lia).
  apply (in_level_slice t) in Hin; auto; [|lia]. rewrite E1 in *. intuition.
Qed.
Lemma rows_nodup ls bl : level_delimited t ls bl -> NoDup bl -> (forall x, In x bl -> x < nboxes t) ->
  NoDup (map (row_box ls bl) (rows_by_levels ls bl)).
Proof.
  intros LD ND Hr. unfold rows_by_levels. apply nodup_levels.
  - intros l Hl. rewrite map_map. unfold row_box. cbn [fst snd].
    assert (NDs : NoDup (slice bl (nth l ls 0) (nth (l + 1) ls 0))) by (rewrite LD by auto; apply NoDup_filter; auto).
    revert NDs. generalize (slice bl (nth l ls 0) (nth (l + 1) ls 0)). intros sl NDs.
    rewrite <- (map_map (fun x => x) (fun x => nth x sl 0)), map_id.
    replace (map (fun x => nth x sl 0) (seq 0 (length sl))) with sl; auto.
    clear. induction sl as [|x sl IH]; simpl; auto. f_equal. rewrite <- seq_shift, map_map. auto.
  - intros l q Hl Hq. symmetry. assert (fst q = l) by (apply in_map_iff in Hq; destruct Hq as [k [<- _]]; auto).
    rewrite <- H. apply rows_in; auto. unfold rows_by_levels. apply in_concat_map. exists l. split; auto.
    apply in_seq. lia.
Qed.
Lemma rows_onto ls bl b : level_delimited t ls bl -> (forall x, In x bl -> x < nboxes t) -> In b bl ->
  exists q, In q (rows_by_levels ls bl) /\ row_box ls bl q = b.
Proof.
  intros LD Hr Hb. pose proof (wf_level_lt t W b (Hr b Hb)) as Hl.
  assert (Hs : In b (slice bl (nth (box_level t b) ls 0) (nth (box_level t b + 1) ls 0)))
    by (apply (in_level_slice t); auto).
  destruct (In_nth _ _ 0 Hs) as [k [Hk Ek]]. exists (box_level t b, k). split; auto.
  unfold rows_by_levels. apply in_concat_map. exists (box_level t b). split; [apply in_seq; lia|].
  apply in_map. apply in_seq. lia.
Qed.
End Storage.

(** ** The stages of the FMM *)
Section Stages.
Context {Wt : Type} {M L V : cmonoid} (R : routines Wt M L V) (LIN : linear R).
Variable t : tree.
Hypothesis W : wf_tree t.
Variable p : particles.
Variable starts : nat -> nat.
Hypothesis LS : level_sorted t starts.
Variable w : nat -> Wt.
Notation lev := (box_level t).

(** multipole expansion due to the sources a box owns *)
Definition own (b : nat) : M := msum (map (fun j => p2m R (lev b) b j (w j)) (source_slice p b)).

Lemma form_multipoles_gen_at ls sb b : level_delimited t ls sb -> NoDup sb ->
  (forall x, In x sb -> x < nboxes t) -> b < nboxes t ->
  at_box t starts (form_multipoles_gen _ _ _ _ R t p starts ls sb w) b =
  if in_dec Nat.eq_dec b sb then own b else e0.
Proof.
  intros LD ND Hr Hb. unfold form_multipoles_gen. rewrite fold_nested.
  fold (by_levels t ls sb).
  set (step := fun s q => _ : storage M).
  set (F := fun (s : storage M) (q : nat * nat) =>
    if box_source_counts_nonchild p (snd q) =? 0 then at_box t starts s (snd q) else own (snd q)).
  destruct (fold_step t starts step snd F (by_levels t ls sb)) with (s0 := @no_expansions M) as [H1 H2].
  - apply by_levels_nodup; auto.
  - intros s q x Hq Hx. apply (by_levels_in t W) in Hq; auto. destruct Hq as [Hq El].
    unfold step, F. destruct (box_source_counts_nonchild p (snd q) =? 0).
    + destruct (Nat.eqb_spec x (snd q)); congruence.
    + rewrite El. rewrite (at_view_set t W starts LS) by auto. reflexivity.
  - intros s s' q Hq H. unfold F. destruct (_ =? 0); auto. apply H; auto.
    apply Hr. apply (by_levels_in t W) in Hq; tauto.
  - intros q Hq. apply Hr. apply (by_levels_in t W) in Hq; tauto.
  - destruct (in_dec _ _ _) as [i|i].
    + specialize (H1 (lev b, b)). cbn [snd] in H1. rewrite H1 by (apply (by_levels_in t W); auto).
      unfold F. cbn [snd]. destruct (Nat.eqb_spec (box_source_counts_nonchild p b) 0) as [e|]; auto.
      unfold own, source_slice. rewrite e. reflexivity.
    + rewrite H2; auto. intros Hin. apply in_map_iff in Hin. destruct Hin as [q [<- Hq]].
      apply (by_levels_in t W) in Hq; tauto.
Qed.

(** *** Multipole expansions moved up *)
Lemma raise_0 k x : raise R t k x e0 = e0.
Proof. revert x. induction k; intros x; simpl; auto. rewrite (m2m_0 R LIN). auto. Qed.
Lemma raise_op k x a b : raise R t k x (op a b) = op (raise R t k x a) (raise R t k x b).
Proof. revert x a b. induction k; intros x a b; simpl; auto. rewrite (m2m_op R LIN). auto. Qed.
Lemma raise_last k x m : let c := up t k x in
  raise R t (S k) x m = m2m R (lev c) c (lev (box_parent t c)) (box_parent t c) (raise R t k x m).
Proof.
  cbv zeta. revert x m. induction k as [|k IH]; intros x m; [reflexivity|].
  change (raise R t (S (S k)) x m) with
    (raise R t (S k) (box_parent t x) (m2m R (lev x) x (lev (box_parent t x)) (box_parent t x) m)).
  rewrite IH. replace (up t (S k) x) with (up t k (box_parent t x)); [reflexivity|].
  change (box_parent t x) with (up t 1 x). rewrite up_up. f_equal. lia.
Qed.

(** multipole expansion of b due to everything below, given what each box contributes *)
Definition msub (own : nat -> M) (b : nat) : M :=
  msum (map (fun s => if in_dec Nat.eq_dec b (ancestors_or_self t s)
                      then raise R t (lev s - lev b) s (own s) else e0) (seq 0 (nboxes t))).

Lemma msub_rec o b : b < nboxes t ->
  msub o b = op (o b) (msum (map (fun m => let c := box_child t m b in
               if c =? 0 then e0 else m2m R (lev c) c (lev b) b (msub o c)) (seq 0 (nchildren t)))).
Proof.
  intros Hb. unfold msub.
  rewrite (msum_map_ext (fun m => let c := box_child t m b in
     if c =? 0 then e0 else m2m R (lev c) c (lev b) b (msum (map (fun s => if in_dec Nat.eq_dec c (ancestors_or_self t s)
                      then raise R t (lev s - lev c) s (o s) else e0) (seq 0 (nboxes t)))))
    (fun m => msum (map (fun s => let c := box_child t m b in if c =? 0 then e0 else
        if in_dec Nat.eq_dec c (ancestors_or_self t s)
        then m2m R (lev c) c (lev b) b (raise R t (lev s - lev c) s (o s)) else e0) (seq 0 (nboxes t))))).
  2:{ intros m _. cbv zeta. destruct (_ =? 0). { symmetry. apply msum_map_0. auto. }
      rewrite (msum_hom (m2m R (lev (box_child t m b)) (box_child t m b) (lev b) b)
                 (m2m_0 R LIN _ _ _ _) (m2m_op R LIN _ _ _ _)), map_map.
      apply msum_map_ext. intros s _. destruct (in_dec _ _ _); auto. apply (m2m_0 R LIN). }
  rewrite msum_swap.
  assert (E : o b = msum (map (fun s => if b =? s then o s else e0) (seq 0 (nboxes t)))).
  { rewrite (msum_map_single _ _ b); [rewrite Nat.eqb_refl; auto|apply seq_NoDup|apply in_seq; lia|].
    intros x _ Hx. destruct (Nat.eqb_spec b x); congruence. }
  rewrite E, <- msum_map_op. apply msum_map_ext. intros s Hs. apply in_seq in Hs. clear E.
  assert (Hs' : s < nboxes t) by lia. clear Hs. rename Hs' into Hs.
  destruct (in_dec Nat.eq_dec b (ancestors_or_self t s)) as [i|i].
  - apply in_chain in i; auto. destruct i as [k [Hk Ek]].
    assert (Lk : lev b = k) by (rewrite Ek; apply anc_level; auto).
    destruct (Nat.eq_dec k (lev s)) as [e|ne].
    + rewrite e, anc_self in Ek. subst s. rewrite Nat.eqb_refl, Nat.sub_diag. rewrite msum_map_0; [rewrite op_0_r; auto|].
      intros m Hm. apply in_seq in Hm. cbv zeta. destruct (Nat.eqb_spec (box_child t m b) 0); auto.
      destruct (in_dec _ _ _) as [Hin|]; auto. apply in_chain in Hin; auto. destruct Hin as [j [Hj Ej]].
      destruct (child_facts t W m b Hb ltac:(lia) n) as [_ [L1 _]]. rewrite Ej in L1.
      rewrite anc_level in L1 by auto. lia.
    + destruct (Nat.eqb_spec b s) as [->|_]; [lia|]. rewrite op_0.
      set (c := anc t (S k) s).
      assert (Hc : c < nboxes t) by (apply anc_lt; auto).
      assert (Hc0 : 0 < c) by (apply anc_pos; auto; lia).
      assert (Lc : lev c = S k) by (apply anc_level; auto; lia).
      assert (Pc : box_parent t c = b) by (unfold c; rewrite parent_anc by (auto; lia); auto).
      destruct (wf_parent t W c Hc0 Hc) as [_ [m [Hm Em]]]. rewrite Pc in Em.
      rewrite (msum_map_single _ _ m).
      * cbv zeta. rewrite Em. destruct (Nat.eqb_spec c 0); [lia|].
        destruct (in_dec _ _ _) as [_|NI].
        2:{ exfalso. apply NI. apply in_chain; auto. exists (S k). split; auto. lia. }
        replace (lev s - lev b) with (S (lev s - lev c)) by lia.
        rewrite raise_last. cbv zeta.
        replace (up t (lev s - lev c) s) with c by (rewrite Lc; reflexivity). rewrite Pc. reflexivity.
      * apply seq_NoDup.
      * apply in_seq. lia.
      * intros m' Hm' NE. apply in_seq in Hm'. cbv zeta.
        destruct (Nat.eqb_spec (box_child t m' b) 0) as [e|ne']; auto.
        destruct (in_dec _ _ _) as [Hin|]; auto. exfalso. apply in_chain in Hin; auto. destruct Hin as [j [Hj Ej]].
        destruct (child_facts t W m' b Hb ltac:(lia) ne') as [_ [L1 _]].
        assert (j = S k). { rewrite Ej in L1. rewrite anc_level in L1 by auto. lia. } subst j.
        apply NE. apply (wf_child_inj t W m' m b); auto; first [lia|rewrite Em, Ej; reflexivity].
  - destruct (Nat.eqb_spec b s) as [->|_].
    { exfalso. apply i. unfold ancestors_or_self. destruct (lev s); simpl; auto. }
    rewrite msum_map_0; [rewrite op_0; auto|]. intros m Hm. apply in_seq in Hm. cbv zeta.
    destruct (Nat.eqb_spec (box_child t m b) 0) as [e|ne]; auto.
    destruct (in_dec _ _ _) as [Hin|]; auto. exfalso. apply i. apply in_chain in Hin; auto. destruct Hin as [j [Hj Ej]].
    destruct (child_facts t W m b Hb ltac:(lia) ne) as [Pc [L1 _]].
    apply in_chain; auto. assert (j = S (lev b)).
    { rewrite Ej in L1. rewrite anc_level in L1 by auto. lia. }
    exists (lev b). split; [lia|]. rewrite <- Pc at 1. rewrite Ej. subst j.
    apply parent_anc; auto.
Qed.

Definition from_children (s : storage M) (b : nat) : M :=
  msum (map (fun m => let c := box_child t m b in
     if c =? 0 then e0 else m2m R (lev c) c (lev b) b (at_box t starts s c)) (seq 0 (nchildren t))).

Lemma coarsen_box_gen_at s b x : b < nboxes t -> x < nboxes t ->
  at_box t starts (coarsen_box_gen _ _ _ _ R t starts (S (lev b)) (lev b) s b) x =
  if x =? b then op (at_box t starts s b) (from_children s b) else at_box t starts s x.
Proof.
  intros Hb Hx. unfold coarsen_box_gen, from_children.
  assert (G : forall l s, (forall m, In m l -> m < nchildren t) -> forall x, x < nboxes t ->
    at_box t starts (fold_left (fun mpoles m => let child := box_child t m b in
               if child =? 0 then mpoles else view_add starts mpoles (lev b) b
                 (m2m R (S (lev b)) child (lev b) b (view_get starts mpoles (S (lev b)) child))) l s) x =
    if x =? b then op (at_box t starts s b) (msum (map (fun m => let c := box_child t m b in
     if c =? 0 then e0 else m2m R (lev c) c (lev b) b (at_box t starts s c)) l)) else at_box t starts s x).
  { induction l as [|m l IH]; intros s' Hl y Hy; cbn [fold_left map msum fold_right].
    - destruct (Nat.eqb_spec y b); subst; rewrite ?op_0_r; auto.
    - rewrite IH by (auto; intros; apply Hl; right; auto). cbv zeta.
      destruct (Nat.eqb_spec (box_child t m b) 0) as [e|ne].
      { destruct (y =? b); auto. rewrite op_0. auto. }
      destruct (child_facts t W m b Hb (Hl _ (or_introl eq_refl)) ne) as [Pc [Lc Hc]].
      unfold view_add. rewrite !(at_view_set t W starts LS) by auto. rewrite Nat.eqb_refl.
      destruct (Nat.eqb_spec y b) as [->|]; auto. rewrite <- op_assoc. f_equal. f_equal.
      { rewrite Lc. unfold at_box. rewrite Lc. reflexivity. }
      apply msum_map_ext. intros m' Hm'. destruct (Nat.eqb_spec (box_child t m' b) 0) as [e'|ne']; auto.
      destruct (child_facts t W m' b Hb (Hl _ (or_intror Hm')) ne') as [_ [Lc' Hc']].
      rewrite (at_view_set t W starts LS) by auto.
      destruct (Nat.eqb_spec (box_child t m' b) b) as [e2|]; auto. rewrite e2 in Lc'. lia. }
  apply G; auto. intros m Hm. apply in_seq in Hm. lia.
Qed.

Lemma coarsen_multipoles_gen_at ls spb (o : nat -> M) s b :
  NoDup spb -> (forall x, In x spb -> x < nboxes t) -> level_delimited t ls spb ->
  (forall x, x < nboxes t -> at_box t starts s x = o x) ->
  (forall x m, x < nboxes t -> 2 <= lev x -> ~ In x spb -> m < nchildren t -> box_child t m x <> 0 ->
     msub o (box_child t m x) = e0) ->
  b < nboxes t ->
  at_box t starts (coarsen_multipoles_gen _ _ _ _ R t starts ls spb s) b = if 2 <=? lev b then msub o b else o b.
Proof.
  intros ND Hr LD Ha Hn Hb. unfold coarsen_multipoles_gen.
  set (step := fun mpoles source_level => _ : storage M).
  assert (G : forall k, k <= nlevels t - 3 -> forall x, x < nboxes t ->
    at_box t starts (fold_left step (rev (seq (nlevels t - k) k)) s) x =
    if (nlevels t - 1 - k <=? lev x) && (2 <=? lev x) then msub o x else o x).
  { induction k as [|k IH]; intros Hk x Hx.
    - cbn [seq rev fold_left]. rewrite Ha by auto. pose proof (wf_level_lt t W x Hx).
      destruct (Nat.leb_spec (nlevels t - 1 - 0) (lev x)); [|auto]. rewrite andb_true_l.
      destruct (2 <=? lev x); [|auto].
      rewrite msub_rec by auto. rewrite msum_map_0; [rewrite op_0_r; auto|].
      intros m Hm. apply in_seq in Hm. cbv zeta. destruct (Nat.eqb_spec (box_child t m x) 0) as [e|ne]; auto.
      destruct (child_facts t W m x Hx ltac:(lia) ne) as [_ [L1 L2]].
      pose proof (wf_level_lt t W _ L2). lia.
    - replace (nlevels t - S k) with (nlevels t - k - 1) by lia.
      assert (ES : seq (nlevels t - k - 1) (S k) = (nlevels t - k - 1) :: seq (nlevels t - k) k).
      { simpl. f_equal. f_equal. lia. }
      rewrite ES. cbn [rev]. rewrite fold_left_app. cbn [fold_left].
      set (a1 := fold_left step _ s) in *. unfold step at 1.
      set (tl := nlevels t - k - 1 - 1). set (bs := slice _ _ _).
      assert (Hbs : forall y, In y bs <-> In y spb /\ lev y = tl).
      { intros y. apply (in_level_slice t); auto. unfold tl. lia. }
      assert (NDb : NoDup bs).
      { unfold bs. rewrite LD by (unfold tl; lia). apply NoDup_filter; auto. }
      replace (nlevels t - k - 1) with (S tl) by (unfold tl; lia).
      destruct (fold_step t starts (coarsen_box_gen _ _ _ _ R t starts (S tl) tl) (fun b => b)
         (fun s b => op (at_box t starts s b) (from_children s b)) bs) with (s0 := a1) as [H1 H2].
      { rewrite map_id. auto. }
      { intros s' q y Hq Hy. apply Hbs in Hq. destruct Hq as [Hq Lq]. rewrite <- Lq.
        apply coarsen_box_gen_at; auto. }
      { intros s1 s2 q Hq H. rewrite map_id in H. assert (Hql : q < nboxes t) by (apply Hr; apply Hbs; auto).
        rewrite H by auto. f_equal. apply msum_map_ext. intros m Hm. apply in_seq in Hm. cbv zeta.
        destruct (Nat.eqb_spec (box_child t m q) 0) as [e|ne]; auto.
        destruct (child_facts t W m q Hql ltac:(lia) ne) as [_ [Lc Hc]].
        f_equal. apply H; auto. left. rewrite Hbs. apply Hbs in Hq. destruct Hq as [_ Lq]. intros [_ L2]. lia. }
      { intros q Hq. apply Hr. apply Hbs. auto. }
      rewrite map_id in H2.
      destruct (in_dec Nat.eq_dec x bs) as [i|i].
      + rewrite H1 by auto. apply Hbs in i. destruct i as [i Lx]. unfold a1 at 1. rewrite IH by (auto; lia).
        destruct (Nat.leb_spec (nlevels t - 1 - k) (lev x)); [unfold tl in *; lia|]. rewrite andb_false_l.
        rewrite Lx. destruct (Nat.leb_spec (nlevels t - 1 - S k) tl); [|unfold tl in *; lia].
        destruct (Nat.leb_spec 2 tl); [cbn [andb]|unfold tl in *; lia].
        rewrite msub_rec by auto. f_equal. apply msum_map_ext. intros m Hm. apply in_seq in Hm. cbv zeta.
        destruct (Nat.eqb_spec (box_child t m x) 0) as [e|ne]; auto.
        destruct (child_facts t W m x Hx ltac:(lia) ne) as [_ [L3 L4]]. f_equal. unfold a1. rewrite IH by (auto; lia).
        rewrite L3, Lx. destruct (Nat.leb_spec (nlevels t - 1 - k) (S tl)); [|unfold tl in *; lia].
        destruct (Nat.leb_spec 2 (S tl)); [auto|unfold tl in *; lia].
      + rewrite H2 by auto. unfold a1. rewrite IH by (auto; lia).
        destruct (Nat.leb_spec 2 (lev x)) as [L2|]; [|rewrite !andb_false_r; auto].
        rewrite !andb_true_r.
        destruct (Nat.leb_spec (nlevels t - 1 - k) (lev x)),
                 (Nat.leb_spec (nlevels t - 1 - S k) (lev x)); auto; [lia|].
        assert (Lx : lev x = tl) by (unfold tl; lia).
        assert (NI : ~ In x spb) by (intros Hs; apply i, Hbs; auto).
        rewrite msub_rec by auto. rewrite msum_map_0; [rewrite op_0_r; auto|].
        intros m Hm. apply in_seq in Hm. cbv zeta.
        destruct (Nat.eqb_spec (box_child t m x) 0) as [e|ne]; auto. rewrite Hn by (auto; lia). apply (m2m_0 R LIN). }
  destruct (Nat.le_gt_cases 3 (nlevels t)) as [L3|L3].
  - replace (seq 3 (nlevels t - 3)) with (seq (nlevels t - (nlevels t - 3)) (nlevels t - 3)) by (f_equal; lia).
    rewrite G by auto. destruct (Nat.leb_spec 2 (lev b)); [|rewrite andb_false_r; auto].
    destruct (Nat.leb_spec (nlevels t - 1 - (nlevels t - 3)) (lev b)); auto. lia.
  - replace (nlevels t - 3) with 0 by lia. cbn [seq rev fold_left]. rewrite Ha by auto.
    pose proof (wf_level_lt t W b Hb). destruct (Nat.leb_spec 2 (lev b)); auto. lia.
Qed.

(** *** Local expansions *)
Lemma rows_at {X : cmonoid} ls bl (c : csr) (val : nat -> nat -> nat -> X) (acc : X -> X -> X) b :
  (forall v, acc e0 v = v) ->
  level_delimited t ls bl -> NoDup bl -> (forall x, In x bl -> x < nboxes t) -> In b bl ->
  at_box t starts (fold_left (fun loc l =>
      fold_left (fun loc k =>
          let b := nth k (slice bl (nth l ls 0) (nth (l + 1) ls 0)) 0 in
          view_set starts loc l b (acc (view_get starts loc l b)
            (msum (map (val l b) (csr_get c (nth l ls 0 + k))))))
        (seq 0 (length (slice bl (nth l ls 0) (nth (l + 1) ls 0)))) loc)
    (seq 0 (nlevels t)) no_expansions) b = msum (map (val (lev b) b) (entries bl c b)).
Proof.
  intros Hacc LD ND Hr Hb. rewrite fold_nested. fold (rows_by_levels t ls bl).
  set (step := fun s q => _ : storage X).
  set (F := fun (s : storage X) (q : nat * nat) => let b := row_box ls bl q in
    acc (at_box t starts s b) (msum (map (val (lev b) b) (csr_get c (nth (fst q) ls 0 + snd q))))).
  destruct (fold_step t starts step (row_box ls bl) F (rows_by_levels t ls bl)) with (s0 := @no_expansions X) as [H1 _].
  - apply rows_nodup; auto.
  - intros s q x Hq Hx. destruct (rows_in t ls bl q LD Hr Hq) as [Q1 [Q2 [Q3 Q4]]].
    unfold step, F. cbv zeta. fold (row_box ls bl q).
    generalize dependent (row_box ls bl q). intros b0 _ Q3 Q4.
    generalize (csr_get c (nth (fst q) ls 0 + snd q)). intros row. rewrite Q3.
    rewrite (at_view_set t W starts LS) by auto. reflexivity.
  - intros s s' q Hq H. unfold F. cbv zeta. rewrite H; auto. apply Hr. apply (rows_in t); auto.
  - intros q Hq. apply Hr. apply (rows_in t); auto.
  - destruct (rows_onto t W ls bl b LD Hr Hb) as [q [Hq <-]]. rewrite H1 by auto.
    destruct (rows_in t ls bl q LD Hr Hq) as [Q1 [Q2 [Q3 Q4]]]. unfold F. cbv zeta.
    unfold at_box, no_expansions at 1, view_get. rewrite Hacc.
    replace (entries bl c (row_box ls bl q)) with (csr_get c (nth (fst q) ls 0 + snd q)); auto.
    rewrite Q2. symmetry. apply entries_index; auto.
Qed.

Lemma m2l_gen_at ls ttpb c mp b :
  level_delimited t ls ttpb -> NoDup ttpb -> (forall x, In x ttpb -> x < nboxes t) -> In b ttpb ->
  at_box t starts (multipole_to_local_gen _ _ _ _ R t starts ls ttpb c mp) b =
  msum (map (fun src => m2l R (lev b) src b (view_get starts mp (lev b) src)) (entries ttpb c b)).
Proof.
  intros. apply (rows_at ls ttpb c (fun l b src => m2l R l src b (view_get starts mp l src)) op); auto using op_0.
Qed.
Lemma form_locals_gen_at ls ttpb c b :
  level_delimited t ls ttpb -> NoDup ttpb -> (forall x, In x ttpb -> x < nboxes t) -> In b ttpb ->
  at_box t starts (form_locals_gen _ _ _ _ R t p starts ls ttpb c w) b =
  msum (map (fun src => msum (map (fun j => p2l R (lev b) b j (w j)) (source_slice p src))) (entries ttpb c b)).
Proof.
  intros. apply (rows_at ls ttpb c (fun l b src => msum (map (fun j => p2l R l b j (w j)) (source_slice p src)))
    (fun _ v => v)); auto.
Qed.

Lemma lower_0 k x : lower R t k x e0 = e0.
Proof. revert x. induction k; intros x; simpl; auto. rewrite IHk. apply (l2l_0 R LIN). Qed.
Lemma lower_op k x a b : lower R t k x (op a b) = op (lower R t k x a) (lower R t k x b).
Proof. revert x. induction k; intros x; simpl; auto. rewrite IHk. apply (l2l_op R LIN). Qed.

Lemma refine_locals_gen_at ls ttpb loc b :
  NoDup ttpb -> (forall x, In x ttpb -> x < nboxes t) ->
  (forall x, In x ttpb -> In (box_parent t x) ttpb) ->
  level_delimited t ls ttpb -> In b ttpb ->
  at_box t starts (refine_locals_gen _ _ _ _ R t starts ls ttpb loc) b =
  msum (map (fun B => lower R t (lev b - lev B) b (at_box t starts loc B)) (ancestors_or_self t b)).
Proof.
  intros ND Hr Hp LD Hb. unfold refine_locals_gen.
  set (step := fun loc target_lev => _ : storage L).
  set (total := fun b => msum (map (fun B => lower R t (lev b - lev B) b (at_box t starts loc B)) (ancestors_or_self t b))).
  assert (G : forall k, k <= nlevels t - 1 -> forall x, In x ttpb ->
     at_box t starts (fold_left step (seq 1 k) loc) x = if lev x <=? k then total x else at_box t starts loc x).
  { induction k as [|k IH]; intros Hk x Hx.
    - cbn [seq fold_left]. destruct (Nat.leb_spec (lev x) 0) as [L0|L0]; auto.
      unfold total, ancestors_or_self. replace (lev x) with 0 by lia. simpl. rewrite op_0_r. auto.
    - rewrite seq_S, fold_left_app. cbn [fold_left]. set (a := fold_left step (seq 1 k) loc) in *.
      unfold step. set (bs := slice _ _ _).
      assert (Hbs : forall y, In y bs <-> In y ttpb /\ lev y = 1 + k).
      { intros y. apply (in_level_slice t); auto. lia. }
      set (inner := fun loc b => _ : storage L).
      destruct (fold_step t starts inner (fun b => b)
         (fun s b => op (at_box t starts s b) (l2l R (lev (box_parent t b)) (box_parent t b) (lev b) b
                        (at_box t starts s (box_parent t b)))) bs) with (s0 := a) as [H1 H2].
      { rewrite map_id. unfold bs. rewrite LD by lia. apply NoDup_filter; auto. }
      { intros s q y Hq Hy. apply Hbs in Hq. destruct Hq as [Hq Lq]. unfold inner, view_add.
        cbv zeta. replace (1 + k - 1) with (lev (box_parent t q)) by (rewrite parent_level_pred by auto; lia).
        rewrite <- Lq. rewrite (at_view_set t W starts LS) by auto. reflexivity. }
      { intros s1 s2 q Hq H. rewrite map_id in H. apply Hbs in Hq. destruct Hq as [Hq Lq].
        rewrite (H q) by auto. rewrite (H (box_parent t q)); [auto|apply parent_lt; auto|].
        left. rewrite Hbs. rewrite parent_level_pred by auto. lia. }
      { intros q Hq. apply Hr. apply Hbs. auto. }
      rewrite map_id in H2.
      destruct (in_dec Nat.eq_dec x bs) as [i|i].
      + rewrite H1 by auto. apply Hbs in i. destruct i as [_ Lx]. rewrite !IH by (auto; lia).
        rewrite parent_level_pred by auto. rewrite Lx.
        destruct (Nat.leb_spec (1 + k) k); [lia|]. destruct (Nat.leb_spec (1 + k - 1) k); [|lia].
        destruct (Nat.leb_spec (1 + k) (S k)); [|lia].
        unfold total at 2. unfold ancestors_or_self. rewrite Lx.
        change (chain_fuel t (1 + k) x) with (x :: chain_fuel t k (box_parent t x)).
        cbn [map msum fold_right]. rewrite <- Lx at 3. rewrite Nat.sub_diag. cbn [lower]. f_equal.
        unfold total, ancestors_or_self. rewrite parent_level_pred by auto. rewrite Lx.
        replace (1 + k - 1) with k by lia.
        rewrite (msum_hom (l2l R k (box_parent t x) (1 + k) x) (l2l_0 R LIN _ _ _ _) (l2l_op R LIN _ _ _ _)), map_map.
        apply msum_map_ext. intros B HB.
        assert (LB : lev B <= k).
        { assert (PL : lev (box_parent t x) = k) by (rewrite parent_level_pred by auto; lia).
          assert (IB : In B (ancestors_or_self t (box_parent t x))) by (unfold ancestors_or_self; rewrite PL; auto).
          assert (HPl : box_parent t x < nboxes t) by (apply parent_lt; auto).
          apply in_chain in IB; auto. destruct IB as [j [Hj ->]]. rewrite anc_level by auto. lia. }
        replace (1 + k - lev B) with (S (k - lev B)) by lia. cbn [lower].
        rewrite parent_level_pred by auto. rewrite Lx. f_equal; lia.
      + rewrite H2 by auto. rewrite IH by (auto; lia).
        destruct (Nat.leb_spec (lev x) k), (Nat.leb_spec (lev x) (S k)); auto; [lia|].
        exfalso. apply i, Hbs. split; auto; lia. }
  rewrite G by auto. pose proof (wf_level_lt t W b (Hr b Hb)).
  destruct (Nat.leb_spec (lev b) (nlevels t - 1)); auto. lia.
Qed.
End Stages.
