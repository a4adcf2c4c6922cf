(** The box-tree walk shared by the traversal and area query kernels, as an explicit
    state machine, and its equivalence with recursive pre-order descent. *)
From Coq Require Import List Arith ZArith Lia Bool.
From Verif Require Import Base Tree.
Import ListNotations.

Section Walk.
Variable A : Type.

(** traversal.py:115-143 <%def walk_advance>: go to the next morton number; when a
    parent's children are exhausted pop the stack; [None] = continue_walk is false. *)
Fixpoint walk_advance (nch : nat) (stack : list (nat * nat)) (par mor : nat)
  : option (list (nat * nat) * nat * nat) :=
  if S mor <? nch then Some (stack, par, S mor)
  else match stack with
       | [] => None
       | (p, m) :: s => walk_advance nch s p m
       end.

(** traversal.py:99-160 (walk_init/walk_get_box_id/walk_push/walk_advance) and the
    [while (continue_walk)] loops at traversal.py:418-461, 501-547, 650-872 and
    area_query.py:329-361, 418-471.
    [visit box stack_size] gives the entries appended for a child box and whether the
    kernel then pushes that box.  The result is [None] if
    - the loop does not finish within [fuel] iterations,
    - the stack array (of [cap] = NLEVELS entries) would be overrun, or
    - box_child_ids would be read for a box id >= nboxes. *)
Fixpoint walk (t : tree) (visit : nat -> nat -> list A * bool) (cap fuel : nat)
         (stack : list (nat * nat)) (par mor : nat) : option (list A) :=
  match fuel with
  | 0 => None
  | S fuel' =>
    if negb (par <? nboxes t) then None else
    let c := box_child t mor par in
    let '(out, push) := if c =? 0 then ([], false) else visit c (length stack) in
    if push then
      if length stack <? cap then
        option_map (app out) (walk t visit cap fuel' ((par, mor) :: stack) c 0)
      else None
    else
      match walk_advance (nchildren t) stack par mor with
      | None => Some out
      | Some (s', p', m') => option_map (app out) (walk t visit cap fuel' s' p' m')
      end
  end.

(** A walk over everything below [start]: walk_init(start) followed by the loop. *)
Definition run_walk (t : tree) visit (cap : nat) (start : nat) : option (list A) :=
  walk t visit cap (nchildren t * nboxes t) [] start 0.
End Walk.
Arguments walk {A}.
Arguments run_walk {A}.

(** Recursive description of the same traversal. *)
Section Dfs.
Variable A : Type.
Variable t : tree.
Variable visit : nat -> nat -> list A * bool.

Fixpoint dfs (h : nat) (p depth : nat) : list A :=
  match h with
  | 0 => []
  | S h' =>
    concat (map (fun m =>
      let c := box_child t m p in
      if c =? 0 then [] else
      let '(o, d) := visit c depth in
      o ++ (if d then dfs h' c (S depth) else [])) (seq 0 (nchildren t)))
  end.

Definition dfs_slot h p depth m : list A :=
  let c := box_child t m p in
  if c =? 0 then [] else
  let '(o, d) := visit c depth in
  o ++ (if d then dfs h c (S depth) else []).

(** number of loop iterations below p *)
Fixpoint iters (h : nat) (p depth : nat) : nat :=
  match h with
  | 0 => 0
  | S h' =>
    nsum (map (fun m =>
      let c := box_child t m p in
      if c =? 0 then 1 else
      if snd (visit c depth) then 1 + iters h' c (S depth) else 1) (seq 0 (nchildren t)))
  end.
Definition iters_slot h p depth m : nat :=
  let c := box_child t m p in
  if c =? 0 then 1 else
  if snd (visit c depth) then 1 + iters h c (S depth) else 1.

(** boxes of the subtree below and including p *)
Fixpoint subtree (h p : nat) : list nat :=
  match h with
  | 0 => []
  | S h' => p :: concat (map (fun m =>
      let c := box_child t m p in if c =? 0 then [] else subtree h' c) (seq 0 (nchildren t)))
  end.
End Dfs.
Arguments dfs {A}.
Arguments dfs_slot {A}.
Arguments iters {A}.
Arguments iters_slot {A}.

(** What the walk needs of a tree: also met by the tree builder's arrays while the tree is
    under construction. *)
Record walkable (t : tree) : Prop := {
  wk_level_lt : forall b, b < nboxes t -> box_level t b < nlevels t;
  wk_child_lt : forall m b, b < nboxes t -> m < nchildren t -> box_child t m b < nboxes t;
  wk_child : forall m b, b < nboxes t -> m < nchildren t -> box_child t m b <> 0 ->
     box_parent t (box_child t m b) = b /\ box_level t (box_child t m b) = S (box_level t b);
  wk_child_inj : forall m m' b, b < nboxes t -> m < nchildren t -> m' < nchildren t ->
     box_child t m b <> 0 -> box_child t m b = box_child t m' b -> m = m'
}.
Lemma wf_walkable t : wf_tree t -> walkable t.
Proof.
  intros W. split.
  - apply (wf_level_lt t W).
  - apply (wf_child_lt t W).
  - intros m b Hb Hm Hc. destruct (wf_child t W m b Hb Hm Hc) as [A [B _]]. auto.
  - apply (wf_child_inj t W).
Qed.

Section WalkProof.
Variable A : Type.
Variable t : tree.
Hypothesis W : walkable t.
Variable visit : nat -> nat -> list A * bool.
Variable cap : nat.

Lemma nch_pos : 0 < nchildren t.
Proof. unfold nchildren. assert (2 ^ dim t <> 0) by (apply Nat.pow_nonzero; lia). lia. Qed.

(** what is still to be output: rest of the current parent's slots, then the stack *)
Definition slots_from h p depth m : list A :=
  concat (map (dfs_slot t visit h p depth) (seq m (nchildren t - m))).
Definition iters_from h p depth m : nat :=
  nsum (map (iters_slot t visit h p depth) (seq m (nchildren t - m))).

(** the stack holds (parent, slot) pairs of boxes on consecutive levels *)
Fixpoint stack_ok (l0 : nat) (stack : list (nat * nat)) : Prop :=
  match stack with
  | [] => True
  | (p, m) :: s => p < nboxes t /\ m < nchildren t /\
                   box_level t p = l0 + length s /\ stack_ok l0 s
  end.
Fixpoint rest_out (l0 : nat) (stack : list (nat * nat)) : list A :=
  match stack with
  | [] => []
  | (p, m) :: s => slots_from (nlevels t - 1 - box_level t p) p (length s) (S m) ++ rest_out l0 s
  end.
Fixpoint rest_iters (l0 : nat) (stack : list (nat * nat)) : nat :=
  match stack with
  | [] => 0
  | (p, m) :: s => iters_from (nlevels t - 1 - box_level t p) p (length s) (S m) + rest_iters l0 s
  end.

Lemma slots_from_cons h p depth m : m < nchildren t ->
  slots_from h p depth m = dfs_slot t visit h p depth m ++ slots_from h p depth (S m).
Proof.
  intros H. unfold slots_from. replace (nchildren t - m) with (S (nchildren t - S m)) by lia.
  reflexivity.
Qed.
Lemma iters_from_cons h p depth m : m < nchildren t ->
  iters_from h p depth m = iters_slot t visit h p depth m + iters_from h p depth (S m).
Proof.
  intros H. unfold iters_from. replace (nchildren t - m) with (S (nchildren t - S m)) by lia.
  reflexivity.
Qed.
Lemma slots_from_end h p depth m : nchildren t <= m -> slots_from h p depth m = [].
Proof. intros. unfold slots_from. replace (nchildren t - m) with 0 by lia. reflexivity. Qed.
Lemma iters_from_end h p depth m : nchildren t <= m -> iters_from h p depth m = 0.
Proof. intros. unfold iters_from. replace (nchildren t - m) with 0 by lia. reflexivity. Qed.

Lemma iters_slot_pos h p depth m : 1 <= iters_slot t visit h p depth m.
Proof. unfold iters_slot. destruct (_ =? 0); auto. destruct (snd _); lia. Qed.

Lemma walk_advance_spec l0 : forall stack par mor,
  par < nboxes t -> mor < nchildren t -> stack_ok l0 stack ->
  match walk_advance (nchildren t) stack par mor with
  | None => rest_out l0 stack = [] /\ rest_iters l0 stack = 0 /\ nchildren t <= S mor
  | Some (s', p', m') =>
      p' < nboxes t /\ m' < nchildren t /\ stack_ok l0 s' /\
      (box_level t par = l0 + length stack -> box_level t p' = l0 + length s') /\
      slots_from (nlevels t - 1 - box_level t par) par (length stack) (S mor) ++ rest_out l0 stack
      = slots_from (nlevels t - 1 - box_level t p') p' (length s') m' ++ rest_out l0 s' /\
      iters_from (nlevels t - 1 - box_level t par) par (length stack) (S mor) + rest_iters l0 stack
      = iters_from (nlevels t - 1 - box_level t p') p' (length s') m' + rest_iters l0 s'
  end.
Proof.
  induction stack as [|[p m] s IH]; intros par mor Hp Hm Hok; simpl.
  - destruct (Nat.ltb_spec (S mor) (nchildren t)).
    + repeat split; auto.
    + repeat split; auto.
  - destruct (Nat.ltb_spec (S mor) (nchildren t)).
    + repeat split; auto; apply Hok.
    + simpl in Hok. destruct Hok as [H1 [H2 [H3 H4]]].
      specialize (IH p m H1 H2 H4).
      destruct (walk_advance (nchildren t) s p m) as [[[s' p'] m']|] eqn:E.
      * destruct IH as [I1 [I2 [I3 [I4 [I5 I6]]]]].
        repeat split; auto.
        -- rewrite slots_from_end by auto. simpl. auto.
        -- rewrite iters_from_end by auto. simpl. auto.
      * destruct IH as [I1 [I2 I3]].
        rewrite I1, I2, slots_from_end, iters_from_end by auto. auto.
Qed.

(** The machine computes the recursive description. *)
Lemma walk_correct l0 : forall fuel stack par mor,
  par < nboxes t -> mor < nchildren t -> stack_ok l0 stack ->
  box_level t par = l0 + length stack ->
  nlevels t <= S cap + l0 ->
  iters_from (nlevels t - 1 - box_level t par) par (length stack) mor + rest_iters l0 stack <= fuel ->
  walk t visit cap fuel stack par mor =
  Some (slots_from (nlevels t - 1 - box_level t par) par (length stack) mor ++ rest_out l0 stack).
Proof.
  induction fuel as [|fuel IH]; intros stack par mor Hp Hm Hok Hlev Hcap Hf.
  - rewrite iters_from_cons in Hf by auto.
    pose proof (iters_slot_pos (nlevels t - 1 - box_level t par) par (length stack) mor). lia.
  - simpl. rewrite (proj2 (Nat.ltb_lt _ _) Hp). simpl.
    rewrite slots_from_cons by auto. rewrite iters_from_cons in Hf by auto.
    unfold dfs_slot at 1. unfold iters_slot at 1 in Hf.
    pose proof (walk_advance_spec l0 stack par mor Hp Hm Hok) as ADV.
    set (h := nlevels t - 1 - box_level t par) in *.
    assert (NOPUSH : forall out,
      1 + (iters_from h par (length stack) (S mor) + rest_iters l0 stack) <= S fuel ->
      match walk_advance (nchildren t) stack par mor with
      | None => Some out
      | Some (s', p', m') => option_map (app out) (walk t visit cap fuel s' p' m')
      end = Some (out ++ slots_from h par (length stack) (S mor) ++ rest_out l0 stack)).
    { intros out Hfu. destruct (walk_advance (nchildren t) stack par mor) as [[[s' p'] m']|].
      - destruct ADV as [I1 [I2 [I3 [I4 [I5 I6]]]]].
        rewrite IH; auto. { simpl. rewrite I5. auto. } rewrite <- I6. lia.
      - destruct ADV as [I1 [I2 I3]]. rewrite I1, slots_from_end by auto.
        rewrite !app_nil_r. auto. }
    set (c := box_child t mor par) in *.
    destruct (Nat.eqb_spec c 0) as [Hc|Hc].
    + rewrite NOPUSH by lia. auto.
    + destruct (visit c (length stack)) as [out push] eqn:V. simpl in Hf.
      destruct push.
      * destruct (wk_child t W mor par Hp Hm Hc) as [C1 C2]. fold c in C1, C2.
        assert (Hcl : c < nboxes t) by (apply wk_child_lt; auto).
        pose proof (wk_level_lt t W c Hcl) as Hcl2.
        destruct (Nat.ltb_spec (length stack) cap) as [Hlt|Hge]; [|lia].
        rewrite IH; auto.
        -- simpl. rewrite <- !app_assoc. f_equal. f_equal. fold h.
           f_equal. rewrite C2.
           replace h with (S (nlevels t - 1 - S (box_level t par))) by lia.
           unfold slots_from. rewrite Nat.sub_0_r. reflexivity.
        -- apply nch_pos.
        -- simpl. repeat split; auto.
        -- simpl. lia.
        -- simpl. fold h. rewrite C2.
           assert (E : iters t visit h c (S (length stack)) =
                   iters_from (nlevels t - 1 - S (box_level t par)) c (S (length stack)) 0).
           { replace h with (S (nlevels t - 1 - S (box_level t par))) by lia.
             unfold iters_from. rewrite Nat.sub_0_r. reflexivity. }
           rewrite <- E. lia.
      * rewrite NOPUSH by lia. rewrite app_nil_r, <- app_assoc. auto.
Qed.

(** ** Iteration bound *)
Lemma subtree_in h p b : p < nboxes t -> In b (subtree t h p) ->
  b < nboxes t /\ box_level t p <= box_level t b /\
  (b <> p -> box_level t p < box_level t b).
Proof.
  revert p; induction h; intros p Hp; simpl; [tauto|].
  intros [->|Hin]; [repeat split; auto; congruence|].
  apply in_concat_map in Hin. destruct Hin as [m [Hm Hin]]. apply in_seq in Hm.
  destruct (Nat.eqb_spec (box_child t m p) 0) as [|Hc]; [simpl in Hin; tauto|].
  assert (Hcl : box_child t m p < nboxes t) by (apply wk_child_lt; auto; lia).
  destruct (wk_child t W m p Hp ltac:(lia) Hc) as [C1 C2].
  apply IHh in Hin; auto. destruct Hin as [H1 [H2 H3]]. repeat split; auto; lia.
Qed.

Lemma subtree_anc h p b : p < nboxes t -> In b (subtree t h p) ->
  Nat.iter (box_level t b - box_level t p) (box_parent t) b = p.
Proof.
  revert p; induction h; intros p Hp; simpl; [tauto|].
  intros [->|Hin]; [rewrite Nat.sub_diag; auto|].
  apply in_concat_map in Hin. destruct Hin as [m [Hm Hin]]. apply in_seq in Hm.
  destruct (Nat.eqb_spec (box_child t m p) 0) as [|Hc]; [simpl in Hin; tauto|].
  assert (Hcl : box_child t m p < nboxes t) by (apply wk_child_lt; auto; lia).
  destruct (wk_child t W m p Hp ltac:(lia) Hc) as [C1 C2].
  pose proof (subtree_in h _ b Hcl Hin) as [_ [HL _]].
  apply IHh in Hin; auto. rewrite C2 in Hin.
  replace (box_level t b - box_level t p) with (S (box_level t b - S (box_level t p))) by lia.
  simpl. rewrite Hin. auto.
Qed.

Lemma subtree_NoDup h p : p < nboxes t -> NoDup (subtree t h p).
Proof.
  revert p; induction h; intros p Hp; simpl; [constructor|]. constructor.
  - rewrite in_concat_map. intros [m [Hm Hin]]. apply in_seq in Hm.
    destruct (Nat.eqb_spec (box_child t m p) 0) as [|Hc]; [simpl in Hin; tauto|].
    assert (Hcl : box_child t m p < nboxes t) by (apply wk_child_lt; auto; lia).
    destruct (wk_child t W m p Hp ltac:(lia) Hc) as [C1 C2].
    apply subtree_in in Hin; auto. lia.
  - apply NoDup_concat_intro.
    + intros l Hl. apply in_map_iff in Hl. destruct Hl as [m [<- Hm]]. apply in_seq in Hm.
      destruct (Nat.eqb_spec (box_child t m p) 0); [constructor|].
      apply IHh. apply wk_child_lt; auto; lia.
    + intros i j x Hi Hj Hij Hx Hy. rewrite map_length, seq_length in *.
      rewrite nth_map_seq in Hx, Hy by auto.
      destruct (Nat.eqb_spec (box_child t i p) 0) as [|Hci]; [simpl in Hx; tauto|].
      destruct (Nat.eqb_spec (box_child t j p) 0) as [|Hcj]; [simpl in Hy; tauto|].
      pose proof (wk_child_lt t W i p Hp Hi) as Li. pose proof (wk_child_lt t W j p Hp Hj) as Lj.
      destruct (wk_child t W i p Hp Hi Hci) as [_ Ci].
      destruct (wk_child t W j p Hp Hj Hcj) as [_ Cj].
      apply subtree_anc in Hx; auto. apply subtree_anc in Hy; auto.
      rewrite Ci in Hx. rewrite Cj in Hy. apply Hij.
      apply (wk_child_inj t W i j p); auto. congruence.
Qed.

Lemma iters_le h p depth : iters t visit h p depth <= nchildren t * length (subtree t h p).
Proof.
  revert p depth; induction h; intros p depth; simpl; [lia|].
  assert (K : forall l,
    nsum (map (fun m => let c := box_child t m p in
      if c =? 0 then 1 else if snd (visit c depth) then 1 + iters t visit h c (S depth) else 1) l)
    <= length l + nchildren t * length (concat (map (fun m =>
      let c := box_child t m p in if c =? 0 then [] else subtree t h c) l))).
  { unfold nsum. induction l as [|m l IHl]; cbn -[Nat.mul] in *; [lia|].
    rewrite app_length, Nat.mul_add_distr_l.
    destruct (box_child t m p =? 0); cbn -[Nat.mul]; [lia|].
    specialize (IHh (box_child t m p) (S depth)).
    destruct (snd (visit (box_child t m p) depth)); lia. }
  specialize (K (seq 0 (nchildren t))). rewrite seq_length in K. unfold nsum in *. cbn -[Nat.mul] in *. lia.
Qed.

(** Every walk finishes within 2^dim * nboxes iterations, does not overrun a stack of
    [cap] entries and reads only valid boxes; its output is the pre-order descent. *)
Theorem run_walk_correct' start : start < nboxes t -> nlevels t <= S cap + box_level t start ->
  run_walk t visit cap start = Some (dfs t visit (nlevels t - box_level t start) start 0).
Proof.
  intros Hs Hcap. unfold run_walk. pose proof (wk_level_lt t W start Hs).
  rewrite (walk_correct (box_level t start)); simpl; auto.
  - rewrite app_nil_r.
    replace (nlevels t - box_level t start) with (S (nlevels t - 1 - box_level t start)) by lia.
    unfold slots_from. rewrite Nat.sub_0_r. reflexivity.
  - apply nch_pos.
  - rewrite Nat.add_0_r. unfold iters_from. rewrite Nat.sub_0_r.
    change (nsum _) with (iters t visit (S (nlevels t - 1 - box_level t start)) start 0).
    eapply Nat.le_trans; [apply iters_le|]. apply Nat.mul_le_mono_l.
    apply NoDup_incl_length_seq; [apply subtree_NoDup; auto|].
    intros x Hx. apply subtree_in in Hx; tauto.
Qed.
End WalkProof.
Theorem run_walk_correct A t (W : wf_tree t) (visit : nat -> nat -> list A * bool) cap start :
  start < nboxes t -> nlevels t <= cap + box_level t start ->
  run_walk t visit cap start = Some (dfs t visit (nlevels t - box_level t start) start 0).
Proof. intros Hs Hc. apply run_walk_correct'; auto; [apply wf_walkable; auto|lia]. Qed.
