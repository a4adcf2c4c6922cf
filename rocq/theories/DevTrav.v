(** The traversal on the device computes the lists of build_traversal (Traversal.v). *)
From Coq Require Import List Arith ZArith NArith Lia Bool.
From Verif Require Import Base Tree Walk Traversal TraversalLists Coverage SpecTraversal CoverageThm LevelStarts Kernel Device DeviceFacts ListBuilder ListBuilderFacts TravDevice DevTravGen DevTravHost.
Import ListNotations.

Notation vfree := (free tarray lname lname_eq).
Notation ventries := (entries lname lname_eq).
Notation vrows := (rows lname lname_eq).

(** ** Arrays with known contents *)
Definition facts (K : kn) (L : list (varr * list Z)) : Prop := Forall (fun p => vlist K (fst p) (snd p)) L.
Lemma facts_same F K K' L : vsame F K K' -> Forall (fun p : varr * list Z => F (fst p)) L -> facts K L -> facts K' L.
Proof.
  intros S A H. unfold facts in *. rewrite Forall_forall in *. intros p I. apply (same_list tarray lname F K K'); auto.
Qed.
Lemma facts_app K L L' : facts K L -> facts K L' -> facts K (L ++ L').
Proof. intros. apply Forall_app. auto. Qed.
Lemma facts_in K L a l : facts K L -> In (a, l) L -> vlist K a l.
Proof. intros H I. unfold facts in H. rewrite Forall_forall in H. exact (H _ I). Qed.
Definition csr_facts (l : lname) (c : csr) : list (varr * list Z) := [(Starts l, map z (starts c)); (Lists l, map z (lists c))].
Lemma csr_facts_rows K l ll : facts K (csr_facts l (csr_of ll)) <-> rows_known K l ll.
Proof.
  split; intros H.
  - inversion H as [|? ? A B]; subst. inversion B as [|? ? C D]; subst. split; [exact A|exact C].
  - destruct H as [A B]. constructor; [exact A|]. constructor; [exact B|constructor].
Qed.

(** ** Entries of the lists *)
Lemma entries_tagged l r : ventries l (map (tagged l) r) = map z r.
Proof. unfold entries. induction r as [|x r IH]; cbn [map filter]; auto. cbn [tagged fst]. destruct (lname_eq l l); [|contradiction]. cbn [map]. rewrite IH. auto. Qed.
Lemma entries_pick (tag : bool * nat -> lname * Z) l b r : (forall c v, tag (c, v) = (fst (tag (c, v)), z v)) ->
  (forall c v, fst (tag (c, v)) = l <-> c = b) -> ventries l (map tag r) = map z (pick b r).
Proof.
  intros T H. unfold entries, pick. induction r as [|[c v] r IH]; cbn [map filter]; auto. rewrite T. cbn [fst].
  destruct (lname_eq (fst (tag (c, v))) l) as [E|E].
  - apply H in E. subst c. cbn [map filter fst snd]. rewrite eqb_reflx. cbn [map snd]. f_equal. exact IH.
  - cbn [fst]. destruct (Bool.eqb c b) eqn:EB; [apply eqb_prop in EB; subst; exfalso; apply E, H; auto|]. exact IH.
Qed.
Lemma rows_map l (ll : list (list nat)) n out : length ll = n -> (forall i, i < n -> ventries l (out i) = map z (nth i ll [])) ->
  vrows n out l = map (map z) ll.
Proof.
  intros L H. unfold rows. apply (nth_ext _ _ [] []); rewrite !map_length, seq_length; auto.
  intros i Hi. rewrite (nth_map_seq (fun i => ventries l (out i))) by auto. rewrite H by auto.
  change (@nil Z) with (map z []). rewrite map_nth. auto.
Qed.
Lemma concat_pick (p : nat -> bool) s : concat (map (fun i => if p i then [i] else []) s) = filter p s.
Proof. induction s as [|x s IH]; cbn [map concat filter]; auto. rewrite IH. destruct (p x); auto. Qed.

Section Trav.
Variable t : tree.
Hypothesis W : wf_tree t.
Variable P : trav_params.
Variable m1 m2 : bool.
Notation S := (scalars_of t P m1 m2).
Notation TK := (tree_known t P m1 m2).
Hypothesis LSB : level_sorted t (level_start_box_nrs P).
Hypothesis WP : wf_params t P.
Let n := well_sep_is_n_away P.
Let ex := extents P.
Lemma n_pos : 1 <= n.
Proof. apply WP. Qed.

Lemma free_tree outs a : tree_array a -> vfree outs a.
Proof. destruct a; cbn; auto; contradiction. Qed.

(** ** Calls of the list builder *)
Lemma lists_step {R} outs (K : kn) L m g out (lls : list (lname * list (list nat))) (next : (lname -> built_list) -> host varr R) Q :
  NoDup (map fst outs) -> TK K -> facts K L -> Forall (fun p => vfree outs (fst p)) L ->
  (forall i, i < m -> gok K (vfree outs) (g i) (out i)) ->
  (forall l ll, In (l, ll) lls -> In (l, false) outs /\ length ll = m /\ forall i, i < m -> ventries l (out i) = map z (nth i ll [])) ->
  (forall K' b, TK K' -> facts K' (flat_map (fun p => csr_facts (fst p) (csr_of (snd p))) lls ++ L) ->
     (forall l ll, In (l, ll) lls -> num_entries (b l) = length (concat ll)) -> okv K' (next b) Q) ->
  okv K (build_lists lname_eq outs m g next) Q.
Proof.
  intros ND T FL FR G E H. refine (build_lists_ok tarray lname tarray_eq lname_eq outs ND m g out K next Q G _).
  intros K' b SM B.
  assert (RW : forall l ll, In (l, ll) lls -> list_built tarray lname lname_eq m out K' b l false /\ vrows m out l = map (map z) ll).
  { intros l ll I. destruct (E l ll I) as [I' [LL EN]]. split; [apply B; auto|]. apply rows_map; auto. }
  apply H.
  - apply (tree_known_same t P m1 m2 (vfree outs) K K'); auto. apply free_tree.
  - apply facts_app; [|apply (facts_same (vfree outs) K K'); auto].
    unfold facts. rewrite Forall_forall. intros p I. apply in_flat_map in I. destruct I as [[l ll] [I J]]. cbn [fst snd] in J.
    destruct (RW l ll I) as [X Y]. destruct X as [X1 X2 X3 X4]. rewrite Y in *. cbn [kept] in *.
    destruct J as [<-|[<-|[]]]; cbn [fst snd csr_of starts lists].
    + replace (map (@length Z) (map (map z) ll)) with (map (@length nat) ll) in X2; [exact X2|].
      rewrite map_map. apply map_ext. intros r. rewrite map_length. auto.
    + rewrite <- concat_map in X3. exact X3.
  - intros l ll I. destruct (RW l ll I) as [X Y]. destruct X as [X1 X2 X3 X4]. rewrite X1. cbn [num_entries]. rewrite Y, <- concat_map, map_length. auto.
Qed.
Lemma list_step {R} l (K : kn) L m g (f : nat -> list nat) (bl : list nat) (next : (lname -> built_list) -> host varr R) Q :
  TK K -> facts K L -> Forall (fun p => vfree [(l, false)] (fst p)) L -> m = length bl ->
  (forall i, i < m -> gok K (vfree [(l, false)]) (g i) (map (tagged l) (f (nth i bl 0)))) ->
  (forall K' b, TK K' -> facts K' (csr_facts l (csr_of (map f bl)) ++ L) -> okv K' (next b) Q) ->
  okv K (build_lists lname_eq [(l, false)] m g next) Q.
Proof.
  intros T FL FR EM G H.
  refine (lists_step [(l, false)] K L m g (fun i => map (tagged l) (f (nth i bl 0))) [(l, map f bl)] next Q _ T FL FR G _ _).
  - constructor; [intros []|constructor].
  - intros l' ll [I|[]]. injection I as <- <-. split; [left; auto|]. rewrite map_length. split; auto. intros i Hi. rewrite entries_tagged.
    rewrite (nth_indep _ [] (f 0)) by (rewrite map_length; lia). rewrite map_nth. auto.
  - intros K' b T' F' _. apply H; auto.
Qed.

(** ** Lists of boxes *)
Lemma one_entry l l' (c : bool) v : ventries l (if c then [(l', v)] else []) = if lname_eq l' l then (if c then [v] else []) else [].
Proof. unfold entries. destruct c; cbn [filter fst]; destruct (lname_eq l' l); reflexivity. Qed.
Lemma entries_app l a b : ventries l (a ++ b) = ventries l a ++ ventries l b.
Proof. unfold entries. rewrite filter_app, map_app. auto. Qed.
Lemma boxes_entries i :
  ventries SourceBoxes (boxes_out t P i) = (if is_source t i && source_boxes_mask P i then [z i] else []) /\
  ventries SourceParentBoxes (boxes_out t P i) = (if has_source_child t i && source_parent_boxes_mask P i then [z i] else []) /\
  ventries TargetBoxes (boxes_out t P i) = (if negb (sources_are_targets P) && is_target t i then [z i] else []) /\
  ventries TargetOrParentBoxes (boxes_out t P i) = (if flag (box_flags t i) (N.lor HAS_TARGET_CHILD_BOXES IS_TARGET_BOX) then [z i] else []).
Proof.
  unfold boxes_out. rewrite !entries_app, !one_entry.
  destruct (lname_eq SourceBoxes SourceBoxes) as [_|]; [|contradiction]. repeat match goal with |- _ /\ _ => split end; cbn [lname_eq];
  repeat match goal with |- context [lname_eq ?a ?b] => destruct (lname_eq a b) as [|]; try discriminate; try contradiction end; rewrite ?app_nil_r; auto.
Qed.
Definition sb := find_source_boxes t P.
Definition spb := find_source_parent_boxes t P.
Definition tb := find_target_boxes t P.
Definition ttpb := find_target_or_target_parent_boxes t.
Definition box_facts : list (varr * list Z) :=
  [(Lists SourceBoxes, map z sb); (Lists SourceParentBoxes, map z spb); (Lists TargetOrParentBoxes, map z ttpb); (Lists (tgt_list S), map z tb)].
Lemma pick_rows (p : nat -> bool) i : i < nboxes t -> nth i (map (fun i => if p i then [i] else []) (seq 0 (nboxes t))) [] = if p i then [i] else [].
Proof. intros H. apply (nth_map_seq (fun i => if p i then [i] else [])). auto. Qed.
Lemma boxes_step {R} (K : kn) (next : (lname -> built_list) -> host varr R) Q : TK K ->
  (forall K' b, TK K' -> facts K' box_facts -> num_entries (b SourceBoxes) = length sb -> num_entries (b SourceParentBoxes) = length spb ->
     num_entries (b (tgt_list S)) = length tb -> num_entries (b TargetOrParentBoxes) = length ttpb -> okv K' (next b) Q) ->
  okv K (build_lists lname_eq (box_lists S) (s_nboxes S) (boxes_gen S) next) Q.
Proof.
  intros T H. change (s_nboxes S) with (nboxes t).
  set (R0 := fun p : nat -> bool => map (fun i => if p i then [i] else []) (seq 0 (nboxes t))).
  set (psb := fun i => is_source t i && source_boxes_mask P i). set (pspb := fun i => has_source_child t i && source_parent_boxes_mask P i).
  set (ptt := fun i => flag (box_flags t i) (N.lor HAS_TARGET_CHILD_BOXES IS_TARGET_BOX)).
  set (lls := [(SourceBoxes, R0 psb); (SourceParentBoxes, R0 pspb); (TargetOrParentBoxes, R0 ptt)]
               ++ (if sources_are_targets P then [] else [(TargetBoxes, R0 (is_target t))])).
  assert (BL : box_lists S = [(SourceParentBoxes, false); (SourceBoxes, false); (TargetOrParentBoxes, false)] ++ (if sources_are_targets P then [] else [(TargetBoxes, false)])) by reflexivity.
  refine (lists_step (box_lists S) K [] (nboxes t) _ (boxes_out t P) lls next Q _ T (Forall_nil _) (Forall_nil _) _ _ _).
  - rewrite BL. destruct (sources_are_targets P); cbn [app map fst]; repeat constructor; cbn; intuition discriminate.
  - intros i Hi. apply boxes_gen_ok; auto. intros b. exact Logic.I.
  - intros l ll I. unfold lls in I. rewrite BL.
    assert (LEN : forall p, length (R0 p) = nboxes t) by (intros p; unfold R0; rewrite map_length, seq_length; auto).
    apply in_app_iff in I. destruct I as [[I|[I|[I|[]]]]|I]; [| | |destruct (sources_are_targets P) eqn:SAT; [destruct I|destruct I as [I|[]]]];
      injection I as <- <-; (split; [cbn; auto|split; [apply LEN|]]); intros i Hi; destruct (boxes_entries i) as [A [B [C D]]]; unfold R0; rewrite pick_rows by auto.
    + rewrite A. unfold psb. match goal with |- (if ?c then _ else _) = _ => destruct c; auto end.
    + rewrite B. unfold pspb. match goal with |- (if ?c then _ else _) = _ => destruct c; auto end.
    + rewrite D. unfold ptt. match goal with |- (if ?c then _ else _) = _ => destruct c; auto end.
    + rewrite C, SAT. cbn [negb andb]. destruct (is_target t i); auto.
  - intros K' b T' F' B.
    assert (CC : forall p, concat (R0 p) = filter p (seq 0 (nboxes t))) by (intros p; unfold R0; apply concat_pick).
    assert (B1 := B SourceBoxes _ (or_introl eq_refl)). assert (B2 := B SourceParentBoxes _ (or_intror (or_introl eq_refl))).
    assert (B3 := B TargetOrParentBoxes _ (or_intror (or_intror (or_introl eq_refl)))). rewrite CC in B1, B2, B3.
    assert (Q1 : forall l ll, In (l, ll) lls -> vlist K' (Lists l) (map z (concat ll))).
    { intros l ll I. apply (facts_in K' _ _ _ F'). rewrite app_nil_r. apply in_flat_map. exists (l, ll). split; auto. right. left. auto. }
    assert (A1 := Q1 SourceBoxes _ (or_introl eq_refl)). assert (A2 := Q1 SourceParentBoxes _ (or_intror (or_introl eq_refl))).
    assert (A3 := Q1 TargetOrParentBoxes _ (or_intror (or_intror (or_introl eq_refl)))). rewrite CC in A1, A2, A3.
    assert (X : vlist K' (Lists (tgt_list S)) (map z tb) /\ num_entries (b (tgt_list S)) = length tb).
    { change (tgt_list S) with (if sources_are_targets P then SourceBoxes else TargetBoxes). unfold tb, find_target_boxes. destruct (sources_are_targets P) eqn:SAT; [split; [exact A1|exact B1]|].
      assert (I : In (TargetBoxes, R0 (is_target t)) lls) by (unfold lls; apply in_or_app; right; left; auto).
      specialize (Q1 _ _ I). specialize (B _ _ I). rewrite CC in Q1, B. split; [exact Q1|exact B]. }
    destruct X as [X1 X2]. apply H; auto. unfold box_facts. repeat (constructor; [assumption|]). constructor.
Qed.

(** ** Level starts *)
Lemma keep {F : varr -> Prop} K K' L : vsame F K K' -> (forall a, tree_array a -> F a) -> Forall (fun p : varr * list Z => F (fst p)) L ->
  TK K -> facts K L -> TK K' /\ facts K' L.
Proof. intros SM A B T FL. split; [apply (tree_known_same t P m1 m2 F K K'); auto|apply (facts_same F K K'); auto]. Qed.
Lemma levels_step {R} l p (K : kn) (next : list nat -> host varr R) Q : let bl := filter p (seq 0 (nboxes t)) in
  TK K -> facts K box_facts -> In (Lists l, map z bl) box_facts ->
  (forall K', TK K' -> facts K' box_facts -> okv K' (next (extract_level_starts t (level_start_box_nrs P) bl)) Q) ->
  okv K (level_starts_prog S l (length bl) next) Q.
Proof.
  intros bl T FB I H.
  refine (level_starts_ok t W P m1 m2 LSB K l bl next Q T _ _ _ _).
  - apply (facts_in K box_facts); auto.
  - intros x X. apply filter_In in X. destruct X as [X _]. apply in_seq in X. lia.
  - intros i j Hij Hj. apply filter_seq_sorted; auto.
  - intros K' SM. destruct (keep K K' box_facts SM) as [T' F']; auto.
    + intros [[]| | | | | | | | |]; cbn; try contradiction; discriminate.
    + unfold box_facts. repeat (constructor; [discriminate|]). constructor.
Qed.
Lemma tgt_filter : exists p, tb = filter p (seq 0 (nboxes t)).
Proof. unfold tb, find_target_boxes, find_source_boxes. destruct (sources_are_targets P); eauto. Qed.

(** ** The interaction lists *)
Definition sl : list (list nat) := map (slnws_list t (well_sep_is_n_away P)) (seq 0 (nboxes t)).
Lemma sl_range i b : In b (nth i sl []) -> b < nboxes t.
Proof.
  intros I. destruct (Nat.lt_ge_cases i (nboxes t)) as [Hi|Hi].
  - unfold sl in I. rewrite (nth_map_seq (slnws_list t (well_sep_is_n_away P))) in I by auto. apply (slnws_in_range t W) in I. auto.
  - rewrite nth_overflow in I by (unfold sl; rewrite map_length, seq_length; auto). destruct I.
Qed.
Lemma sl_read b : b < nboxes t -> csr_read (csr_of sl) (z b) = Some (slnws_list t (well_sep_is_n_away P) b).
Proof. apply slnws_csr_read. Qed.
Definition facts1 := csr_facts SameLevel (csr_of sl) ++ box_facts.
Definition facts2 := csr_facts NeighborSources (csr_of (map (list1_list t) tb)) ++ facts1.
Definition facts3 := csr_facts SepSiblings (csr_of (map (list2_list t n) ttpb)) ++ facts2.
Definition rows3 (lev : nat) : list (list nat) := map (fun b => pick true (list3_list t n ex (Some lev) b)) tb.
Definition level_facts (lev : nat) : list (varr * list Z) :=
  let e := eliminate_empty tb (rows3 lev) in (Base (SepSmallerTargets lev), map z (fst e)) :: csr_facts (SepSmaller lev) (snd e).
Definition level_lists (K : kn) : Prop := forall lev, lev < nlevels t -> facts K (level_facts lev).
Definition facts4 := (if targets_have_extent ex then csr_facts SepCloseSmaller (csr_of (map (fun b => pick false (list3_list t n ex None b)) tb)) else []) ++ facts3.
Definition rows4 (c : bool) := map (fun b => pick c (list4_list t n ex b)) ttpb.
Definition facts5 := csr_facts SepBigger (csr_of (rows4 true)) ++ (if targets_have_extent ex then csr_facts SepCloseBiggerRaw (csr_of (rows4 false)) else []) ++ facts4.
Definition o2i := map (fun b => nth b (reverse_index ttpb (nboxes t)) 0) tb.
Definition facts6 := (if targets_have_extent ex then csr_facts SepCloseBigger (merge_lists o2i [csr_of (rows4 false)]) else []) ++ facts5.

Lemma tb_nth i : i < length tb -> nth i tb 0 < nboxes t.
Proof. intros H. apply (tb_range t P n_pos). apply nth_In. auto. Qed.
Lemma ttpb_nth i : i < length ttpb -> nth i ttpb 0 < nboxes t.
Proof. intros H. apply (ttpb_range t P n_pos). apply nth_In. auto. Qed.

Ltac frees := unfold facts6, facts5, facts4, facts3, facts2, facts1, box_facts, csr_facts;
  change (tgt_list S) with (if sources_are_targets P then SourceBoxes else TargetBoxes);
  destruct (targets_have_extent ex); destruct (sources_are_targets P); cbn [app]; repeat (constructor; [reflexivity|]); constructor.
Lemma same_level_step {R} (K : kn) (next : (lname -> built_list) -> host varr R) Q : TK K -> facts K box_facts ->
  (forall K' b, TK K' -> facts K' facts1 -> okv K' (next b) Q) ->
  okv K (build_lists lname_eq [(SameLevel, false)] (s_nboxes S) (same_level_gen S) next) Q.
Proof.
  intros T FB H. refine (list_step SameLevel K box_facts (nboxes t) (same_level_gen S) (slnws_list t n) (seq 0 (nboxes t)) next Q T FB _ _ _ _); auto.
  - frees.
  - rewrite seq_length. auto.
  - intros i Hi. rewrite seq_nth by auto. apply same_level_ok; auto; [intros b; exact Logic.I|]. apply slnws_kernel_ok; [auto|apply n_pos].
Qed.
Lemma list1_step {R} (K : kn) (next : (lname -> built_list) -> host varr R) Q : TK K -> facts K facts1 ->
  (forall K' b, TK K' -> facts K' facts2 -> okv K' (next b) Q) ->
  okv K (build_lists lname_eq [(NeighborSources, false)] (length tb) (list1_gen S) next) Q.
Proof.
  intros T FB H. refine (list_step NeighborSources K facts1 (length tb) (list1_gen S) (list1_list t) tb next Q T FB _ _ _ _); auto.
  - frees.
  - intros i Hi. apply (list1_ok t W P m1 m2 K _ (fun b => Logic.I) T i tb); auto.
    + unfold tgt_list. destruct (s_sources_are_targets S); reflexivity.
    + apply (facts_in K facts1); auto. unfold facts1, box_facts. cbn [csr_facts app In]. tauto.
    + apply tb_nth. auto.
    + apply (list1_kernel_ok t W n n_pos).
Qed.
Lemma rows_of K L : facts K L -> In (Starts SameLevel, map z (starts (csr_of sl))) L -> In (Lists SameLevel, map z (lists (csr_of sl))) L -> rows_known K SameLevel sl.
Proof. intros F A B. split; [exact (facts_in _ _ _ _ F A)|exact (facts_in _ _ _ _ F B)]. Qed.
Lemma incl_facts1 : incl facts1 facts2.
Proof. intros x I. unfold facts2. apply in_or_app. auto. Qed.
Lemma incl_facts2 : incl facts2 facts3.
Proof. intros x I. unfold facts3. apply in_or_app. auto. Qed.
Lemma incl_facts3 : incl facts3 facts4.
Proof. intros x I. unfold facts4. apply in_or_app. auto. Qed.
Lemma incl_facts4 : incl facts4 facts5.
Proof. intros x I. unfold facts5. apply in_or_app. right. apply in_or_app. auto. Qed.
Lemma incl_facts5 : incl facts5 facts6.
Proof. intros x I. unfold facts6. apply in_or_app. auto. Qed.
Lemma facts_incl K L L' : incl L L' -> facts K L' -> facts K L.
Proof. intros I. unfold facts. rewrite !Forall_forall. auto. Qed.
Lemma rows1 K : facts K facts1 -> rows_known K SameLevel sl.
Proof. intros F. apply (rows_of K facts1); auto; unfold facts1; apply in_or_app; left; cbn [csr_facts In]; auto. Qed.
Lemma tb_known K : facts K facts1 -> vlist K (Lists (tgt_list S)) (map z tb).
Proof. intros F. apply (facts_in K facts1); auto. unfold facts1, box_facts. cbn [csr_facts app In]. tauto. Qed.
Lemma ttpb_known K : facts K facts1 -> vlist K (Lists TargetOrParentBoxes) (map z ttpb).
Proof. intros F. apply (facts_in K facts1); auto. unfold facts1, box_facts. cbn [csr_facts app In]. tauto. Qed.
Lemma list2_step {R} (K : kn) (next : (lname -> built_list) -> host varr R) Q : TK K -> facts K facts2 ->
  (forall K' b, TK K' -> facts K' facts3 -> okv K' (next b) Q) ->
  okv K (build_lists lname_eq [(SepSiblings, false)] (length ttpb) (list2_gen S) next) Q.
Proof.
  intros T FB H. assert (F1 := facts_incl K _ _ incl_facts1 FB).
  refine (list_step SepSiblings K facts2 (length ttpb) (list2_gen S) (list2_list t n) ttpb next Q T FB _ _ _ _); auto.
  - frees.
  - intros i Hi. apply (list2_ok t W P m1 m2 K _ (fun b => Logic.I) T sl eq_refl eq_refl (rows1 K F1) sl_range i ttpb); auto.
    + reflexivity.
    + apply ttpb_known. auto.
    + apply ttpb_nth. auto.
    + apply (list2_kernel_ok t W n n_pos); [apply sl_read|]. apply ttpb_nth. auto.
Qed.

(** ** List 3 *)
Lemma tag3_some lev r : ventries (SepSmaller lev) (map (tag3 (Some lev)) r) = map z (pick true r).
Proof. apply entries_pick; intros [] v; cbn; auto; split; intros H; auto; discriminate. Qed.
Lemma tag3_none r : ventries SepCloseSmaller (map (tag3 None) r) = map z (pick false r).
Proof. apply entries_pick; intros [] v; cbn; auto; split; intros H; auto; discriminate. Qed.
Lemma tag4_far r : ventries SepBigger (map tag4 r) = map z (pick true r).
Proof. apply entries_pick; intros [] v; cbn; auto; split; intros H; auto; discriminate. Qed.
Lemma tag4_close r : ventries SepCloseBiggerRaw (map tag4 r) = map z (pick false r).
Proof. apply entries_pick; intros [] v; cbn; auto; split; intros H; auto; discriminate. Qed.
Lemma eliminate_eq (f : nat -> list nat) (bl : list nat) :
  eliminate_empty bl (map f bl) = (filter (fun b => nonempty (f b)) bl, csr_of (filter nonempty (map f bl))).
Proof.
  unfold eliminate_empty.
  assert (E : combine bl (map f bl) = map (fun b => (b, f b)) bl) by (induction bl as [|x r IH]; cbn [map combine]; congruence).
  rewrite E, filter_map_comm, !map_map. cbn [snd fst]. rewrite map_id. f_equal. f_equal. rewrite filter_map_comm. auto.
Qed.
Lemma list3_gok slev outs (K : kn) i : TK K -> facts K facts1 -> vfree outs (Starts SameLevel) -> vfree outs (Lists SameLevel) -> vfree outs (Lists (tgt_list S)) ->
  i < length tb -> gok K (vfree outs) (list3_gen S slev i) (map (tag3 slev) (list3_list t n ex slev (nth i tb 0))).
Proof.
  intros T F1 A B C Hi.
  apply (list3_ok t W P m1 m2 K _ (fun b => Logic.I) T sl A B (rows1 K F1) sl_range slev i tb); auto.
  - apply tb_known. auto.
  - apply tb_nth. auto.
  - apply (list3_kernel_ok t W n n_pos); [apply sl_read|]. apply tb_nth. auto.
Qed.
Lemma nth_map_tb {A} (f : nat -> A) d i bl : i < length bl -> nth i (map f bl) d = f (nth i bl 0).
Proof. intros H. rewrite (nth_indep _ d (f 0)) by (rewrite map_length; auto). apply map_nth. Qed.
Lemma tgt_free outs : wanted lname lname_eq outs SourceBoxes = false -> wanted lname lname_eq outs TargetBoxes = false -> vfree outs (Lists (tgt_list S)).
Proof. intros A B. unfold tgt_list. destruct (s_sources_are_targets S); auto. Qed.
Definition not_level (lev : nat) (a : varr) : Prop :=
  vfree [(SepSmaller lev, true)] a /\ a <> Base (SepSmallerTargets lev).
Lemma level_step {R} lev (K : kn) (nx : host varr R) Q : TK K -> facts K facts1 ->
  (forall K', vsame (not_level lev) K K' -> facts K' (level_facts lev) -> okv K' nx Q) ->
  okv K (build_lists lname_eq [(SepSmaller lev, true)] (length tb) (list3_gen S (Some lev)) (fun b =>
    take (Lists (tgt_list S)) (Nonempty (SepSmaller lev)) (Base (SepSmallerTargets lev)) (num_lists (b (SepSmaller lev))) nx)) Q.
Proof.
  intros T F1 H. set (l := SepSmaller lev). set (outs := [(l, true)]).
  set (f := fun b => pick true (list3_list t n ex (Some lev) b)).
  set (out := fun i => map (tag3 (Some lev)) (list3_list t n ex (Some lev) (nth i tb 0))).
  assert (FT : vfree outs (Lists (tgt_list S))) by (apply tgt_free; reflexivity).
  refine (build_lists_ok tarray lname tarray_eq lname_eq outs _ (length tb) _ out K _ Q _ _).
  { constructor; [intros []|constructor]. }
  { intros i Hi. apply list3_gok; auto; reflexivity. }
  intros K1 b S1 B. destruct (B l true (or_introl eq_refl)) as [B1 B2 B3 B4]. specialize (B4 eq_refl).
  assert (EN : forall i, i < length tb -> ventries l (out i) = map z (f (nth i tb 0))) by (intros i Hi; apply tag3_some).
  assert (RW : vrows (length tb) out l = map (map z) (map f tb)).
  { apply rows_map; [rewrite map_length; auto|]. intros i Hi. rewrite EN by auto. rewrite nth_map_tb by auto. auto. }
  assert (NEZ : forall r : list nat, nonempty (map z r) = nonempty r) by (intros r; unfold nonempty; rewrite map_length; auto).
  assert (FZ : filter nonempty (map (map z) (map f tb)) = map (map z) (filter nonempty (map f tb))).
  { rewrite filter_map_comm. f_equal. apply filter_ext. auto. }
  rewrite RW in B1, B2, B3. cbn [kept] in B1, B2. rewrite FZ in B1, B2. set (ix := nonempty_ix lname lname_eq (length tb) out l) in *.
  set (q := fun b => nonempty (f b)).
  assert (EX : ix = filter (fun i => q (nth i tb 0)) (seq 0 (length tb))).
  { unfold ix, nonempty_ix. apply filter_ext_in. intros i Hi. apply in_seq in Hi. unfold ln. rewrite EN by lia. rewrite map_length. auto. }
  assert (ET : map (fun i => nth i tb 0) ix = filter q tb).
  { rewrite EX. rewrite <- (filter_map_comm (fun i => nth i tb 0) q). rewrite list_seq. auto. }
  assert (LX : length ix = length (filter nonempty (map f tb))).
  { rewrite <- (map_length (fun i => nth i tb 0) ix), ET. rewrite filter_map_comm, map_length. auto. }
  assert (IXB : forall k, k < length ix -> nth k ix 0 < length tb).
  { intros k Hk. apply (nth_In _ 0) in Hk. rewrite EX in Hk at 2. apply filter_In in Hk. destruct Hk as [Hk _]. apply in_seq in Hk. lia. }
  rewrite B1. cbn [num_lists]. rewrite map_length, <- LX.
  assert (TB1 : vlist K1 (Lists (tgt_list S)) (map z tb)) by (apply (same_list tarray lname (vfree outs) K K1); auto; apply tb_known; auto).
  apply (take_ok K1 _ _ _ (length ix) (fun k => z (nth k ix 0)) (fun k => z (nth (nth k ix 0) tb 0))); try discriminate.
  - intros i Hi. exact (has_cell K1 _ _ _ _ i B4 Hi).
  - intros i Hi. apply vlist_cell_z; auto.
  - intros K2 S2 R2. apply H.
    + eapply same_trans; [eapply same_less; [|exact S1]|eapply same_less; [|exact S2]]; intros a [A1 A2]; auto.
    + unfold level_facts, rows3. fold f. rewrite eliminate_eq. cbv zeta. cbn [fst snd].
      constructor; [|constructor; [|constructor; [|constructor]]]; cbn [fst snd csr_of starts lists].
      * rewrite <- (map_map (fun k => nth (nth k ix 0) tb 0) z) in R2. fold q. rewrite <- ET.
        rewrite <- (map_map (fun k => nth k ix 0) (fun i => nth i tb 0)), list_seq in R2. exact R2.
      * apply (same_list tarray lname (fun x => x <> Base (SepSmallerTargets lev)) K1 K2); auto; [discriminate|].
        rewrite map_map in B2. erewrite map_ext in B2 by (intros r; apply map_length). exact B2.
      * apply (same_list tarray lname (fun x => x <> Base (SepSmallerTargets lev)) K1 K2); auto; [discriminate|].
        rewrite concat_nonempty. rewrite <- concat_map in B3. exact B3.
Qed.
Lemma level_keep lev lev' : lev <> lev' -> Forall (fun p : varr * list Z => not_level lev (fst p)) (level_facts lev').
Proof.
  intros N. unfold level_facts, csr_facts. cbv zeta.
  assert (X : wanted lname lname_eq [(SepSmaller lev, true)] (SepSmaller lev') = false).
  { unfold wanted. cbn [existsb fst]. destruct (lname_eq (SepSmaller lev) (SepSmaller lev')) as [E|E]; auto. congruence. }
  repeat constructor; cbn [fst]; try exact X; try discriminate. intros E. congruence.
Qed.
Lemma level_keep_tree lev a : tree_array a -> not_level lev a.
Proof. intros A. split; [apply free_tree; auto|]. intros ->. exact A. Qed.
Lemma level_keep_facts lev : Forall (fun p : varr * list Z => not_level lev (fst p)) facts3.
Proof.
  unfold facts3, facts2, facts1, box_facts, csr_facts, not_level.
  change (tgt_list S) with (if sources_are_targets P then SourceBoxes else TargetBoxes). destruct (sources_are_targets P); cbn [app];
  repeat (constructor; [split; [reflexivity|discriminate]|]); constructor.
Qed.
Lemma smaller_step {R} (K : kn) (next : host varr R) Q : TK K -> facts K facts3 ->
  (forall K', TK K' -> level_lists K' -> facts K' facts4 -> okv K' next Q) -> okv K (smaller_prog S (length tb) next) Q.
Proof.
  intros T F3 H. unfold smaller_prog. change (s_nlevels S) with (nlevels t).
  apply (ok_each_inv varr varr_eq (fun r K' => TK K' /\ facts K' facts3 /\ forall lev, lev < nlevels t -> ~ In lev r -> facts K' (level_facts lev))).
  - split; [auto|split; auto]. intros lev Hl N. exfalso. apply N. apply in_seq. lia.
  - intros lev r K1 nx [l0 EL] [T1 [F1 D1]] O. apply level_step; auto.
    { apply (facts_incl K1 _ _ incl_facts1), (facts_incl K1 _ _ incl_facts2). auto. }
    intros K2 S2 L2. apply O. destruct (keep K1 K2 facts3 S2 (level_keep_tree lev) (level_keep_facts lev) T1 F1) as [T2 F2]. split; [auto|split; auto].
    intros lev' Hl N. destruct (Nat.eq_dec lev' lev) as [->|NE]; auto.
    apply (facts_same (not_level lev) K1 K2); auto; [apply level_keep; auto|]. apply D1; auto. intros [E|E]; [congruence|contradiction].
  - intros K1 [T1 [F1 D1]].
    assert (LV : level_lists K1) by (intros lev Hl; apply D1; auto).
    change (s_ext S) with (targets_have_extent ex). destruct (targets_have_extent ex) eqn:EX.
    + assert (FF1 : facts K1 facts1) by (apply (facts_incl K1 _ _ incl_facts1), (facts_incl K1 _ _ incl_facts2); auto).
      (* the level lists are kept as well *)
      set (LL := flat_map level_facts (seq 0 (nlevels t)) ++ facts3).
      assert (FL : facts K1 LL).
      { apply facts_app; auto. unfold facts. rewrite Forall_forall. intros p I. apply in_flat_map in I. destruct I as [lev [I J]]. apply in_seq in I.
        assert (X := LV lev ltac:(lia)). unfold facts in X. rewrite Forall_forall in X. auto. }
      refine (lists_step [(SepCloseSmaller, false)] K1 LL (length tb) _ (fun i => map (tag3 None) (list3_list t n ex None (nth i tb 0)))
        [(SepCloseSmaller, map (fun b => pick false (list3_list t n ex None b)) tb)] _ Q _ T1 FL _ _ _ _).
      * constructor; [intros []|constructor].
      * unfold LL. apply Forall_app. split.
        { rewrite Forall_forall. intros p I. apply in_flat_map in I. destruct I as [lev [_ [<-|[<-|[<-|[]]]]]]; reflexivity. }
        { frees. }
      * intros i Hi. apply list3_gok; auto; try reflexivity. apply tgt_free; reflexivity.
      * intros l ll [E|[]]. injection E as <- <-. split; [left; auto|]. rewrite map_length. split; auto. intros i Hi.
        rewrite tag3_none. f_equal. rewrite nth_map_tb by auto. auto.
      * intros K2 b T2 F2 _. cbn [flat_map fst snd] in F2. apply H; auto.
        { intros lev Hl. refine (facts_incl K2 _ _ _ F2). intros x I. unfold LL. apply in_or_app. right. apply in_or_app. left.
          apply in_flat_map. exists lev. split; auto. apply in_seq. lia. }
        { unfold facts4. rewrite EX. refine (facts_incl K2 _ _ _ F2). intros x I. apply in_app_iff in I. rewrite app_nil_r. apply in_or_app. destruct I; auto.
          right. unfold LL. apply in_or_app. auto. }
    + apply H; auto. unfold facts4. rewrite EX. auto.
Qed.

(** ** List 4 *)
Definition all_levels : list (varr * list Z) := flat_map level_facts (seq 0 (nlevels t)).
Lemma all_levels_known K : level_lists K <-> facts K all_levels.
Proof.
  unfold facts, all_levels, level_lists. split.
  - intros LV. rewrite Forall_forall. intros p I. apply in_flat_map in I. destruct I as [lev [I J]]. apply in_seq in I.
    assert (X := LV lev ltac:(lia)). unfold facts in X. rewrite Forall_forall in X. auto.
  - intros F lev Hl. unfold facts. rewrite Forall_forall in *. intros p I. apply F. apply in_flat_map. exists lev. split; auto. apply in_seq. lia.
Qed.
Lemma all_levels_forall (F : varr -> Prop) : (forall lev, F (Base (SepSmallerTargets lev)) /\ F (Starts (SepSmaller lev)) /\ F (Lists (SepSmaller lev))) ->
  Forall (fun p : varr * list Z => F (fst p)) all_levels.
Proof.
  intros H. rewrite Forall_forall. intros p I. apply in_flat_map in I. destruct I as [lev [_ [<-|[<-|[<-|[]]]]]]; apply (H lev).
Qed.
Lemma o2i_bound b : In b o2i -> b < length ttpb.
Proof.
  intros I. apply in_map_iff in I. destruct I as [T [<- I]]. destruct (tb_ttpb t P n_pos T WP I) as [J _]. fold ttpb in J.
  apply (In_nth _ _ 0) in J. destruct J as [i [Hi <-]].
  rewrite reverse_index_nth; auto; [apply (ttpb_NoDup t)|]. intros x X. apply (ttpb_range t P n_pos). auto.
Qed.
Lemma bigger_step {R} (K : kn) (next : host varr R) Q : TK K -> level_lists K -> facts K facts4 ->
  (forall K', TK K' -> level_lists K' -> facts K' facts6 -> okv K' next Q) -> okv K (bigger_prog S (length tb) (length ttpb) next) Q.
Proof.
  intros T LV F4 H. unfold bigger_prog. change (s_ext S) with (targets_have_extent ex).
  set (outs := (SepBigger, false) :: (if targets_have_extent ex then [(SepCloseBiggerRaw, false)] else [])).
  set (lls := (SepBigger, rows4 true) :: (if targets_have_extent ex then [(SepCloseBiggerRaw, rows4 false)] else [])).
  assert (F1 : facts K facts1) by (apply (facts_incl K _ _ incl_facts1), (facts_incl K _ _ incl_facts2), (facts_incl K _ _ incl_facts3); auto).
  refine (lists_step outs K (all_levels ++ facts4) (length ttpb) _ (fun i => map tag4 (list4_list t n ex (nth i ttpb 0))) lls _ Q _ T _ _ _ _ _).
  - unfold outs. destruct (targets_have_extent ex); repeat constructor; cbn; intuition discriminate.
  - apply facts_app; auto. apply all_levels_known. auto.
  - apply Forall_app. split.
    + apply (all_levels_forall (vfree outs)). intros lev. unfold outs. destruct (targets_have_extent ex); repeat split; reflexivity.
    + unfold outs. frees.
  - intros i Hi.
    apply (list4_ok t W P m1 m2 K _ (fun b => Logic.I) T sl) with (tb := ttpb); auto.
    + unfold outs. destruct (targets_have_extent ex); reflexivity.
    + unfold outs. destruct (targets_have_extent ex); reflexivity.
    + apply rows1. auto.
    + apply sl_range.
    + unfold outs. destruct (targets_have_extent ex); reflexivity.
    + apply ttpb_known. auto.
    + apply ttpb_nth. auto.
    + apply (list4_kernel_ok t W n); [apply sl_read|]. apply ttpb_nth. auto.
  - intros l ll I. unfold lls, outs in *. assert (LEN : forall c, length (rows4 c) = length ttpb) by (intros c; unfold rows4; apply map_length).
    destruct I as [I|I]; [|destruct (targets_have_extent ex); [destruct I as [I|[]]|destruct I]]; injection I as <- <-;
      (split; [cbn; auto|split; [apply LEN|]]); intros i Hi; [rewrite tag4_far|rewrite tag4_close]; f_equal; unfold rows4; rewrite nth_map_tb by auto; auto.
  - intros K1 b T1 F1' _.
    assert (F5 : facts K1 (all_levels ++ facts5)).
    { refine (facts_incl K1 _ _ _ F1'). intros x I. apply in_or_app. apply in_app_iff in I. destruct I as [I|I]; [right; apply in_or_app; auto|].
      unfold facts5 in I. unfold lls. cbn [flat_map fst snd]. apply in_app_iff in I. destruct I as [I|I]; [left; apply in_or_app; auto|].
      apply in_app_iff in I. destruct I as [I|I]; [|right; apply in_or_app; auto]. left. apply in_or_app. right.
      destruct (targets_have_extent ex); [|destruct I]. cbn [flat_map fst snd]. rewrite app_nil_r. auto. }
    clear F1' F1. assert (F1 : facts K1 facts1).
    { apply (facts_incl K1 _ _ incl_facts1), (facts_incl K1 _ _ incl_facts2), (facts_incl K1 _ _ incl_facts3), (facts_incl K1 _ _ incl_facts4).
      refine (facts_incl K1 _ _ _ F5). intros x I. apply in_or_app. auto. }
    assert (CA : {targets_have_extent ex = true} + {targets_have_extent ex = false}) by (destruct (targets_have_extent ex); auto).
    destruct CA as [EX|EX]; rewrite EX.
    2:{ apply H; auto; [|unfold facts6; rewrite EX]; [apply all_levels_known|]; refine (facts_incl K1 _ _ _ F5); intros x I; apply in_or_app; auto. }
    change (s_nboxes S) with (nboxes t).
    apply reverse_index_ok; [apply ttpb_known; auto|apply (ttpb_NoDup t)|intros x I; apply (ttpb_range t P n_pos); auto|].
    intros K2 S2 RV. destruct (keep K1 K2 (all_levels ++ facts5) S2) as [T2 F2]; auto.
    { intros a A E. subst a. exact A. }
    { apply Forall_app. split; [apply (all_levels_forall (fun a => a <> Base ReverseIndex)); intros lev; repeat split; discriminate|].
      unfold facts5, facts4, facts3, facts2, facts1, box_facts, csr_facts. rewrite EX. cbn [app]. repeat (constructor; [discriminate|]). constructor. }
    assert (TB2 : vlist K2 (Lists (tgt_list S)) (map z tb)).
    { apply (same_list tarray lname (fun x => x <> Base ReverseIndex) K1 K2); auto; [discriminate|]. apply tb_known. auto. }
    apply (take_ok K2 _ _ _ (length tb) (fun i => z (nth i tb 0)) (fun i => z (nth (nth i tb 0) (reverse_index ttpb (nboxes t)) 0))); try discriminate.
    { intros i Hi. apply vlist_cell_z; auto. }
    { intros i Hi. apply vlist_cell_z; auto.
      destruct (reverse_nth ttpb (length ttpb) (nboxes t) (ttpb_NoDup t) ltac:(intros x I; apply (ttpb_range t P n_pos); auto) (le_n _)) as [A _].
      cbv zeta in A. fold (reverse_index ttpb (nboxes t)) in A. rewrite A. apply tb_nth. auto. }
    intros K3 S3 O3. destruct (keep K2 K3 (all_levels ++ facts5) S3) as [T3 F3]; auto.
    { intros a A E. subst a. exact A. }
    { apply Forall_app. split; [apply (all_levels_forall (fun a => a <> Base OutputToInput)); intros lev; repeat split; discriminate|].
      unfold facts5, facts4, facts3, facts2, facts1, box_facts, csr_facts. rewrite EX. cbn [app]. repeat (constructor; [discriminate|]). constructor. }
    assert (EO : map (fun i => z (nth (nth i tb 0) (reverse_index ttpb (nboxes t)) 0)) (seq 0 (length tb)) = map z o2i).
    { unfold o2i. rewrite <- (list_seq tb) at 2. rewrite !map_map. auto. }
    rewrite EO in O3.
    assert (LO : length tb = length o2i) by (unfold o2i; rewrite map_length; auto). rewrite LO.
    assert (RR : rows_known K3 SepCloseBiggerRaw (rows4 false)).
    { apply csr_facts_rows. refine (facts_incl K3 _ _ _ F3). intros x I. apply in_or_app. right. unfold facts5. apply in_or_app. right. rewrite EX. apply in_or_app. auto. }
    refine (merge_ok [SepCloseBiggerRaw] SepCloseBigger (fun _ => rows4 false) o2i _ _ K3 next Q _ _).
    { intros [E|[]]. discriminate. }
    { intros b0 l I _. unfold rows4. rewrite map_length. apply o2i_bound. auto. }
    { split; auto. intros l [<-|[]]. auto. }
    intros K4 S4 M4. destruct (keep K3 K4 (all_levels ++ facts5) S4) as [T4 F4']; auto.
    { intros a A [E|[E|[E|E]]]; try (subst a; exact A). destruct a; try exact A; exact E. }
    { apply Forall_app. split.
      - apply (all_levels_forall (fun a => ~ merge_scratch SepCloseBigger a)). intros lev. unfold merge_scratch. cbn [scan_buffer]. repeat split; intuition discriminate.
      - unfold facts5, facts4, facts3, facts2, facts1, box_facts, csr_facts, merge_scratch. rewrite EX. change (tgt_list S) with (if sources_are_targets P then SourceBoxes else TargetBoxes).
        destruct (sources_are_targets P); cbn [app]; repeat (constructor; [cbn [fst scan_buffer]; intuition discriminate|]); constructor. }
    apply H; auto.
    + apply all_levels_known. refine (facts_incl K4 _ _ _ F4'). intros x I. apply in_or_app. auto.
    + unfold facts6. rewrite EX. apply facts_app; [|refine (facts_incl K4 _ _ _ F4'); intros x I; apply in_or_app; auto].
      unfold merge_lists. apply csr_facts_rows. erewrite map_ext_in; [exact M4|]. intros b0 I. unfold merged_row. cbn [map concat]. rewrite csr_get_of; auto.
      unfold rows4. rewrite map_length. apply o2i_bound. auto.
Qed.

(** ** The whole traversal *)
Definition the_starts : host_result :=
  let lev := extract_level_starts t (level_start_box_nrs P) in mkResult (lev sb) (lev spb) (lev tb) (lev ttpb).
Theorem traversal_ok (K : kn) (Q : host_result -> device varr -> Prop) : TK K ->
  (forall K' d, level_lists K' -> facts K' facts6 -> agrees K' d -> Q the_starts d) -> okv K (traversal_program S) Q.
Proof.
  intros T H. unfold traversal_program. apply boxes_step; auto. intros K1 b T1 F1 E1 E2 E3 E4. cbv zeta. rewrite E1, E2, E3, E4.
  apply levels_step; auto; [left; auto|]. intros K2 T2 F2.
  apply levels_step; auto; [right; left; auto|]. intros K3 T3 F3.
  destruct tgt_filter as [p EP]. rewrite EP at 1. apply levels_step; auto; [rewrite <- EP; right; right; right; left; auto|]. rewrite <- EP. intros K4 T4 F4.
  apply levels_step; auto; [right; right; left; auto|]. intros K5 T5 F5.
  apply same_level_step; auto. intros K6 _ T6 F6. apply list1_step; auto. intros K7 _ T7 F7. apply list2_step; auto. intros K8 _ T8 F8.
  apply smaller_step; auto. intros K9 T9 L9 F9. apply bigger_step; auto. intros K10 T10 L10 F10.
  apply ok_ret. intros d A. apply (H K10); auto.
Qed.
End Trav.
