(** Plots of the lists of a traversal, and the TikZ document. *)
From Coq Require Import List Arith ZArith QArith String Ascii Lia Lqa Bool.
From Verif Require Import Base Tree Spec TreeFacts Traversal SpecTraversal TraversalLists Coverage ListFacts FmmThm FmmLibFacts AreaMore CostFacts MergeFacts Plot SpecPlot PlotFacts.
Import ListNotations.
Local Open Scope string_scope.
Local Open Scope list_scope.
Local Open Scope nat_scope.

Section Lists.
Variable t : tree.
Hypothesis W : wf_tree t.
Notation shows := (shows t).

Lemma colored_app c h a b : colored c h (a ++ b) = colored c h a ++ colored c h b.
Proof. apply filter_app. Qed.
Lemma outlines_app a b : outlines (a ++ b) = outlines a ++ outlines b.
Proof. apply filter_app. Qed.

Lemma shows_app ibox c h k1 k2 e1 e2 p1 p2 : shows ibox c h k1 e1 p1 -> shows ibox c h k2 e2 p2 -> shows ibox c h (k1 ++ k2) (e1 ++ e2) (p1 ++ p2).
Proof.
  intros [A1 [B1 [C1 D1]]] [A2 [B2 [C2 D2]]]. split; [|split; [|split]].
  - rewrite colored_app. apply Forall2_app; auto.
  - intros c' h' N. rewrite colored_app, B1, B2; auto.
  - rewrite outlines_app. apply Forall_app. auto.
  - rewrite outlines_app, filter_app, !app_length. congruence.
Qed.
Lemma shows_nil ibox c h : shows ibox c h [] [] [].
Proof. split; [constructor|]. split; [auto|]. split; [constructor|reflexivity]. Qed.

Lemma levels_show ibox (f : nat -> option (list patch)) (es : nat -> list nat) (keys : nat -> list nat) c h : forall ls acc,
  (forall l, In l ls -> exists ps, f l = Some ps /\ shows ibox c h [keys l] (es l) ps) ->
  exists ps, fold_left (fun acc l => then_draw acc (f l)) ls (Some acc) = Some (acc ++ ps) /\ shows ibox c h (map keys ls) (List.concat (map es ls)) ps.
Proof.
  induction ls as [|l ls IH]; intros acc H; cbn [fold_left map List.concat].
  - exists []. rewrite app_nil_r. split; auto. apply shows_nil.
  - destruct (H l (or_introl eq_refl)) as [p [-> S]]. cbn [then_draw]. destruct (IH (acc ++ p)) as [ps [E S']]; [intros; apply H; right; auto|].
    exists (p ++ ps). rewrite E, app_assoc. split; auto. apply (shows_app ibox c h [keys l] (map keys ls)); auto.
Qed.

(** the shape of the lists of a traversal *)
Record listed (tr : traversal) (ibox : nat) : Prop := {
  l1 : keyed (target_boxes tr) (neighbor_source_boxes tr);
  l2 : keyed (target_or_target_parent_boxes tr) (from_sep_siblings tr);
  l3 : List.length (from_sep_smaller_by_level tr) = nlevels t /\ forall p, In p (from_sep_smaller_by_level tr) -> keyed (fst p) (snd p);
  l3c : forall c, from_sep_close_smaller tr = Some c -> keyed (target_boxes tr) c;
  l4 : keyed (target_or_target_parent_boxes tr) (from_sep_bigger tr);
  l4c : forall c, from_sep_close_bigger tr = Some c -> keyed (target_boxes tr) c;
  range : forall x, In x (list1_of tr ibox) \/ In x (list2_of tr ibox) \/ In x (list3_of tr ibox) \/ In x (list3_close_of tr ibox) \/ In x (list4_of tr ibox) \/ In x (list4_close_of tr ibox) -> x < nboxes t
}.

Lemma map_nth_all {A B} (f : A -> B) l d : map (fun i => f (nth i l d)) (seq 0 (List.length l)) = map f l.
Proof. apply map_nth_seq. Qed.

Lemma lists_drawn tr ibox rnd : listed tr ibox -> ibox < nboxes t -> unit_numbers rnd ->
  exists ps, draw_box_lists t tr ibox rnd = Some ps /\
   (exists p, colored "red" None ps = [p] /\ scaled_box t ibox 1 p) /\
   Forall2 (marks t) (colored "green" None ps) (list1_of tr ibox) /\
   Forall2 (marks t) (colored "blue" None ps) (list2_of tr ibox) /\
   Forall2 (marks t) (colored "orange" None ps) (list3_of tr ibox) /\
   Forall2 (marks t) (colored "orange" (Some ".") ps) (list3_close_of tr ibox) /\
   Forall2 (marks t) (colored "purple" None ps) (list4_of tr ibox) /\
   Forall2 (marks t) (colored "purple" (Some ".") ps) (list4_close_of tr ibox) /\
   Forall (fun p => surrounds t p ibox /\ edgecolor (look p) = Some "blue") (outlines ps) /\
   List.length (outlines ps) = List.length (filter (fun k => negb (existsb (Nat.eqb ibox) k)) (row_keys tr)).
Proof.
  intros L B U. destruct L as [L1 L2 [L3n L3] L3c L4 L4c RG].
  destruct (list_shows t W _ _ ibox "green" None (rnd 0) L1 B) as [p1 [E1 S1]]; [intros x X; apply RG; auto|apply U|apply U|].
  destruct (list_shows t W _ _ ibox "blue" None (rnd 1) L2 B) as [p2 [E2 S2]]; [intros x X; apply RG; auto|apply U|apply U|].
  destruct (list_shows t W _ _ ibox "purple" None (rnd 3) L4 B) as [p4 [E4 S4]]; [intros x X; apply RG; unfold list4_of; tauto|apply U|apply U|].
  set (d := (@nil nat, csr_of [])).
  assert (E3 : exists p3, draw_levels t tr ibox rnd = Some p3 /\ shows ibox "orange" None (map fst (from_sep_smaller_by_level tr)) (list3_of tr ibox) p3).
  { destruct (levels_show ibox (fun ilev => match nth_error (from_sep_smaller_by_level tr) ilev with None => None | Some (keys, c) => draw_box_list t ibox c (Some keys) "orange" None (rnd (6 + ilev)) end)
      (fun l => entries (fst (nth l (from_sep_smaller_by_level tr) d)) (snd (nth l (from_sep_smaller_by_level tr) d)) ibox)
      (fun l => fst (nth l (from_sep_smaller_by_level tr) d)) "orange" None (seq 0 (nlevels t)) []) as [p3 [E S]].
    - intros l Hl. apply in_seq in Hl. rewrite (nth_error_nth' _ d) by lia. set (p := nth l (from_sep_smaller_by_level tr) d).
      assert (I : In p (from_sep_smaller_by_level tr)) by (apply nth_In; lia). destruct p as [keys c] eqn:Ep. cbn [fst snd].
      apply (list_shows t W); [exact (L3 _ I)|auto| |apply U|apply U].
      intros x X. apply RG. right. right. left. unfold list3_of. apply in_concat. eexists. split; [apply in_map; exact I|exact X].
    - exists p3. split; [exact E|]. rewrite <- L3n in S.
      rewrite (map_nth_all fst (from_sep_smaller_by_level tr) d) in S.
      rewrite (map_nth_all (fun p => entries (fst p) (snd p) ibox) (from_sep_smaller_by_level tr) d) in S. exact S. }
  destruct E3 as [p3 [E3 S3]].
  assert (E5 : exists p5, draw_optional t ibox (from_sep_close_smaller tr) (target_boxes tr) "orange" (rnd 2) = Some p5 /\
     shows ibox "orange" (Some ".") (match from_sep_close_smaller tr with Some _ => [target_boxes tr] | None => [] end) (list3_close_of tr ibox) p5).
  { unfold draw_optional, list3_close_of in *. destruct (from_sep_close_smaller tr) as [c|] eqn:EC.
    - apply (list_shows t W); [apply L3c; auto|auto| |apply U|apply U]. intros x X. apply RG. tauto.
    - exists []. split; auto. apply shows_nil. }
  destruct E5 as [p5 [E5 S5]].
  assert (E6 : exists p6, draw_optional t ibox (from_sep_close_bigger tr) (target_boxes tr) "purple" (rnd 4) = Some p6 /\
     shows ibox "purple" (Some ".") (match from_sep_close_bigger tr with Some _ => [target_boxes tr] | None => [] end) (list4_close_of tr ibox) p6).
  { unfold draw_optional, list4_close_of in *. destruct (from_sep_close_bigger tr) as [c|] eqn:EC.
    - apply (list_shows t W); [apply L4c; auto|auto| |apply U|apply U]. intros x X. apply RG. tauto.
    - exists []. split; auto. apply shows_nil. }
  destruct E6 as [p6 [E6 S6]].
  exists ([red_box t ibox] ++ p1 ++ p2 ++ p3 ++ p5 ++ p4 ++ p6). split.
  { unfold draw_box_lists. rewrite E1, E2, E3, E4, E5, E6. reflexivity. }
  assert (RB : scaled_box t ibox 1 (red_box t ibox)) by (apply draw_box_scaled; auto; reflexivity).
  destruct S1 as [A1 [B1 [C1 D1]]], S2 as [A2 [B2 [C2 D2]]], S3 as [A3 [B3 [C3 D3]]], S4 as [A4 [B4 [C4 D4]]], S5 as [A5 [B5 [C5 D5]]], S6 as [A6 [B6 [C6 D6]]].
  assert (R0 : forall c h, colored c h [red_box t ibox] = if String.eqb "red" c && option_string_eqb None h then [red_box t ibox] else []).
  { intros c h. unfold colored. cbn [filter look red_box draw_box fill facecolor hatch option_string_eqb]. cbn [andb].
    destruct (String.eqb "red" c && option_string_eqb None h)%bool eqn:E; cbn [option_string_eqb] in *; rewrite E; reflexivity. }
  rewrite !colored_app, !R0. cbn [String.eqb Ascii.eqb Bool.eqb option_string_eqb andb].
  assert (NE : forall a b : string, String.eqb a b = false -> forall h h' : option string, (a, h) <> (b, h')).
  { intros a b E h h' X. injection X as -> _. rewrite String.eqb_refl in E. discriminate. }
  rewrite (B1 "red" None), (B2 "red" None), (B3 "red" None), (B4 "red" None), (B5 "red" None), (B6 "red" None) by (apply NE; reflexivity).
  rewrite (B2 "green" None), (B3 "green" None), (B4 "green" None), (B5 "green" None), (B6 "green" None) by (apply NE; reflexivity).
  rewrite (B1 "blue" None), (B3 "blue" None), (B4 "blue" None), (B5 "blue" None), (B6 "blue" None) by (apply NE; reflexivity).
  rewrite (B1 "orange" None), (B2 "orange" None), (B4 "orange" None), (B6 "orange" None) by (apply NE; reflexivity).
  rewrite (B5 "orange" None) by discriminate.
  rewrite (B1 "orange" (Some ".")), (B2 "orange" (Some ".")), (B4 "orange" (Some ".")), (B6 "orange" (Some ".")) by (apply NE; reflexivity).
  rewrite (B3 "orange" (Some ".")) by discriminate.
  rewrite (B1 "purple" None), (B2 "purple" None), (B3 "purple" None), (B5 "purple" None) by (apply NE; reflexivity).
  rewrite (B6 "purple" None) by discriminate.
  rewrite (B1 "purple" (Some ".")), (B2 "purple" (Some ".")), (B3 "purple" (Some ".")), (B5 "purple" (Some ".")) by (apply NE; reflexivity).
  rewrite (B4 "purple" (Some ".")) by discriminate.
  cbn [app]. rewrite !app_nil_r.
  split; [exists (red_box t ibox); split; auto|].
  split; [exact A1|]. split; [exact A2|]. split; [exact A3|]. split; [exact A5|]. split; [exact A4|]. split; [exact A6|].
  assert (OL : outlines (red_box t ibox :: p1 ++ p2 ++ p3 ++ p5 ++ p4 ++ p6) = outlines p1 ++ outlines p2 ++ outlines p3 ++ outlines p5 ++ outlines p4 ++ outlines p6).
  { change (red_box t ibox :: p1 ++ p2 ++ p3 ++ p5 ++ p4 ++ p6) with ([red_box t ibox] ++ p1 ++ p2 ++ p3 ++ p5 ++ p4 ++ p6). rewrite !outlines_app. reflexivity. }
  rewrite OL. split.
  - repeat (apply Forall_app; split; [assumption|]). assumption.
  - unfold row_keys. rewrite !filter_app, !app_length. congruence.
Qed.
End Lists.

Section Built.
Variable t : tree.
Hypothesis W : wf_tree t.
Hypothesis F : wf_flags t.
Variable P : trav_params.
Hypothesis WP : wf_params t P.
Variable tr : traversal.
Hypothesis Htr : build_traversal t P = Some tr.
Let Hn : 1 <= well_sep_is_n_away P := proj1 WP.

Lemma keyed_map keys (g : nat -> list nat) : NoDup keys -> keyed keys (csr_of (map g keys)).
Proof. intros N. split; auto. rewrite starts_length, map_length. auto. Qed.

Lemma range_of ibox : forall x, In x (list1_of tr ibox) \/ In x (list2_of tr ibox) \/ In x (list3_of tr ibox) \/ In x (list3_close_of tr ibox) \/ In x (list4_of tr ibox) \/ In x (list4_close_of tr ibox) -> x < nboxes t.
Proof.
  assert (N : forall keys c x, In x (entries keys c ibox) -> In ibox keys).
  { intros keys c x X. destruct (in_dec Nat.eq_dec ibox keys); auto. rewrite entries_notin in X by auto. elim X. }
  intros x [X|[X|[X|[X|[X|X]]]]].
  - assert (I := N _ _ _ X). apply (list1_spec t W F P WP tr Htr ibox I) in X. tauto.
  - assert (I := N _ _ _ X). apply (list2_spec t W P WP tr Htr ibox I) in X. tauto.
  - assert (I : In ibox (target_boxes tr)).
    { unfold list3_of in X. apply in_concat in X. destruct X as [l [Hl X]]. apply in_map_iff in Hl. destruct Hl as [p [<- Hp]]. apply N in X.
      rewrite (tr_eq t W P WP tr Htr) in Hp. cbn [from_sep_smaller_by_level the_traversal] in Hp. apply in_map_iff in Hp. destruct Hp as [l [<- _]].
      unfold eliminate_empty in X. cbn [fst] in X. apply in_map_iff in X. destruct X as [[u v] [<- X]]. apply filter_In in X. destruct X as [X _].
      apply in_combine_l in X. rewrite (tr_tb t W P WP tr Htr). auto. }
    destruct (list3_of_level t W P WP tr Htr ibox x X) as [l [Hl X']]. assert (IB := tr_tb_range t W P WP tr Htr ibox I).
    rewrite (tr_tb t W P WP tr Htr) in I. rewrite (tr_eq t W P WP tr Htr) in X'. apply count_In in X'. rewrite list3_level_of_count in X' by auto.
    apply count_In in X'. apply in_pick in X'. destruct X' as [p [Hp <-]]. eapply list3_in_range; eauto.
  - assert (I : In ibox (target_boxes tr)) by (unfold list3_close_of in X; destruct (from_sep_close_smaller tr); [apply N in X; auto|elim X]).
    apply (close3_range t W P WP tr Htr ibox x I X).
  - assert (I := N _ _ _ X). apply (list4_of_in_range t W P WP tr Htr ibox x I X).
  - assert (I : In ibox (target_boxes tr)) by (unfold list4_close_of in X; destruct (from_sep_close_bigger tr); [apply N in X; auto|elim X]).
    apply (close4_range t W P WP tr Htr ibox x I X).
Qed.

Lemma NDtb : NoDup (target_boxes tr).
Proof. rewrite (tr_tb t W P WP tr Htr). apply tb_NoDup. Qed.
Lemma NDttpb : NoDup (target_or_target_parent_boxes tr).
Proof. rewrite (tr_ttpb t W P WP tr Htr). apply ttpb_NoDup. Qed.

Lemma built_listed ibox : listed t tr ibox.
Proof.
  assert (A := NDtb). assert (B := NDttpb). assert (E := tr_eq t W P WP tr Htr).
  constructor.
  - rewrite E in *. apply keyed_map. exact A.
  - rewrite E in *. apply keyed_map. exact B.
  - rewrite E in *. cbn [from_sep_smaller_by_level the_traversal]. split; [rewrite map_length, seq_length; auto|].
    intros p Hp. apply in_map_iff in Hp. destruct Hp as [l [<- _]]. unfold eliminate_empty. rewrite combine_map_r, filter_map_swap, !map_map. cbn [fst snd].
    rewrite map_id. apply keyed_map. apply NoDup_filter. exact A.
  - intros c H. rewrite E in *. cbn [from_sep_close_smaller the_traversal] in H. destruct (targets_have_extent _); [|discriminate]. injection H as <-. apply keyed_map. exact A.
  - rewrite E in *. apply keyed_map. exact B.
  - intros c H. rewrite E in *. cbn [from_sep_close_bigger the_traversal] in H. destruct (targets_have_extent _); [|discriminate]. injection H as <-.
    unfold merge_lists. rewrite map_map. apply keyed_map. exact A.
  - apply range_of.
Qed.

Lemma merged_listed tr' ibox : merge_close_lists tr = Some tr' -> listed t tr' ibox.
Proof.
  intros M. assert (L := built_listed ibox). destruct L as [L1 L2 L3 L3c L4 L4c RG]. unfold merge_close_lists in M.
  destruct (from_sep_close_smaller tr) as [cs|] eqn:EC; [|discriminate]. destruct (from_sep_close_bigger tr) as [cb|] eqn:ED; [|discriminate]. injection M as <-.
  constructor; cbn [target_boxes neighbor_source_boxes target_or_target_parent_boxes from_sep_siblings from_sep_smaller_by_level from_sep_close_smaller from_sep_bigger from_sep_close_bigger]; auto; try discriminate.
  - split; [exact NDtb|]. unfold merge_lists. rewrite starts_length, map_length, seq_length. auto.
  - intros x [X|[X|[X|[X|[X|X]]]]]; try (apply RG; auto; tauto).
    + assert (I : In ibox (target_boxes tr)).
      { destruct (in_dec Nat.eq_dec ibox (target_boxes tr)); auto. unfold list1_of in X. cbn [target_boxes neighbor_source_boxes] in X. rewrite entries_notin in X by auto. elim X. }
      destruct (In_nth _ _ 0 I) as [k [Hk Ek]]. unfold list1_of in X. cbn [target_boxes neighbor_source_boxes] in X. rewrite <- Ek, (entries_row _ _ k NDtb Hk), merge_row in X by auto.
      cbn [map List.concat] in X. rewrite app_nil_r, !in_app_iff in X. apply RG. unfold list1_of, list3_close_of, list4_close_of. rewrite EC, ED, <- Ek, !(entries_row _ _ k NDtb Hk). tauto.
    + cbn [list3_close_of from_sep_close_smaller] in X. elim X.
    + cbn [list4_close_of from_sep_close_bigger] in X. elim X.
Qed.
End Built.

(** ** The TikZ document *)
Section Tikz.
Variable t : tree.
Hypothesis W : wf_tree t.
Hypothesis D2 : dim t = 2.
Hypothesis SMALL : nboxes t <= 4000.

Definition box_lines (b : nat) : list tikz_line := match tikz_box t b with Some l => l | None => [] end.
Lemma box_lines_ok b : b < nboxes t -> exists r, int_to_roman (Z.of_nat b) = Some r /\ letters_only r = true /\ tikz_box t b = Some (box_lines b) /\
  box_lines b = [Coordinate (append "boxl" (dec b)) (extent_low t b 0) (extent_low t b 1);
     Coordinate (append "boxh" (dec b)) (extent_high t b 0) (extent_high t b 1);
     Coordinate (append "boxc" (dec b)) (inject_Z (box_center t b 0)) (inject_Z (box_center t b 1));
     Def (append "boxsize" r) (VNum (extent_high t b 0%nat - extent_low t b 0%nat)%Q);
     Def (append "boxlevel" r) (VInt (Z.of_nat (box_level t b)))].
Proof.
  intros H. destruct (roman_name b) as [r [E L]]; [apply (Nat.lt_le_trans _ _ _ H SMALL)|]. exists r. unfold box_lines, tikz_box. rewrite E. auto.
Qed.

Definition preamble : list tikz_line := [Def "nboxes" (VInt (Z.of_nat (nboxes t))); Def "lastboxnr" (VInt (Z.of_nat (nboxes t) - 1))].
Definition postamble : list tikz_line :=
  [Def "boxpath" (VText "(boxl#1) rectangle (boxh#1)");
   Def "drawboxes" (VText "\foreach \ibox in {0,...,\lastboxnr}{\draw \boxpath{\ibox};}");
   Def "drawboxnrs" (VText "\foreach \ibox in {0,...,\lastboxnr}{\node [font=\tiny] at (boxc\ibox) {\ibox};}")].

Lemma tikz_eq : get_tikz_for_tree t = Some (preamble ++ List.concat (map box_lines (seq 0 (nboxes t))) ++ postamble).
Proof.
  unfold get_tikz_for_tree. rewrite D2. cbn [Nat.eqb negb].
  rewrite (run_all_ok (tikz_box t) box_lines); [reflexivity|]. intros b Hb. apply in_seq in Hb. destruct (box_lines_ok b) as [r [_ [_ [E _]]]]; [lia|auto].
Qed.

Lemma doc_in l : In l (preamble ++ List.concat (map box_lines (seq 0 (nboxes t))) ++ postamble) <->
  In l preamble \/ In l postamble \/ exists b, b < nboxes t /\ In l (box_lines b).
Proof.
  rewrite !in_app_iff, in_concat. split.
  - intros [H|[[x [H1 H2]]|H]]; auto. right. right. apply in_map_iff in H1. destruct H1 as [b [<- Hb]]. apply in_seq in Hb. exists b. split; [lia|auto].
  - intros [H|[H|[b [Hb H]]]]; auto. right. left. exists (box_lines b). split; auto. apply in_map. apply in_seq. lia.
Qed.

Notation doc := (preamble ++ List.concat (map box_lines (seq 0 (nboxes t))) ++ postamble).

Lemma no_coordinate n x y : In (Coordinate n x y) preamble \/ In (Coordinate n x y) postamble -> False.
Proof. unfold preamble, postamble. cbn [In]. intros [H|H]; repeat (destruct H as [H|H]; [discriminate|]); exact H. Qed.

Ltac names := cbn [append] in *; congruence.

Lemma coordinate_names b : b < nboxes t ->
  coordinate_is doc (append "boxl" (dec b)) (inject_Z (box_center t b 0 - box_rad t b)) (inject_Z (box_center t b 1 - box_rad t b)) /\
  coordinate_is doc (append "boxh" (dec b)) (inject_Z (box_center t b 0 + box_rad t b)) (inject_Z (box_center t b 1 + box_rad t b)) /\
  coordinate_is doc (append "boxc" (dec b)) (inject_Z (box_center t b 0)) (inject_Z (box_center t b 1)).
Proof.
  intros H. destruct (box_lines_ok b H) as [r [R [L [_ E]]]].
  assert (U : forall n x y, In (Coordinate n x y) doc -> exists b', b' < nboxes t /\
     (n = append "boxl" (dec b') /\ x = extent_low t b' 0 /\ y = extent_low t b' 1 \/
      n = append "boxh" (dec b') /\ x = extent_high t b' 0 /\ y = extent_high t b' 1 \/
      n = append "boxc" (dec b') /\ x = inject_Z (box_center t b' 0) /\ y = inject_Z (box_center t b' 1))).
  { intros n x y I. apply doc_in in I. destruct I as [I|[I|[b' [Hb I]]]]; [elim (no_coordinate n x y); auto|elim (no_coordinate n x y); auto|].
    exists b'. split; auto. destruct (box_lines_ok b' Hb) as [r' [_ [_ [_ E']]]]. rewrite E' in I. cbn [In] in I.
    destruct I as [I|[I|[I|[I|[I|[]]]]]]; try discriminate; injection I as <- <- <-; auto. }
  assert (X : forall l, In l (box_lines b) -> In l doc) by (intros l Hl; apply doc_in; right; right; eauto).
  split; [|split]; split.
  - do 2 eexists. apply X. rewrite E. left. reflexivity.
  - intros x y I. destruct (U _ _ _ I) as [b' [Hb [[N [-> ->]]|[[N _]|[N _]]]]]; try (cbn [append] in N; discriminate).
    apply append_inj, dec_inj in N. subst b'. split; apply low_eq; auto.
  - do 2 eexists. apply X. rewrite E. right. left. reflexivity.
  - intros x y I. destruct (U _ _ _ I) as [b' [Hb [[N _]|[[N [-> ->]]|[N _]]]]]; try (cbn [append] in N; discriminate).
    apply append_inj, dec_inj in N. subst b'. split; apply high_eq; auto.
  - do 2 eexists. apply X. rewrite E. right. right. left. reflexivity.
  - intros x y I. destruct (U _ _ _ I) as [b' [Hb [[N _]|[[N _]|[N [-> ->]]]]]]; try (cbn [append] in N; discriminate).
    apply append_inj, dec_inj in N. subst b'. split; reflexivity.
Qed.

Lemma macros n v : In (Def n v) doc ->
  In (Def n v) preamble \/ In (Def n v) postamble \/
  exists b r, b < nboxes t /\ int_to_roman (Z.of_nat b) = Some r /\ letters_only r = true /\
   (n = append "boxsize" r /\ v = VNum (extent_high t b 0%nat - extent_low t b 0%nat)%Q \/ n = append "boxlevel" r /\ v = VInt (Z.of_nat (box_level t b))).
Proof.
  intros I. apply doc_in in I. destruct I as [I|[I|[b' [Hb I]]]]; auto. right. right.
  destruct (box_lines_ok b' Hb) as [r' [R' [L' [_ E']]]]. exists b', r'. rewrite E' in I. cbn [In] in I. split; auto. split; auto. split; auto.
  destruct I as [I|[I|[I|[I|[I|[]]]]]]; try discriminate; injection I as <- <-; auto.
Qed.

Lemma macro_names b : b < nboxes t -> exists r, int_to_roman (Z.of_nat b) = Some r /\
  macro_is doc (append "boxsize" r) (VNum (2 * inject_Z (box_rad t b))) /\
  macro_is doc (append "boxlevel" r) (VInt (Z.of_nat (box_level t b))).
Proof.
  intros H. destruct (box_lines_ok b H) as [r [R [L [_ E]]]]. exists r. split; auto.
  assert (X : forall l, In l (box_lines b) -> In l doc) by (intros l Hl; apply doc_in; right; right; eauto).
  assert (PP : forall c n v, In (Def (append (String "b" (String "o" (String "x" c))) n) v) preamble \/ In (Def (append (String "b" (String "o" (String "x" c))) n) v) postamble ->
     append c n = "path").
  { intros c n v. unfold preamble, postamble. cbn [In append].
    intros [I|I]; repeat (destruct I as [I|I]; [injection I; intros; try discriminate; try congruence|]); elim I. }
  split; split.
  - eexists. apply X. rewrite E. do 3 right. left. reflexivity.
  - intros w I. destruct (macros _ _ I) as [J|[J|[b' [r' [Hb [R' [_ [[N ->]|[N ->]]]]]]]]].
    + assert (Y := PP "size" r w (or_introl J)). discriminate.
    + assert (Y := PP "size" r w (or_intror J)). discriminate.
    + apply append_inj in N. subst r'. assert (b' = b) by (assert (Z.of_nat b' = Z.of_nat b) by (apply (roman_inj _ _ r); auto); lia). subst b'.
      cbn [value_eq]. rewrite high_eq, low_eq by auto. unfold Zminus. rewrite !inject_Z_plus, inject_Z_opp. ring.
    + cbn [append] in N. discriminate.
  - eexists. apply X. rewrite E. do 4 right. left. reflexivity.
  - intros w I. destruct (macros _ _ I) as [J|[J|[b' [r' [Hb [R' [_ [[N ->]|[N ->]]]]]]]]].
    + assert (Y := PP "level" r w (or_introl J)). discriminate.
    + assert (Y := PP "level" r w (or_intror J)). discriminate.
    + cbn [append] in N. discriminate.
    + apply append_inj in N. subst r'. assert (b' = b) by (assert (Z.of_nat b' = Z.of_nat b) by (apply (roman_inj _ _ r); auto); lia). subst b'. reflexivity.
Qed.

Lemma fixed_macro n v : In (Def n v) (preamble ++ postamble) -> macro_is doc n v.
Proof.
  intros I. assert (D : forall n' v', In (Def n' v') preamble \/ In (Def n' v') postamble -> In (Def n' v') doc) by (intros; apply doc_in; tauto).
  split; [exists v; apply D; apply in_app_iff; auto|]. intros w J.
  assert (K : In (Def n w) (preamble ++ postamble)).
  { apply in_app_iff. destruct (macros _ _ J) as [K|[K|[b [r [_ [_ [_ [[-> _]|[-> _]]]]]]]]]; auto; exfalso;
    unfold preamble, postamble in I; cbn [In append app] in I; repeat (destruct I as [I|I]; [discriminate|]); exact I. }
  unfold preamble, postamble in I, K. cbn [In app] in I, K.
  destruct I as [I|[I|[I|[I|[I|[]]]]]]; injection I as <- <-; destruct K as [K|[K|[K|[K|[K|[]]]]]]; try discriminate K; injection K as <-; reflexivity.
Qed.

Lemma letters_app a b : letters_only (append a b) = letters_only a && letters_only b.
Proof. induction a; cbn [append letters_only]; auto. rewrite IHa, andb_assoc. auto. Qed.
Lemma macro_letters n v : In (Def n v) doc -> letters_only n = true.
Proof.
  intros I. destruct (macros _ _ I) as [K|[K|[b [r [_ [_ [L [[-> _]|[-> _]]]]]]]]].
  - unfold preamble in K. cbn [In] in K. destruct K as [K|[K|[]]]; injection K as <- _; reflexivity.
  - unfold postamble in K. cbn [In] in K. destruct K as [K|[K|[K|[]]]]; injection K as <- _; reflexivity.
  - rewrite letters_app, L. reflexivity.
  - rewrite letters_app, L. reflexivity.
Qed.
End Tikz.
