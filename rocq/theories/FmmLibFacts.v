(** The arguments passed to pyfmmlib are those of the boxes. *)
From Coq Require Import List Arith ZArith Lia Bool QArith Qcanon.
From Verif Require Import Base Tree Spec TreeFacts Traversal SpecTraversal TraversalLists Coverage
  CoverageThm ListFacts LevelStarts MergeFacts SpecClasses Fmm SpecFmm FmmFacts FmmThm FmmGen SpecFmmGen FmmGenFacts FmmGenThm
  Layout FmmLib SpecFmmLib.
Import ListNotations.
Local Open Scope nat_scope.

(** ** Lists *)
Lemma slice_positions {A} (l : list A) d a b : b <= length l -> slice l a b = map (fun k => nth k l d) (seq a (b - a)).
Proof.
  intros H. unfold slice. apply (nth_ext _ _ d d).
  - rewrite firstn_length, skipn_length, map_length, seq_length. lia.
  - intros i Hi. rewrite firstn_length, skipn_length in Hi.
    rewrite (nth_indep _ d (nth 0 l d)) by (rewrite firstn_length, skipn_length; lia).
    rewrite (nth_indep (map _ _) d (nth 0 l d)) by (rewrite map_length, seq_length; lia).
    rewrite (map_nth (fun k => nth k l d)), seq_nth by lia.
    rewrite <- (firstn_skipn a l) at 3. rewrite app_nth2 by (rewrite firstn_length; lia). rewrite firstn_length.
    replace (a + i - Nat.min a (length l)) with i by lia.
    rewrite <- (firstn_skipn (b - a) (skipn a l)) at 2. rewrite app_nth1 by (rewrite firstn_length, skipn_length; lia).
    apply nth_indep. rewrite firstn_length, skipn_length. lia.
Qed.
Lemma run_all_ok {A B} (f : A -> option B) g l : (forall x, In x l -> f x = Some (g x)) -> run_all f l = Some (map g l).
Proof.
  induction l as [|x l IH]; intros H; simpl; auto. rewrite H by (left; auto). rewrite IH; auto. intros; apply H; right; auto.
Qed.
Lemma run_all_map {A B C} (f : B -> option C) (h : A -> B) l : run_all f (map h l) = run_all (fun x => f (h x)) l.
Proof. induction l; simpl; auto. rewrite IHl. auto. Qed.
Lemma combine_maps {A B C} (f : A -> B) (g : A -> C) l : combine (map f l) (map g l) = map (fun x => (f x, g x)) l.
Proof. induction l; simpl; congruence. Qed.
Lemma map_repeat_seq {A} (x : A) s n : repeat x n = map (fun _ => x) (seq s n).
Proof. revert s. induction n; intros; simpl; f_equal; auto. Qed.
Lemma repeat_nth {A} (x d : A) n i : i < n -> nth i (repeat x n) d = x.
Proof. revert i. induction n; intros [|i] H; simpl; auto; try lia. apply IHn. lia. Qed.
Lemma repeat_nth_error {A} (x : A) n i : i < n -> nth_error (repeat x n) i = Some x.
Proof. revert i. induction n; intros [|i] H; simpl; auto; try lia. apply IHn. lia. Qed.
Lemma nth_error_at {A} (l : list A) d i : i < length l -> nth_error l i = Some (nth i l d).
Proof. intros H. apply nth_error_nth'. auto. Qed.
Lemma slice_length {A} (l : list A) a b : b <= length l -> length (slice l a b) = b - a.
Proof. intros. unfold slice. rewrite firstn_length, skipn_length. lia. Qed.
Lemma slice_nth_error {A} (l : list A) d a b i : a + i < b -> b <= length l -> nth_error (slice l a b) i = Some (nth (a + i) l d).
Proof.
  intros H1 H2. rewrite (slice_positions l d) by auto. rewrite (nth_error_at _ d) by (rewrite map_length, seq_length; lia). f_equal.
  rewrite (nth_indep _ d (nth 0 l d)) by (rewrite map_length, seq_length; lia).
  rewrite (map_nth (fun k => nth k l d)), seq_nth by lia. auto.
Qed.
Lemma fold_left_same {A B} (f g : A -> B -> A) l a : (forall a x, In x l -> f a x = g a x) -> fold_left f l a = fold_left g l a.
Proof.
  revert a. induction l as [|x l IH]; intros a H; simpl; auto. rewrite H by (left; auto). apply IH. intros; apply H; right; auto.
Qed.
Lemma fold_combine {A B} (g : B -> nat * A -> B) (l : list nat) (f : nat -> A) n s : n = length l ->
  fold_left g (combine l (map f (seq 0 n))) s = fold_left (fun s k => g s (nth k l 0, f k)) (seq 0 n) s.
Proof.
  intros ->. assert (G : forall l o s, fold_left g (combine l (map f (seq o (length l)))) s =
    fold_left (fun s k => g s (nth (k - o) l 0, f k)) (seq o (length l)) s).
  { clear. induction l as [|x l IH]; intros o s; simpl; auto. rewrite Nat.sub_diag. rewrite IH. apply fold_left_same.
    intros a k Hk. apply in_seq in Hk. replace (k - o) with (S (k - S o)) by lia. reflexivity. }
  rewrite G. apply fold_left_same. intros a k _. rewrite Nat.sub_0_r. auto.
Qed.
Lemma fold_opt_ok {A B} (f : B -> A -> option B) g l b : (forall b x, In x l -> f b x = Some (g b x)) -> fold_opt f l b = Some (fold_left g l b).
Proof.
  revert b. induction l as [|x l IH]; intros b H; simpl; auto. rewrite H by (left; auto). apply IH. intros; apply H; right; auto.
Qed.

(** ** Arguments in CSR form *)
(** starts and lists describe n rows *)
Definition rows_ok (c : csr) (n : nat) : Prop :=
  length (starts c) = S n /\
  forall i, i < n -> nth i (starts c) 0 <= nth (S i) (starts c) 0 <= length (lists c).
Lemma rows_ok_of ll : rows_ok (csr_of ll) (length ll).
Proof.
  split; [unfold csr_of; cbn [starts]; rewrite prefix_from_length, map_length; auto|].
  intros i Hi. unfold csr_of. cbn [starts lists]. rewrite !prefix_from_nth by (rewrite map_length; lia). rewrite !firstn_map.
  cbn [plus]. assert (T : forall (l : list (list nat)), length (concat l) = nsum (map (@length nat) l)).
  { induction l; simpl; auto. rewrite app_length, IHl. auto. }
  rewrite T. assert (A : forall a b, nsum (a ++ b) = nsum a + nsum b) by (induction a; intros; simpl; auto; rewrite IHa; lia).
  assert (E : nsum (map (@length nat) ll) = nsum (map (@length nat) (firstn (S i) ll)) + nsum (map (@length nat) (skipn (S i) ll))).
  { rewrite <- A, <- map_app, firstn_skipn. auto. }
  split; [|lia]. clear A T E. revert ll Hi. induction i as [|i IH]; intros [|x ll] Hi; cbn [length] in Hi; try lia.
  - cbn. lia.
  - specialize (IH ll ltac:(lia)). change (firstn (S (S i)) (x :: ll)) with (x :: firstn (S i) ll). change (firstn (S i) (x :: ll)) with (x :: firstn i ll).
    cbn [map]. change (length x + nsum (map (@length nat) (firstn i ll)) <= length x + nsum (map (@length nat) (firstn (S i) ll))). lia.
Qed.
Lemma csr_get_positions c n i : rows_ok c n -> i < n ->
  csr_get c i = map (fun k => nth k (lists c) 0) (seq (nth i (starts c) 0) (nth (S i) (starts c) 0 - nth i (starts c) 0)).
Proof. intros [_ H] Hi. apply (slice_positions (lists c) 0 (nth i (starts c) 0) (nth (S i) (starts c) 0)). apply H; auto. Qed.

(** row k of the rows lo, ..., hi - 1, for offsets that are as many as list entries *)
Lemma arg_row_level {X} (read : Z -> option X) (offsets : list Z) (h : nat -> X) c n lo hi k :
  rows_ok c n -> hi <= n -> lo + k < hi -> length offsets = length (lists c) ->
  (forall e, nth (lo + k) (starts c) 0 <= e < nth (S (lo + k)) (starts c) 0 -> read (nth e offsets 0%Z) = Some (h e)) ->
  arg_row read offsets (slice (starts c) lo (hi + 1)) k =
  Some (map h (seq (nth (lo + k) (starts c) 0) (nth (S (lo + k)) (starts c) 0 - nth (lo + k) (starts c) 0))).
Proof.
  intros R Hh Hk LO Hr. pose proof R as [RL RR]. specialize (RR (lo + k) ltac:(lia)). unfold arg_row.
  rewrite (slice_nth_error _ 0) by lia. rewrite (slice_nth_error _ 0) by lia. replace (lo + S k) with (S (lo + k)) by lia.
  destruct (Nat.leb_spec (nth (lo + k) (starts c) 0) (nth (S (lo + k)) (starts c) 0)); [|lia].
  destruct (Nat.leb_spec (nth (S (lo + k)) (starts c) 0) (length offsets)); [|lia]. cbn [andb].
  rewrite (slice_positions offsets 0%Z) by lia. rewrite run_all_map. apply run_all_ok. intros e He. apply in_seq in He. apply Hr. lia.
Qed.
Lemma nsum_firstn_S l k : nsum (firstn (S k) l) = nsum (firstn k l) + nth k l 0.
Proof.
  revert k. induction l as [|x l IH]; intros [|k]; [reflexivity|reflexivity|cbn; lia|].
  specialize (IH k). change (x + nsum (firstn (S k) l) = x + nsum (firstn k l) + nth k l 0). lia.
Qed.
Lemma nsum_firstn_le l k : nsum (firstn k l) <= nsum l.
Proof.
  revert k. induction l as [|x l IH]; intros [|k]; [cbn; lia|cbn; lia|cbn; lia|].
  specialize (IH k). change (x + nsum (firstn k l) <= x + nsum l). lia.
Qed.
(** rscale1: the same number in all rows *)
Lemma arg_row_const (r : Qc) cnts k : k < length cnts ->
  arg_row (read_array (length (repeat r (nsum cnts))) (fun j => nth j (repeat r (nsum cnts)) 0%Qc))
    (map Z.of_nat (seq 0 (nsum cnts))) (prefix_from 0 cnts) k = Some (repeat r (nth k cnts 0)).
Proof.
  intros Hk. unfold arg_row. rewrite !(nth_error_at _ 0) by (rewrite prefix_from_length; lia).
  rewrite !prefix_from_nth by lia. cbn [plus].
  assert (S1 : nsum (firstn (S k) cnts) = nsum (firstn k cnts) + nth k cnts 0).
  { apply nsum_firstn_S. }
  assert (S2 : nsum (firstn (S k) cnts) <= nsum cnts).
  { apply nsum_firstn_le. }
  destruct (Nat.leb_spec (nsum (firstn k cnts)) (nsum (firstn (S k) cnts))); [|lia].
  destruct (Nat.leb_spec (nsum (firstn (S k) cnts)) (length (map Z.of_nat (seq 0 (nsum cnts))))) as [|C]; [|rewrite map_length, seq_length in C; lia].
  cbn [andb]. rewrite (slice_positions _ 0%Z) by (rewrite map_length, seq_length; lia).
  rewrite run_all_map, (map_repeat_seq r (nsum (firstn k cnts)) (nth k cnts 0)). rewrite S1.
  replace (nsum (firstn k cnts) + nth k cnts 0 - nsum (firstn k cnts)) with (nth k cnts 0) by lia.
  apply run_all_ok. intros e He. apply in_seq in He. change 0%Z with (Z.of_nat 0). rewrite map_nth, seq_nth by lia. cbn [plus].
  unfold read_array. rewrite repeat_length. destruct (Z.leb_spec 0 (Z.of_nat e)); [|lia].
  destruct (Z.ltb_spec (Z.of_nat e) (Z.of_nat (nsum cnts))); [|lia]. cbn [andb]. rewrite Nat2Z.id, repeat_nth by lia. auto.
Qed.

(** ** The stages *)
Section Refine.
Context {pt Wt D ang rmat : Type} {M L V : cmonoid}.
Notation str := (strength Wt D).
Variable lib : library pt str ang rmat M L V.
Hypothesis LIN : linear_library lib.
Variable wr : wrangler ang D.
Variable complex_dipole : Wt -> D -> Wt.
Variable t : tree.
Hypothesis W : wf_tree t.
Variable p : particles.
Variable starts : nat -> nat.
Hypothesis LS : level_sorted t starts.
Hypothesis LE : starts (nlevels t) = nboxes t.
Variables box_centers sources targets : nat -> pt.
Variable angle_between : nat -> nat -> ang.
Variable finish : V -> V.
Notation ord l := (nth l (wr_level_orders wr) 0).
Notation lev := (box_level t).
Notation sst := (source_strength wr complex_dipole).

(** arguments by level, as they are passed *)
Definition level_frame (l b : nat) : frame pt := mkFrame (box_centers b) (level_to_rscale wr l) (ord l).
Definition level_rotation (l A B : nat) : option (rotation rmat) :=
  if uses_rotations (rotmat_order wr) (ord l)
  then let ldm := Z.to_nat (rotmat_order wr) in
       Some (mkRot ldm (ord l) (ord l) (rotmat_builder lib ldm (angle_between A B)) (rotmat_builder lib ldm (negated lib (angle_between A B))))
  else None.
Definition level_routines : routines str M L V := {|
  p2m := fun l b j w => formmp lib (level_frame l b) [sources j] [w];
  m2m := fun sl c tl b m => mpmp lib (radius_arg wr tl) (level_frame sl c) m (level_frame tl b);
  m2l := fun l src tgt m => mploc lib (level_rotation l src tgt) (radius_arg wr l) (level_frame l src) m (level_frame l tgt);
  m2p := fun l b i m => mpeval lib (level_frame l b) m (targets i);
  p2l := fun l b j w => formta lib (level_frame l b) [sources j] [w];
  l2l := fun sl src tl tgt x => locloc lib (radius_arg wr tl) (level_frame sl src) x (level_frame tl tgt);
  l2p := fun l b i x => taeval lib (level_frame l b) x (targets i);
  p2p := fun i j w => potall lib [sources j] [w] (targets i);
  finalize := finish |}.
Notation R := level_routines.
Lemma level_linear : linear R.
Proof. destruct LIN. split; intros; cbn; auto. Qed.
Lemma box_linear : linear (box_routines lib wr t box_centers sources targets angle_between finish).
Proof. destruct LIN. split; intros; cbn; auto. Qed.

Lemma form_multipoles_lib_eq ls sb w :
  form_multipoles_lib lib wr complex_dipole t p starts box_centers sources ls sb w =
  form_multipoles_gen _ _ _ _ R t p starts ls sb (sst w).
Proof.
  unfold form_multipoles_lib, form_multipoles_gen. apply fold_left_same. intros s l _. apply fold_left_same. intros s' b _.
  destruct (_ =? 0); auto. f_equal. rewrite (formmp_sum lib LIN) by (rewrite !map_length; auto). rewrite combine_maps, map_map. reflexivity.
Qed.
Lemma coarsen_multipoles_lib_eq ls spb mp :
  coarsen_multipoles_lib lib wr t starts box_centers ls spb mp = coarsen_multipoles_gen _ _ _ _ R t starts ls spb mp.
Proof. reflexivity. Qed.
Lemma eval_direct_lib_eq tb c w :
  eval_direct_lib lib wr complex_dipole p sources targets tb c w = eval_direct_gen _ _ _ _ R p tb c (sst w).
Proof.
  unfold eval_direct_lib, eval_direct_gen. apply fold_left_same. intros o x _. unfold out_add. apply fold_left_same. intros o' i _.
  (* the two vectors agree at every target *)
  match goal with |- (fun j => if j =? i then op (o' i) ?a else _) = (fun j => if j =? i then op (o' i) ?b else _) => replace a with b; auto end.
  apply fold_left_same. intros v s _. destruct (_ =? 0); auto. f_equal. unfold direct_from.
  rewrite (potall_sum lib LIN) by (rewrite !map_length; auto). rewrite combine_maps, map_map. reflexivity.
Qed.
Lemma eval_multipoles_lib_eq bl mp :
  eval_multipoles_lib lib wr p starts box_centers targets bl mp = eval_multipoles_gen _ _ _ _ R p starts bl mp.
Proof. reflexivity. Qed.
Lemma refine_locals_lib_eq ls ttpb loc :
  refine_locals_lib lib wr t starts box_centers ls ttpb loc = refine_locals_gen _ _ _ _ R t starts ls ttpb loc.
Proof. reflexivity. Qed.
Lemma eval_locals_lib_eq ls tb loc :
  eval_locals_lib lib wr t p starts box_centers targets ls tb loc = eval_locals_gen _ _ _ _ R t p starts ls tb loc.
Proof. reflexivity. Qed.

Variables ls ttpb : list nat.
Hypothesis LD : level_delimited t ls ttpb.
Hypothesis LB : forall l, l < nlevels t -> nth l ls 0 <= nth (l + 1) ls 0 <= length ttpb.
Hypothesis TR : forall b, In b ttpb -> b < nboxes t.

Lemma ttpb_row l k : l < nlevels t -> nth l ls 0 + k < nth (l + 1) ls 0 ->
  nth k (slice ttpb (nth l ls 0) (nth (l + 1) ls 0)) 0 = nth (nth l ls 0 + k) ttpb 0 /\ lev (nth (nth l ls 0 + k) ttpb 0) = l /\
  nth (nth l ls 0 + k) ttpb 0 < nboxes t.
Proof.
  intros Hl Hk. destruct (LB l Hl) as [B1 B2].
  assert (SL : length (slice ttpb (nth l ls 0) (nth (l + 1) ls 0)) = nth (l + 1) ls 0 - nth l ls 0) by (apply slice_length; auto).
  destruct (nth_slice ttpb (nth l ls 0) (nth (l + 1) ls 0) k ltac:(lia)) as [E1 E2]. split; auto. rewrite <- E1.
  assert (I : In (nth k (slice ttpb (nth l ls 0) (nth (l + 1) ls 0)) 0) (slice ttpb (nth l ls 0) (nth (l + 1) ls 0))) by (apply nth_In; lia).
  revert I. generalize (nth k (slice ttpb (nth l ls 0) (nth (l + 1) ls 0)) 0). intros x I. rewrite (LD l Hl) in I. apply filter_In in I. destruct I as [I1 I2]. apply Nat.eqb_eq in I2. auto.
Qed.
Lemma level_slots x l : x < nboxes t -> lev x = l -> starts l <= x < starts (l + 1).
Proof.
  intros Hx E. pose proof (wf_level_lt t W x Hx). split; [apply LS; auto; lia|].
  destruct (Nat.eq_dec (l + 1) (nlevels t)) as [->|N]; [lia|].
  destruct (Nat.lt_ge_cases x (starts (l + 1))) as [|C]; auto. exfalso.
  apply LS in C; auto; lia.
Qed.

(** list 2 *)
Variable sib : csr.
Hypothesis SOK : rows_ok sib (length ttpb).
Hypothesis SLEV : forall i x, i < length ttpb -> In x (csr_get sib i) -> x < nboxes t /\ lev x = lev (nth i ttpb 0).
Hypothesis ROT : forall rd, wr_rotation_data wr = Some rd ->
  length (rotation_lists rd) = length (lists sib) /\
  forall i k, i < length ttpb -> nth i (Traversal.starts sib) 0 <= k < nth (S i) (Traversal.starts sib) 0 ->
    exists r, nth k (rotation_lists rd) None = Some r /\
      nth_error (rotation_angles rd) r = Some (angle_between (nth k (lists sib) 0) (nth i ttpb 0)).

Lemma m2l_level_eq mp loc l : l < nlevels t ->
  m2l_level_lib lib wr t starts box_centers ls ttpb sib mp loc l =
  Some (let lstart := nth l ls 0 in
        let tgt := slice ttpb lstart (nth (l + 1) ls 0) in
        fold_left (fun loc k => view_add starts loc l (nth k tgt 0)
            (msum (map (fun src => m2l R l src (nth k tgt 0) (view_get starts mp l src)) (csr_get sib (lstart + k)))))
          (seq 0 (length tgt)) loc).
Proof.
  intros Hl. destruct (LB l Hl) as [B1 B2]. unfold m2l_level_lib. cbv zeta.
  set (lo := nth l ls 0) in *. set (hi := nth (l + 1) ls 0) in *.
  destruct (Nat.eqb_spec lo hi) as [E|NE].
  { unfold slice. rewrite E, Nat.sub_diag. reflexivity. }
  set (rot := if uses_rotations _ _ then _ else _).
  assert (HR : exists ro, rot = Some ro /\
    match ro with
    | None => uses_rotations (rotmat_order wr) (ord l) = false
    | Some (ldm, n, n1, fs, bs, offs, st) => uses_rotations (rotmat_order wr) (ord l) = true /\
        ldm = Z.to_nat (rotmat_order wr) /\ n = ord l /\ n1 = ord l /\ st = slice (Traversal.starts sib) lo (hi + 1) /\
        exists rd, wr_rotation_data wr = Some rd /\
          fs = map (rotmat_builder lib ldm) (rotation_angles rd) /\
          bs = map (fun a => rotmat_builder lib ldm (negated lib a)) (rotation_angles rd) /\
          offs = map (fun r => match r with Some r => Z.of_nat r | None => (-1)%Z end) (rotation_lists rd)
    end).
  { unfold rot. destruct (uses_rotations _ _) eqn:U; [|exists None; split; auto].
    destruct (wr_rotation_data wr) as [rd|] eqn:ER.
    - destruct (ROT rd eq_refl) as [RL _]. rewrite RL, Nat.eqb_refl. eexists. split; [reflexivity|]. cbn.
      repeat (split; [reflexivity|]). exists rd. repeat (split; [reflexivity|]). reflexivity.
    - exfalso. unfold uses_rotations, rotmat_order in U. rewrite ER in U. apply Z.leb_le in U. lia. }
  destruct HR as [ro [-> HR]].
  set (cnts := map _ (seq 0 (hi - lo))).
  assert (CN : forall k, k < hi - lo -> nth k cnts 0 = nth (S (lo + k)) (Traversal.starts sib) 0 - nth (lo + k) (Traversal.starts sib) 0).
  { intros k Hk. unfold cnts. rewrite nth_map_seq by auto. replace (lo + k + 1) with (S (lo + k)) by lia. auto. }
  assert (CL : length cnts = hi - lo) by (unfold cnts; rewrite map_length, seq_length; auto).
  assert (SL : length (slice ttpb lo hi) = hi - lo) by (apply slice_length; auto).
  rewrite (run_all_ok _ (fun k => msum (map (fun src => m2l R l src (nth (lo + k) ttpb 0) (view_get starts mp l src)) (csr_get sib (lo + k))))).
  - f_equal. rewrite fold_combine by auto. rewrite SL. apply fold_left_same. intros s k Hk. apply in_seq in Hk. cbn [fst snd].
    destruct (ttpb_row l k Hl ltac:(fold lo hi; lia)) as [E1 _]. fold lo hi in E1. rewrite E1. reflexivity.
  - intros k Hk. apply in_seq in Hk. destruct (ttpb_row l k Hl ltac:(fold lo hi; lia)) as [T1 [T2 T3]]. fold lo hi in T1, T2, T3.
    set (B := nth (lo + k) ttpb 0) in *. set (a := nth (lo + k) (Traversal.starts sib) 0). set (b := nth (S (lo + k)) (Traversal.starts sib) 0).
    assert (ENT : forall e, a <= e < b -> let x := nth e (lists sib) 0 in x < nboxes t /\ lev x = l).
    { intros e He x. rewrite <- T2. apply (SLEV (lo + k)); [lia|]. rewrite (csr_get_positions sib (length ttpb)) by (auto; lia).
      apply in_map_iff. exists e. split; auto. apply in_seq. fold a b. lia. }
    assert (BL : b <= length (lists sib)) by (apply SOK; lia).
    unfold mploc_imany. unfold cnts at 1 2 3 4. fold cnts. rewrite arg_row_const by lia. rewrite CN by lia. fold a b.
    rewrite (arg_row_level _ _ (fun e => box_centers (nth e (lists sib) 0)) sib (length ttpb) lo hi k SOK); [|auto|lia|rewrite map_length; auto|].
    2:{ intros e He. fold a b in He. destruct (ENT e He) as [X1 X2]. change 0%Z with (Z.of_nat 0). rewrite map_nth. unfold read_array.
        destruct (Z.leb_spec 0 (Z.of_nat (nth e (lists sib) 0))); [|lia]. destruct (Z.ltb_spec (Z.of_nat (nth e (lists sib) 0)) (Z.of_nat (nboxes t))); [|lia].
        cbn [andb]. rewrite Nat2Z.id. auto. }
    rewrite (arg_row_level _ _ (fun e => view_get starts mp l (nth e (lists sib) 0)) sib (length ttpb) lo hi k SOK); [|auto|lia|rewrite map_length; auto|].
    2:{ intros e He. fold a b in He. destruct (ENT e He) as [X1 X2]. destruct (level_slots _ _ X1 X2) as [Y1 Y2].
        rewrite (nth_indep _ 0%Z ((fun b => Z.of_nat b - Z.of_nat (starts l))%Z 0)) by (rewrite map_length; lia).
        rewrite (map_nth (fun b => Z.of_nat b - Z.of_nat (starts l))%Z). unfold read_array.
        destruct (Z.leb_spec 0 (Z.of_nat (nth e (lists sib) 0) - Z.of_nat (starts l))); [|lia].
        destruct (Z.ltb_spec (Z.of_nat (nth e (lists sib) 0) - Z.of_nat (starts l)) (Z.of_nat (starts (l + 1) - starts l))); [|lia].
        cbn [andb]. unfold view_get. do 2 f_equal. lia. }
    fold a b.
    rewrite (repeat_nth_error _ (hi - lo)), (repeat_nth_error _ (hi - lo)) by lia.
    assert (EC : nth_error (map box_centers (slice ttpb lo hi)) k = Some (box_centers B)).
    { rewrite (nth_error_at _ (box_centers 0)) by (rewrite map_length; lia). rewrite map_nth, T1. auto. }
    rewrite EC.
    set (rots := match ro with Some _ => _ | None => _ end).
    assert (HRO : rots = Some (map (fun e => level_rotation l (nth e (lists sib) 0) B) (seq a (b - a)))).
    { unfold rots. destruct ro as [[[[[[[ldm n] n1] fs] bs] offs] st]|].
      - destruct HR as [U [-> [-> [-> [-> [rd [ER [-> [-> ->]]]]]]]]]. destruct (ROT rd ER) as [RL RK].
        assert (RK' : forall e, a <= e < b -> exists r, nth e (rotation_lists rd) None = Some r /\ r < length (rotation_angles rd) /\
          nth_error (rotation_angles rd) r = Some (angle_between (nth e (lists sib) 0) B)).
        { intros e He. destruct (RK (lo + k) e ltac:(lia) He) as [r [R1 R2]]. exists r. split; auto. split; auto. apply nth_error_Some. congruence. }
        assert (GEN : forall (g : ang -> rmat), arg_row (fun o => read_array (length (map g (rotation_angles rd))) (fun k => nth_error (map g (rotation_angles rd)) k) o)
            (map (fun r => match r with Some r => Z.of_nat r | None => (-1)%Z end) (rotation_lists rd)) (slice (Traversal.starts sib) lo (hi + 1)) k =
          Some (map (fun e => Some (g (angle_between (nth e (lists sib) 0) B))) (seq a (b - a)))).
        { intros g. rewrite (arg_row_level _ _ (fun e => Some (g (angle_between (nth e (lists sib) 0) B))) sib (length ttpb) lo hi k SOK); [auto|auto|lia|rewrite map_length; auto|].
          intros e He. fold a b in He. destruct (RK' e He) as [r [R1 [R2 R3]]].
          set (gz := fun r : option nat => match r with Some r => Z.of_nat r | None => (-1)%Z end).
          assert (EZ : nth e (map gz (rotation_lists rd)) 0%Z = Z.of_nat r).
          { rewrite (nth_indep _ 0%Z (gz None)) by (rewrite map_length; lia). rewrite (map_nth gz), R1. auto. }
          rewrite EZ. unfold read_array. rewrite map_length.
          destruct (Z.leb_spec 0 (Z.of_nat r)); [|lia]. destruct (Z.ltb_spec (Z.of_nat r) (Z.of_nat (length (rotation_angles rd)))); [|lia].
          cbn [andb]. rewrite Nat2Z.id, nth_error_map, R3. auto. }
        rewrite !GEN. rewrite combine_maps, map_map. unfold level_rotation. rewrite U. reflexivity.
      - unfold level_rotation. rewrite HR. f_equal. rewrite (map_repeat_seq _ a), map_map. reflexivity. }
    rewrite HRO.
    replace (match match radius_arg wr l with Some r => Some (repeat r (hi - lo)) | None => None end with
             | Some l0 => option_map Some (nth_error l0 k) | None => Some None end) with (Some (radius_arg wr l)).
    2:{ destruct (radius_arg wr l); auto. rewrite repeat_nth_error by lia. auto. }
    rewrite !map_length, seq_length, repeat_length, !Nat.eqb_refl. cbn [andb]. f_equal. rewrite op_0.
    rewrite (map_repeat_seq _ a), !combine_maps, map_map. rewrite (csr_get_positions sib (length ttpb)) by (auto; lia). fold a b.
    rewrite map_map. reflexivity.
Qed.

Lemma multipole_to_local_eq mp :
  multipole_to_local_lib lib wr t starts box_centers ls ttpb sib mp =
  Some (multipole_to_local_gen _ _ _ _ R t starts ls ttpb sib mp).
Proof.
  unfold multipole_to_local_lib, multipole_to_local_gen. apply fold_opt_ok. intros loc l Hl. apply in_seq in Hl.
  apply m2l_level_eq. lia.
Qed.

(** list 4 *)
Variable big : csr.
Hypothesis BOK : rows_ok big (length ttpb).
Hypothesis BR : forall i x, i < length ttpb -> In x (csr_get big i) -> x < nboxes t.
Hypothesis SRC : forall b, b < nboxes t -> box_source_counts_nonchild p b <> 0 ->
  box_source_starts p b + box_source_counts_nonchild p b <= nsources p.

Lemma read_source_slice {X} (f : nat -> X) b : b < nboxes t ->
  read_slice (nsources p) f (Z.of_nat (box_source_starts p b), box_source_counts_nonchild p b) = Some (map f (source_slice p b)).
Proof.
  intros Hb. unfold read_slice, source_slice. destruct (Nat.eqb_spec (box_source_counts_nonchild p b) 0) as [->|N]; auto.
  specialize (SRC b Hb N). destruct (Z.leb_spec 0 (Z.of_nat (box_source_starts p b))); [|lia].
  destruct (Z.leb_spec (Z.of_nat (box_source_starts p b) + Z.of_nat (box_source_counts_nonchild p b)) (Z.of_nat (nsources p))); [|lia].
  cbn [andb]. rewrite Nat2Z.id. auto.
Qed.

Lemma form_locals_level_eq w loc l : l < nlevels t ->
  form_locals_level_lib lib wr complex_dipole t p starts box_centers sources ls ttpb big w loc l =
  Some (let lstart := nth l ls 0 in
        let tgt := slice ttpb lstart (nth (l + 1) ls 0) in
        fold_left (fun loc k => view_set starts loc l (nth k tgt 0)
            (msum (map (fun src => msum (map (fun j => p2l R l (nth k tgt 0) j (sst w j)) (source_slice p src))) (csr_get big (lstart + k)))))
          (seq 0 (length tgt)) loc).
Proof.
  intros Hl. destruct (LB l Hl) as [B1 B2]. unfold form_locals_level_lib. cbv zeta.
  set (lo := nth l ls 0) in *. set (hi := nth (l + 1) ls 0) in *.
  destruct (Nat.eqb_spec lo hi) as [E|NE].
  { unfold slice. rewrite E, Nat.sub_diag. reflexivity. }
  assert (SL : length (slice ttpb lo hi) = hi - lo) by (apply slice_length; auto). rewrite SL.
  rewrite (run_all_ok _ (fun k => msum (map (fun src => msum (map (fun j => p2l R l (nth (lo + k) ttpb 0) j (sst w j)) (source_slice p src))) (csr_get big (lo + k))))).
  - f_equal. rewrite fold_combine by auto. apply fold_left_same. intros s k Hk. apply in_seq in Hk. cbn [fst snd].
    destruct (ttpb_row l k Hl ltac:(fold lo hi; lia)) as [E1 _]. fold lo hi in E1. rewrite E1. reflexivity.
  - intros k Hk. apply in_seq in Hk. destruct (ttpb_row l k Hl ltac:(fold lo hi; lia)) as [T1 [T2 T3]]. fold lo hi in T1, T2, T3.
    set (B := nth (lo + k) ttpb 0) in *. set (a := nth (lo + k) (Traversal.starts big) 0). set (b := nth (S (lo + k)) (Traversal.starts big) 0).
    assert (BL : b <= length (lists big)) by (apply BOK; lia).
    assert (ENT : forall e, a <= e < b -> nth e (lists big) 0 < nboxes t).
    { intros e He. apply (BR (lo + k)); [lia|]. rewrite (csr_get_positions big (length ttpb)) by (auto; lia).
      apply in_map_iff. exists e. split; auto. apply in_seq. fold a b. lia. }
    replace (1 + hi) with (hi + 1) by lia. unfold formta_imany.
    assert (SO : arg_row (fun o => Some o) (map (fun b => Z.of_nat (box_source_starts p b)) (lists big)) (slice (Traversal.starts big) lo (hi + 1)) k =
      Some (map (fun e => Z.of_nat (box_source_starts p (nth e (lists big) 0))) (seq a (b - a)))).
    { apply (arg_row_level _ _ (fun e => Z.of_nat (box_source_starts p (nth e (lists big) 0))) big (length ttpb)); [auto|auto|lia|rewrite map_length; auto|].
      intros e He. fold a b in He. set (gz := fun b => Z.of_nat (box_source_starts p b)).
      rewrite (nth_indep _ 0%Z (gz 0)) by (rewrite map_length; lia). rewrite (map_nth gz). auto. }
    rewrite !SO.
    rewrite (arg_row_level _ _ (fun e => box_source_counts_nonchild p (nth e (lists big) 0)) big (length ttpb)); [|auto|auto|lia|rewrite map_length; auto|].
    2:{ intros e He. fold a b in He. specialize (ENT e He). change 0%Z with (Z.of_nat 0). rewrite map_nth. unfold read_array.
        destruct (Z.leb_spec 0 (Z.of_nat (nth e (lists big) 0))); [|lia]. destruct (Z.ltb_spec (Z.of_nat (nth e (lists big) 0)) (Z.of_nat (nboxes t))); [|lia].
        cbn [andb]. rewrite Nat2Z.id. auto. }
    fold a b.
    assert (EC : nth_error (map Z.of_nat (slice ttpb lo hi)) k = Some (Z.of_nat B)).
    { rewrite (nth_error_at _ (Z.of_nat 0)) by (rewrite map_length; lia). rewrite map_nth, T1. auto. }
    rewrite EC. unfold read_array at 1.
    destruct (Z.leb_spec 0 (Z.of_nat B)); [|lia]. destruct (Z.ltb_spec (Z.of_nat B) (Z.of_nat (nboxes t))); [|lia].
    cbn [andb]. rewrite Nat2Z.id. rewrite !map_length, !Nat.eqb_refl. cbn [andb].
    rewrite combine_maps, !run_all_map.
    rewrite (run_all_ok _ (fun e => map sources (source_slice p (nth e (lists big) 0)))).
    2:{ intros e He. apply in_seq in He. apply read_source_slice, ENT. lia. }
    rewrite (run_all_ok _ (fun e => map (sst w) (source_slice p (nth e (lists big) 0)))).
    2:{ intros e He. apply in_seq in He. apply read_source_slice, ENT. lia. }
    f_equal. rewrite combine_maps, map_map. rewrite (csr_get_positions big (length ttpb)) by (auto; lia). fold a b. rewrite map_map.
    f_equal. apply map_ext. intros e. cbn [fst snd]. rewrite (formta_sum lib LIN) by (rewrite !map_length; auto).
    rewrite combine_maps, map_map. reflexivity.
Qed.
Lemma form_locals_eq w :
  form_locals_lib lib wr complex_dipole t p starts box_centers sources ls ttpb big w =
  Some (form_locals_gen _ _ _ _ R t p starts ls ttpb big (sst w)).
Proof.
  unfold form_locals_lib, form_locals_gen. apply fold_opt_ok. intros loc l Hl. apply in_seq in Hl.
  apply form_locals_level_eq. lia.
Qed.
End Refine.
