(** Lemmas about FmmGrad.v *)
From Coq Require Import List Arith ZArith Lia Bool String.
From Verif Require Import Base Tree Traversal Fmm FmmGen Layout FmmLib FmmGrad SpecFmmGrad.
Import ListNotations.
Local Open Scope nat_scope.

Lemma fold_err_sim {A B S : Type} (Rel : B -> (nat -> S) -> Prop) (f : B -> A -> py_error + B) (g : nat -> S -> A -> S) l :
  (forall b s x, In x l -> Rel b s -> exists b', f b x = inr b' /\ Rel b' (fun r => g r (s r) x)) ->
  forall b s, Rel b s -> exists b', fold_err f l b = inr b' /\ Rel b' (fun r => fold_left (g r) l (s r)).
Proof.
  induction l as [|x l IH]; intros HF b s HR; cbn [fold_err fold_left].
  - eauto.
  - destruct (HF b s x (or_introl eq_refl) HR) as [b' [-> HR']].
    apply (IH (fun b s y Hy => HF b s y (or_intror Hy)) b' (fun r => g r (s r) x) HR').
Qed.
Lemma fold_err_stops {A B : Type} (f : B -> A -> py_error + B) e l x :
  In x l -> (forall b, f b x = inl e) -> (forall b y, In y l -> (exists b', f b y = inr b') \/ f b y = inl e) ->
  forall b, fold_err f l b = inl e.
Proof.
  induction l as [|y l IH]; intros HI HX HA b; [destruct HI|]. cbn [fold_err].
  destruct (HA b y (or_introl eq_refl)) as [[b' E]|E]; rewrite E; auto.
  destruct HI as [->|HI]; [rewrite HX in E; discriminate|]. apply IH; auto. intros b0 z Hz. apply HA. right. auto.
Qed.
Lemma fold_err_only {A B : Type} (f : B -> A -> py_error + B) (e : py_error) l :
  (forall b y, In y l -> (exists b', f b y = inr b') \/ f b y = inl e) ->
  forall b, (exists b', fold_err f l b = inr b') \/ fold_err f l b = inl e.
Proof.
  induction l as [|y l IH]; intros HA b; cbn [fold_err]; eauto.
  destruct (HA b y (or_introl eq_refl)) as [[b' E]|E]; rewrite E; auto. apply IH. intros b0 z Hz. apply HA. right. auto.
Qed.

Section Sim.
Context {pt Wt D ang rmat : Type} {M L V : cmonoid}.
Notation str := (strength Wt D).
Variable lib : library pt str ang rmat M L V.
Variable raw : raw_library pt str M L V.
Variable neg : V -> V.
Hypothesis neg_neg : forall v, neg (neg v) = v.
Variable ifgrad : bool.
Variable wr : wrangler ang D.
Variable complex_dipole : Wt -> D -> Wt.
Variable times : factor -> V -> V.
Variable real_part : V -> V.
Variable t : tree.
Variable p : particles.
Variable starts : nat -> nat.
Variables box_centers sources targets : nat -> pt.
Notation dim := (wr_dim wr).
Hypothesis DIM : dim = 2 \/ dim = 3.
Variable dpotall : nat -> list pt -> list str -> pt -> V.
Variable dmpeval : nat -> frame pt -> M -> pt -> V.
Variable dtaeval : nat -> frame pt -> L -> pt -> V.
Hypothesis RT : returns_potential_and_gradient dim neg raw lib dpotall dmpeval dtaeval.
Hypothesis NE : no_errors raw.
Definition row_lib (r : nat) : library pt str ang rmat M L V :=
  match r with 0 => lib | S c => derivative lib dpotall dmpeval dtaeval c end.
Definition zeros : output V := if ifgrad then Rows (1 + dim) (fun _ _ => e0) else Flat (fun _ => e0).

(** the output array shows the given rows *)
Definition shows (out : output V) (rows : nat -> nat -> V) : Prop :=
  match ifgrad, out with
  | false, Flat a => forall i, a i = rows 0 i
  | true, Rows n a => n = 1 + dim /\ forall r i, r < 1 + dim -> a r i = rows r i
  | _, _ => False
  end.
Definition pg_shows (pg : potgrad V) (rows : nat -> nat -> V) : Prop :=
  (forall i, fst pg i = rows 0 i) /\ (ifgrad = true -> forall c i, c < dim -> snd pg c i = rows (S c) i).

Lemma shows_zeros : shows zeros (fun _ _ => e0).
Proof. unfold shows, zeros. destruct ifgrad; auto. Qed.
Lemma shows_ext out a b : (forall r i, a r i = b r i) -> shows out a -> shows out b.
Proof.
  unfold shows. intros E. destruct ifgrad, out; auto.
  - intros [H1 H2]. split; auto. intros r i Hr. rewrite H2; auto.
  - intros H i. rewrite H. auto.
Qed.
Lemma no_routine_false : no_routine dim = false.
Proof. unfold no_routine. destruct DIM as [-> | ->]; reflexivity. Qed.

Lemma out_add_ext (a b : nat -> V) s n (f g : nat -> V) : (forall i, a i = b i) -> (forall i, f i = g i) -> forall i, out_add a s n f i = out_add b s n g i.
Proof.
  unfold out_add. intros E1 E2. revert a b E1. induction (seq s n) as [|k l IH]; intros a b E1 i; cbn [fold_left]; auto.
  apply IH. intros j. destruct (Nat.eqb j k); auto. rewrite E1, E2. auto.
Qed.
Lemma add_shows out rows s n pg f : shows out rows -> pg_shows pg f ->
  exists out', add_potgrad_onto_output ifgrad out s n pg = inr out' /\ shows out' (fun r => out_add (rows r) s n (f r)).
Proof.
  unfold shows, add_potgrad_onto_output, pg_shows. intros HS [H1 H2]. destruct ifgrad, out as [a|l|m a]; try contradiction.
  - destruct HS as [-> HS]. eexists. split; [reflexivity|]. split; auto. intros r i Hr. apply out_add_ext; [intros; apply HS; auto|].
    intros j. destruct r; auto. apply H2; auto. lia.
  - eexists. split; [reflexivity|]. cbn beta. intros i. apply out_add_ext; auto.
Qed.
Lemma pg_zero : pg_shows potgrad_zero (fun _ _ => e0).
Proof. split; auto. Qed.
Lemma pg_add a b f g : pg_shows a f -> pg_shows b g -> pg_shows (potgrad_add a b) (fun r i => op (f r i) (g r i)).
Proof.
  intros [A1 A2] [B1 B2]. split; cbn [potgrad_add fst snd]; [intros i; rewrite A1, B1; auto|intros G c i Hc; rewrite A2, B2; auto].
Qed.
Lemma pg_ext a f g : (forall r i, f r i = g r i) -> pg_shows a f -> pg_shows a g.
Proof. intros E [A1 A2]. split; [intros i; rewrite A1; auto|intros G c i Hc; rewrite A2; auto]. Qed.

Lemma direct_shows xs ws : exists pg, direct_ev raw neg dim ifgrad targets xs ws = inr pg /\
  pg_shows pg (fun r i => potall (row_lib r) xs ws (targets i)).
Proof.
  unfold direct_ev. destruct DIM as [E|E].
  - rewrite E. eexists. split; [reflexivity|]. split; cbn [wrapper2 fst snd row_lib potall derivative].
    + intros i. apply (rt_potgrad2 _ _ _ _ _ _ _ RT E).
    + intros G c i Hc. unfold wrapper2. rewrite G. cbn [negb snd]. apply (rt_potgrad2 _ _ _ _ _ _ _ RT E); auto.
  - rewrite E. eexists. split; [reflexivity|]. split; cbn [wrapper3 fst snd row_lib potall derivative].
    + intros i. apply (rt_potfld3 _ _ _ _ _ _ _ RT E).
    + intros G c i Hc. unfold wrapper3. rewrite G. cbn [snd].
      destruct (rt_potfld3 _ _ _ _ _ _ _ RT E true xs ws (targets i)) as [_ H]. rewrite H, neg_neg; auto.
Qed.
Lemma existsb_none {A} (f : A -> bool) l : (forall x, f x = false) -> existsb f l = false.
Proof. intros H. induction l; cbn; auto. rewrite H. auto. Qed.
Lemma mp_shows tgts f m : exists pg, expn_ev neg dim ifgrad targets (mpeval2 raw) (mpeval3 raw) tgts f m = inr pg /\
  pg_shows pg (fun r i => mpeval (row_lib r) f m (targets i)).
Proof.
  unfold expn_ev. destruct DIM as [E|E].
  - rewrite E. eexists. split; [reflexivity|]. split; cbn [wrapper2 fst snd row_lib mpeval derivative].
    + intros i. apply (rt_mpeval2 _ _ _ _ _ _ _ RT E).
    + intros G c i Hc. unfold wrapper2. rewrite G. cbn [negb snd]. apply (rt_mpeval2 _ _ _ _ _ _ _ RT E); auto.
  - rewrite E. rewrite existsb_none. 2:{ intros i. destruct NE as [H _]. rewrite H. reflexivity. }
    eexists. split; [reflexivity|]. split; cbn [wrapper3 fst snd row_lib mpeval derivative].
    + intros i. apply (rt_mpeval3 _ _ _ _ _ _ _ RT E).
    + intros G c i Hc. unfold wrapper3. rewrite G. cbn [snd].
      destruct (rt_mpeval3 _ _ _ _ _ _ _ RT E true f m (targets i)) as [_ H]. rewrite H, neg_neg; auto.
Qed.
Lemma ta_shows tgts f m : exists pg, expn_ev neg dim ifgrad targets (taeval2 raw) (taeval3 raw) tgts f m = inr pg /\
  pg_shows pg (fun r i => taeval (row_lib r) f m (targets i)).
Proof.
  unfold expn_ev. destruct DIM as [E|E].
  - rewrite E. eexists. split; [reflexivity|]. split; cbn [wrapper2 fst snd row_lib taeval derivative].
    + intros i. apply (rt_taeval2 _ _ _ _ _ _ _ RT E).
    + intros G c i Hc. unfold wrapper2. rewrite G. cbn [negb snd]. apply (rt_taeval2 _ _ _ _ _ _ _ RT E); auto.
  - rewrite E. rewrite existsb_none. 2:{ intros i. destruct NE as [_ H]. rewrite H. reflexivity. }
    eexists. split; [reflexivity|]. split; cbn [wrapper3 fst snd row_lib taeval derivative].
    + intros i. apply (rt_taeval3 _ _ _ _ _ _ _ RT E).
    + intros G c i Hc. unfold wrapper3. rewrite G. cbn [snd].
      destruct (rt_taeval3 _ _ _ _ _ _ _ RT E true f m (targets i)) as [_ H]. rewrite H, neg_neg; auto.
Qed.

(** a fold over the rows, applied to one target *)
Lemma fold_at {A} l (x : nat -> V) (h : nat -> V -> A -> V) i :
  fold_left (fun (f : nat -> V) a => fun j => h j (f j) a) l x i = fold_left (h i) l (x i).
Proof. revert x. induction l as [|a l IH]; intros x; cbn [fold_left]; auto. rewrite IH. auto. Qed.
Lemma out_add_0 (a : nat -> V) s f : out_add a s 0 f = a.
Proof. reflexivity. Qed.

Lemma eval_direct_shows tb nb w : exists out,
  eval_direct_pg raw neg ifgrad wr complex_dipole p sources targets zeros tb nb w = inr out /\
  shows out (fun r => eval_direct_lib (row_lib r) wr complex_dipole p sources targets tb nb w).
Proof.
  unfold eval_direct_pg, eval_direct_lib. rewrite no_routine_false.
  apply (fold_err_sim shows _ (fun r out itgt =>
      let tgt_ibox := nth itgt tb 0 in
      out_add out (box_target_starts p tgt_ibox) (box_target_counts_nonchild p tgt_ibox)
        (fun i => fold_left (fun pot src_ibox =>
                     if box_source_counts_nonchild p src_ibox =? 0 then pot
                     else op pot (potall (row_lib r) (map sources (source_slice p src_ibox))
                                    (map (source_strength wr complex_dipole w) (source_slice p src_ibox)) (targets i)))
                   (csr_get nb itgt) e0))) with (s := fun _ _ => e0); [|apply shows_zeros].
  intros out rows itgt _ HS. cbv zeta. destruct (Nat.eqb_spec (box_target_counts_nonchild p (nth itgt tb 0)) 0) as [Z|Z].
  { rewrite Z. eauto. }
  assert (X : exists pg, fold_err (fun pg src_ibox =>
       if box_source_counts_nonchild p src_ibox =? 0 then inr pg
       else match direct_ev raw neg dim ifgrad targets (map sources (source_slice p src_ibox))
                    (map (source_strength wr complex_dipole w) (source_slice p src_ibox)) with
            | inl e => inl e
            | inr tmp => inr (potgrad_add pg tmp)
            end) (csr_get nb itgt) potgrad_zero = inr pg /\
     pg_shows pg (fun r => fold_left (fun (f : nat -> V) src_ibox => fun i => if box_source_counts_nonchild p src_ibox =? 0 then f i
        else op (f i) (potall (row_lib r) (map sources (source_slice p src_ibox))
                                    (map (source_strength wr complex_dipole w) (source_slice p src_ibox)) (targets i)))
                   (csr_get nb itgt) (fun _ => e0))).
  { apply (fold_err_sim pg_shows _ (fun r (f : nat -> V) src_ibox => fun i => if box_source_counts_nonchild p src_ibox =? 0 then f i
        else op (f i) (potall (row_lib r) (map sources (source_slice p src_ibox))
                                    (map (source_strength wr complex_dipole w) (source_slice p src_ibox)) (targets i)))) with (s := fun _ _ => e0); [|apply pg_zero].
    intros pg f s _ HP. destruct (Nat.eqb_spec (box_source_counts_nonchild p s) 0); [eauto|].
    destruct (direct_shows (map sources (source_slice p s)) (map (source_strength wr complex_dipole w) (source_slice p s))) as [tmp [-> HT]].
    eexists. split; [reflexivity|]. apply pg_add; auto. }
  destruct X as [pg [-> HP]].
  destruct (add_shows out rows (box_target_starts p (nth itgt tb 0)) (box_target_counts_nonchild p (nth itgt tb 0)) pg _ HS HP) as [out' [-> HS']].
  eexists. split; [reflexivity|]. revert HS'. apply shows_ext. intros r i. apply out_add_ext; auto.
  intros j. apply (fold_at _ (fun _ => e0) (fun j v a => if box_source_counts_nonchild p a =? 0 then v else op v (potall (row_lib r) (map sources (source_slice p a))
                                    (map (source_strength wr complex_dipole w) (source_slice p a)) (targets j)))).
Qed.

Lemma eval_multipoles_shows bl mp : exists out,
  eval_multipoles_pg raw neg ifgrad wr p starts box_centers targets zeros bl mp = inr out /\
  shows out (fun r => eval_multipoles_lib (row_lib r) wr p starts box_centers targets bl mp).
Proof.
  unfold eval_multipoles_pg, eval_multipoles_lib. rewrite no_routine_false.
  apply (fold_err_sim shows _ (fun r out lbc =>
      let isrc_level := fst lbc in let boxes := fst (snd lbc) in let ssn := snd (snd lbc) in
      let rscale := level_to_rscale wr isrc_level in
      fold_left (fun out itgt =>
          let tgt_ibox := nth itgt boxes 0 in
          out_add out (box_target_starts p tgt_ibox) (box_target_counts_nonchild p tgt_ibox)
            (fun i => fold_left (fun pot src_ibox =>
                         op pot (mpeval (row_lib r) (mkFrame (box_centers src_ibox) rscale (nth isrc_level (wr_level_orders wr) 0))
                                   (view_get starts mp isrc_level src_ibox) (targets i)))
                       (csr_get ssn itgt) e0))
        (seq 0 (List.length boxes)) out)) with (s := fun _ _ => e0); [|apply shows_zeros].
  intros out rows [lev [boxes ssn]] _ HS. cbv zeta. cbn [fst snd].
  apply (fold_err_sim shows _ (fun r out itgt => out_add out (box_target_starts p (nth itgt boxes 0)) (box_target_counts_nonchild p (nth itgt boxes 0))
            (fun i => fold_left (fun pot src_ibox =>
                         op pot (mpeval (row_lib r) (mkFrame (box_centers src_ibox) (level_to_rscale wr lev) (nth lev (wr_level_orders wr) 0))
                                   (view_get starts mp lev src_ibox) (targets i)))
                       (csr_get ssn itgt) e0))); auto.
  clear out rows HS. intros out rows itgt _ HS. destruct (Nat.eqb_spec (box_target_counts_nonchild p (nth itgt boxes 0)) 0) as [Z|Z].
  { rewrite Z. eauto. }
  assert (X : exists pg, fold_err (fun pg src_ibox =>
       match expn_ev neg dim ifgrad targets (mpeval2 raw) (mpeval3 raw) (seq (box_target_starts p (nth itgt boxes 0)) (box_target_counts_nonchild p (nth itgt boxes 0)))
               (mkFrame (box_centers src_ibox) (level_to_rscale wr lev) (nth lev (wr_level_orders wr) 0)) (view_get starts mp lev src_ibox) with
            | inl e => inl e
            | inr tmp => inr (potgrad_add pg tmp)
            end) (csr_get ssn itgt) potgrad_zero = inr pg /\
     pg_shows pg (fun r => fold_left (fun (f : nat -> V) src_ibox => fun i =>
        op (f i) (mpeval (row_lib r) (mkFrame (box_centers src_ibox) (level_to_rscale wr lev) (nth lev (wr_level_orders wr) 0))
                                   (view_get starts mp lev src_ibox) (targets i)))
                   (csr_get ssn itgt) (fun _ => e0))).
  { apply (fold_err_sim pg_shows _ (fun r (f : nat -> V) src_ibox => fun i =>
        op (f i) (mpeval (row_lib r) (mkFrame (box_centers src_ibox) (level_to_rscale wr lev) (nth lev (wr_level_orders wr) 0))
                                   (view_get starts mp lev src_ibox) (targets i)))) with (s := fun _ _ => e0); [|apply pg_zero].
    intros pg f s _ HP.
    destruct (mp_shows (seq (box_target_starts p (nth itgt boxes 0)) (box_target_counts_nonchild p (nth itgt boxes 0)))
       (mkFrame (box_centers s) (level_to_rscale wr lev) (nth lev (wr_level_orders wr) 0)) (view_get starts mp lev s)) as [tmp [-> HT]].
    eexists. split; [reflexivity|]. apply pg_add; auto. }
  destruct X as [pg [-> HP]].
  destruct (add_shows out rows (box_target_starts p (nth itgt boxes 0)) (box_target_counts_nonchild p (nth itgt boxes 0)) pg _ HS HP) as [out' [-> HS']].
  eexists. split; [reflexivity|]. revert HS'. apply shows_ext. intros r i. apply out_add_ext; auto.
  intros j. apply (fold_at _ (fun _ => e0) (fun j v a => op v (mpeval (row_lib r) (mkFrame (box_centers a) (level_to_rscale wr lev) (nth lev (wr_level_orders wr) 0))
                                   (view_get starts mp lev a) (targets j)))).
Qed.

Lemma eval_locals_shows ls tb loc : exists out,
  eval_locals_pg raw neg ifgrad wr t p starts box_centers targets zeros ls tb loc = inr out /\
  shows out (fun r => eval_locals_lib (row_lib r) wr t p starts box_centers targets ls tb loc).
Proof.
  unfold eval_locals_pg, eval_locals_lib. rewrite no_routine_false.
  apply (fold_err_sim shows _ (fun r out lev =>
      let rscale := level_to_rscale wr lev in
      fold_left (fun out tgt_ibox =>
          out_add out (box_target_starts p tgt_ibox) (box_target_counts_nonchild p tgt_ibox)
            (fun i => taeval (row_lib r) (mkFrame (box_centers tgt_ibox) rscale (nth lev (wr_level_orders wr) 0)) (view_get starts loc lev tgt_ibox) (targets i)))
        (slice tb (nth lev ls 0) (nth (lev + 1) ls 0)) out)) with (s := fun _ _ => e0); [|apply shows_zeros].
  intros out rows lev _ HS. cbv zeta.
  apply (fold_err_sim shows _ (fun r out tgt_ibox =>
          out_add out (box_target_starts p tgt_ibox) (box_target_counts_nonchild p tgt_ibox)
            (fun i => taeval (row_lib r) (mkFrame (box_centers tgt_ibox) (level_to_rscale wr lev) (nth lev (wr_level_orders wr) 0)) (view_get starts loc lev tgt_ibox) (targets i)))); auto.
  clear out rows HS. intros out rows b _ HS. destruct (Nat.eqb_spec (box_target_counts_nonchild p b) 0) as [Z|Z].
  { rewrite Z. eauto. }
  destruct (ta_shows (seq (box_target_starts p b) (box_target_counts_nonchild p b))
       (mkFrame (box_centers b) (level_to_rscale wr lev) (nth lev (wr_level_orders wr) 0)) (view_get starts loc lev b)) as [tmp [-> HT]].
  apply add_shows; auto.
Qed.

Lemma plus_shows a b f g : shows a f -> shows b g -> exists c, output_plus a b = inr c /\ shows c (fun r => out_plus V (f r) (g r)).
Proof.
  unfold shows, output_plus. destruct ifgrad, a, b; try contradiction.
  - intros [-> A] [-> B]. rewrite Nat.eqb_refl. eexists. split; [reflexivity|]. split; auto. intros r i Hr. unfold out_plus. rewrite A, B; auto.
  - intros A B. eexists. split; [reflexivity|]. intros i. unfold out_plus. rewrite A, B. auto.
Qed.

Lemma row_formmp r : formmp (row_lib r) = formmp lib. Proof. destruct r; reflexivity. Qed.
Lemma row_mpmp r : mpmp (row_lib r) = mpmp lib. Proof. destruct r; reflexivity. Qed.

Notation pots r := (potentials_lib (row_lib r) wr complex_dipole t p starts box_centers sources targets).
Lemma potentials_shows tr w :
  match potentials_pg lib raw neg ifgrad wr complex_dipole t p starts box_centers sources targets zeros tr w with
  | inr out => exists rows, (forall r, pots r tr w = Some (rows r)) /\ shows out rows
  | inl e => e = LibraryOutOfBounds /\ forall r, pots r tr w = None
  end.
Proof.
  unfold potentials_pg. cbv zeta.
  assert (FM : forall r ls sb, form_multipoles_lib (row_lib r) wr complex_dipole t p starts box_centers sources ls sb w =
     form_multipoles_lib lib wr complex_dipole t p starts box_centers sources ls sb w) by (intros [|r] *; reflexivity).
  assert (CM : forall r ls sb m, coarsen_multipoles_lib (row_lib r) wr t starts box_centers ls sb m =
     coarsen_multipoles_lib lib wr t starts box_centers ls sb m) by (intros [|r] *; reflexivity).
  assert (ML : forall r ls tb c m, multipole_to_local_lib (row_lib r) wr t starts box_centers ls tb c m =
     multipole_to_local_lib lib wr t starts box_centers ls tb c m) by (intros [|r] *; reflexivity).
  assert (FL : forall r ls tb c, form_locals_lib (row_lib r) wr complex_dipole t p starts box_centers sources ls tb c w =
     form_locals_lib lib wr complex_dipole t p starts box_centers sources ls tb c w) by (intros [|r] *; reflexivity).
  assert (RL : forall r ls tb l, refine_locals_lib (row_lib r) wr t starts box_centers ls tb l =
     refine_locals_lib lib wr t starts box_centers ls tb l) by (intros [|r] *; reflexivity).
  unfold potentials_lib.
  destruct (eval_direct_shows (target_boxes tr) (neighbor_source_boxes tr) w) as [o1 [E1 S1]]. rewrite E1. cbn [and_then].
  set (mp := coarsen_multipoles_lib lib wr t starts box_centers _ _ _).
  destruct (multipole_to_local_lib lib wr t starts box_centers (level_start_target_or_target_parent_box_nrs tr)
      (target_or_target_parent_boxes tr) (from_sep_siblings tr) mp) as [loc|] eqn:EM; cbn [or_fail and_then].
  2:{ split; auto. intros r. cbv zeta. rewrite FM, CM, ML. fold mp. rewrite EM. auto. }
  destruct (eval_multipoles_shows (from_sep_smaller_by_level tr) mp) as [o2 [E2 S2]]. unfold add_result. rewrite E2. cbn [and_then].
  destruct (plus_shows _ _ _ _ S1 S2) as [o3 [E3 S3]]. rewrite E3. cbn [and_then].
  assert (X : exists o4, match from_sep_close_smaller tr with
      | Some c => and_then (eval_direct_pg raw neg ifgrad wr complex_dipole p sources targets zeros (target_boxes tr) c w) (output_plus o3)
      | None => inr o3 end = inr o4 /\ shows o4 (fun r => match from_sep_close_smaller tr with
      | Some c => out_plus V (out_plus V (eval_direct_lib (row_lib r) wr complex_dipole p sources targets (target_boxes tr) (neighbor_source_boxes tr) w)
         (eval_multipoles_lib (row_lib r) wr p starts box_centers targets (from_sep_smaller_by_level tr) mp))
          (eval_direct_lib (row_lib r) wr complex_dipole p sources targets (target_boxes tr) c w)
      | None => out_plus V (eval_direct_lib (row_lib r) wr complex_dipole p sources targets (target_boxes tr) (neighbor_source_boxes tr) w)
         (eval_multipoles_lib (row_lib r) wr p starts box_centers targets (from_sep_smaller_by_level tr) mp) end)).
  { destruct (from_sep_close_smaller tr) as [c|]; [|eauto]. destruct (eval_direct_shows (target_boxes tr) c w) as [o [E S]]. rewrite E. cbn [and_then].
    apply (plus_shows _ _ _ _ S3 S). }
  destruct X as [o4 [E4 S4]]. rewrite E4. cbn [and_then].
  destruct (form_locals_lib lib wr complex_dipole t p starts box_centers sources (level_start_target_or_target_parent_box_nrs tr)
            (target_or_target_parent_boxes tr) (from_sep_bigger tr) w) as [lr|] eqn:EF; cbn [or_fail and_then].
  2:{ split; auto. intros r. cbv zeta. rewrite FM, CM, ML, FL. fold mp. rewrite EM, EF. auto. }
  match type of S4 with shows _ ?rows => set (rows4 := rows) in * end.
  assert (X : exists o5, match from_sep_close_bigger tr with
      | Some c => and_then (eval_direct_pg raw neg ifgrad wr complex_dipole p sources targets zeros (target_boxes tr) c w) (output_plus o4)
      | None => inr o4 end = inr o5 /\ shows o5 (fun r => match from_sep_close_bigger tr with
      | Some c => out_plus V (rows4 r) (eval_direct_lib (row_lib r) wr complex_dipole p sources targets (target_boxes tr) c w)
      | None => rows4 r end)).
  { destruct (from_sep_close_bigger tr) as [c|]; [|eauto]. destruct (eval_direct_shows (target_boxes tr) c w) as [o [E S]]. rewrite E. cbn [and_then].
    apply (plus_shows _ _ _ _ S4 S). }
  destruct X as [o5 [E5 S5]]. rewrite E5. cbn [and_then].
  set (loc' := refine_locals_lib lib wr t starts box_centers _ _ _).
  destruct (eval_locals_shows (level_start_target_box_nrs tr) (target_boxes tr) loc') as [o6 [E6 S6]]. rewrite E6. cbn [and_then].
  destruct (plus_shows _ _ _ _ S5 S6) as [o7 [E7 S7]]. rewrite E7.
  eexists. split; [|exact S7]. intros r. cbv zeta. rewrite FM, CM, ML, FL. fold mp. rewrite EM, EF, RL. reflexivity.
Qed.
End Sim.

(** ** Gradients are asked for, with the array of the wrangler *)
Section Fails.
Context {pt Wt D ang : Type} {M L V : cmonoid}.
Notation str := (strength Wt D).
Variable raw : raw_library pt str M L V.
Variable neg : V -> V.
Variable wr : wrangler ang D.
Variable complex_dipole : Wt -> D -> Wt.
Variable p : particles.
Variables sources targets : nat -> pt.
Notation dim := (wr_dim wr).
Hypothesis DIM : dim = 2 \/ dim = 3.

Lemma direct_total b xs ws : exists pg, direct_ev raw neg dim b targets xs ws = inr pg.
Proof. unfold direct_ev. destruct DIM as [-> | ->]; eauto. Qed.
Lemma eval_direct_fails tb nb w T : In T tb -> box_target_counts_nonchild p T <> 0 ->
  eval_direct_pg raw neg true wr complex_dipole p sources targets (output_zeros dim true) tb nb w = inl IndexError.
Proof.
  intros HT HC. unfold eval_direct_pg. rewrite (no_routine_false wr DIM).
  assert (PG : forall itgt, exists pg, fold_err (fun pg src_ibox =>
       if box_source_counts_nonchild p src_ibox =? 0 then inr pg
       else match direct_ev raw neg dim true targets (map sources (source_slice p src_ibox))
                    (map (source_strength wr complex_dipole w) (source_slice p src_ibox)) with
            | inl e => inl e
            | inr tmp => inr (potgrad_add pg tmp)
            end) (csr_get nb itgt) potgrad_zero = inr pg).
  { intros itgt. destruct (fold_err_sim (fun _ (_ : nat -> unit) => True) (fun pg src_ibox =>
       if box_source_counts_nonchild p src_ibox =? 0 then inr pg
       else match direct_ev raw neg dim true targets (map sources (source_slice p src_ibox))
                    (map (source_strength wr complex_dipole w) (source_slice p src_ibox)) with
            | inl e => inl e
            | inr tmp => inr (potgrad_add pg tmp)
            end) (fun _ u _ => u) (csr_get nb itgt)) with (b := @potgrad_zero V) (s := fun _ : nat => tt) as [pg [E _]]; eauto.
    intros pg s x _ _. destruct (box_source_counts_nonchild p x =? 0); [eauto|].
    destruct (direct_total true (map sources (source_slice p x)) (map (source_strength wr complex_dipole w) (source_slice p x))) as [tmp ->]. eauto. }
  apply In_nth_error in HT. destruct HT as [k Hk].
  assert (KL : k < List.length tb) by (apply nth_error_Some; congruence).
  assert (G : forall l out, In k l -> (forall o, out = Flat o -> False) -> (forall n a, out = Rows n a -> False) ->
    fold_err (fun out itgt =>
      let tgt_ibox := nth itgt tb 0 in
      if box_target_counts_nonchild p tgt_ibox =? 0 then inr out
      else match fold_err (fun pg src_ibox =>
                     if box_source_counts_nonchild p src_ibox =? 0 then inr pg
                     else match direct_ev raw neg dim true targets (map sources (source_slice p src_ibox))
                                  (map (source_strength wr complex_dipole w) (source_slice p src_ibox)) with
                          | inl e => inl e
                          | inr tmp => inr (potgrad_add pg tmp)
                          end)
                   (csr_get nb itgt) potgrad_zero with
           | inl e => inl e
           | inr pg => add_potgrad_onto_output true out (box_target_starts p tgt_ibox) (box_target_counts_nonchild p tgt_ibox) pg
           end) l out = inl IndexError).
  { induction l as [|x l IH]; intros out HI O1 O2; [destruct HI|]. cbn [fold_err]. cbv zeta.
    destruct (Nat.eqb_spec (box_target_counts_nonchild p (nth x tb 0)) 0) as [Z|Z].
    - destruct HI as [->|HI]; [|apply IH; auto]. rewrite (nth_error_nth _ _ 0 Hk) in Z. contradiction.
    - destruct (PG x) as [pg ->]. destruct out as [a|o|n a]; [exfalso; eauto|reflexivity|exfalso; eauto]. }
  apply G; [apply in_seq; lia| |]; intros; discriminate.
Qed.
End Fails.

(** ** Error codes *)
Lemma fold_err_codes {A B : Type} (Inv : B -> Prop) (f : B -> A -> py_error + B) (e : py_error) (bad : A -> bool) l :
  (forall b x, In x l -> Inv b -> if bad x then f b x = inl e else exists b', f b x = inr b' /\ Inv b') ->
  forall b, Inv b -> if existsb bad l then fold_err f l b = inl e else exists b', fold_err f l b = inr b' /\ Inv b'.
Proof.
  induction l as [|x l IH]; intros HF b HI; cbn [existsb fold_err]; [eauto|].
  pose proof (HF b x (or_introl eq_refl) HI) as HX. destruct (bad x); cbn [orb].
  - rewrite HX. auto.
  - destruct HX as [b' [-> HI']]. apply IH; auto. intros b0 y Hy. apply HF. right. auto.
Qed.
Section Codes.
Context {pt Wt D ang : Type} {M L V : cmonoid}.
Notation str := (strength Wt D).
Variable raw : raw_library pt str M L V.
Variable neg : V -> V.
Variable wr : wrangler ang D.
Variable t : tree.
Variable p : particles.
Variable starts : nat -> nat.
Variables box_centers targets : nat -> pt.
Hypothesis D3 : wr_dim wr = 3.
Definition is_flat (o : output V) : Prop := exists a, o = Flat a.
Definition code (z : Z) : bool := negb (z =? 0)%Z.
Notation tgts b := (seq (box_target_starts p b) (box_target_counts_nonchild p b)).
Notation fr lev b := (mkFrame (box_centers b) (level_to_rscale wr lev) (nth lev (wr_level_orders wr) 0)).

Lemma expn_codes {E} (ev2 : forall b h : bool, frame pt -> E -> pt -> V * (nat -> V) * (nat -> V)) ev3 l f (x : E) :
  if existsb (fun i => code (snd (ev3 false f x (targets i)))) l
  then expn_ev neg (wr_dim wr) false targets ev2 ev3 l f x = inl RuntimeError
  else exists pg, expn_ev neg (wr_dim wr) false targets ev2 ev3 l f x = inr pg.
Proof. unfold expn_ev, code. rewrite D3. destruct (existsb _ l); eauto. Qed.

Lemma eval_locals_codes ls tb loc :
  if existsb (fun lev => existsb (fun b => existsb (fun i => code (snd (taeval3 raw false (fr lev b) (view_get starts loc lev b) (targets i)))) (tgts b))
       (slice tb (nth lev ls 0) (nth (lev + 1) ls 0))) (seq 0 (nlevels t))
  then eval_locals_pg raw neg false wr t p starts box_centers targets (output_zeros 3 false) ls tb loc = inl RuntimeError
  else exists o, eval_locals_pg raw neg false wr t p starts box_centers targets (output_zeros 3 false) ls tb loc = inr o /\ is_flat o.
Proof.
  unfold eval_locals_pg. rewrite (no_routine_false wr (or_intror D3)).
  apply (fold_err_codes is_flat); [|eexists; reflexivity].
  intros out lev _ HI. cbv zeta. apply (fold_err_codes is_flat); auto.
  clear out HI. intros out b _ [a ->]. destruct (Nat.eqb_spec (box_target_counts_nonchild p b) 0) as [Z|Z].
  - rewrite Z. cbn [seq existsb]. eexists. split; [reflexivity|]. eexists; reflexivity.
  - pose proof (expn_codes (taeval2 raw) (taeval3 raw) (tgts b) (fr lev b) (view_get starts loc lev b)) as H.
    destruct (existsb _ (tgts b)); [rewrite H; auto|]. destruct H as [pg ->]. eexists. split; [reflexivity|]. eexists; reflexivity.
Qed.
Lemma eval_multipoles_codes bl mp :
  if existsb (fun lbc => existsb (fun itgt => negb (box_target_counts_nonchild p (nth itgt (fst (snd lbc)) 0) =? 0) &&
         existsb (fun s => existsb (fun i => code (snd (mpeval3 raw false (fr (fst lbc) s) (view_get starts mp (fst lbc) s) (targets i))))
                              (tgts (nth itgt (fst (snd lbc)) 0))) (csr_get (snd (snd lbc)) itgt))
       (seq 0 (List.length (fst (snd lbc))))) (combine (seq 0 (List.length bl)) bl)
  then eval_multipoles_pg raw neg false wr p starts box_centers targets (output_zeros 3 false) bl mp = inl RuntimeError
  else exists o, eval_multipoles_pg raw neg false wr p starts box_centers targets (output_zeros 3 false) bl mp = inr o /\ is_flat o.
Proof.
  unfold eval_multipoles_pg. rewrite (no_routine_false wr (or_intror D3)).
  apply (fold_err_codes is_flat); [|eexists; reflexivity].
  intros out [lev [boxes ssn]] _ HI. cbv zeta. cbn [fst snd]. apply (fold_err_codes is_flat); auto.
  clear out HI. intros out itgt _ [a ->]. destruct (Nat.eqb_spec (box_target_counts_nonchild p (nth itgt boxes 0)) 0) as [Z|Z]; cbn [negb andb].
  - eexists. split; [reflexivity|]. eexists; reflexivity.
  - pose proof (fold_err_codes (fun _ => True) (fun pg src_ibox =>
       match expn_ev neg (wr_dim wr) false targets (mpeval2 raw) (mpeval3 raw) (tgts (nth itgt boxes 0))
               (fr lev src_ibox) (view_get starts mp lev src_ibox) with
            | inl e => inl e
            | inr tmp => inr (potgrad_add pg tmp)
            end) RuntimeError (fun s => existsb (fun i => code (snd (mpeval3 raw false (fr lev s) (view_get starts mp lev s) (targets i))))
                              (tgts (nth itgt boxes 0))) (csr_get ssn itgt)) as H.
    match type of H with ?A -> _ => assert (HA : A) end.
    { intros pg s _ _. pose proof (expn_codes (mpeval2 raw) (mpeval3 raw) (tgts (nth itgt boxes 0)) (fr lev s) (view_get starts mp lev s)) as X.
      destruct (existsb _ (tgts (nth itgt boxes 0))); [rewrite X; auto|]. destruct X as [tmp ->]. eauto. }
    specialize (H HA potgrad_zero Logic.I). destruct (existsb _ (csr_get ssn itgt)).
    + rewrite H. auto.
    + destruct H as [pg [-> _]]. eexists. split; [reflexivity|]. eexists; reflexivity.
Qed.
End Codes.

Lemma dict_pop_get {X} (d : dict X) k key : dict_get (dict_pop d k) key = if String.eqb key k then None else dict_get d key.
Proof.
  unfold dict_get, dict_pop. induction d as [|[a v] l IH]; cbn [filter find fst].
  - destruct (String.eqb key k); reflexivity.
  - destruct (String.eqb_spec a k) as [EA|NA]; cbn [negb fst find].
    + rewrite IH. subst a. rewrite (String.eqb_sym k key). destruct (String.eqb key k); auto.
    + destruct (String.eqb_spec a key) as [EK|NK]; auto. subst a. destruct (String.eqb_spec key k); [contradiction|]. auto.
Qed.
Lemma existsb_none_in {A} (f : A -> bool) l : (forall x, In x l -> f x = false) -> existsb f l = false.
Proof. induction l as [|x l IH]; intros H; cbn; auto. rewrite H by (left; auto). apply IH. intros y Hy. apply H. right. auto. Qed.
Lemma in_combine_seq {A} (l : list A) k x : In (k, x) (combine (seq 0 (List.length l)) l) <-> nth_error l k = Some x.
Proof.
  assert (G : forall s, In (k, x) (combine (seq s (List.length l)) l) <-> s <= k /\ nth_error l (k - s) = Some x).
  { revert k. induction l as [|y l IH]; intros k s; cbn [List.length seq combine In].
    - split; [tauto|]. intros [_ H]. destruct (k - s); discriminate.
    - rewrite IH. split.
      + intros [E|[H1 H2]]; [injection E as -> ->; rewrite Nat.sub_diag; auto|]. split; [lia|]. replace (k - s) with (S (k - S s)) by lia. auto.
      + intros [H1 H2]. destruct (Nat.eq_dec k s) as [->|NE]; [rewrite Nat.sub_diag in H2; cbn in H2; injection H2 as ->; auto|].
        right. split; [lia|]. replace (k - s) with (S (k - S s)) in H2 by lia. auto. }
  rewrite G, Nat.sub_0_r. split; [tauto|]. intros; split; auto; lia.
Qed.
