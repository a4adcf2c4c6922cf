(** Lemmas about FmmErr.v *)
From Coq Require Import List Arith ZArith NArith Lia Bool Qcanon.
From Verif Require Import Base Tree Traversal Fmm FmmGen Layout FmmLib FmmGrad FmmErr SpecFmmErr.
Import ListNotations.
Local Open Scope nat_scope.

Lemma run_all_ext {A B} (f g : A -> option B) l : (forall x, In x l -> f x = g x) -> run_all f l = run_all g l.
Proof.
  induction l as [|x l IH]; intros H; auto. cbn [run_all]. rewrite H by (left; auto). rewrite IH; auto. intros y Hy. apply H. right. auto.
Qed.
Lemma run_all_map {A B C} (h : B -> C) (c : A -> option B) l : run_all (fun x => option_map h (c x)) l = option_map (map h) (run_all c l).
Proof. induction l as [|x l IH]; auto. cbn [run_all]. rewrite IH. destruct (c x); auto. destruct (run_all c l); auto. Qed.

(** ** The calls made by the vectorized routines *)
Section Calls.
Context {pt str ang rmat : Type} {M V : cmonoid}.
Definition m2l_call := (option (rotation rmat) * option Qc * frame pt * M * frame pt)%type.
Definition m2l_value {L : cmonoid} (lib : library pt str ang rmat M L V) (c : m2l_call) : L := let '(o, r, f, m, f') := c in mploc lib o r f m f'.
Definition m2l_calls (rot : option (nat * nat * nat * list rmat * list rmat * list Z * list nat))
    (radius : option (list Qc))
    (rscale1 : list Qc) (rscale1_offsets : list Z) (rscale1_starts : list nat)
    (center1 : Z -> option pt) (center1_offsets : list Z) (center1_starts : list nat)
    (expn1 : Z -> option M) (expn1_order : nat) (expn1_offsets : list Z) (expn1_starts : list nat)
    (rscale2 : list Qc) (center2 : list pt) (n : nat) (nterms2 : nat) (i : nat) : option (list m2l_call) :=
  match arg_row (read_array (length rscale1) (fun k => nth k rscale1 0%Qc)) rscale1_offsets rscale1_starts i,
        arg_row center1 center1_offsets center1_starts i,
        arg_row expn1 expn1_offsets expn1_starts i,
        nth_error rscale2 i, nth_error center2 i, nth_error (repeat tt n) i with
  | Some rs, Some cs, Some xs, Some r2, Some c2, Some _ =>
    match (match rot with
           | None => Some (map (fun _ => None) rs)
           | Some (ldm, nterms, nterms1, rotmatf, rotmatb, rot_offsets, rot_starts) =>
             match arg_row (fun o => read_array (length rotmatf) (fun k => nth_error rotmatf k) o) rot_offsets rot_starts i,
                   arg_row (fun o => read_array (length rotmatb) (fun k => nth_error rotmatb k) o) rot_offsets rot_starts i with
             | Some fs, Some bs => Some (map (fun fb => match fb with
                                                        | (Some f, Some b) => Some (mkRot ldm nterms nterms1 f b)
                                                        | _ => None end) (combine fs bs))
             | _, _ => None
             end
           end),
          (match radius with Some l => option_map Some (nth_error l i) | None => Some None end) with
    | Some rots, Some rad =>
      if (length cs =? length rs) && (length xs =? length rs) && (length rots =? length rs)
      then Some (map (fun q : Qc * pt * M * option (rotation rmat) => let '(((r, c), x), o) := q in (o, rad, mkFrame c r expn1_order, x, mkFrame c2 r2 nterms2))
                 (combine (combine (combine rs cs) xs) rots))
      else None
    | _, _ => None
    end
  | _, _, _, _, _, _ => None
  end.
Definition formta_call := (frame pt * list pt * list str)%type.
Definition formta_value {L : cmonoid} (lib : library pt str ang rmat M L V) (c : formta_call) : L := let '(f, xs, ws) := c in formta lib f xs ws.
Definition formta_calls (rscale : Qc) (nsources_total : nat)
    (srcs : nat -> pt) (sources_offsets : list Z) (sources_starts : list nat)
    (strengths : nat -> str) (strengths_offsets : list Z) (strengths_starts : list nat)
    (nsources : Z -> option nat) (nsources_offsets : list Z) (nsources_starts : list nat)
    (centers : Z -> option pt) (centers_offsets : list Z) (nterms : nat) (i : nat) : option (list formta_call) :=
  match arg_row (fun o => Some o) sources_offsets sources_starts i,
        arg_row (fun o => Some o) strengths_offsets strengths_starts i,
        arg_row nsources nsources_offsets nsources_starts i,
        match nth_error centers_offsets i with Some o => centers o | None => None end with
  | Some ss, Some qs, Some ns, Some c =>
    if (length qs =? length ss) && (length ns =? length ss) then
      match run_all (read_slice nsources_total srcs) (combine ss ns),
            run_all (read_slice nsources_total strengths) (combine qs ns) with
      | Some xs, Some ws => Some (map (fun xw => (mkFrame c rscale nterms, fst xw, snd xw)) (combine xs ws))
      | _, _ => None
      end
    else None
  | _, _, _, _ => None
  end.
End Calls.
Section Many.
Context {pt Wt D ang rmat : Type} {M V : cmonoid}.
Notation str := (strength Wt D).
Lemma repeat_error {L : cmonoid} n i : nth_error (repeat (@e0 L) n) i = option_map (fun _ => e0) (nth_error (repeat tt n) i).
Proof. revert i. induction n as [|n IH]; intros [|i]; cbn; auto. Qed.
Lemma mploc_imany_calls {L : cmonoid} (lib : library pt str ang rmat M L V) rot rad a1 a2 a3 a4 a5 a6 a7 a8 a9 a10 a11 a12 n a13 i :
  mploc_imany lib rot rad a1 a2 a3 a4 a5 a6 a7 a8 a9 a10 a11 a12 (repeat e0 n) a13 i =
  option_map (fun cs => op e0 (msum (map (m2l_value lib) cs))) (m2l_calls rot rad a1 a2 a3 a4 a5 a6 a7 a8 a9 a10 a11 a12 n a13 i).
Proof.
  unfold mploc_imany, m2l_calls. rewrite repeat_error.
  destruct (arg_row _ a2 a3 i) as [rs|]; auto. destruct (arg_row a4 a5 a6 i) as [cs|]; auto. destruct (arg_row a7 a9 a10 i) as [xs|]; auto.
  destruct (nth_error a11 i) as [r2|]; auto. destruct (nth_error a12 i) as [c2|]; auto. destruct (nth_error (repeat tt n) i) as [u|]; auto.
  cbn [option_map].
  match goal with |- match ?m with _ => _ end = _ => destruct m as [rots|] end; auto.
  match goal with |- match ?m with _ => _ end = _ => destruct m as [rd|] end; auto.
  destruct (_ && _); auto. cbn [option_map]. rewrite map_map. do 3 f_equal. apply map_ext. intros [[[r c] x] o]. reflexivity.
Qed.
Lemma formta_imany_calls {L : cmonoid} (lib : library pt str ang rmat M L V) a1 a2 a3 a4 a5 a6 a7 a8 a9 a10 a11 a12 a13 a14 i :
  formta_imany lib a1 a2 a3 a4 a5 a6 a7 a8 a9 a10 a11 a12 a13 a14 i =
  option_map (fun cs => msum (map (formta_value lib) cs)) (formta_calls a1 a2 a3 a4 a5 a6 a7 a8 a9 a10 a11 a12 a13 a14 i).
Proof.
  unfold formta_imany, formta_calls.
  destruct (arg_row _ a4 a5 i) as [ss|]; auto. destruct (arg_row _ a7 a8 i) as [qs|]; auto. destruct (arg_row a9 a10 a11 i) as [ns|]; auto.
  match goal with |- match ?m with _ => _ end = _ => destruct m as [c|] end; auto. destruct (_ && _); auto.
  destruct (run_all _ (combine ss ns)); auto. destruct (run_all _ (combine qs ns)); auto. cbn [option_map]. rewrite map_map. auto.
Qed.
Lemma no_code {A} (g : A -> Nmax) l : msum (map g l) = 0%N -> forall x, In x l -> g x = 0%N.
Proof.
  induction l as [|y l IH]; intros E x H; [destruct H|]. change (N.max (g y) (msum (map g l)) = 0%N) in E.
  assert (E1 : g y = 0%N) by lia. assert (E2 : msum (map g l) = 0%N) by lia. destruct H as [<-|H]; auto.
Qed.
Lemma some_code {A} (g : A -> Nmax) l : msum (map g l) <> 0%N -> exists x, In x l /\ g x <> 0%N.
Proof.
  induction l as [|y l IH]; intros E; [contradiction E; reflexivity|]. change (N.max (g y) (msum (map g l)) <> 0%N) in E.
  destruct (N.eq_dec (g y) 0) as [Z|NZ]; [|exists y; split; [left|]; auto]. destruct IH as [x [H X]]; [lia|]. exists x. split; [right|]; auto.
Qed.
End Many.

(** ** Loops *)
Section Loops.
Variable bad : Prop.
Lemma fold_rel {A B S : Type} (Rel : B -> S -> Prop) (f : B -> A -> py_error + B) (g : S -> A -> S) l :
  (forall b s x, In x l -> Rel b s -> (f b x = inl RuntimeError /\ bad) \/ exists b', f b x = inr b' /\ Rel b' (g s x)) ->
  forall b s, Rel b s -> (fold_err f l b = inl RuntimeError /\ bad) \/ exists b', fold_err f l b = inr b' /\ Rel b' (fold_left g l s).
Proof.
  induction l as [|x l IH]; intros H b s HR; cbn [fold_err fold_left]; [eauto|].
  destruct (H b s x (or_introl eq_refl) HR) as [[-> B']|[b' [-> HR']]]; [auto|]. apply IH; auto. intros b0 s0 y Hy. apply H. right. auto.
Qed.
Lemma fold_same {A B : Type} (f : B -> A -> py_error + B) (g : B -> A -> B) l :
  (forall b x, In x l -> (f b x = inl RuntimeError /\ bad) \/ f b x = inr (g b x)) ->
  forall b, (fold_err f l b = inl RuntimeError /\ bad) \/ fold_err f l b = inr (fold_left g l b).
Proof.
  intros H b. destruct (fold_rel eq f g l) with (b := b) (s := b) as [X|[b' [E <-]]]; auto.
  intros b0 s x Hx <-. destruct (H b0 x Hx) as [X|X]; eauto.
Qed.
Lemma fold_option {A B : Type} (f : B -> A -> py_error + B) (g : B -> A -> option B) l :
  (forall b x, In x l -> (f b x = inl RuntimeError /\ bad) \/ f b x = or_fail (g b x)) ->
  forall b, (fold_err f l b = inl RuntimeError /\ bad) \/ fold_err f l b = or_fail (fold_opt g l b).
Proof.
  induction l as [|x l IH]; intros H b; cbn [fold_err fold_opt]; auto.
  destruct (H b x (or_introl eq_refl)) as [[-> B']|E]; auto. rewrite E. destruct (g b x) as [b'|]; cbn [or_fail]; auto. apply IH. intros. apply H. right. auto.
Qed.
End Loops.
Lemma fold_pointwise {A} {V : cmonoid} (ev : A -> nat -> V) l s i :
  fold_left (fun (s : nat -> V) x => fun i => op (s i) (ev x i)) l s i = fold_left (fun pot x => op pot (ev x i)) l (s i).
Proof. revert s. induction l as [|x l IH]; intros s; cbn [fold_left]; auto. apply IH. Qed.
Lemma out_add_agree {V : cmonoid} (a : nat -> V) start cnt f g : (forall i, In i (seq start cnt) -> f i = g i) -> out_add a start cnt f = out_add a start cnt g.
Proof.
  unfold out_add. generalize (seq start cnt). intros l. revert a. induction l as [|x l IH]; intros a H; cbn [fold_left]; auto.
  rewrite (H x) by (left; auto). apply IH. intros i Hi. apply H. right. auto.
Qed.

Section Sim.
Context {pt Wt D ang rmat : Type} {M L V : cmonoid}.
Notation str := (strength Wt D).
Variable lib : library pt str ang rmat M L V.
Variable ier : codes pt str rmat M L.
Variable raw : raw_library pt str M L V.
Variable exact : library pt str ang rmat M L V.
Variable neg : V -> V.
Variable wr : wrangler ang D.
Variable complex_dipole : Wt -> D -> Wt.
Variable t : tree.
Variable p : particles.
Variable starts : nat -> nat.
Variables box_centers sources targets : nat -> pt.
Notation dim := (wr_dim wr).
Notation orders l := (nth l (wr_level_orders wr) 0).
Hypothesis DIM : dim = 2 \/ dim = 3.
Hypothesis CU : correct_unless_reported dim lib ier raw exact.
Notation bad := (reports_an_error dim ier raw).

Lemma checked_ok {X : Type} code (v v' : X) : (code <> 0%Z -> bad) -> (code = 0%Z -> v = v') ->
  (checked code v = inl RuntimeError /\ bad) \/ checked code v = inr v'.
Proof. intros B E. unfold checked. destruct (Z.eqb_spec code 0) as [Z|N]; auto. rewrite E; auto. Qed.
Lemma checked3_ok {X : Type} code (v v' : X) : (dim <> 2 -> code <> 0%Z -> bad) -> (dim = 2 \/ code = 0%Z -> v = v') ->
  (checked3 D ang wr code v = inl RuntimeError /\ bad) \/ checked3 D ang wr code v = inr v'.
Proof. intros B E. unfold checked3. destruct (Nat.eqb_spec dim 2) as [Z|N]; [rewrite E; auto|]. apply checked_ok; auto. Qed.

Lemma form_multipoles_sim ls sb w :
  (form_multipoles_err lib ier wr complex_dipole t p starts box_centers sources ls sb w = inl RuntimeError /\ bad) \/
  form_multipoles_err lib ier wr complex_dipole t p starts box_centers sources ls sb w = inr (form_multipoles_lib exact wr complex_dipole t p starts box_centers sources ls sb w).
Proof.
  unfold form_multipoles_err, form_multipoles_lib. apply fold_same. intros mp lev _. apply fold_same. intros mp' b _.
  destruct (_ =? 0); auto. cbv zeta.
  match goal with |- context [checked ?c ?v] => edestruct (checked_ok c v) as [[E B]|E]; [| |rewrite E; auto|rewrite E; cbn [and_then]; auto] end.
  - intros N. left. eauto.
  - intros Z. apply CU. auto.
Qed.
Lemma coarsen_sim ls sb mp :
  (coarsen_multipoles_err lib ier wr t starts box_centers ls sb mp = inl RuntimeError /\ bad) \/
  coarsen_multipoles_err lib ier wr t starts box_centers ls sb mp = inr (coarsen_multipoles_lib exact wr t starts box_centers ls sb mp).
Proof.
  unfold coarsen_multipoles_err, coarsen_multipoles_lib. apply fold_same. intros mp1 lev _. apply fold_same. intros mp2 b _. apply fold_same. intros mp3 m _.
  cbv zeta. destruct (_ =? 0); auto.
  match goal with |- context [checked3 _ _ _ ?c ?v] => edestruct (checked3_ok c v) as [[E B]|E]; [| |rewrite E; auto|rewrite E; cbn [and_then]; auto] end.
  - intros D2 N. right. right. left. split; auto. left. eauto.
  - intros Z. apply CU. auto.
Qed.
Lemma refine_sim ls sb loc :
  (refine_locals_err lib ier wr t starts box_centers ls sb loc = inl RuntimeError /\ bad) \/
  refine_locals_err lib ier wr t starts box_centers ls sb loc = inr (refine_locals_lib exact wr t starts box_centers ls sb loc).
Proof.
  unfold refine_locals_err, refine_locals_lib. apply fold_same. intros l1 lev _. apply fold_same. intros l2 b _. cbv zeta.
  match goal with |- context [checked3 _ _ _ ?c ?v] => edestruct (checked3_ok c v) as [[E B]|E]; [| |rewrite E; auto|rewrite E; cbn [and_then]; auto] end.
  - intros D2 N. right. right. left. split; auto. right. right. eauto.
  - intros Z. apply CU. auto.
Qed.

(** *** Multipole to local *)
Definition rot_args (lb : library pt str ang rmat M L V) (c : csr) (starts_on_lvl : list nat) (lev : nat) :=
  if uses_rotations (rotmat_order wr) (orders lev)
  then match wr_rotation_data wr with
       | Some rd =>
         if length (rotation_lists rd) =? length (lists c)
         then Some (Some (Z.to_nat (rotmat_order wr), orders lev, orders lev,
              map (rotmat_builder lb (Z.to_nat (rotmat_order wr))) (rotation_angles rd),
              map (fun a => rotmat_builder lb (Z.to_nat (rotmat_order wr)) (negated lb a)) (rotation_angles rd),
              map (fun r => match r with Some r => Z.of_nat r | None => (-1)%Z end) (rotation_lists rd),
              starts_on_lvl))
         else None
       | None => None
       end
  else Some None.
Lemma rot_args_same c sl lev : rot_args lib c sl lev = rot_args exact c sl lev.
Proof.
  unfold rot_args. destruct (uses_rotations _ _); auto. destruct (wr_rotation_data wr) as [rd|]; auto. destruct (_ =? _); auto.
  do 2 f_equal. rewrite (map_ext _ _ (cu_rotmat _ _ _ _ _ CU (Z.to_nat (rotmat_order wr)))).
  rewrite (map_ext (fun a => rotmat_builder lib (Z.to_nat (rotmat_order wr)) (negated lib a)) (fun a => rotmat_builder exact (Z.to_nat (rotmat_order wr)) (negated exact a))); auto.
  intros a. rewrite (cu_rotmat _ _ _ _ _ CU), (cu_negated _ _ _ _ _ CU). auto.
Qed.
Definition level_calls (ls ttpb : list nat) (c : csr) (mpoles : storage M) (lev : nat) : option (list (list (@m2l_call pt rmat M))) :=
  let lstart := nth lev ls 0 in let lstop := nth (lev + 1) ls 0 in
  let starts_on_lvl := slice (Traversal.starts c) lstart (lstop + 1) in
  match rot_args exact c starts_on_lvl lev with
  | None => None
  | Some rot =>
    let n := lstop - lstart in
    let per := map (fun k => nth (lstart + k + 1) (Traversal.starts c) 0 - nth (lstart + k) (Traversal.starts c) 0) (seq 0 n) in
    run_all (m2l_calls rot (match radius_arg wr lev with Some r => Some (repeat r n) | None => None end)
             (repeat (level_to_rscale wr lev) (nsum per)) (map Z.of_nat (seq 0 (nsum per))) (prefix_from 0 per)
             (read_array (nboxes t) box_centers) (map Z.of_nat (lists c)) starts_on_lvl
             (read_array (starts (lev + 1) - starts lev) (mpoles lev)) (orders lev)
                (map (fun b => Z.of_nat b - Z.of_nat (starts lev))%Z (lists c)) starts_on_lvl
             (repeat (level_to_rscale wr lev) n) (map box_centers (slice ttpb lstart lstop)) n (orders lev)) (seq 0 n)
  end.
Definition all_values {L' : cmonoid} (lb : library pt str ang rmat M L' V) (css : list (list (@m2l_call pt rmat M))) : list L' :=
  map (fun cs => op e0 (msum (map (m2l_value lb) cs))) css.
Lemma level_calls_lib (lb : library pt str ang rmat M L V) ls ttpb c mp loc lev : rot_args lb c (slice (Traversal.starts c) (nth lev ls 0) (nth (lev + 1) ls 0 + 1)) lev =
    rot_args exact c (slice (Traversal.starts c) (nth lev ls 0) (nth (lev + 1) ls 0 + 1)) lev ->
  nth lev ls 0 <> nth (lev + 1) ls 0 ->
  m2l_level_lib lb wr t starts box_centers ls ttpb c mp loc lev =
  option_map (fun css => fold_left (fun loc bx => view_add starts loc lev (fst bx) (snd bx)) (combine (slice ttpb (nth lev ls 0) (nth (lev + 1) ls 0)) (all_values lb css)) loc)
    (level_calls ls ttpb c mp lev).
Proof.
  intros RA NE. unfold m2l_level_lib, level_calls. cbv zeta. rewrite (proj2 (Nat.eqb_neq _ _) NE). unfold rot_args at 1 in RA. rewrite RA. clear RA.
  destruct (rot_args exact c _ lev) as [rot|]; auto. cbv zeta.
  rewrite (run_all_ext _ _ _ (fun x _ => mploc_imany_calls lb _ _ _ _ _ _ _ _ _ _ _ _ _ _ _ _ x)), run_all_map.
  match goal with |- context [run_all ?f ?l] => destruct (run_all f l) as [css|] end; reflexivity.
Qed.
Lemma level_calls_codes ls ttpb c mp lev :
  m2l_level_codes lib ier wr t starts box_centers ls ttpb c mp lev = option_map (all_values (code_library lib ier)) (level_calls ls ttpb c mp lev).
Proof.
  unfold m2l_level_codes, level_calls. cbv zeta.
  assert (RA := rot_args_same c (slice (Traversal.starts c) (nth lev ls 0) (nth (lev + 1) ls 0 + 1)) lev). unfold rot_args at 1 in RA. rewrite RA. clear RA.
  destruct (rot_args exact c _ lev) as [rot|]; auto. cbv zeta.
  rewrite (run_all_ext _ _ _ (fun x _ => mploc_imany_calls (code_library lib ier) _ _ _ _ _ _ _ _ _ _ _ _ _ _ _ _ x)), run_all_map. reflexivity.
Qed.
Lemma no_codes_same css : dim = 2 \/ any_error (all_values (code_library lib ier) css) = false -> all_values lib css = all_values exact css.
Proof.
  intros H. unfold all_values. apply map_ext_in. intros cs Hcs. f_equal. f_equal. apply map_ext_in. intros [[[[o r] f] m] f'] Hc. cbn [m2l_value]. apply CU.
  destruct H as [H|H]; auto. right.
  assert (X : op e0 (msum (map (m2l_value (code_library lib ier)) cs)) = (0%N : Nmax)).
  { unfold any_error in H. assert (Y : forall x, In x (all_values (code_library lib ier) css) -> x = 0%N).
    { intros x Hx. destruct (N.eqb_spec x 0) as [|N]; auto. exfalso. rewrite <- not_true_iff_false in H. apply H. apply existsb_exists. exists x. split; auto.
      apply negb_true_iff, N.eqb_neq. auto. }
    apply Y. unfold all_values. apply in_map_iff. exists cs. auto. }
  rewrite op_0 in X. exact (no_code (m2l_value (code_library lib ier)) cs X (o, r, f, m, f') Hc).
Qed.
Lemma any_code css : dim <> 2 -> any_error (all_values (code_library lib ier) css) = true -> bad.
Proof.
  intros D2 H. unfold any_error in H. apply existsb_exists in H. destruct H as [x [Hx N]]. apply negb_true_iff, N.eqb_neq in N. unfold all_values in Hx.
  apply in_map_iff in Hx. destruct Hx as [cs [<- _]]. rewrite op_0 in N. destruct (some_code _ _ N) as [[[[[o r] f] m] f'] [_ X]].
  right. right. left. split; auto. right. left. exists o, r, f, m, f'. exact X.
Qed.
Lemma m2l_sim ls ttpb c mp :
  (multipole_to_local_err lib ier wr t starts box_centers ls ttpb c mp = inl RuntimeError /\ bad) \/
  multipole_to_local_err lib ier wr t starts box_centers ls ttpb c mp = or_fail (multipole_to_local_lib exact wr t starts box_centers ls ttpb c mp).
Proof.
  unfold multipole_to_local_err, multipole_to_local_lib. apply fold_option. intros loc lev _. unfold m2l_level_err.
  destruct (Nat.eqb_spec (nth lev ls 0) (nth (lev + 1) ls 0)) as [E|N].
  { right. unfold m2l_level_lib. rewrite (proj2 (Nat.eqb_eq _ _) E). reflexivity. }
  rewrite level_calls_codes. rewrite (level_calls_lib lib) by (auto using rot_args_same). rewrite (level_calls_lib exact) by auto.
  destruct (level_calls ls ttpb c mp lev) as [css|]; cbn [option_map or_fail and_then]; auto.
  destruct (Nat.eqb_spec dim 2) as [D2|D2]; cbn [negb andb].
  - right. rewrite (no_codes_same css) by auto. auto.
  - destruct (any_error (all_values (code_library lib ier) css)) eqn:A; [left; split; auto; eapply any_code; eauto|]. right. rewrite (no_codes_same css) by auto. auto.
Qed.

(** *** Forming locals *)
Definition locals_calls (ls ttpb : list nat) (c : csr) (w : nat -> Wt) (lev : nat) : option (list (list (@formta_call pt str))) :=
  let lev_start := nth lev ls 0 in let lev_stop := nth (lev + 1) ls 0 in
  let so := map (fun b => Z.of_nat (box_source_starts p b)) (lists c) in
  let co := slice ttpb lev_start lev_stop in
  let ss := slice (Traversal.starts c) lev_start (1 + lev_stop) in
  run_all (formta_calls (level_to_rscale wr lev) (nsources p) sources so ss (source_strength wr complex_dipole w) so ss
           (read_array (nboxes t) (box_source_counts_nonchild p)) (map Z.of_nat (lists c)) ss
           (read_array (nboxes t) box_centers) (map Z.of_nat co) (orders lev)) (seq 0 (length co)).
Definition all_locals {L' : cmonoid} (lb : library pt str ang rmat M L' V) (css : list (list (@formta_call pt str))) : list L' :=
  map (fun cs => msum (map (formta_value lb) cs)) css.
Lemma locals_calls_lib (lb : library pt str ang rmat M L V) ls ttpb c w loc lev : nth lev ls 0 <> nth (lev + 1) ls 0 ->
  form_locals_level_lib lb wr complex_dipole t p starts box_centers sources ls ttpb c w loc lev =
  option_map (fun css => fold_left (fun loc bx => view_set starts loc lev (fst bx) (snd bx)) (combine (slice ttpb (nth lev ls 0) (nth (lev + 1) ls 0)) (all_locals lb css)) loc)
    (locals_calls ls ttpb c w lev).
Proof.
  intros NE. unfold form_locals_level_lib, locals_calls. cbv zeta. rewrite (proj2 (Nat.eqb_neq _ _) NE).
  rewrite (run_all_ext _ _ _ (fun x _ => formta_imany_calls lb _ _ _ _ _ _ _ _ _ _ _ _ _ _ x)), run_all_map.
  match goal with |- context [run_all ?f ?l] => destruct (run_all f l) as [css|] end; reflexivity.
Qed.
Lemma locals_calls_codes ls ttpb c w lev :
  form_locals_level_codes lib ier wr complex_dipole t p box_centers sources ls ttpb c w lev = option_map (all_locals (code_library lib ier)) (locals_calls ls ttpb c w lev).
Proof.
  unfold form_locals_level_codes, locals_calls. cbv zeta.
  rewrite (run_all_ext _ _ _ (fun x _ => formta_imany_calls (code_library lib ier) _ _ _ _ _ _ _ _ _ _ _ _ _ _ x)), run_all_map. reflexivity.
Qed.
Lemma no_local_codes css : any_error (all_locals (code_library lib ier) css) = false -> all_locals lib css = all_locals exact css.
Proof.
  intros H. unfold all_locals. apply map_ext_in. intros cs Hcs. f_equal. apply map_ext_in. intros [[f xs] ws] Hc. cbn [formta_value]. apply CU.
  assert (X : msum (map (formta_value (code_library lib ier)) cs) = (0%N : Nmax)).
  { unfold any_error in H. match goal with |- ?x = _ => destruct (N.eqb_spec x 0) as [|N] end; auto. exfalso. rewrite <- not_true_iff_false in H. apply H.
    apply existsb_exists. eexists. split; [unfold all_locals; apply in_map_iff; exists cs; split; [reflexivity|auto]|]. apply negb_true_iff, N.eqb_neq. auto. }
  exact (no_code (formta_value (code_library lib ier)) cs X (f, xs, ws) Hc).
Qed.
Lemma any_local_code css : any_error (all_locals (code_library lib ier) css) = true -> bad.
Proof.
  intros H. unfold any_error in H. apply existsb_exists in H. destruct H as [x [Hx N]]. apply negb_true_iff, N.eqb_neq in N. unfold all_locals in Hx.
  apply in_map_iff in Hx. destruct Hx as [cs [<- _]]. destruct (some_code _ _ N) as [[[f xs] ws] [_ X]]. right. left. exists f, xs, ws. exact X.
Qed.
Lemma form_locals_sim ls ttpb c w :
  (form_locals_err lib ier wr complex_dipole t p starts box_centers sources ls ttpb c w = inl RuntimeError /\ bad) \/
  form_locals_err lib ier wr complex_dipole t p starts box_centers sources ls ttpb c w =
  or_fail (form_locals_lib exact wr complex_dipole t p starts box_centers sources ls ttpb c w).
Proof.
  unfold form_locals_err, form_locals_lib. apply fold_option. intros loc lev _. unfold form_locals_level_err.
  destruct (Nat.eqb_spec (nth lev ls 0) (nth (lev + 1) ls 0)) as [E|N].
  { right. unfold form_locals_level_lib. rewrite (proj2 (Nat.eqb_eq _ _) E). reflexivity. }
  rewrite locals_calls_codes, !locals_calls_lib by auto.
  destruct (locals_calls ls ttpb c w lev) as [css|]; cbn [option_map or_fail and_then]; auto.
  destruct (any_error (all_locals (code_library lib ier) css)) eqn:A; [left; split; auto; eapply any_local_code; eauto|]. right. rewrite (no_local_codes css) by auto. auto.
Qed.

(** *** Evaluation *)
Notation zeros := (Flat (fun _ => e0) : output V).
Definition shw (out : output V) (a : nat -> V) : Prop := match out with Flat b => forall i, b i = a i | _ => False end.
Lemma shw_ext out a b : (forall i, a i = b i) -> shw out a -> shw out b.
Proof. destruct out; auto. cbn [shw]. intros E H i. rewrite H. auto. Qed.
Lemma routine_exists : no_routine dim = false.
Proof. unfold no_routine. destruct DIM as [-> | ->]; reflexivity. Qed.
Lemma out_add_agree2 (a b : nat -> V) start cnt f g : (forall i, a i = b i) -> (forall i, In i (seq start cnt) -> f i = g i) ->
  forall i, out_add a start cnt f i = out_add b start cnt g i.
Proof.
  intros E1 E2. rewrite (out_add_agree b start cnt g f) by (intros; symmetry; auto). clear E2. unfold out_add. revert a b E1.
  induction (seq start cnt) as [|k l IH]; intros a b E1 i; cbn [fold_left]; auto. apply IH. intros j. destruct (Nat.eqb j k); auto. rewrite E1. auto.
Qed.
Definition on (tg : list nat) (pg : potgrad V) (f : nat -> V) : Prop := forall i, In i tg -> fst pg i = f i.
Lemma add_shw out a s n pg f : shw out a -> on (seq s n) pg f ->
  exists out', add_potgrad_onto_output false out s n pg = inr out' /\ shw out' (out_add a s n f).
Proof.
  unfold add_potgrad_onto_output. destruct out as [b| |]; try contradiction. cbn [shw]. intros H1 H2. eexists. split; [reflexivity|]. cbn [shw].
  apply out_add_agree2; auto.
Qed.
Lemma direct_val xs ws tg : exists pg, direct_ev raw neg dim false targets xs ws = inr pg /\ on tg pg (fun i => potall exact xs ws (targets i)).
Proof.
  unfold direct_ev, on. destruct DIM as [E|E]; rewrite E; eexists; (split; [reflexivity|]); intros i _; cbn [wrapper2 wrapper3 fst negb].
  - apply (cu_potgrad2 _ _ _ _ _ CU E).
  - apply (cu_potfld3 _ _ _ _ _ CU E).
Qed.
Lemma mp_val tg f m : (expn_ev neg dim false targets (mpeval2 raw) (mpeval3 raw) tg f m = inl RuntimeError /\ bad) \/
  exists pg, expn_ev neg dim false targets (mpeval2 raw) (mpeval3 raw) tg f m = inr pg /\ on tg pg (fun i => mpeval exact f m (targets i)).
Proof.
  unfold expn_ev, on. destruct DIM as [E|E].
  - right. rewrite E. eexists. split; [reflexivity|]. intros i _. cbn [wrapper2 fst negb]. apply (cu_mpeval2 _ _ _ _ _ CU E).
  - rewrite E. match goal with |- context [existsb ?g tg] => destruct (existsb g tg) eqn:X end.
    + left. split; auto. apply existsb_exists in X. destruct X as [i [_ X]]. apply negb_true_iff, Z.eqb_neq in X. right. right. right. split; auto. left. eauto.
    + right. eexists. split; [reflexivity|]. intros i Hi. cbn [wrapper3 fst]. apply (cu_mpeval3 _ _ _ _ _ CU E).
      match goal with |- ?x = _ => destruct (Z.eqb_spec x 0) as [|N] end; auto. exfalso. rewrite <- not_true_iff_false in X. apply X. apply existsb_exists.
      exists i. split; auto. apply negb_true_iff, Z.eqb_neq. auto.
Qed.
Lemma ta_val tg f m : (expn_ev neg dim false targets (taeval2 raw) (taeval3 raw) tg f m = inl RuntimeError /\ bad) \/
  exists pg, expn_ev neg dim false targets (taeval2 raw) (taeval3 raw) tg f m = inr pg /\ on tg pg (fun i => taeval exact f m (targets i)).
Proof.
  unfold expn_ev, on. destruct DIM as [E|E].
  - right. rewrite E. eexists. split; [reflexivity|]. intros i _. cbn [wrapper2 fst negb]. apply (cu_taeval2 _ _ _ _ _ CU E).
  - rewrite E. match goal with |- context [existsb ?g tg] => destruct (existsb g tg) eqn:X end.
    + left. split; auto. apply existsb_exists in X. destruct X as [i [_ X]]. apply negb_true_iff, Z.eqb_neq in X. right. right. right. split; auto. right. eauto.
    + right. eexists. split; [reflexivity|]. intros i Hi. cbn [wrapper3 fst]. apply (cu_taeval3 _ _ _ _ _ CU E).
      match goal with |- ?x = _ => destruct (Z.eqb_spec x 0) as [|N] end; auto. exfalso. rewrite <- not_true_iff_false in X. apply X. apply existsb_exists.
      exists i. split; auto. apply negb_true_iff, Z.eqb_neq. auto.
Qed.
Lemma fold_here {A} l (x : nat -> V) (h : nat -> V -> A -> V) i :
  fold_left (fun (f : nat -> V) a => fun j => h j (f j) a) l x i = fold_left (h i) l (x i).
Proof. revert x. induction l as [|a l IH]; intros x; cbn [fold_left]; auto. rewrite IH. auto. Qed.
Lemma on_add tg a b f g : on tg a f -> on tg b g -> on tg (potgrad_add a b) (fun i => op (f i) (g i)).
Proof. unfold on. intros A B i Hi. cbn [potgrad_add fst]. rewrite A, B; auto. Qed.
Lemma on_ext tg a f g : (forall i, f i = g i) -> on tg a f -> on tg a g.
Proof. unfold on. intros E A i Hi. rewrite A; auto. Qed.

Lemma direct_sim tb nb w : exists out, eval_direct_pg raw neg false wr complex_dipole p sources targets zeros tb nb w = inr out /\
  shw out (eval_direct_lib exact wr complex_dipole p sources targets tb nb w).
Proof.
  unfold eval_direct_pg, eval_direct_lib. rewrite routine_exists.
  match goal with |- exists out, fold_err ?f ?l ?b = inr out /\ shw out (fold_left ?g ?l ?s) =>
    enough (HX : forall b0 s0 x, In x l -> shw b0 s0 -> (f b0 x = inl RuntimeError /\ False) \/ exists b', f b0 x = inr b' /\ shw b' (g s0 x));
    [destruct (fold_rel False shw f g l HX b s) as [[_ []]|X]; [cbn [shw]; auto|exact X]|] end.
  intros out a itgt _ HS. right. cbv zeta. destruct (Nat.eqb_spec (box_target_counts_nonchild p (nth itgt tb 0)) 0) as [Z|Z]; [rewrite Z; eauto|].
  match goal with |- context [fold_err ?ff ?l potgrad_zero] =>
    destruct (fold_rel False (on (seq (box_target_starts p (nth itgt tb 0)) (box_target_counts_nonchild p (nth itgt tb 0)))) ff
      (fun (f : nat -> V) src_ibox => fun i => if box_source_counts_nonchild p src_ibox =? 0 then f i
        else op (f i) (potall exact (map sources (source_slice p src_ibox)) (map (source_strength wr complex_dipole w) (source_slice p src_ibox)) (targets i))) l)
      with (b := @potgrad_zero V) (s := fun _ : nat => @e0 V) as [[_ []]|[pg [-> HP]]] end.
  { intros pg f s _ HP. right. destruct (Nat.eqb_spec (box_source_counts_nonchild p s) 0); [eauto|].
    match goal with |- context [direct_ev _ _ _ _ _ ?xs ?ws] => destruct (direct_val xs ws (seq (box_target_starts p (nth itgt tb 0)) (box_target_counts_nonchild p (nth itgt tb 0)))) as [tmp [-> HT]] end.
    eexists. split; [reflexivity|]. apply on_add; auto. }
  { intros i _. reflexivity. }
  apply add_shw; auto. revert HP. apply on_ext. intros i. apply (fold_here _ (fun _ => e0) (fun j v a => if box_source_counts_nonchild p a =? 0 then v else op v (potall exact (map sources (source_slice p a))
                                    (map (source_strength wr complex_dipole w) (source_slice p a)) (targets j)))).
Qed.
Lemma multipoles_sim bl mp : (eval_multipoles_pg raw neg false wr p starts box_centers targets zeros bl mp = inl RuntimeError /\ bad) \/
  exists out, eval_multipoles_pg raw neg false wr p starts box_centers targets zeros bl mp = inr out /\
  shw out (eval_multipoles_lib exact wr p starts box_centers targets bl mp).
Proof.
  unfold eval_multipoles_pg, eval_multipoles_lib. rewrite routine_exists. apply fold_rel; [|cbn [shw]; auto].
  intros out a [lev [boxes ssn]] _ HS. cbv zeta. cbn [fst snd]. apply fold_rel; auto.
  clear out a HS. intros out a itgt _ HS. destruct (Nat.eqb_spec (box_target_counts_nonchild p (nth itgt boxes 0)) 0) as [Z|Z]; [rewrite Z; eauto|].
  match goal with |- context [fold_err ?ff ?l potgrad_zero] =>
    destruct (fold_rel bad (on (seq (box_target_starts p (nth itgt boxes 0)) (box_target_counts_nonchild p (nth itgt boxes 0)))) ff
      (fun (f : nat -> V) src_ibox => fun i => op (f i) (mpeval exact (mkFrame (box_centers src_ibox) (level_to_rscale wr lev) (orders lev))
                                   (view_get starts mp lev src_ibox) (targets i))) l)
      with (b := @potgrad_zero V) (s := fun _ : nat => @e0 V) as [[-> B]|[pg [-> HP]]] end; auto.
  { intros pg f s _ HP.
    match goal with |- context [expn_ev _ _ _ _ _ _ ?tg ?fr ?m] => destruct (mp_val tg fr m) as [[-> B]|[tmp [-> HT]]] end; auto.
    right. eexists. split; [reflexivity|]. apply on_add; auto. }
  { intros i _. reflexivity. }
  right. apply add_shw; auto. revert HP. apply on_ext. intros i. apply (fold_here _ (fun _ => e0) (fun j v a => op v (mpeval exact (mkFrame (box_centers a) (level_to_rscale wr lev) (orders lev))
                                   (view_get starts mp lev a) (targets j)))).
Qed.
Lemma locals_sim ls tb loc : (eval_locals_pg raw neg false wr t p starts box_centers targets zeros ls tb loc = inl RuntimeError /\ bad) \/
  exists out, eval_locals_pg raw neg false wr t p starts box_centers targets zeros ls tb loc = inr out /\
  shw out (eval_locals_lib exact wr t p starts box_centers targets ls tb loc).
Proof.
  unfold eval_locals_pg, eval_locals_lib. rewrite routine_exists. apply fold_rel; [|cbn [shw]; auto].
  intros out a lev _ HS. cbv zeta. apply fold_rel; auto.
  clear out a HS. intros out a b _ HS. destruct (Nat.eqb_spec (box_target_counts_nonchild p b) 0) as [Z|Z]; [rewrite Z; eauto|].
  match goal with |- context [expn_ev _ _ _ _ _ _ ?tg ?fr ?m] => destruct (ta_val tg fr m) as [[-> B]|[tmp [-> HT]]] end; auto.
  right. apply add_shw; auto.
Qed.
Lemma plus_shw a b f g : shw a f -> shw b g -> exists c, output_plus a b = inr c /\ shw c (out_plus V f g).
Proof. unfold shw, output_plus. destruct a, b; try contradiction. intros A B. eexists. split; [reflexivity|]. intros i. unfold out_plus. rewrite A, B. auto. Qed.
Lemma close_sim (oc : option csr) tb w out a : shw out a ->
  exists out', match oc with Some c => add_result V out (eval_direct_pg raw neg false wr complex_dipole p sources targets zeros tb c w) | None => inr out end = inr out' /\
  shw out' (match oc with Some c => out_plus V a (eval_direct_lib exact wr complex_dipole p sources targets tb c w) | None => a end).
Proof.
  intros HS. destruct oc as [c|]; [|eauto]. destruct (direct_sim tb c w) as [o [E HO]]. unfold add_result. rewrite E. cbn [and_then]. apply plus_shw; auto.
Qed.

Lemma potentials_sim tr w :
  (potentials_err lib ier raw neg false wr complex_dipole t p starts box_centers sources targets zeros tr w = inl RuntimeError /\ bad) \/
  match potentials_err lib ier raw neg false wr complex_dipole t p starts box_centers sources targets zeros tr w with
  | inr out => exists a, potentials_lib exact wr complex_dipole t p starts box_centers sources targets tr w = Some a /\ shw out a
  | inl e => e = LibraryOutOfBounds /\ potentials_lib exact wr complex_dipole t p starts box_centers sources targets tr w = None
  end.
Proof.
  unfold potentials_err, potentials_lib.
  destruct (form_multipoles_sim (level_start_source_box_nrs tr) (source_boxes tr) w) as [[-> B]|E]; [left; auto|]. rewrite E. clear E. cbn [and_then].
  match goal with |- context [coarsen_multipoles_err _ _ _ _ _ _ ?a ?b ?m] => destruct (coarsen_sim a b m) as [[-> B]|E] end; [left; auto|]. rewrite E. clear E. cbn [and_then].
  match goal with |- context [coarsen_multipoles_lib ?a ?b ?c ?d ?e ?f ?g ?h] => generalize (coarsen_multipoles_lib a b c d e f g h) end. intros mp.
  match goal with |- context [eval_direct_pg _ _ _ _ _ _ _ _ _ ?a (neighbor_source_boxes tr) ?m] => destruct (direct_sim a (neighbor_source_boxes tr) m) as [o1 [E1 S1]] end.
  rewrite E1. cbn [and_then].
  match goal with |- context [multipole_to_local_err _ _ _ _ _ _ ?a ?b ?c ?m] => destruct (m2l_sim a b c m) as [[-> B]|E] end; [left; auto|]. rewrite E. clear E.
  match goal with |- context [multipole_to_local_lib ?a ?b ?c ?d ?e ?f ?g ?h ?i] => destruct (multipole_to_local_lib a b c d e f g h i) as [loc|] end; cbn [or_fail and_then]; auto.
  match goal with |- context [eval_multipoles_pg _ _ _ _ _ _ _ _ _ ?a ?b] => destruct (multipoles_sim a b) as [[-> B]|[o2 [E S2]]] end; [left; auto|]. rewrite E. clear E.
  change (add_result V o1 (inr o2)) with (output_plus o1 o2).
  destruct (plus_shw _ _ _ _ S1 S2) as [o3 [E3 S3]]. rewrite E3. cbn [and_then].
  destruct (close_sim (from_sep_close_smaller tr) (target_boxes tr) w _ _ S3) as [o4 [E4 S4]]. rewrite E4. cbn [and_then].
  match goal with |- context [form_locals_err _ _ _ _ _ _ _ _ _ ?a ?b ?c ?m] => destruct (form_locals_sim a b c m) as [[-> B]|E] end; [left; auto|]. rewrite E. clear E.
  match goal with |- context [form_locals_lib ?a ?b ?c ?d ?e ?f ?g ?h ?i ?j ?k ?l] => destruct (form_locals_lib a b c d e f g h i j k l) as [lr|] end; cbn [or_fail and_then]; auto.
  destruct (close_sim (from_sep_close_bigger tr) (target_boxes tr) w _ _ S4) as [o5 [E5 S5]]. rewrite E5. cbn [and_then].
  match goal with |- context [refine_locals_err _ _ _ _ _ _ ?a ?b ?m] => destruct (refine_sim a b m) as [[-> B]|E] end; [left; auto|]. rewrite E. clear E. cbn [and_then].
  match goal with |- context [refine_locals_lib ?a ?b ?c ?d ?e ?f ?g ?h] => generalize (refine_locals_lib a b c d e f g h) end. intros loc'.
  unfold add_result.
  match goal with |- context [eval_locals_pg _ _ _ _ _ _ _ _ _ _ ?a ?b ?c] => destruct (locals_sim a b c) as [[-> B]|[o6 [E S6]]] end; [left; auto|]. rewrite E. clear E. cbn [and_then].
  destruct (plus_shw _ _ _ _ S5 S6) as [o7 [E7 S7]]. rewrite E7. right. eexists. split; [reflexivity|exact S7].
Qed.
End Sim.
