(** The morton scan of the tree builder on the device (BuildDevice.v) computes the scan of
    TreeBuild.v. *)
From Coq Require Import List Arith ZArith NArith Lia Bool Permutation.
From Verif Require Import Base Tree Walk Traversal Fmm TreeBuild ArrayFacts Kernel Device DeviceRules BuildDevice BuildInv
  BuildScan BuildIds BuildSort BuildAdvance BuildRenumber BuildStep BuildNext BuildLoop BuildTerm BuildPrune BuildView.
Import ListNotations.

Notation okd := (ok array array_eq).

Lemma field_of_map (l : list field) (g : field -> Z) f : In f l -> field_of l (map g l) f = g f.
Proof.
  induction l as [|h l IH]; intros I; [destruct I|]. cbn [map field_of]. destruct (field_eq h f) as [->|N]; auto.
  apply IH. destruct I; auto. contradiction.
Qed.
Lemma field_of_notin (l : list field) (g : field -> Z) f : ~ In f l -> field_of l (map g l) f = 0%Z.
Proof.
  induction l as [|h l IH]; intros I; cbn [map field_of]; auto. destruct (field_eq h f) as [->|N].
  - exfalso. apply I. left; auto.
  - apply IH. intros J. apply I. right; auto.
Qed.
Lemma evals_load_struct K (mk : field -> array) l (g : field -> Z) k n next T :
  (forall f, In f l -> len K (mk f) = Some n /\ (z k < n)%Z /\ val K (mk f) k = Some (g f)) ->
  evals K (next (field_of l (map g l))) T ->
  evals K (load_struct mk l (z k) next) (map (fun f => Get (mk f) k) l ++ T).
Proof.
  intros H E. unfold load_struct.
  replace (map (fun f => Get (mk f) k) l) with (map (fun c : array * Z => Get (fst c) (Z.to_nat (snd c))) (map (fun f => (mk f, z k)) l)).
  2:{ rewrite map_map. apply map_ext. intros f. cbn [fst snd]. rewrite Nat2Z.id. auto. }
  apply (evals_load_all array) with (vs := map g l); auto.
  clear E. induction l as [|f l IH]; cbn [map]; constructor.
  - cbn [fst snd]. exists k, n. destruct (H f (or_introl eq_refl)) as [A [B C]]. auto.
  - apply IH. intros; apply H; right; auto.
Qed.
Lemma evals_store_struct K mk l s k n next T :
  (forall f, In f l -> len K (mk f) = Some n /\ (z k < n)%Z) -> evals K next T ->
  evals K (store_struct mk l (z k) s next) (map (fun f => Put (mk f) k (s f)) l ++ T).
Proof.
  intros H E. unfold store_struct.
  replace (map (fun f => Put (mk f) k (s f)) l) with (concat (map (fun f => [Put (mk f) k (s f)]) l)).
  2:{ clear. induction l; cbn [map concat app]; congruence. }
  apply (evals_for_each array); auto. intros f nx Tx I Ev. cbn [app]. destruct (H f I) as [A B].
  apply ev_store with (n := n); auto.
Qed.
Lemma evals_axes K (mk : nat -> array) (l : list nat) (g : nat -> Z) k n next T :
  (forall a, In a l -> len K (mk a) = Some n /\ (z k < n)%Z /\ val K (mk a) k = Some (g a)) ->
  evals K (next (map g l)) T ->
  evals K (load_all (map (fun a => (mk a, z k)) l) next) (map (fun a => Get (mk a) k) l ++ T).
Proof.
  intros H E.
  replace (map (fun a => Get (mk a) k) l) with (map (fun c : array * Z => Get (fst c) (Z.to_nat (snd c))) (map (fun a => (mk a, z k)) l)).
  2:{ rewrite map_map. apply map_ext. intros f. cbn [fst snd]. rewrite Nat2Z.id. auto. }
  apply (evals_load_all array) with (vs := map g l); auto.
  clear E. induction l as [|f l IH]; cbn [map]; constructor.
  - cbn [fst snd]. exists k, n. destruct (H f (or_introl eq_refl)) as [A [B C]]. auto.
  - apply IH. intros; apply H; right; auto.
Qed.
Lemma evals_stores {X} K (mk : X -> array) l (s : X -> Z) k n next T :
  (forall f, In f l -> len K (mk f) = Some n /\ (z k < n)%Z) -> evals K next T ->
  evals K (for_each l (fun f nx => Store (mk f) (z k) (s f) nx) next) (map (fun f => Put (mk f) k (s f)) l ++ T).
Proof.
  intros H E.
  replace (map (fun f => Put (mk f) k (s f)) l) with (concat (map (fun f => [Put (mk f) k (s f)]) l)).
  2:{ clear. induction l; cbn [map concat app]; congruence. }
  apply (evals_for_each array); auto. intros f nx Tx I Ev. cbn [app]. destruct (H f I) as [A B].
  apply ev_store with (n := n); auto.
Qed.

Lemma fold_left_ext_in' {A B} (f g : A -> B -> A) l a : (forall x b, In b l -> f x b = g x b) -> fold_left f l a = fold_left g l a.
Proof.
  revert a. induction l as [|b l IH]; intros a E; cbn [fold_left]; auto. rewrite E by (left; auto). apply IH.
  intros; apply E; right; auto.
Qed.
Lemma existsb_ext_in' {A} (f g : A -> bool) l : (forall x, In x l -> f x = g x) -> existsb f l = existsb g l.
Proof. induction l as [|x l IH]; intros E; cbn [existsb]; auto. rewrite E by (left; auto). f_equal. apply IH. intros; apply E; right; auto. Qed.
Lemma bool_z_nz b : negb (bool_z b =? 0)%Z = b.
Proof. destruct b; auto. Qed.
Lemma seg_scan_z fl (f : nat -> nat) k :
  seg_scan fl Z.add (fun i => z (f i)) k = z (seg_scan fl Nat.add f k).
Proof. induction k as [|k IH]; cbn [seg_scan]; auto. destruct (fl (S k)); auto. rewrite IH. lia. Qed.
Lemma nth_axes (g : nat -> Z) d a : a < d -> nth a (map g (seq 0 d)) 0%Z = g a.
Proof. intros H. rewrite (nth_indep _ 0%Z (g 0)) by (rewrite map_length, seq_length; auto). rewrite map_nth, seq_nth; auto. Qed.

(** cases for membership in a list of touched cells *)
Ltac touches X :=
  repeat match type of X with
  | In _ (_ :: _) => destruct X as [X|X]; [try discriminate X|]
  | In _ (_ ++ _) => apply in_app_or in X; destruct X as [X|X]
  | In _ [] => destruct X
  | In _ (map _ _) => let y := fresh "y" in let Hy := fresh "Hy" in
      apply in_map_iff in X; destruct X as [y [X Hy]]; try discriminate X
  | In _ (concat (map _ _)) => let y := fresh "y" in let Hy := fresh "Hy" in
      apply in_concat_map in X; destruct X as [y [Hy X]]
  | In _ (if ?b then _ else _) => let E := fresh "E" in destruct b eqn:E
  end.

Ltac chain :=
  repeat match goal with
  | |- context [array_eq ?x ?y] => let E := fresh "E" in destruct (array_eq x y) as [E|E]; [try discriminate E|try (destruct (E eq_refl))]
  | |- context [in_dec array_eq ?x ?l] => let J := fresh "J" in destruct (in_dec array_eq x l) as [J|J];
      [try (exfalso; apply in_map_iff in J; destruct J as [? [J ?]]; discriminate J)|]
  end.

Section Morton.
Variable inp : input.
Notation nch := (nchild inp).
Notation np := (npart inp).
Hypothesis WT : forall u, u < np -> (0 <= weight inp u <= INT_MAX)%Z.
Hypothesis MW : (0 <= max_weight inp)%Z.
Variable st : state.
Variable pth : nat -> list nat.
Hypothesis G : good inp st pth.
Hypothesis RM : roomy inp st.
Let H := g_head inp st pth G.
Let I := h_inv inp st pth H.
Let Y := i_layout inp st pth I.
Notation L := (nlev st).
Notation n := (lst st L).
Notation mn := (morton_nrs inp st).
Notation bc := (bin_counts inp st mn).
Notation bw := (bin_wts inp st mn).
Notation nothing := nothing.

Lemma user_lt i : i < np -> s_user st i < np.
Proof. intros Hi. apply (perm_lt np); auto. apply (i_perm inp st pth I). Qed.
Lemma box_lt i : i < np -> s_box st i < n.
Proof. intros Hi. apply (used_lt st Y). apply (i_box inp st pth I i Hi). Qed.
Lemma box_guess i : i < np -> s_box st i < s_guess st.
Proof. intros Hi. assert (X := box_lt i Hi). assert (Z := r_guess inp st RM). lia. Qed.

(** the morton number computed from the loaded data *)
Lemma morton_loaded u l : morton (loaded inp (map (coord inp u) (axes inp)) (radius_of inp u)) 0 l = morton inp u l.
Proof.
  set (i' := loaded inp (map (coord inp u) (axes inp)) (radius_of inp u)).
  assert (PB : forall a, a < idim inp -> particle_bits i' 0 l a = particle_bits inp u l a).
  { intros a Ha. unfold particle_bits, extent_along. cbn [i' loaded coord bbox_min bbox_max]. unfold axes. rewrite nth_axes; auto. }
  assert (NC : forall a, a < idim inp -> next_center2 i' 0 l a = next_center2 inp u l a).
  { intros a Ha. unfold next_center2. rewrite PB by auto. reflexivity. }
  unfold morton. replace (morton_number i' 0 l) with (morton_number inp u l).
  2:{ unfold morton_number. change (idim i') with (idim inp). apply fold_left_ext_in'. intros acc a Ha. apply in_seq in Ha.
      rewrite PB by lia. auto. }
  replace (stop_descent i' 0 l) with (stop_descent inp u l); auto.
  unfold stop_descent. cbn [i' loaded ext]. destruct (ext inp) as [e|] eqn:E; auto. cbn [extent_norm].
  change (idim i') with (idim inp).
  destruct (extent_norm e).
  - apply existsb_ext_in'. intros a Ha. apply in_seq in Ha. unfold sticks_out_linf. fold i'. rewrite NC by lia.
    cbn [sof_num sof_den radius coord i' loaded]. unfold axes. rewrite nth_axes by lia. unfold radius_of. rewrite E. reflexivity.
  - unfold sticks_out_l2. fold i'. cbn [sof_num sof_den radius]. change (idim i') with (idim inp).
    replace (radius_of inp u) with (radius e u) by (unfold radius_of; rewrite E; auto).
    rewrite (map_ext_in (fun a => (sof_den e * (2 * u32_shl1 (1 + l) * coord i' 0 a - next_center2 i' 0 l a)
        * (sof_den e * (2 * u32_shl1 (1 + l) * coord i' 0 a - next_center2 i' 0 l a)))%Z)
      (fun a => (sof_den e * (2 * u32_shl1 (1 + l) * coord inp u a - next_center2 inp u l a)
        * (sof_den e * (2 * u32_shl1 (1 + l) * coord inp u a - next_center2 inp u l a)))%Z) (seq 0 (idim inp))).
    + reflexivity.
    + intros a Ha. apply in_seq in Ha. rewrite NC by lia. cbn [coord i' loaded]. unfold axes. rewrite nth_axes by lia. auto.
Qed.

Definition scan_in (f : field) (i : nat) : Z :=
  match f with
  | Cnt k => if mn i =? k then 1%Z else 0%Z
  | Wt m => if mn i =? S m then weight inp (s_user st i) else 0%Z
  end.
Definition scan_out (f : field) (i : nat) : Z := match f with Cnt k => z (bc i k) | Wt m => bw i m end.
Definition zeros (l : Z) : option (Z * (nat -> option Z)) := Some (l, fun _ => Some 0%Z).
Definition morton_tmp0 (x : array) : option (Z * (nat -> option Z)) :=
  match x with
  | ScanIn f | ScanOut f => if field_in inp f then zeros (z np) else None
  | ScanStart => zeros (z np)
  | _ => None
  end.
Definition morton_tmp1 (x : array) : option (Z * (nat -> option Z)) :=
  match x with
  | ScanIn f => if field_in inp f then Some (z np, fun i => Some (scan_in f i)) else None
  | ScanOut f => if field_in inp f then zeros (z np) else None
  | ScanStart => Some (z np, fun i => Some (bool_z (s_start_flag st i)))
  | _ => None
  end.
Definition morton_tmp2 (x : array) : option (Z * (nat -> option Z)) :=
  match x with
  | ScanOut f => if field_in inp f then Some (z np, fun i => Some (scan_out f i)) else None
  | _ => None
  end.
Definition nrs_tmp (x : array) (k : nat) : option Z :=
  match x with MortonNrs => Some (z (mn k) - 1)%Z | _ => None end.
Definition bins_tmp (x : array) (k : nat) : option Z :=
  match x with MortonNrs => Some (z (mn k) - 1)%Z | MortonBin f => Some (scan_out f k) | _ => None end.

Definition morton_input_touches (i : nat) : list (touch array) :=
  Get StartFlags i :: Put ScanStart i (bool_z (s_start_flag st i)) :: Get BoxIds i :: Get Levels (s_box st i) :: Get UserIds i ::
  (if have_extent inp then [Get Radii (s_user st i)] else []) ++
  map (fun a => Get (Coords a) (s_user st i)) (axes inp) ++
  map (fun f => Put (ScanIn f) i (scan_in f i)) (counts_only inp) ++
  concat (map (fun m => (if mn i =? S m then [Get RefineWeights (s_user st i)] else []) ++
                        [Put (ScanIn (Wt m)) i (scan_in (Wt m) i)]) (seq 0 nch)) ++
  [Put MortonNrs i (z (mn i) - 1)%Z].

Lemma morton_input_evals i : i < np ->
  evals (extend (view inp st nothing) morton_tmp0) (morton_input inp i) (morton_input_touches i).
Proof.
  intros Hi. assert (Hu := user_lt i Hi). assert (Hb := box_guess i Hi). unfold morton_input, morton_input_touches.
  eapply ev_load; [reflexivity|lia|reflexivity|].
  eapply ev_store; [reflexivity|lia|].
  eapply ev_load; [reflexivity|lia|reflexivity|].
  eapply ev_load; [reflexivity|lia|reflexivity|].
  eapply ev_load; [reflexivity|lia|reflexivity|].
  assert (E : forall r, r = radius_of inp (s_user st i) -> evals (extend (view inp st nothing) morton_tmp0)
    (load_all (map (fun a => (Coords a, z (s_user st i))) (axes inp)) (fun xs =>
      let nr := (z (bin_key (morton (loaded inp xs r) 0 (Z.to_nat (z (s_blevel st (s_box st i)))))) - 1)%Z in
      for_each (counts_only inp) (fun f nx =>
        Store (ScanIn f) (z i) (match f with Cnt k => bool_z (nr =? z k - 1)%Z | Wt _ => 0%Z end) nx) (
      for_each (seq 0 nch) (fun m nx =>
        if (nr =? z m)%Z then Load RefineWeights (z (s_user st i)) (fun w => Store (ScanIn (Wt m)) (z i) w nx)
        else Store (ScanIn (Wt m)) (z i) 0%Z nx) (
      Store MortonNrs (z i) nr Finish))))
    (map (fun a => Get (Coords a) (s_user st i)) (axes inp) ++
     map (fun f => Put (ScanIn f) i (scan_in f i)) (counts_only inp) ++
     concat (map (fun m => (if mn i =? S m then [Get RefineWeights (s_user st i)] else []) ++
                        [Put (ScanIn (Wt m)) i (scan_in (Wt m) i)]) (seq 0 nch)) ++
     [Put MortonNrs i (z (mn i) - 1)%Z])).
  { intros r ->. apply evals_axes with (g := coord inp (s_user st i)) (n := z np).
    - intros a Ha. apply in_seq in Ha. cbn [extend view len val morton_tmp0 lenv cellv].
      destruct (Nat.ltb_spec a (idim inp)); [|lia]. repeat split; auto. lia.
    - cbv zeta. rewrite Nat2Z.id, morton_loaded.
      assert (NR : bin_key (morton inp (s_user st i) (s_blevel st (s_box st i))) = mn i).
      { unfold morton_nrs. rewrite kernel_map_lt; auto. }
      rewrite NR.
      replace (map (fun f => Put (ScanIn f) i (scan_in f i)) (counts_only inp))
        with (map (fun f => Put (ScanIn f) i (match f with Cnt k => bool_z (z (mn i) - 1 =? z k - 1)%Z | Wt _ => 0%Z end)) (counts_only inp)).
      2:{ apply map_ext_in. intros f Hf. apply count_in_iff in Hf. destruct Hf as [_ [k ->]]. f_equal. cbn [scan_in].
          destruct (Nat.eqb_spec (mn i) k) as [->|N]; [rewrite Z.eqb_refl; auto|].
          destruct (Z.eqb_spec (z (mn i) - 1) (z k - 1)); auto. lia. }
      apply evals_stores with (n := z np).
      { intros f Hf. apply count_in_iff in Hf. destruct Hf as [Hf _]. cbn [extend len morton_tmp0]. rewrite Hf. cbn [zeros]. split; auto. lia. }
      apply (evals_for_each array).
      2:{ eapply ev_store; [reflexivity|lia|constructor]. }
      intros m nx Tx Hm Ev. apply in_seq in Hm.
      assert (Fm : len (extend (view inp st nothing) morton_tmp0) (ScanIn (Wt m)) = Some (z np)).
      { cbn [extend len morton_tmp0 field_in]. destruct (Nat.ltb_spec m nch); [auto|lia]. }
      cbn [scan_in]. destruct (Nat.eqb_spec (mn i) (S m)) as [E|N].
      + replace (z (mn i) - 1 =? z m)%Z with true by (symmetry; apply Z.eqb_eq; lia). cbn [app].
        eapply ev_load; [reflexivity|lia|reflexivity|]. eapply ev_store; [exact Fm|lia|auto].
      + replace (z (mn i) - 1 =? z m)%Z with false by (symmetry; apply Z.eqb_neq; lia). cbn [app].
        eapply ev_store; [exact Fm|lia|auto]. }
  unfold radius_of in E. destruct (have_extent inp) eqn:X.
  - cbn [app]. eapply ev_load.
    + cbn [extend len morton_tmp0 view lenv]. rewrite X. reflexivity.
    + lia.
    + reflexivity.
    + apply E. reflexivity.
  - cbn [app]. apply E. unfold have_extent in X. destruct (ext inp); [discriminate X|auto].
Qed.

Lemma morton_input_puts i a k v : In (Put a k v) (morton_input_touches i) <->
  k = i /\ ((a = ScanStart /\ v = bool_z (s_start_flag st i)) \/ (exists f, field_in inp f = true /\ a = ScanIn f /\ v = scan_in f i) \/
            (a = MortonNrs /\ v = (z (mn i) - 1)%Z)).
Proof.
  unfold morton_input_touches. split.
  - intros X. touches X.
    + injection X as <- <- <-. auto.
    + injection X as <- <- <-. apply count_in_iff in Hy. split; auto. right. left. exists y. intuition.
    + injection X as <- <- <-. apply in_seq in Hy. split; auto. right. left. exists (Wt y). split; auto. cbn [field_in]. apply Nat.ltb_lt. lia.
    + injection X as <- <- <-. auto.
  - intros [-> [[-> ->]|[[f [F [-> ->]]]|[-> ->]]]].
    + right. left. auto.
    + do 5 right. apply in_or_app. right. apply in_or_app. right. apply field_in_iff in F.
      unfold fields, weights_only in F. apply in_app_or in F. destruct F as [F|F].
      * apply in_or_app. left. apply in_map_iff. exists f. auto.
      * apply in_map_iff in F. destruct F as [m [<- F]]. apply in_or_app. right. apply in_or_app. left.
        apply in_concat_map. exists m. split; auto. apply in_or_app. right. left. auto.
    + do 5 right. apply in_or_app. right. apply in_or_app. right. apply in_or_app. right. apply in_or_app. right. left. auto.
Qed.
Lemma morton_input_gets i a k : In (Get a k) (morton_input_touches i) ->
  match a with StartFlags | BoxIds | Levels | UserIds | Radii | Coords _ | RefineWeights => True | _ => False end.
Proof.
  unfold morton_input_touches. intros X. touches X; injection X as <- _; exact Logic.I.
Qed.

Lemma morton_launch_1 {R} (next : host array R) (Q : R -> device array -> Prop) :
  okd (extend (view inp st nrs_tmp) morton_tmp1) next Q ->
  okd (extend (view inp st nothing) morton_tmp0) (Launch np (morton_input inp) next) Q.
Proof.
  intros O. apply ok_launch_sep with (T := morton_input_touches) (K' := extend (view inp st nrs_tmp) morton_tmp1); auto.
  - intros i Hi. apply morton_input_evals; auto.
  - intros i j a k v Hi Hj X Z. apply morton_input_puts in X. apply morton_input_gets in Z.
    destruct X as [_ [[-> _]|[[f [_ [-> _]]]|[-> _]]]]; exact Z.
  - intros i a k v Hi X. apply morton_input_puts in X. destruct X as [-> [[-> ->]|[[f [F [-> ->]]]|[-> ->]]]].
    + reflexivity.
    + cbn [extend val morton_tmp1]. rewrite F. auto.
    + reflexivity.
  - intros a m. cbn [extend len]. destruct a; cbn [morton_tmp0 morton_tmp1 zeros]; auto; destruct (field_in inp f); auto.
  - intros a m k w. cbn [extend len val view].
    destruct a; cbn [morton_tmp0 morton_tmp1 zeros lenv cellv nrs_tmp nothing]; auto; try discriminate; intros Lm Hk E.
    + injection Lm as <-. left. exists k, w. split; [lia|]. apply morton_input_puts. injection E as <-. auto.
    + destruct (field_in inp f) eqn:F; [|discriminate]. injection Lm as <-. left. exists k, w. split; [lia|].
      apply morton_input_puts. injection E as <-. split; auto. right. left. exists f. auto.
    + injection Lm as <-. left. exists k, w. split; [lia|]. apply morton_input_puts. injection E as <-. auto.
Qed.

(** the scan *)
Lemma find_scan (l : list field) f :
  find (fun p : array * array * (Z -> Z -> Z) => if array_eq (ScanOut f) (snd (fst p)) then true else false)
    (map (fun f => (ScanIn f, ScanOut f, morton_scan_op f)) l) =
  if in_dec field_eq f l then Some (ScanIn f, ScanOut f, morton_scan_op f) else None.
Proof.
  induction l as [|g l IH]; cbn [map find fst snd]; auto.
  destruct (array_eq (ScanOut f) (ScanOut g)) as [E|E].
  - injection E as <-. destruct (in_dec field_eq f (f :: l)) as [J|J]; auto. exfalso. apply J. left; auto.
  - rewrite IH. destruct (in_dec field_eq f l) as [J|J], (in_dec field_eq f (g :: l)) as [J'|J']; auto.
    + exfalso. apply J'. right; auto.
    + destruct J' as [J'|J']; [|contradiction]. subst. congruence.
Qed.
Lemma find_other (l : list field) x : (forall f, x <> ScanOut f) ->
  find (fun p : array * array * (Z -> Z -> Z) => if array_eq x (snd (fst p)) then true else false)
    (map (fun f => (ScanIn f, ScanOut f, morton_scan_op f)) l) = None.
Proof.
  intros N. induction l as [|g l IH]; cbn [map find fst snd]; auto. destruct (array_eq x (ScanOut g)) as [E|E]; auto.
  destruct (N g E).
Qed.
Lemma scan_value f k : field_in inp f = true -> k < np ->
  seg_scan (s_start_flag st) (morton_scan_op f) (scan_in f) k = scan_out f k.
Proof.
  intros F Hk. destruct f as [j|m]; cbn [scan_in scan_out morton_scan_op].
  - assert (Hj : j <= nch). { destruct j; [lia|]. cbn [field_in] in F. apply Nat.ltb_lt in F. auto. }
    rewrite (seg_scan_ext_le _ (s_start_flag st) _ _ (fun i => z (if mn i =? j then 1 else 0))).
    + rewrite seg_scan_z. unfold bin_counts. rewrite kernel_map_lt by auto. rewrite kernel_map_lt by lia. auto.
    + auto.
    + intros i _. cbn [scan_in]. destruct (mn i =? j); auto.
  - cbn [field_in] in F. apply Nat.ltb_lt in F. unfold bin_wts. rewrite !kernel_map_lt by auto. auto.
Qed.
Lemma morton_scan_ok {R} (next : host array R) (Q : R -> device array -> Prop) :
  okd (extend (view inp st nrs_tmp) morton_tmp2) next Q ->
  okd (extend (view inp st nrs_tmp) morton_tmp1) (Scan (morton_scan inp) next) Q.
Proof.
  intros O. apply ok_scan with (n := np).
  - intros p Hp. cbn [morton_scan scan_parts] in Hp. apply in_map_iff in Hp. destruct Hp as [f [<- Hf]]. apply field_in_iff in Hf.
    cbn [fst extend len morton_tmp1]. rewrite Hf. auto.
  - reflexivity.
  - apply (ok_weaken array array_eq _ _ _ _ O). intros d. apply known_weaken.
    + intros a m. cbn [k_scan extend len]. destruct a; cbn [morton_tmp1 morton_tmp2 zeros lenv view len]; auto; try discriminate.
      destruct (field_in inp f); auto.
    + intros a m k v Lm Hk E. cbn [k_scan val]. unfold result_part. cbn [morton_scan scan_parts scan_flag].
      destruct a; try (rewrite find_other by (intros; discriminate);
        cbn [extend val len morton_tmp1 morton_tmp2 view cellv lenv] in *; first [exact E|discriminate E]).
      cbn [extend len val morton_tmp2] in Lm, E. destruct (field_in inp f) eqn:F; [|discriminate Lm].
        injection Lm as <-. injection E as <-. rewrite find_scan. assert (F' := F). apply field_in_iff in F'.
        destruct (in_dec field_eq f (fields inp)) as [_|N]; [|contradiction].
        cbn [extend val morton_tmp1]. rewrite F.
        replace (forallb _ _) with true by (symmetry; apply forallb_forall; auto). cbn [andb].
        destruct (Nat.ltb_spec k np) as [Hk'|]; [|lia]. f_equal. rewrite <- scan_value by auto.
        apply seg_scan_ext_le; auto. intros i _. apply bool_z_nz.
Qed.

(** the output statements *)
Lemma bc_0 i : i < np -> have_extent inp = false -> bc i 0 = 0.
Proof.
  intros Hi X. rewrite (bc_val inp st i 0 Hi ltac:(lia)). apply cntr_none. intros j H1 H2.
  assert (Hj : j < np) by lia. rewrite (mn_val inp st pth I j Hj). assert (K := key_no_extent inp (s_user st j) (length (pth (s_box st j))) X).
  apply Nat.eqb_neq. lia.
Qed.
Lemma count_sum_val i : i < np ->
  count_sum inp (field_of (fields inp) (map (fun f => scan_out f i) (fields inp))) = z (nsum (map (bc i) (seq 0 (S nch)))).
Proof.
  intros Hi. unfold count_sum.
  rewrite (map_ext_in _ (fun k => z (bc i k))).
  - generalize (seq 0 (S nch)). intros l. induction l as [|x l IH]; auto. cbn [map]. unfold zsum, nsum in *. cbn [fold_right]. lia.
  - intros k Hk. apply in_seq in Hk. destruct (field_in inp (Cnt k)) eqn:F.
    + apply field_in_iff in F. rewrite (field_of_map (fields inp) (fun f => scan_out f i)) by auto. auto.
    + rewrite (field_of_notin (fields inp) (fun f => scan_out f i)) by (rewrite field_in_iff; congruence).
      destruct k; cbn [field_in] in F.
      * rewrite bc_0 by auto. auto.
      * apply Nat.ltb_ge in F. lia.
Qed.
Definition morton_output_touches (i : nat) : list (touch array) :=
  map (fun f => Get (ScanOut f) i) (fields inp) ++
  map (fun f => Put (MortonBin f) i (scan_out f i)) (fields inp) ++
  Get BoxIds i :: Get Counts (s_box st i) ::
  (if is_last_in_box inp st bc i then map (fun f => Put (BoxBin f) (s_box st i) (scan_out f i)) (fields inp) else []).
Lemma morton_output_evals i : i < np ->
  evals (extend (view inp st nrs_tmp) morton_tmp2) (morton_output inp i) (morton_output_touches i).
Proof.
  intros Hi. assert (Hb := box_guess i Hi). unfold morton_output, morton_output_touches.
  apply evals_load_struct with (g := fun f => scan_out f i) (n := z np).
  { intros f Hf. apply field_in_iff in Hf. cbn [extend len val morton_tmp2]. rewrite Hf. repeat split; auto. lia. }
  cbv zeta.
  replace (map (fun f => Put (MortonBin f) i (scan_out f i)) (fields inp))
    with (map (fun f => Put (MortonBin f) i (field_of (fields inp) (map (fun f => scan_out f i) (fields inp)) f)) (fields inp)).
  2:{ apply map_ext_in. intros f Hf. rewrite (field_of_map (fields inp) (fun f => scan_out f i)) by auto. auto. }
  apply evals_store_struct with (n := z np).
  { intros f Hf. apply field_in_iff in Hf. cbn [extend len morton_tmp2 view lenv]. rewrite Hf. split; auto. lia. }
  eapply ev_load; [reflexivity|lia|reflexivity|].
  eapply ev_load; [reflexivity|lia|reflexivity|].
  rewrite count_sum_val by auto. unfold is_last_in_box.
  set (tot := nsum (map (bc i) (seq 0 (S nch)))).
  destruct (Nat.eqb_spec tot (s_cumul st (s_box st i))) as [E|E].
  - replace (-1 + z tot + 1 =? z (s_cumul st (s_box st i)))%Z with true by (symmetry; apply Z.eqb_eq; lia).
    replace (map (fun f => Put (BoxBin f) (s_box st i) (scan_out f i)) (fields inp))
      with (map (fun f => Put (BoxBin f) (s_box st i) (field_of (fields inp) (map (fun f => scan_out f i) (fields inp)) f)) (fields inp) ++ []).
    2:{ rewrite app_nil_r. apply map_ext_in. intros f Hf. rewrite (field_of_map (fields inp) (fun f => scan_out f i)) by auto. auto. }
    apply evals_store_struct with (n := z (s_guess st)); [|constructor].
    intros f Hf. apply field_in_iff in Hf. cbn [extend len morton_tmp2 view lenv]. rewrite Hf. split; auto. lia.
  - replace (-1 + z tot + 1 =? z (s_cumul st (s_box st i)))%Z with false by (symmetry; apply Z.eqb_neq; lia). constructor.
Qed.
Lemma morton_output_puts i a k v : In (Put a k v) (morton_output_touches i) <-> exists f, field_in inp f = true /\ v = scan_out f i /\
  ((a = MortonBin f /\ k = i) \/ (a = BoxBin f /\ k = s_box st i /\ is_last_in_box inp st bc i = true)).
Proof.
  unfold morton_output_touches. split.
  - intros X. touches X; injection X as <- <- <-; exists y; apply field_in_iff in Hy; auto 10.
  - intros [f [F [-> [[-> ->]|[-> [-> E]]]]]]; apply field_in_iff in F; apply in_or_app; right; apply in_or_app.
    + left. apply in_map_iff. exists f. auto.
    + right. right. right. rewrite E. apply in_map_iff. exists f. auto.
Qed.
Lemma morton_output_gets i a k : In (Get a k) (morton_output_touches i) ->
  match a with ScanOut _ | BoxIds | Counts => True | _ => False end.
Proof. unfold morton_output_touches. intros X. touches X; injection X as <- _; exact Logic.I. Qed.
Lemma last_unique i j : i < np -> j < np -> is_last_in_box inp st bc i = true -> is_last_in_box inp st bc j = true ->
  s_box st i = s_box st j -> i = j.
Proof.
  intros Hi Hj A B E. destruct (last_full inp st pth I i Hi A) as [_ [A2 _]]. destruct (last_full inp st pth I j Hj B) as [_ [B2 _]].
  rewrite E in A2. lia.
Qed.
Lemma morton_launch_2 {R} (next : host array R) (Q : R -> device array -> Prop) :
  okd (view inp (scanned inp st) bins_tmp) next Q ->
  okd (extend (view inp st nrs_tmp) morton_tmp2) (Launch np (morton_output inp) next) Q.
Proof.
  intros O. apply ok_launch_sep with (T := morton_output_touches) (K' := view inp (scanned inp st) bins_tmp); auto.
  - intros i Hi. apply morton_output_evals; auto.
  - intros i j a k v Hi Hj X Z. apply morton_output_puts in X. apply morton_output_gets in Z.
    destruct X as [f [_ [_ [[-> _]|[-> _]]]]]; exact Z.
  - intros i a k v Hi X. apply morton_output_puts in X. destruct X as [f [F [-> [[-> ->]|[-> [-> E]]]]]]; [reflexivity|].
    cbn [view val cellv]. destruct f as [j|m]; f_equal; cbn [scan_out scanned with_scan s_bins s_wts].
    + f_equal. unfold box_bins. rewrite (scatter_map_in (s_box st) bc _ _ i); auto.
      * apply filter_In. split; auto. apply in_seq. lia.
      * intros i' Hi' E'. apply filter_In in Hi'. destruct Hi' as [Hi' L']. apply in_seq in Hi'.
        f_equal. apply last_unique; auto. lia.
    + unfold box_wts. rewrite (scatter_map_in (s_box st) bw _ _ i); auto.
      * apply filter_In. split; auto. apply in_seq. lia.
      * intros i' Hi' E'. apply filter_In in Hi'. destruct Hi' as [Hi' L']. apply in_seq in Hi'.
        f_equal. apply last_unique; auto. lia.
  - intros a m. cbn [extend len view]. destruct a; cbn [morton_tmp2 lenv]; auto. discriminate.
  - intros a m k w. cbn [extend len val view]. destruct a; try discriminate; auto; cbn [morton_tmp2 lenv cellv nrs_tmp bins_tmp]; intros Lm Hk E; auto.
    + destruct (field_in inp f) eqn:F; [|discriminate]. injection Lm as <-. left. exists k, w. split; [lia|].
      apply morton_output_puts. injection E as <-. exists f. auto.
    + destruct (field_in inp f) eqn:F; [|discriminate]. injection Lm as <-. destruct f as [j|j]; injection E as <-;
        cbn [scanned with_scan s_bins s_wts].
      * unfold box_bins. destruct (scatter_cases (map (fun i => (s_box st i, bc i)) (filter (is_last_in_box inp st bc) (seq 0 np)))
          (s_bins st) k) as [[v [X1 X2]]|[X1 X2]]; rewrite X2; [left|right; auto].
        apply in_map_iff in X1. destruct X1 as [i [X1 X3]]. apply filter_In in X3. destruct X3 as [X3 X4]. apply in_seq in X3.
        injection X1 as <- <-. exists i, (scan_out (Cnt j) i). split; [lia|]. apply morton_output_puts. exists (Cnt j). auto 10.
      * unfold box_wts. destruct (scatter_cases (map (fun i => (s_box st i, bw i)) (filter (is_last_in_box inp st bc) (seq 0 np)))
          (s_wts st) k) as [[v [X1 X2]]|[X1 X2]]; rewrite X2; [left|right; auto].
        apply in_map_iff in X1. destruct X1 as [i [X1 X3]]. apply filter_In in X3. destruct X3 as [X3 X4]. apply in_seq in X3.
        injection X1 as <- <-. exists i, (scan_out (Wt j) i). split; [lia|]. apply morton_output_puts. exists (Wt j). auto 10.
Qed.

Lemma in_field_map (mk : field -> array) f : (forall f g, mk f = mk g -> f = g) -> In (mk f) (map mk (fields inp)) <-> field_in inp f = true.
Proof.
  intros INJ. rewrite in_map_iff, <- field_in_iff. split.
  - intros [g [E F]]. apply INJ in E. subst. auto.
  - intros F. exists f. auto.
Qed.
Theorem morton_scan_refines {R} (next : host array R) (Q : R -> device array -> Prop) :
  okd (view inp (scanned inp st) bins_tmp) next Q -> okd (view inp st nothing) (morton_scan_program inp next) Q.
Proof.
  intros O. unfold morton_scan_program. apply ok_each_alloc; [lia|]. apply ok_each_alloc; [lia|]. apply ok_alloc; [lia|].
  apply (ok_weaken array array_eq _ (extend (view inp st nothing) morton_tmp0)).
  - apply morton_launch_1, morton_scan_ok, morton_launch_2, O.
  - assert (A1 : forall f, In (ScanIn f) (map ScanIn (fields inp)) <-> field_in inp f = true) by (intros; apply in_field_map; congruence).
    assert (A2 : forall f, In (ScanOut f) (map ScanOut (fields inp)) <-> field_in inp f = true) by (intros; apply in_field_map; congruence).
    intros d. apply known_weaken.
    + intros a m. cbn [k_alloc k_allocs extend len]. destruct a; cbn [morton_tmp0 view len lenv zeros]; try discriminate; chain; auto.
      all: try (match goal with J : In _ _ |- _ => first [apply A1 in J|apply A2 in J]; rewrite J; auto end).
      all: destruct (field_in inp f) eqn:F; [|discriminate]; exfalso; first [apply A1 in F; contradiction|apply A2 in F; contradiction].
    + intros a m k v Lm _. revert Lm. cbn [k_alloc k_allocs extend len val]. destruct a; cbn [morton_tmp0 view len lenv zeros]; try discriminate; chain; auto.
      all: destruct (field_in inp f) eqn:F; [|discriminate]; auto; exfalso; first [apply A1 in F; contradiction|apply A2 in F; contradiction].
Qed.
End Morton.
