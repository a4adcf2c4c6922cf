(** Facts about moving records *)
From Coq Require Import List Arith ZArith String Bool Lia.
From Verif Require Import Transfer SpecTransfer.
Import ListNotations.
Local Open Scope string_scope.
Local Open Scope list_scope.
Local Open Scope nat_scope.

Section Ind.
Variable P : obj -> Prop.
Variable HN : P ONone.
Variable HS : forall v, P (OScalar v).
Variable HH : forall d, P (OHost d).
Variable HD : forall q d, P (ODev q d).
Variable HO : forall l, Forall P l -> P (OObjs l).
Variable HL : forall l, Forall P l -> P (OList l).
Variable HI : P ODict.
Variable HB : forall c n st li ne ci, P n -> P st -> P li -> P ne -> P ci -> P (OBuilt c n st li ne ci).
Variable HC : forall cls fs, Forall (fun f => P (snd (snd f))) fs -> P (OCont cls fs).
Definition maybe (o : option obj) : Prop := match o with Some v => P v | None => True end.
Variable HR : forall fs : list (string * option obj), Forall (fun f => maybe (snd f)) fs -> P (ORecord fs).
Variable HX : forall s, P (OOther s).
Fixpoint obj_induction (x : obj) : P x :=
  match x with
  | ONone => HN
  | OScalar v => HS v
  | OHost d => HH d
  | ODev q d => HD q d
  | OObjs l => HO l ((fix go l := match l return Forall P l with [] => Forall_nil _ | y :: l' => Forall_cons y (obj_induction y) (go l') end) l)
  | OList l => HL l ((fix go l := match l return Forall P l with [] => Forall_nil _ | y :: l' => Forall_cons y (obj_induction y) (go l') end) l)
  | ODict => HI
  | OBuilt c n st li ne ci => HB c n st li ne ci (obj_induction n) (obj_induction st) (obj_induction li) (obj_induction ne) (obj_induction ci)
  | OCont cls fs => HC cls fs ((fix go l := match l return Forall (fun f => P (snd (snd f))) l with
      [] => Forall_nil _ | y :: l' => Forall_cons y (obj_induction (snd (snd y))) (go l') end) fs)
  | ORecord fs => HR fs ((fix go (l : list (string * option obj)) : Forall (fun f => maybe (snd f)) l :=
    match l return Forall (fun f => maybe (snd f)) l with
      [] => Forall_nil _
    | y :: l' => @Forall_cons _ (fun f => maybe (snd f)) y _ (match snd y as o return maybe o with Some v => obj_induction v | None => Logic.I end) (go l') end) fs)
  | OOther s => HX s
  end.
End Ind.

Lemma map_all_Forall2 {A B} (f : A -> option B) l l' : map_all f l = Some l' <-> Forall2 (fun x y => f x = Some y) l l'.
Proof.
  revert l'. induction l as [|x l IH]; intros l'; cbn.
  - split; [intros [= <-]; constructor|]. intros H. inversion H. auto.
  - split.
    + destruct (f x) eqn:E; [|discriminate]. destruct (map_all f l) eqn:M; [|discriminate]. intros [= <-]. constructor; auto. apply IH. auto.
    + intros H. inversion H; subst. rewrite H2. apply IH in H4. rewrite H4. reflexivity.
Qed.
Lemma map_all_ext {A B} (f g : A -> option B) l : (forall x, In x l -> f x = g x) -> map_all f l = map_all g l.
Proof. induction l as [|x l IH]; cbn; intros H; auto. rewrite (H x), IH; auto. Qed.
Lemma map_all_map {A B C} (f : B -> option C) (g : A -> B) l : map_all f (map g l) = map_all (fun x => f (g x)) l.
Proof. induction l as [|x l IH]; cbn; auto. rewrite IH. auto. Qed.
Lemma Forall2_iff {A B} (R S : A -> B -> Prop) l l' : Forall (fun x => forall y, R x y <-> S x y) l -> (Forall2 R l l' <-> Forall2 S l l').
Proof.
  intros F. revert l'. induction F as [|x l H F IH]; intros l'; split; intros G; inversion G; subst; constructor; auto.
  - apply H; auto.
  - apply IH; auto.
  - apply H; auto.
  - apply IH; auto.
Qed.
Lemma fold_and {A} (P : A -> Prop) l : fold_right and True (map P l) <-> Forall P l.
Proof.
  induction l as [|x l IH]; cbn; split; intros H; auto.
  - destruct H. constructor; auto. apply IH; auto.
  - inversion H; subst. split; auto. apply IH; auto.
Qed.

(** ** The recursion is serialize, recur, deserialize *)
Lemma concat_filter (g : obj -> option obj) (fs : list (string * (bool * obj))) :
  option_map (@List.concat _) (map_all (fun f : string * (bool * obj) => if fst (snd f) then option_map (fun v => [(fst f, v)]) (g (snd (snd f))) else Some []) fs)
  = map_all (fun kv => option_map (pair (fst kv)) (g (snd kv))) (map (fun f => (fst f, snd (snd f))) (filter (fun f => fst (snd f)) fs)).
Proof.
  induction fs as [|[n [[] v]] fs IH]; cbn; auto.
  - rewrite <- IH. destruct (g v); cbn; auto. destruct (map_all _ fs); auto.
  - rewrite <- IH. destruct (map_all _ fs); auto.
Qed.
Lemma rec_map_step fn al ds st x : rec_map fn al ds st x =
  match serialize x with
  | None => wrapper fn al ds st x
  | Some l => match map_all (fun kv => option_map (pair (fst kv)) (rec_map fn al ds st (snd kv))) l with
              | None => None | Some l' => deserialize x l' end
  end.
Proof.
  destruct x; try reflexivity.
  - cbn [rec_map serialize]. rewrite map_all_map. cbn [fst snd].
    assert (E : map_all (fun v => option_map (pair EmptyString) (rec_map fn al ds st v)) elts = option_map (map (pair EmptyString)) (map_all (rec_map fn al ds st) elts)).
    { induction elts as [|v l IH]; cbn; auto. rewrite IH. destruct (rec_map fn al ds st v) as [w|]; cbn [option_map]; [|reflexivity]. destruct (map_all (rec_map fn al ds st) l); reflexivity. }
    rewrite E. destruct (map_all (rec_map fn al ds st) elts); reflexivity.
  - cbn [rec_map serialize map_all fst snd].
    destruct (rec_map fn al ds st x2), (rec_map fn al ds st x3), (rec_map fn al ds st x4), (rec_map fn al ds st x5); reflexivity.
  - cbn [rec_map serialize]. rewrite <- concat_filter.
    destruct (map_all _ fields); reflexivity.
Qed.

(** ** The recursion as a relation *)
Section Moves.
Variable fn : obj -> obj.
Variable al : obj -> bool.
Variable ds : option Z.
Variable st : bool.
Definition leaf_step (x y : obj) : Prop := serialize x = None /\ wrapper fn al ds st x = Some y.
Lemma lookup_app k l l' : ~ In k (map fst l) -> lookup k (l ++ l') = lookup k l'.
Proof.
  unfold lookup. induction l as [|[n v] l IH]; cbn; intros H; auto.
  destruct (String.eqb_spec n k); [subst; exfalso; auto|]. apply IH. auto.
Qed.
Lemma lookup_cons_ne k n v l : n <> k -> lookup k ((n, v) :: l) = lookup k l.
Proof. unfold lookup; cbn. intros H. destruct (String.eqb_spec n k); congruence. Qed.
Lemma lookup_cons k v l : lookup k ((k, v) :: l) = Some v.
Proof. unfold lookup; cbn. rewrite String.eqb_refl. auto. Qed.
Lemma fields_back (R : obj -> obj -> Prop) fs (ls : list (list (string * obj))) : NoDup (map fst fs) ->
  Forall2 (fun f l => if fst (snd f) : bool then exists v, R (snd (snd f)) v /\ l = [(fst f, v)] else l = []) fs ls ->
  exists fs', map_all (fun f : string * (bool * obj) => if fst (snd f) then option_map (fun v => (fst f, (true, v))) (lookup (fst f) (List.concat ls)) else Some f) fs = Some fs' /\
    Forall2 (field_moved R) fs fs'.
Proof.
  intros N F. induction F as [|[n [b x]] l fs ls H F IH]; cbn in N.
  - exists []. split; auto.
  - inversion N as [|? ? NI N']; subst. cbn [fst snd] in H. destruct (IH N') as [fs' [E G]].
    assert (K : forall f, In f fs -> forall l0, (l0 = [] \/ exists v, l0 = [(n, v)]) -> lookup (fst f) (l0 ++ List.concat ls) = lookup (fst f) (List.concat ls)).
    { intros f I l0 [->|[v ->]]; auto. cbn [app]. apply lookup_cons_ne. intros ->. apply NI. apply in_map. auto. }
    destruct b.
    + destruct H as [v [Hv ->]]. exists ((n, (true, v)) :: fs'). split.
      * cbn [map_all fst snd List.concat app]. rewrite lookup_cons. cbn [option_map].
        rewrite (map_all_ext _ (fun f : string * (bool * obj) => if fst (snd f) then option_map (fun v0 => (fst f, (true, v0))) (lookup (fst f) (List.concat ls)) else Some f)), E; auto.
        intros f I. destruct (fst (snd f)); auto. rewrite <- (K f I [(n, v)]); eauto.
      * constructor; auto. constructor; auto.
    + subst l. exists ((n, (false, x)) :: fs'). split.
      * cbn [map_all fst snd List.concat app]. rewrite E. auto.
      * constructor; auto. constructor.
Qed.
Lemma rec_map_moved x : well_named x -> forall y, rec_map fn al ds st x = Some y <-> moved leaf_step x y.
Proof.
  assert (LEAF : forall x y, serialize x = None -> (match x with OObjs _ | OBuilt _ _ _ _ _ _ | OCont _ _ => False | _ => True end) ->
            (wrapper fn al ds st x = Some y <-> moved leaf_step x y)).
  { intros x0 y S X. split.
    - intros H. apply moved_leaf. split; auto.
    - intros H. inversion H; subst; try contradiction. apply H0. }
  induction x using obj_induction; intros W y; try (apply LEAF; [reflexivity|exact Logic.I]).
  - cbn [rec_map]. cbn [well_named] in W. apply fold_and in W.
    assert (E : forall l', map_all (rec_map fn al ds st) l = Some l' <-> Forall2 (moved leaf_step) l l').
    { intros l'. rewrite map_all_Forall2. apply Forall2_iff. rewrite Forall_forall in *. intros x I z. apply H; auto. }
    split.
    + destruct (map_all _ l) as [l'|] eqn:M; [|discriminate]. cbn [deserialize]. rewrite map_map, map_id. intros [= <-].
      apply moved_objs. apply E. auto.
    + intros M. inversion M as [? ? L| ? ? F | |]; subst.
      * destruct L as [L _]. discriminate.
      * apply E in F. rewrite F. cbn [deserialize]. rewrite map_map, map_id. auto.
  - cbn [rec_map]. cbn [well_named] in W. destruct W as [W1 [W2 [W3 W4]]]. split.
    + destruct (rec_map fn al ds st x2) as [a|] eqn:E1; [|discriminate]. destruct (rec_map fn al ds st x3) as [b|] eqn:E2; [|discriminate].
      destruct (rec_map fn al ds st x4) as [e|] eqn:E3; [|discriminate]. destruct (rec_map fn al ds st x5) as [g|] eqn:E4; [|discriminate].
      intros [= <-]. constructor; [apply IHx2|apply IHx3|apply IHx4|apply IHx5]; auto.
    + intros M. inversion M as [? ? L| | ? ? ? ? ? ? a b e g M1 M2 M3 M4 |]; subst.
      * destruct L as [L _]. discriminate.
      * apply IHx2 in M1; auto. apply IHx3 in M2; auto. apply IHx4 in M3; auto. apply IHx5 in M4; auto.
        rewrite M1, M2, M3, M4. reflexivity.
  - cbn [rec_map]. cbn [well_named] in W. destruct W as [N W]. apply fold_and in W. split.
    + destruct (map_all _ fs) as [ls|] eqn:M; [|discriminate]. apply map_all_Forall2 in M. cbn [deserialize].
      assert (F : Forall2 (fun f l => if fst (snd f) : bool then exists v, moved leaf_step (snd (snd f)) v /\ l = [(fst f, v)] else l = []) fs ls).
      { clear N. revert H W. induction M as [|f l fs ls Hf M IH]; intros HF W; constructor.
        - inversion HF; inversion W; subst. destruct (fst (snd f)); [|injection Hf; auto].
          destruct (rec_map fn al ds st (snd (snd f))) as [v|] eqn:E; [|discriminate]. injection Hf as <-. exists v. split; auto. apply H1; auto.
        - apply IH; [inversion HF|inversion W]; auto. }
      destruct (fields_back _ fs ls N F) as [fs' [E G]]. rewrite E. intros [= <-]. apply moved_cont. auto.
    + intros M. inversion M as [? ? L| | | ? ? fs' F]; subst.
      * destruct L as [L _]. discriminate.
      * assert (E : exists ls, map_all (fun f : string * (bool * obj) => if fst (snd f) then option_map (fun v => [(fst f, v)]) (rec_map fn al ds st (snd (snd f))) else Some []) fs = Some ls /\
            Forall2 (fun f l => if fst (snd f) : bool then exists v, rec_map fn al ds st (snd (snd f)) = Some v /\ l = [(fst f, v)] else l = []) fs ls).
        { clear M N. revert H W. induction F as [|f f' fs fs' Hf F IH]; intros HF W; [exists []; split; auto|].
          inversion HF; inversion W; subst. destruct (IH H2 H6) as [ls [E G]]. inversion Hf as [name x y0 Hxy|name v]; subst; cbn [map_all fst snd].
          - apply H1 in Hxy; auto. cbn [fst snd] in Hxy. rewrite Hxy. cbn [option_map]. rewrite E. exists ([(name, y0)] :: ls). split; auto. constructor; auto. cbn. eauto.
          - rewrite E. exists ([] :: ls). split; [reflexivity|]. constructor; [reflexivity|exact G]. }
        destruct E as [ls [E G]]. rewrite E. cbn [deserialize].
        destruct (fields_back (fun a b => rec_map fn al ds st a = Some b) fs ls N G) as [fs2 [E2 G2]]. rewrite E2. cbn [option_map]. f_equal. f_equal.
        clear -F G2 H W. revert fs2 G2. induction F as [|f f' fs fs' Hf F IH]; intros fs2 G2; inversion G2 as [|? g ? gs Hg G3]; subst; auto.
        inversion H as [|? ? HA HB]; inversion W as [|? ? WA WB]; subst. f_equal; [|apply IH; auto].
        inversion Hf as [nm x1 y1 MV|nm v1]; subst; inversion Hg as [nm2 x2 y2 MV2|nm2 v2]; subst; auto. cbn [fst snd] in *.
        apply (HA WA) in MV. rewrite MV in MV2. injection MV2 as <-. auto.
Qed.
End Moves.

Lemma moved_mono (P Q : obj -> obj -> Prop) : (forall x y, P x y -> Q x y) -> forall x y, moved P x y -> moved Q x y.
Proof.
  intros S. induction x using obj_induction; intros y M; inversion M; subst; try (apply moved_leaf; auto; fail).
  - apply moved_objs. clear M. revert l' H1. induction H as [|a l Ha F IH]; intros l' G; inversion G; subst; constructor; auto.
  - apply moved_built; auto.
  - apply moved_cont. clear M. revert fs' H3. induction H as [|a l Ha F IH]; intros l' G; inversion G; subst; constructor; auto.
    inversion H1; subst; constructor. apply Ha. auto.
Qed.
Lemma moved_eqv (P Q : obj -> obj -> Prop) : (forall x y, P x y <-> Q x y) -> forall x y, moved P x y <-> moved Q x y.
Proof. intros S x y. split; apply moved_mono; intros; apply S; auto. Qed.
Lemma moved_flip (P Q : obj -> obj -> Prop) : (forall x y, P x y -> Q y x) -> forall x y, moved P x y -> moved Q y x.
Proof.
  intros S. induction x using obj_induction; intros y M; inversion M; subst; try (apply moved_leaf; auto; fail).
  - apply moved_objs. clear M. revert l' H1. induction H as [|a l Ha F IH]; intros l' G; inversion G; subst; constructor; auto.
  - apply moved_built; auto.
  - apply moved_cont. clear M. revert fs' H3. induction H as [|a l Ha F IH]; intros l' G; inversion G; subst; constructor; auto.
    inversion H1; subst; constructor. apply Ha. auto.
Qed.
(** leaves are not containers *)
Definition proper (P : obj -> obj -> Prop) : Prop := forall x y, P x y -> serialize x = None.
Lemma moved_then (P Q R : obj -> obj -> Prop) : proper Q -> (forall x y z, P x y -> Q y z -> R x z) ->
  (forall x y, P x y -> serialize y = None) ->
  forall x y z, moved P x y -> moved Q y z -> moved R x z.
Proof.
  intros PQ S SY. induction x using obj_induction; intros y z M M';
       inversion M; subst;
       try (match goal with L : P _ _ |- _ => inversion M'; subst; [apply moved_leaf; eapply S; eauto | | |]; pose proof (SY _ _ L) as L'; discriminate L' end).
  - inversion M'; subst; [apply PQ in H0; discriminate|]. apply moved_objs. clear M M'. revert l' l'0 H1 H2.
    induction H as [|a l Ha F IH]; intros l1 l2 G G'; inversion G; subst; inversion G'; subst; constructor; eauto.
  - inversion M'; subst; [apply PQ in H; discriminate|]. apply moved_built; eauto.
  - inversion M'; subst; [apply PQ in H0; discriminate|]. apply moved_cont. clear M M'. revert fs' fs'0 H3 H4.
    induction H as [|a l Ha F IH]; intros l1 l2 G G'; inversion G; subst; inversion G'; subst; constructor; eauto.
    inversion H1; subst; inversion H2; subst; constructor. cbn [snd] in Ha. eauto.
Qed.
Lemma moved_fun (P : obj -> obj -> Prop) : proper P -> (forall x y z, P x y -> P x z -> y = z) -> forall x y z, moved P x y -> moved P x z -> y = z.
Proof.
  intros PP S. induction x using obj_induction; intros y z M M';
       inversion M; subst; inversion M'; subst; try (eapply S; eauto; fail);
       try (match goal with L : P _ _ |- _ => apply PP in L; discriminate L end).
  - f_equal. clear M M'. revert l' l'0 H1 H2. induction H as [|a l Ha F IH]; intros l1 l2 G G'; inversion G; subst; inversion G'; subst; auto.
    f_equal; eauto.
  - f_equal; eauto.
  - f_equal. clear M M'. revert fs' fs'0 H3 H4. induction H as [|a l Ha F IH]; intros l1 l2 G G'; inversion G; subst; inversion G'; subst; auto.
    f_equal; eauto. match goal with A : field_moved _ a ?u, B : field_moved _ a ?v |- ?u = ?v => inversion A; subst; inversion B; subst; auto end.
    cbn [snd] in Ha. f_equal. f_equal. eauto.
Qed.
Lemma moved_named (P : obj -> obj -> Prop) : (forall x y, P x y -> well_named y) -> forall x y, moved P x y -> well_named x -> well_named y.
Proof.
  intros S. induction x using obj_induction; intros y M W; inversion M; subst; try (eapply S; eauto; fail).
  - cbn [well_named] in *. apply fold_and in W. apply fold_and. clear M. revert l' H1 W.
    induction H as [|a l Ha F IH]; intros l' G W; inversion G; subst; inversion W; subst; constructor; auto.
  - cbn [well_named] in *. destruct W as [A [B [C D]]]. auto.
  - cbn [well_named] in *. destruct W as [N W]. apply fold_and in W. split.
    + replace (map fst fs') with (map fst fs); auto. clear -H3. induction H3 as [|f f' ? ? Hf F IH]; auto. cbn. rewrite IH. inversion Hf; auto.
    + apply fold_and. clear M N. revert fs' H3 W. induction H as [|a l Ha F IH]; intros l' G W; inversion G; subst; inversion W; subst; constructor; auto.
      inversion H1; subst; cbn [snd] in *; auto.
Qed.
Lemma moved_contents (P : obj -> obj -> Prop) : (forall x y, P x y -> contents y = contents x) -> forall x y, moved P x y -> contents y = contents x.
Proof.
  intros S. induction x using obj_induction; intros y M; inversion M; subst; try (eapply S; eauto; fail); cbn [contents].
  - f_equal. clear M. revert l' H1. induction H as [|a l Ha F IH]; intros l' G; inversion G; subst; cbn; auto. f_equal; auto.
  - f_equal; auto.
  - f_equal. clear M. revert fs' H3. induction H as [|a l Ha F IH]; intros l' G; inversion G; subst; cbn; auto. f_equal; auto.
    inversion H1; subst; cbn [fst snd] in *; auto. f_equal. f_equal. auto.
Qed.

(** ** The four operations *)
Lemma to_numpy_moved x y : well_named x -> (to_numpy x = Some y <-> moved downloaded x y).
Proof.
  intros W. unfold to_numpy. rewrite (rec_map_moved _ _ _ _ x W). apply moved_eqv. intros a b. unfold leaf_step. split.
  - intros [S H]. destruct a; try discriminate S; cbn in H; try discriminate H; injection H as <-; constructor.
  - intros H. inversion H; subst; split; reflexivity.
Qed.
Lemma from_numpy_moved q x y : well_named x -> (from_numpy q x = Some y <-> moved (uploaded q) x y).
Proof.
  intros W. unfold from_numpy. rewrite (rec_map_moved _ _ _ _ x W). apply moved_eqv. intros a b. unfold leaf_step. split.
  - intros [S H]. destruct a; try discriminate S; cbn in H; try discriminate H; injection H as <-; constructor.
  - intros H. inversion H; subst; split; reflexivity.
Qed.
Lemma freeze_moved x y : well_named x -> (freeze x = Some y <-> moved (requeued None) x y).
Proof.
  intros W. unfold freeze. rewrite (rec_map_moved _ _ _ _ x W). apply moved_eqv. intros a b. unfold leaf_step. split.
  - intros [S H]. destruct a; try discriminate S; cbn in H; try discriminate H; injection H as <-; constructor.
  - intros H. inversion H; subst; split; reflexivity.
Qed.
Lemma thaw_moved q x y : well_named x -> (thaw q x = Some y <-> moved (requeued (Some q)) x y).
Proof.
  intros W. unfold thaw. rewrite (rec_map_moved _ _ _ _ x W). apply moved_eqv. intros a b. unfold leaf_step. split.
  - intros [S H]. destruct a; try discriminate S; cbn in H; try discriminate H; injection H as <-; constructor.
  - intros H. inversion H; subst; split; reflexivity.
Qed.

(** ** Records *)
Definition get_leaf (v : obj) : option obj :=
  match v with ODev _ d => Some (OHost d) | ORecord _ => record_get v | ODict => None | _ => Some v end.
Definition queue_leaf (q : option nat) (v : obj) : option obj :=
  match v with ODev _ d => Some (ODev q d) | ORecord _ => record_with_queue q v | _ => Some v end.
Definition nothing (_ : string) : bool := false.
Definition device_leaf (v : obj) : option obj :=
  match v with OHost d => Some (ODev None d) | OObjs _ => None | ORecord _ => record_to_device nothing v | _ => Some v end.
Definition over_fields (leaf : obj -> option obj) (ex : string -> bool) (fs : list (string * option obj)) : option obj :=
  option_map ORecord (map_all (transform_field (transform_val leaf) ex) fs).
Lemma record_get_eq fs : record_get (ORecord fs) = over_fields get_leaf nothing fs.
Proof. reflexivity. Qed.
Lemma record_with_queue_eq q fs : record_with_queue q (ORecord fs) = over_fields (queue_leaf q) nothing fs.
Proof. reflexivity. Qed.
Lemma record_to_device_eq ex fs : record_to_device ex (ORecord fs) = over_fields device_leaf ex fs.
Proof. reflexivity. Qed.

Definition composite (x : obj) : bool := match x with ORecord _ | OObjs _ | OList _ | OBuilt _ _ _ _ _ _ => true | _ => false end.
Section Rec.
Variable leaf : obj -> option obj.
Variable REC : forall fs, leaf (ORecord fs) = over_fields leaf nothing fs.
(** a property of values that holds of what [leaf] does to anything but records *)
Variable R : obj -> obj -> Prop.
Variable DL D : obj -> Prop.                             (* what it is claimed of: leaves, values *)
Variable DLR : forall fs, DL (ORecord fs) -> D (ORecord fs).
Variable DDL : forall x, composite x = false -> D x -> DL x.
Variable LEAF : forall x y, DL x -> (match x with ORecord _ => False | _ => True end) -> leaf x = Some y -> R x y.
Variable ROBJS : forall l l', D (OObjs l) -> Forall2 (fun x y => DL x -> R x y) l l' -> R (OObjs l) (OObjs l').
Variable RLIST : forall l l', D (OList l) -> Forall2 (fun x y => D x -> R x y) l l' -> R (OList l) (OList l').
Variable RBUILT : forall c n a b e g n' a' b' e' g', D (OBuilt c n a b e g) -> (DL n -> R n n') -> (DL a -> R a a') -> (DL b -> R b b') -> (DL e -> R e e') -> (DL g -> R g g') ->
  R (OBuilt c n a b e g) (OBuilt c n' a' b' e' g').
Definition field_ok (ex : string -> bool) (f f' : string * option obj) : Prop :=
  fst f' = fst f /\
  match snd f with
  | None => f' = f
  | Some v => if ex (fst f) then f' = f else exists v', snd f' = Some v' /\ (D v -> R v v')
  end.
Variable RREC : forall fs fs', D (ORecord fs) -> Forall2 (field_ok nothing) fs fs' -> R (ORecord fs) (ORecord fs').
Lemma over_fields_ok ex fs y : Forall (fun f => match snd f with Some v => forall w, D v -> transform_val leaf v = Some w -> R v w | None => True end) fs ->
  over_fields leaf ex fs = Some y -> exists fs', y = ORecord fs' /\ Forall2 (field_ok ex) fs fs'.
Proof.
  intros F H. unfold over_fields in H. destruct (map_all _ fs) as [fs'|] eqn:M; [|discriminate]. injection H as <-. exists fs'. split; auto.
  apply map_all_Forall2 in M. revert F. induction M as [|[n o] f' fs fs' H M IH]; intros F; constructor; [|apply IH; inversion F; auto].
  inversion F as [|? ? HA HB]; subst. unfold transform_field in H. cbn [fst snd] in *. unfold field_ok. cbn [fst snd].
  destruct (ex n) eqn:E; [injection H as <-; cbn [fst snd]; destruct o; auto|].
  destruct o as [v|]; [|injection H as <-; auto].
  destruct (transform_val leaf v) as [w|] eqn:T; [|discriminate]. injection H as <-. cbn [fst snd]. split; auto. exists w. split; auto.
Qed.
Lemma transform_ok x : (forall y, DL x -> leaf x = Some y -> R x y) /\ (forall y, D x -> transform_val leaf x = Some y -> R x y).
Proof.
  assert (ONE : forall x, composite x = false ->
    (forall y, DL x -> leaf x = Some y -> R x y) /\ (forall y, D x -> transform_val leaf x = Some y -> R x y)).
  { intros x0 X. split; intros y DX H; apply LEAF; auto; destruct x0; try discriminate X; auto. }
  induction x using obj_induction; try (apply ONE; reflexivity).
  - split; intros y DX E; [apply LEAF; auto; exact Logic.I|]. cbn [transform_val] in E.
    destruct (map_all leaf l) as [l'|] eqn:M; [|discriminate]. injection E as <-. apply ROBJS; auto.
    apply map_all_Forall2 in M. clear DX. revert H. induction M as [|a a' l l' Ha M IH]; intros F; constructor; inversion F as [|? ? HA HB]; subst; auto.
    intros DA. apply (proj1 HA); auto.
  - split; intros y DX E; [apply LEAF; auto; exact Logic.I|]. cbn [transform_val] in E.
    destruct (map_all (transform_val leaf) l) as [l'|] eqn:M; [|discriminate]. injection E as <-. apply RLIST; auto.
    apply map_all_Forall2 in M. clear DX. revert H. induction M as [|a a' l l' Ha M IH]; intros F; constructor; inversion F as [|? ? HA HB]; subst; auto.
    intros DA. apply (proj2 HA); auto.
  - split; intros y DX E; [apply LEAF; auto; exact Logic.I|]. cbn [transform_val] in E.
    destruct (leaf x1) as [n'|] eqn:E1; [|discriminate]. destruct (leaf x2) as [a'|] eqn:E2; [|discriminate].
    destruct (leaf x3) as [b'|] eqn:E3; [|discriminate]. destruct (leaf x4) as [e'|] eqn:E4; [|discriminate].
    destruct (leaf x5) as [g'|] eqn:E5; [|discriminate]. injection E as <-.
    apply RBUILT; auto; intros DZ; [apply (proj1 IHx1)|apply (proj1 IHx2)|apply (proj1 IHx3)|apply (proj1 IHx4)|apply (proj1 IHx5)]; auto.
  - assert (G : forall y, D (ORecord fs) -> over_fields leaf nothing fs = Some y -> R (ORecord fs) y).
    { intros y DX E. destruct (over_fields_ok nothing fs y) as [fs' [-> F]]; [|auto|apply RREC; auto].
      clear -H. induction H as [|[n [v|]] fs Hf F IH]; constructor; auto; cbn [snd] in *; auto. apply Hf. }
    split; intros y DX E; apply G; auto; [rewrite <- REC|cbn [transform_val] in E; rewrite <- REC]; auto.
Qed.
Lemma record_ok ex fs y : over_fields leaf ex fs = Some y -> exists fs', y = ORecord fs' /\ Forall2 (field_ok ex) fs fs'.
Proof. apply over_fields_ok. apply Forall_forall. intros [n [v|]] _; cbn; auto. intros w. apply (proj2 (transform_ok v)). Qed.
End Rec.

(** contents *)
Lemma contents_objs l l' : Forall2 (fun x y => True -> contents y = contents x) l l' -> map contents l' = map contents l.
Proof. intros F. induction F; cbn; auto. rewrite H, IHF; auto. Qed.
Lemma contents_fields ex fs fs' : Forall2 (field_ok (fun x y => contents y = contents x) (fun _ => True) ex) fs fs' -> contents (ORecord fs') = contents (ORecord fs).
Proof.
  intros F. cbn [contents]. f_equal. induction F as [|[n o] [n' o'] fs fs' [E H] F IH]; cbn; auto. cbn [fst snd] in *. subst n'. f_equal; auto. f_equal.
  destruct o as [v|]; [|injection H as ->; auto]. destruct (ex n).
  - injection H as ->. auto.
  - destruct H as [v' [-> H]]. cbn. f_equal. auto.
Qed.
Lemma keeps_contents leaf ex fs y : (forall fs, leaf (ORecord fs) = over_fields leaf nothing fs) ->
  (forall x y, (match x with ORecord _ => False | _ => True end) -> leaf x = Some y -> contents y = contents x) ->
  over_fields leaf ex fs = Some y -> contents y = contents (ORecord fs).
Proof.
  intros REC LEAF H.
  destruct (record_ok leaf REC (fun x y => contents y = contents x) (fun _ => True) (fun _ => True)) with (ex := ex) (fs := fs) (y := y) as [fs' [-> F]]; auto.
  - intros l l' _ F. cbn [contents]. f_equal. apply contents_objs; auto.
  - intros l l' _ F. cbn [contents]. f_equal. apply contents_objs; auto.
  - intros. cbn [contents]. f_equal; auto.
  - intros fs0 fs' _ F. apply (contents_fields nothing); auto.
  - apply (contents_fields ex); auto.
Qed.
Lemma record_get_contents x y : record_get x = Some y -> contents y = contents x.
Proof.
  destruct x; try discriminate. apply (keeps_contents get_leaf nothing); [reflexivity|].
  intros x0 y0 X H. destruct x0; try contradiction; cbn in H; try discriminate; injection H as <-; reflexivity.
Qed.
Lemma record_with_queue_contents q x y : record_with_queue q x = Some y -> contents y = contents x.
Proof.
  destruct x; try discriminate. apply (keeps_contents (queue_leaf q) nothing); [reflexivity|].
  intros x0 y0 X H. destruct x0; try contradiction; cbn in H; try discriminate; injection H as <-; reflexivity.
Qed.
Lemma record_to_device_contents ex x y : record_to_device ex x = Some y -> contents y = contents x.
Proof.
  destruct x; try discriminate. apply (keeps_contents device_leaf ex); [reflexivity|].
  intros x0 y0 X H. destruct x0; try contradiction; cbn in H; try discriminate; injection H as <-; reflexivity.
Qed.

(** where the arrays are *)
Definition plain_fields (fs : list (string * option obj)) : bool := forallb (fun f => match snd f with Some v => plain_value v | None => true end) fs.
Lemma arrays_fields ok fs fs' : plain_fields fs = true ->
  Forall2 (field_ok (fun _ y => arrays ok y = true) (fun x => plain_value x = true) nothing) fs fs' -> arrays ok (ORecord fs') = true.
Proof.
  intros P F. cbn [arrays]. revert P. induction F as [|[n o] [n' o'] fs fs' [N H] F IH]; cbn; auto. intros P. apply andb_prop in P. destruct P as [P1 P2].
  rewrite IH; auto. rewrite andb_true_r. cbn [fst snd] in *. destruct o as [v|]; [|injection H as _ ->; auto]. destruct H as [v' [-> H]]. auto.
Qed.
Lemma arrays_list ok (D : obj -> bool) (l l' : list obj) : forallb D l = true -> Forall2 (fun x y => D x = true -> arrays ok y = true) l l' -> forallb (arrays ok) l' = true.
Proof.
  intros P F. induction F as [|x y l l' H F IH]; cbn in *; auto. apply andb_prop in P. destruct P as [P1 P2]. rewrite H, IH; auto.
Qed.
Lemma places leaf ok : (forall fs, leaf (ORecord fs) = over_fields leaf nothing fs) ->
  (forall x y, simple x = true -> leaf x = Some y -> arrays ok y = true) ->
  forall ex fs y, over_fields leaf ex fs = Some y ->
  exists fs', y = ORecord fs' /\ Forall2 (field_ok (fun _ y => arrays ok y = true) (fun x => plain_value x = true) ex) fs fs'.
Proof.
  intros REC LEAF ex fs y. apply (record_ok leaf REC (fun _ y => arrays ok y = true) (fun x => simple x = true) (fun x => plain_value x = true)).
  - intros fs0 H. discriminate H.
  - intros x C P. destruct x; cbn in *; congruence.
  - intros x0 y0 S _ H. eapply LEAF; eauto.
  - intros l l' P F. cbn [arrays]. cbn [plain_value] in P. apply (arrays_list ok simple l l' P F).
  - intros l l' P F. cbn [arrays]. cbn [plain_value] in P. apply (arrays_list ok plain_value l l' P F).
  - intros c n a b e g n' a' b' e' g' P H1 H2 H3 H4 H5. cbn [plain_value forallb] in P. repeat (apply andb_prop in P; destruct P as [? P]).
    cbn [arrays]. rewrite H1, H2, H3, H4, H5; auto.
  - intros fs0 fs' P F. apply (arrays_fields ok fs0); auto.
Qed.
Lemma get_host x y : simple x = true -> get_leaf x = Some y -> on_host y = true.
Proof. destruct x; try discriminate; cbn; intros _ [= <-]; reflexivity. Qed.
Lemma device_device x y : simple x = true -> device_leaf x = Some y -> on_device y = true.
Proof. destruct x; try discriminate; cbn; intros _ [= <-]; reflexivity. Qed.
Lemma same_queue_refl q : same_queue q q = true.
Proof. destruct q; cbn; auto. apply Nat.eqb_refl. Qed.
Lemma queue_queue q x y : simple x = true -> queue_leaf q x = Some y -> in_queue q y = true.
Proof. destruct x; try discriminate; cbn; intros _ [= <-]; try reflexivity. apply same_queue_refl. Qed.
Lemma device_queue x y : simple x = true -> on_host x = true -> device_leaf x = Some y -> in_queue None y = true.
Proof. destruct x; try discriminate; cbn; intros _ H [= <-]; try reflexivity. Qed.

(** plain records are transferred *)
Lemma transform_total leaf : (forall fs, leaf (ORecord fs) = over_fields leaf nothing fs) -> (forall x, simple x = true -> exists y, leaf x = Some y) ->
  forall x, plain_value x = true -> exists y, transform_val leaf x = Some y.
Proof.
  intros REC LEAF.
  assert (ALL : forall (g : obj -> option obj) (D : obj -> bool) l, Forall (fun x => D x = true -> exists y, g x = Some y) l -> forallb D l = true -> exists l', map_all g l = Some l').
  { intros g D l F. induction F as [|x l H F IH]; cbn; intros P; [eexists; reflexivity|]. apply andb_prop in P. destruct P as [P1 P2].
    destruct (H P1) as [y ->]. destruct (IH P2) as [l' ->]. eexists. reflexivity. }
  induction x using obj_induction; intros P; try (cbn [transform_val]; apply LEAF; auto; fail).
  - cbn [plain_value] in P. cbn [transform_val]. destruct (ALL leaf simple l) as [l' ->]; auto; [|eexists; reflexivity]. apply Forall_forall. auto.
  - cbn [plain_value] in P. cbn [transform_val]. destruct (ALL (transform_val leaf) plain_value l) as [l' ->]; auto. eexists; reflexivity.
  - cbn [plain_value forallb] in P. repeat (apply andb_prop in P; destruct P as [? P]). cbn [transform_val].
    destruct (LEAF x1) as [? ->]; auto. destruct (LEAF x2) as [? ->]; auto. destruct (LEAF x3) as [? ->]; auto. destruct (LEAF x4) as [? ->]; auto.
    destruct (LEAF x5) as [? ->]; auto. eexists; reflexivity.
  - cbn [transform_val]. rewrite REC. unfold over_fields.
    assert (E : exists fs', map_all (transform_field (transform_val leaf) nothing) fs = Some fs'); [|destruct E as [fs' ->]; eexists; reflexivity].
    cbn [plain_value] in P. clear -H P. induction H as [|[n [v|]] fs Hf F IH]; cbn [map_all]; [eexists; reflexivity| |]; cbn [forallb snd] in *.
    + apply andb_prop in P. destruct P as [P1 P2]. destruct (Hf P1) as [w Ew]. unfold transform_field at 1. cbn [fst snd nothing]. rewrite Ew. cbn [option_map].
      destruct (IH P2) as [l' ->]. eexists; reflexivity.
    + destruct (IH P) as [l' El]. unfold transform_field at 1. cbn [fst snd nothing]. rewrite El. eexists; reflexivity.
Qed.
Lemma record_total leaf : (forall fs, leaf (ORecord fs) = over_fields leaf nothing fs) -> (forall x, simple x = true -> exists y, leaf x = Some y) ->
  forall ex fs, plain_value (ORecord fs) = true -> exists y, over_fields leaf ex fs = Some y.
Proof.
  intros REC LEAF ex fs P. unfold over_fields.
  assert (E : exists fs', map_all (transform_field (transform_val leaf) ex) fs = Some fs'); [|destruct E as [fs' ->]; eexists; reflexivity].
  cbn [plain_value] in P. induction fs as [|[n [v|]] fs IH]; cbn [map_all]; [eexists; reflexivity| |]; cbn [forallb snd] in P.
  - apply andb_prop in P. destruct P as [P1 P2]. unfold transform_field at 1. cbn [fst snd].
    destruct (IH P2) as [l' El]. destruct (ex n); [rewrite El; eexists; reflexivity|].
    destruct (transform_total leaf REC LEAF v P1) as [w ->]. cbn [option_map]. rewrite El. eexists; reflexivity.
  - destruct (IH P) as [l' El]. unfold transform_field at 1. cbn [fst snd]. destruct (ex n); rewrite El; eexists; reflexivity.
Qed.

(** an object on the host is its contents *)
Lemma host_contents x : on_host x = true -> contents x = x.
Proof.
  unfold on_host. induction x using obj_induction; intros A; try reflexivity; try discriminate A; cbn [arrays contents] in *.
  - f_equal. induction H as [|a l Ha F IH]; cbn in *; auto. apply andb_prop in A. destruct A. f_equal; auto.
  - f_equal. induction H as [|a l Ha F IH]; cbn in *; auto. apply andb_prop in A. destruct A. f_equal; auto.
  - repeat (apply andb_prop in A; destruct A as [A ?]). f_equal; auto.
  - f_equal. induction H as [|[n [b v]] l Ha F IH]; cbn in *; auto. apply andb_prop in A. destruct A. f_equal; auto. f_equal. f_equal. auto.
  - f_equal. induction H as [|[n [v|]] l Ha F IH]; cbn in *; auto.
    + apply andb_prop in A. destruct A. f_equal; auto. f_equal. f_equal. auto.
    + f_equal; auto.
Qed.
Lemma simple_contents x : simple (contents x) = simple x.
Proof. destruct x; reflexivity. Qed.
Lemma plain_contents x : plain_value (contents x) = plain_value x.
Proof.
  induction x using obj_induction; try reflexivity; cbn [contents plain_value forallb].
  - induction l as [|a l IH]; cbn; auto. inversion H; subst. rewrite simple_contents, IH; auto.
  - induction H as [|a l Ha F IH]; cbn; auto. rewrite Ha, IH. auto.
  - rewrite !simple_contents. auto.
  - induction H as [|[n [v|]] l Ha F IH]; cbn in *; auto. rewrite Ha, IH. auto.
Qed.

(** ** One operation after another *)
Lemma moved_defined (P Q : obj -> obj -> Prop) : (forall x y, P x y -> exists z, Q x z) -> forall x y, moved P x y -> exists z, moved Q x z.
Proof.
  intros S. induction x using obj_induction; intros y M; inversion M; subst;
    try (match goal with L : P _ _ |- _ => destruct (S _ _ L) as [z Hz]; exists z; apply moved_leaf; exact Hz end).
  - assert (E : exists l2, Forall2 (moved Q) l l2); [|destruct E as [l2 E]; eexists; apply moved_objs; exact E].
    clear M. revert l' H1. induction H as [|a l Ha F IH]; intros l' G; [exists []; constructor|]. inversion G as [|? b ? l2 G1 G2]; subst.
    destruct (Ha b G1) as [c Hc]. destruct (IH l2 G2) as [l3 H3]. exists (c :: l3). constructor; auto.
  - destruct (IHx2 a') as [? ?]; auto. destruct (IHx3 b') as [? ?]; auto. destruct (IHx4 e') as [? ?]; auto. destruct (IHx5 g') as [? ?]; auto.
    eexists. apply moved_built; eauto.
  - assert (E : exists l2, Forall2 (field_moved (moved Q)) fs l2); [|destruct E as [l2 E]; eexists; apply moved_cont; exact E].
    clear M. revert fs' H3. induction H as [|a l Ha F IH]; intros l' G; [exists []; constructor|]. inversion G as [|? b ? l2 G1 G2]; subst.
    destruct (IH l2 G2) as [l3 H3]. inversion G1 as [nm u w UW|nm u]; subst.
    + destruct (Ha w UW) as [c Hc]. exists ((nm, (true, c)) :: l3). constructor; auto. constructor. auto.
    + exists ((nm, (false, u)) :: l3). constructor; auto. constructor.
Qed.
Lemma moved_switch (P Q R' : obj -> obj -> Prop) : proper Q -> proper R' ->
  (forall x y, P x y -> serialize x = None /\ serialize y = None) ->
  (forall x y z, P x y -> (Q x z <-> R' y z)) -> forall x y z, moved P x y -> (moved Q x z <-> moved R' y z).
Proof.
  intros PQ PR PS S x y z M. split; intros G.
  - eapply (moved_then (fun a b => P b a) Q R'); [exact PQ| | |eapply moved_flip; [|exact M]; auto|exact G].
    + intros a b c L1 L2. apply (S _ _ _ L1). auto.
    + intros a b L. apply (PS _ _ L).
  - eapply (moved_then P R' Q); [exact PR| | |exact M|exact G].
    + intros a b c L1 L2. apply (S _ _ _ L1). auto.
    + intros a b L. apply (PS _ _ L).
Qed.

(** ** Refusals *)
Lemma field_in (fs : list (string * (bool * obj))) f : In f fs -> fst (snd f) = true -> In (fst f, snd (snd f)) (map (fun f => (fst f, snd (snd f))) (filter (fun f => fst (snd f)) fs)).
Proof. intros I E. apply (in_map (fun f : string * (bool * obj) => (fst f, snd (snd f)))). apply filter_In. auto. Qed.
Lemma moved_or (P : obj -> obj -> Prop) (B : obj -> Prop) : (forall x, serialize x = None -> (exists y, P x y) \/ B x) ->
  forall x, (exists y, moved P x y) \/ some_leaf B x.
Proof.
  intros S.
  assert (L : forall x, serialize x = None -> (exists y, moved P x y) \/ some_leaf B x).
  { intros x E. destruct (S x E) as [[y H]|H]; [left; exists y; apply moved_leaf; auto|right; apply some_here; auto]. }
  induction x using obj_induction; try (apply L; reflexivity).
  - assert (G : (exists l', Forall2 (moved P) l l') \/ exists v, In v l /\ some_leaf B v).
    { induction H as [|a l Ha F IH]; [left; exists []; constructor|]. destruct Ha as [[y Hy]|Hb]; [|right; exists a; split; [left|]; auto].
      destruct IH as [[l' Hl]|[v [I Hv]]]; [left; exists (y :: l'); constructor; auto|right; exists v; split; [right|]; auto]. }
    destruct G as [[l' G]|[v [I G]]]; [left; exists (OObjs l'); apply moved_objs; auto|right].
    eapply some_below; [reflexivity| |exact G]. apply (in_map (fun v => (EmptyString, v))). exact I.
  - destruct IHx2 as [[? ?]|G]; [|right; eapply some_below; [reflexivity| |exact G]; left; reflexivity].
    destruct IHx3 as [[? ?]|G]; [|right; eapply some_below; [reflexivity| |exact G]; right; left; reflexivity].
    destruct IHx4 as [[? ?]|G]; [|right; eapply some_below; [reflexivity| |exact G]; right; right; left; reflexivity].
    destruct IHx5 as [[? ?]|G]; [|right; eapply some_below; [reflexivity| |exact G]; right; right; right; left; reflexivity].
    left. eexists. apply moved_built; eauto.
  - assert (G : (exists fs', Forall2 (field_moved (moved P)) fs fs') \/ exists f, In f fs /\ fst (snd f) = true /\ some_leaf B (snd (snd f))).
    { induction H as [|[n [b v]] l Ha F IH]; [left; exists []; constructor|]. cbn [fst snd] in Ha.
      destruct IH as [[l' Hl]|[f [I Hf]]]; [|right; exists f; split; [right|]; auto].
      destruct b; [|left; exists ((n, (false, v)) :: l'); constructor; auto; constructor].
      destruct Ha as [[y Hy]|Hb]; [left; exists ((n, (true, y)) :: l'); constructor; auto; constructor; auto|].
      right. exists (n, (true, v)). split; [left|]; auto. }
    destruct G as [[l' G]|[f [I [E G]]]]; [left; exists (OCont cls l'); apply moved_cont; auto|right].
    eapply some_below; [reflexivity| |exact G]. apply field_in; auto.
Qed.
Lemma moved_not (P : obj -> obj -> Prop) (B : obj -> Prop) : proper P -> (forall x y, P x y -> B x -> False) ->
  forall x, some_leaf B x -> forall y, moved P x y -> False.
Proof.
  intros PP S x G. induction G as [x E H|x l name v E I G IH]; intros y M.
  - inversion M; subst; try discriminate E. eapply S; eauto.
  - inversion M as [? ? L|l0 l' F|c n a b e g a' b' e' g' M1 M2 M3 M4|cls fs fs' F]; subst.
    + apply PP in L. congruence.
    + cbn in E. injection E as <-. apply in_map_iff in I. destruct I as [w [[= _ ->] I]].
      clear M. induction F; [contradiction|]. destruct I as [->|I]; eauto.
    + cbn in E. injection E as <-. cbn in I. destruct I as [[= _ ->]|[[= _ ->]|[[= _ ->]|[[= _ ->]|[]]]]]; eauto.
    + cbn in E. injection E as <-. apply in_map_iff in I. destruct I as [f [[= _ <-] I]]. apply filter_In in I. destruct I as [I E].
      clear M. induction F as [|f1 f2 fs fs' Hf F IHF]; [contradiction|]. destruct I as [->|I]; [|apply IHF; auto].
      inversion Hf; subst; cbn in *; [eauto|discriminate].
Qed.
Lemma refused (g : obj -> option obj) (P : obj -> obj -> Prop) (ok : obj -> Prop) x : (forall y, g x = Some y <-> moved P x y) -> proper P ->
  (forall a, serialize a = None -> (exists b, P a b) \/ ~ ok a) -> (forall a b, P a b -> ok a) ->
  (g x = None <-> some_leaf (fun v => ~ ok v) x).
Proof.
  intros G PP T K. split.
  - intros E. destruct (moved_or P (fun v => ~ ok v) T x) as [[y M]|B]; auto. apply G in M. congruence.
  - intros B. destruct (g x) as [y|] eqn:E; auto. pose proof (proj1 (G y) eq_refl) as M. clear E. exfalso. eapply (moved_not P); [exact PP| |exact B|exact M]. intros a b L N. apply N. eapply K; eauto.
Qed.
