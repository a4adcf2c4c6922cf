(** The box extents on the device (BuildDeviceEnd.v): one launch per level, each loading the
    results of the level below. *)
From Coq Require Import List Arith ZArith NArith Lia Bool Permutation.
From Verif Require Import Base Tree Walk Traversal Fmm SpecFmm TreeBuild ArrayFacts Kernel Device DeviceRules DeviceFacts BuildDevice
  BuildDeviceEnd BuildInv BuildPrune BuildSplit BuildFinish BuildView DevMorton DevTake DevPrune DevSplit DevInfo.
Import ListNotations.

(** ** Launches in which no cell is both loaded and stored to *)
Section Cells.
Variable arr : Type.
Variable arr_eq : forall a b : arr, {a = b} + {a <> b}.
Notation known := (Device.known arr).
(** [Wr a k]: what is stored to a cell *)
Fixpoint cell_ok (K : known) (Wr : arr -> nat -> option Z) (p : item arr) : Prop :=
  match p with
  | Finish => True
  | Load a k next => exists m v, len K a = Some m /\ (0 <= k < m)%Z /\ val K a (Z.to_nat k) = Some v /\
                       Wr a (Z.to_nat k) = None /\ cell_ok K Wr (next v)
  | Store a k v next => exists m, len K a = Some m /\ (0 <= k < m)%Z /\ Wr a (Z.to_nat k) = Some v /\ cell_ok K Wr next
  end.
Lemma cell_evals K Wr p : cell_ok K Wr p -> evals K p (touches_of K p).
Proof.
  induction p as [|a k next IH|a k v next IH]; cbn [cell_ok touches_of]; [constructor| |].
  - intros [m [v [L [B [V [_ O]]]]]]. rewrite V. rewrite <- (Z2Nat.id k) at 1 by lia.
    apply (ev_load arr K a (Z.to_nat k) m v); auto. lia.
  - intros [m [L [B [_ O]]]]. rewrite <- (Z2Nat.id k) at 1 by lia.
    apply (ev_store arr K a (Z.to_nat k) m v); auto. lia.
Qed.
Lemma cell_get K Wr p a k : cell_ok K Wr p -> In (Get a k) (touches_of K p) -> Wr a k = None.
Proof.
  induction p as [|a' k' next IH|a' k' v next IH]; cbn [cell_ok touches_of]; [contradiction| |].
  - intros [m [v [L [B [V [N O]]]]]]. rewrite V. intros [E|I]; [injection E as <- <-; auto|]. apply (IH v); auto.
  - intros [m [L [B [_ O]]]] [E|I]; [discriminate|auto].
Qed.
Lemma cell_put K Wr p a k v : cell_ok K Wr p -> In (Put a k v) (touches_of K p) -> Wr a k = Some v.
Proof.
  induction p as [|a' k' next IH|a' k' w next IH]; cbn [cell_ok touches_of]; [contradiction| |].
  - intros [m [u [L [B [V [N O]]]]]]. rewrite V. intros [E|I]; [discriminate|]. apply (IH u); auto.
  - intros [m [L [B [E1 O]]]] [E|I]; [injection E as -> <- ->; auto|auto].
Qed.
Definition put_cells (K : known) (Wr : arr -> nat -> option Z) : known :=
  mkKnown (len K) (fun a k => match Wr a k with Some v => Some v | None => val K a k end).
Lemma ok_launch_cells {R} K n code Wr (next : host arr R) Q :
  (forall i, i < n -> cell_ok K Wr (code i)) ->
  (forall a m k w, len K a = Some m -> (z k < m)%Z -> Wr a k = Some w -> exists i, i < n /\ stores K (code i) a k) ->
  ok arr arr_eq (put_cells K Wr) next Q -> ok arr arr_eq K (Launch n code next) Q.
Proof.
  intros IT CO O. apply ok_launch_sep with (T := fun i => touches_of K (code i)) (K' := put_cells K Wr); auto.
  - intros i Hi. apply (cell_evals K Wr). auto.
  - intros i j a k v Hi Hj P G. assert (E := cell_put K Wr _ a k v (IT i Hi) P). rewrite (cell_get K Wr _ a k (IT j Hj) G) in E. discriminate.
  - intros i a k v Hi P. cbn [put_cells val]. rewrite (cell_put K Wr _ a k v (IT i Hi) P). auto.
  - intros a m k w L B V. cbn [put_cells len val] in L, V. destruct (Wr a k) as [u|] eqn:E; [|right; auto]. left.
    destruct (CO a m k u L B E) as [i [Hi S]]. destruct (stores_touch arr K _ a k S) as [v P]. exists i, v. auto.
Qed.
Lemma cell_load K Wr a k next m n f : has K a m n f -> k < n -> Wr a k = None -> cell_ok K Wr (next (f k)) -> cell_ok K Wr (Load a (z k) next).
Proof. intros [A B C] Hk N O. exists (z m), (f k). split; auto. split; [lia|]. rewrite Nat2Z.id. auto. Qed.
Lemma cell_store K Wr a k v next m : len K a = Some (z m) -> k < m -> Wr a k = Some v -> cell_ok K Wr next -> cell_ok K Wr (Store a (z k) v next).
Proof. intros L B E O. exists (z m). split; auto. split; [lia|]. rewrite Nat2Z.id. auto. Qed.
Lemma cell_for_each {X} K Wr (l : list X) body after :
  (forall x nx, In x l -> cell_ok K Wr nx -> cell_ok K Wr (body x nx)) -> cell_ok K Wr after -> cell_ok K Wr (for_each l body after).
Proof.
  intros H A. induction l as [|x l IH]; cbn [for_each]; auto. apply H; [left; auto|]. apply IH. intros y nx I. apply H. right; auto.
Qed.
(** [P] is preserved by loading: both [cell_ok] and [stores] *)
Lemma cell_load_all {X} K Wr (l : list X) (g : X -> arr * nat) m n (f : X -> nat -> Z) next :
  (forall x, In x l -> has K (fst (g x)) m n (f x) /\ snd (g x) < n /\ Wr (fst (g x)) (snd (g x)) = None) ->
  cell_ok K Wr (next (map (fun x => f x (snd (g x))) l)) -> cell_ok K Wr (load_all (map (fun x => (fst (g x), z (snd (g x)))) l) next).
Proof.
  revert next. induction l as [|x l IH]; intros next H O; cbn [map load_all] in *; auto.
  destruct (H x (or_introl eq_refl)) as [A [B C]]. apply (cell_load K Wr _ _ _ _ _ _ A B C). apply IH; auto. intros y I. apply H. right; auto.
Qed.
Lemma stores_load_all' {X} (K : known) (l : list X) (g : X -> arr * nat) m n (f : X -> nat -> Z) next b j :
  (forall x, In x l -> has K (fst (g x)) m n (f x) /\ snd (g x) < n) ->
  stores K (next (map (fun x => f x (snd (g x))) l)) b j -> stores K (load_all (map (fun x => (fst (g x), z (snd (g x)))) l) next) b j.
Proof.
  revert next. induction l as [|x l IH]; intros next H O; cbn [map load_all] in *; auto.
  destruct (H x (or_introl eq_refl)) as [A B]. apply (stores_load _ _ _ _ _ _ _ _ _ _ A B). apply IH; auto. intros y I. apply H. right; auto.
Qed.
End Cells.
Arguments cell_ok {arr}.
Arguments put_cells {arr}.

Lemma aligned_ge k : k <= aligned_nboxes k.
Proof. unfold aligned_nboxes. assert (D := Nat.div_mod (k + 31) 32 ltac:(lia)). assert (M := Nat.mod_upper_bound (k + 31) 32 ltac:(lia)). lia. Qed.
Lemma widen_map {X} (l : list X) (f g : X -> Z * Z) :
  widen (map f l) (map g l) = map (fun x => (Z.min (fst (f x)) (fst (g x)), Z.max (snd (f x)) (snd (g x)))) l.
Proof. unfold widen. induction l as [|x l IH]; cbn [map combine fst snd]; auto. rewrite IH. auto. Qed.
Lemma combine_map {X} (l : list X) (f g : X -> Z) : combine (map f l) (map g l) = map (fun x => (f x, g x)) l.
Proof. induction l as [|x l IH]; cbn [map combine]; auto. rewrite IH. auto. Qed.

Section Level.
Variable inp : input.
Variable ps : pstate.
Notation n := (p_nboxes ps).
Notation nch := (nchild inp).
Notation al := (aligned_nboxes (p_nboxes ps)).
Hypothesis NP : 0 < n.
(** sources or targets *)
Variables (starts counts : parray) (parts : nat -> parray) (rads bmin bmax : parray).
Variables (pst pct : nat -> nat) (npt : nat) (pts : nat -> nat -> Z) (rad : nat -> Z) (rm : nat).
Hypothesis DIFF : bmin <> bmax.
Hypothesis SEP : forall x, x = bmin \/ x = bmax ->
  x <> starts /\ x <> counts /\ (forall a, x <> parts a) /\ x <> rads /\ x <> CenterTable /\ x <> ChildTable.
Hypothesis RAD0 : have_extent inp = false -> forall k, rad k = 0%Z.
Hypothesis PB : forall b, b < n -> 0 < pct b -> pst b + pct b <= npt.
Notation lo_of := (fun i a => (pts i a - rad i)%Z).
Notation hi_of := (fun i a => (pts i a + rad i)%Z).
Record kind_facts (K : knownp) : Prop := {
  kf_starts : has K starts rm n (fun b => z (pst b));
  kf_counts : has K counts n n (fun b => z (pct b));
  kf_parts : forall a, a < idim inp -> has K (parts a) npt npt (fun k => pts k a);
  kf_rads : have_extent inp = true -> has K rads npt npt rad;
  kf_child : has K ChildTable (nch * al) (nch * al) (table al n (fun m b => z (p_child ps m b)));
  kf_center : has K CenterTable (idim inp * al) (idim inp * al) (table al n (fun a b => p_center ps b a))
}.
Lemma kind_facts_keep (W : parray -> Prop) K K' : keeps W K K' ->
  ~ W starts -> ~ W counts -> (forall a, ~ W (parts a)) -> ~ W rads -> ~ W CenterTable -> ~ W ChildTable ->
  kind_facts K -> kind_facts K'.
Proof. intros KE N1 N2 N3 N4 N5 N6 H. destruct H. constructor; intros; apply KE; auto. Qed.
(** bounds found so far *)
Definition bounds (bb : nat -> nat -> Z) (k : nat) : Z := bb (k mod al) (k / al).
Lemma bounds_at bb a b : b < n -> bounds bb (a * al + b) = bb b a.
Proof.
  intros Hb. assert (NA := aligned_ge (p_nboxes ps)). unfold bounds. rewrite Nat.add_comm, Nat.mod_add, Nat.div_add, Nat.mod_small, Nat.div_small by lia. auto.
Qed.

Variables first next_first : nat.
Hypothesis FN : first <= next_first <= n.
Variables bbmin bbmax : nat -> nat -> Z.
Hypothesis CH : forall b m, first <= b < next_first -> m < nch -> p_child ps m b <> 0 -> next_first <= p_child ps m b < n.
Notation newmin := (box_extent inp ps Z.min lo_of pst pct bbmin).
Notation newmax := (box_extent inp ps Z.max hi_of pst pct bbmax).
Definition new_cells (x : parray) (k : nat) : option Z :=
  if parray_eq x bmin then
    if (first <=? k mod al) && (k mod al <? next_first) then Some (newmin (k mod al) (k / al)) else None
  else if parray_eq x bmax then
    if (first <=? k mod al) && (k mod al <? next_first) then Some (newmax (k mod al) (k / al)) else None
  else None.
Lemma new_other x k : x <> bmin -> x <> bmax -> new_cells x k = None.
Proof. intros A B. unfold new_cells. destruct (parray_eq x bmin); [contradiction|]. destruct (parray_eq x bmax); [contradiction|auto]. Qed.
Lemma at_mod a b : b < n -> (a * al + b) mod al = b /\ (a * al + b) / al = a.
Proof.
  intros Hb. assert (NA := aligned_ge (p_nboxes ps)). rewrite Nat.add_comm, Nat.mod_add, Nat.div_add, Nat.mod_small, Nat.div_small by lia. auto.
Qed.
Lemma new_child x a c : x = bmin \/ x = bmax -> next_first <= c < n -> new_cells x (a * al + c) = None.
Proof.
  intros A B. unfold new_cells. destruct (at_mod a c) as [-> ->]; [lia|]. rewrite (proj2 (Nat.ltb_ge c next_first)) by lia.
  rewrite andb_false_r. destruct (parray_eq x bmin), (parray_eq x bmax); auto.
Qed.
Lemma new_at a b : first <= b < next_first -> new_cells bmin (a * al + b) = Some (newmin b a) /\ new_cells bmax (a * al + b) = Some (newmax b a).
Proof.
  intros B. unfold new_cells. destruct (at_mod a b) as [-> ->]; [lia|]. rewrite (proj2 (Nat.ltb_lt b next_first)), (proj2 (Nat.leb_le first b)) by lia.
  cbn [andb]. destruct (parray_eq bmin bmin); [|contradiction]. destruct (parray_eq bmax bmin); [congruence|]. destruct (parray_eq bmax bmax); [auto|contradiction].
Qed.

Section Item.
Variable K : knownp.
Hypothesis H : kind_facts K.
Hypothesis HMIN : has K bmin (idim inp * al) (idim inp * al) (bounds bbmin).
Hypothesis HMAX : has K bmax (idim inp * al) (idim inp * al) (bounds bbmax).
(** what loading an item's cells leads to, for [cell_ok] and for [stores] alike *)
Variable G : pprog -> Prop.
Hypothesis G_load : forall a k next m nn f, has K a m nn f -> k < nn -> new_cells a k = None -> G (next (f k)) -> G (Load a (z k) next).
Lemma G_load_all {X} (l : list X) (g : X -> parray * nat) m nn (f : X -> nat -> Z) next :
  (forall x, In x l -> has K (fst (g x)) m nn (f x) /\ snd (g x) < nn /\ new_cells (fst (g x)) (snd (g x)) = None) ->
  G (next (map (fun x => f x (snd (g x))) l)) -> G (load_all (map (fun x => (fst (g x), z (snd (g x)))) l) next).
Proof.
  revert next. induction l as [|x l IH]; intros next HH O; cbn [map load_all] in *; auto.
  destruct (HH x (or_introl eq_refl)) as [A [B C]]. apply (G_load _ _ _ _ _ _ A B C). apply IH; auto. intros y I. apply HH. right; auto.
Qed.
Lemma starts_none k : new_cells starts k = None.
Proof. apply new_other; intros E; [destruct (SEP bmin) as [A _]|destruct (SEP bmax) as [A _]]; auto. Qed.
Lemma counts_none k : new_cells counts k = None.
Proof. apply new_other; intros E; [destruct (SEP bmin) as [_ [A _]]|destruct (SEP bmax) as [_ [A _]]]; auto. Qed.
Lemma parts_none a k : new_cells (parts a) k = None.
Proof. apply new_other; intros E; [destruct (SEP bmin) as [_ [_ [A _]]]|destruct (SEP bmax) as [_ [_ [A _]]]]; auto; apply (A a); auto. Qed.
Lemma rads_none k : new_cells rads k = None.
Proof. apply new_other; intros E; [destruct (SEP bmin) as [_ [_ [_ [A _]]]]|destruct (SEP bmax) as [_ [_ [_ [A _]]]]]; auto. Qed.
Lemma center_none k : new_cells CenterTable k = None.
Proof. apply new_other; intros E; [destruct (SEP bmin) as [_ [_ [_ [_ [A _]]]]]|destruct (SEP bmax) as [_ [_ [_ [_ [A _]]]]]]; auto. Qed.
Lemma childt_none k : new_cells ChildTable k = None.
Proof. apply new_other; intros E; [destruct (SEP bmin) as [_ [_ [_ [_ [_ A]]]]]|destruct (SEP bmax) as [_ [_ [_ [_ [_ A]]]]]]; auto. Qed.

Lemma own_loop_G next : forall c s lo hi, (0 < c -> s + c <= npt) ->
  G (next (map (fun a => (fold_left (fun acc i => Z.min acc (lo_of i a)) (seq s c) (lo a), fold_left (fun acc i => Z.max acc (hi_of i a)) (seq s c) (hi a))) (axes inp))) ->
  G (own_loop inp parts (if have_extent inp then Some rads else None) c (z s) (map (fun a => (lo a, hi a)) (axes inp)) next).
Proof.
  induction c as [|c IH]; intros s lo hi B O; [exact O|]. cbn [own_loop].
  assert (STEP : G (load_all (map (fun a => (parts a, z s)) (axes inp)) (fun xs =>
    own_loop inp parts (if have_extent inp then Some rads else None) c (z s + 1)
      (widen (map (fun a => (lo a, hi a)) (axes inp)) (map (fun x => ((x - rad s)%Z, (x + rad s)%Z)) xs)) next))).
  { apply (G_load_all (axes inp) (fun a => (parts a, s)) npt npt (fun a k => pts k a)).
    - intros a Ia. apply in_axes in Ia. cbn [fst snd]. split; [apply (kf_parts _ H); auto|]. split; [lia|apply parts_none].
    - cbn [fst snd]. rewrite map_map, widen_map. cbn [fst snd]. replace (z s + 1)%Z with (z (S s)) by lia.
      apply (IH (S s) (fun a => Z.min (lo a) (pts s a - rad s)) (fun a => Z.max (hi a) (pts s a + rad s))); [lia|]. exact O. }
  destruct (have_extent inp) eqn:HE; cbn beta iota.
  - apply (G_load rads s _ npt npt rad); [apply (kf_rads _ H); auto|lia|apply rads_none|]. exact STEP.
  - rewrite (RAD0 eq_refl s) in STEP. exact STEP.
Qed.
Lemma child_loop_G next b : first <= b < next_first -> forall ms lo hi, (forall m, In m ms -> m < nch) ->
  G (next (map (fun a => (fold_left (fun acc m => let c := p_child ps m b in if c =? 0 then acc else Z.min acc (bbmin c a)) ms (lo a),
                          fold_left (fun acc m => let c := p_child ps m b in if c =? 0 then acc else Z.max acc (bbmax c a)) ms (hi a))) (axes inp))) ->
  G (child_loop inp al bmin bmax ms (z b) (map (fun a => (lo a, hi a)) (axes inp)) next).
Proof.
  intros Hb. assert (NA := aligned_ge (p_nboxes ps)). induction ms as [|m ms IH]; intros lo hi B O; [exact O|]. cbn [child_loop fold_left] in *.
  assert (Hm := B m (or_introl eq_refl)).
  replace (z (m * al) + z b)%Z with (z (m * al + b)) by lia.
  apply (G_load ChildTable (m * al + b) _ (nch * al) (nch * al) _ (kf_child _ H)); [nia|apply childt_none|].
  rewrite table_at by lia. rewrite z_eqb0. cbn zeta in O. destruct (Nat.eqb_spec (p_child ps m b) 0) as [E|E].
  - apply IH; [intros m' I; apply B; right; auto|]. exact O.
  - assert (CB := CH b m Hb Hm E). set (c := p_child ps m b) in *.
    assert (CA : forall a, (z (a * al) + z c)%Z = z (a * al + c)) by (intros; lia).
    rewrite (map_ext (fun a => (bmin, (z (a * al) + z c)%Z)) (fun a => (bmin, z (a * al + c)))) by (intros; rewrite CA; auto).
    rewrite (map_ext (fun a => (bmax, (z (a * al) + z c)%Z)) (fun a => (bmax, z (a * al + c)))) by (intros; rewrite CA; auto).
    apply (G_load_all (axes inp) (fun a => (bmin, a * al + c)) (idim inp * al) (idim inp * al) (fun _ k => bounds bbmin k)).
    { intros a Ia. apply in_axes in Ia. cbn [fst snd]. split; [exact HMIN|]. split; [nia|apply new_child; auto]. }
    cbn [fst snd].
    apply (G_load_all (axes inp) (fun a => (bmax, a * al + c)) (idim inp * al) (idim inp * al) (fun _ k => bounds bbmax k)).
    { intros a Ia. apply in_axes in Ia. cbn [fst snd]. split; [exact HMAX|]. split; [nia|apply new_child; auto]. }
    cbn [fst snd]. rewrite combine_map, widen_map. cbn [fst snd].
    rewrite (map_ext (fun x => (Z.min (lo x) (bounds bbmin (x * al + c)), Z.max (hi x) (bounds bbmax (x * al + c))))
      (fun x => (Z.min (lo x) (bbmin c x), Z.max (hi x) (bbmax c x)))) by (intros; rewrite !bounds_at by lia; auto).
    apply (IH (fun a => Z.min (lo a) (bbmin c a)) (fun a => Z.max (hi a) (bbmax c a))); [intros m' I; apply B; right; auto|]. exact O.
Qed.
Lemma extents_item_G i : first + i < next_first ->
  G (for_each (axes inp) (fun a nx => Store bmin (z (a * al + (first + i))) (newmin (first + i) a)
                                      (Store bmax (z (a * al + (first + i))) (newmax (first + i) a) nx)) Finish) ->
  G (extents_item inp al starts counts parts (if have_extent inp then Some rads else None) bmin bmax first i).
Proof.
  intros Hi O. assert (NA := aligned_ge (p_nboxes ps)). unfold extents_item. set (b := first + i) in *. assert (Hb : first <= b < next_first) by (subst b; lia).
  assert (CA : forall a, (z (a * al) + z b)%Z = z (a * al + b)) by (intros; lia).
  rewrite (map_ext (fun a => (CenterTable, (z (a * al) + z b)%Z)) (fun a => (CenterTable, z (a * al + b)))) by (intros; rewrite CA; auto).
  apply (G_load_all (axes inp) (fun a => (CenterTable, a * al + b)) (idim inp * al) (idim inp * al) (fun _ => table al n (fun a b => p_center ps b a))).
  { intros a Ia. apply in_axes in Ia. cbn [fst snd]. split; [apply (kf_center _ H)|]. split; [nia|apply center_none]. }
  cbn [fst snd].
  apply (G_load starts b _ rm n _ (kf_starts _ H)); [lia|apply starts_none|].
  apply (G_load counts b _ n n _ (kf_counts _ H)); [lia|apply counts_none|].
  rewrite Nat2Z.id, map_map.
  rewrite (map_ext (fun x => (table al n (fun a b => p_center ps b a) (x * al + b), table al n (fun a b => p_center ps b a) (x * al + b)))
    (fun a => (p_center ps b a, p_center ps b a))) by (intros; rewrite table_at by lia; auto).
  apply (own_loop_G _ (pct b) (pst b) (fun a => p_center ps b a) (fun a => p_center ps b a)); [intros; apply PB; lia|].
  match goal with |- G (child_loop _ _ _ _ _ _ (map (fun a => (@?f a, @?g a)) _) _) => apply (child_loop_G _ b Hb (seq 0 nch) f g) end.
  { intros m I. apply in_seq in I. lia. }
  match goal with |- G ?p => match type of O with G ?p' => assert (E : p = p') end end.
  2:{ rewrite E. exact O. }
  assert (FE : forall (f g : nat -> pprog -> pprog) l after, (forall a nx, In a l -> f a nx = g a nx) -> for_each l f after = for_each l g after).
  { intros f g l after HH. induction l as [|a l IH]; cbn [for_each]; auto. rewrite IH by (intros; apply HH; right; auto). apply HH. left; auto. }
  apply FE. intros a nx Ia. apply in_axes in Ia. rewrite CA.
  assert (NT : forall (f : nat -> Z * Z), nth a (map f (axes inp)) (0, 0)%Z = f a).
  { intros f. unfold axes. rewrite (nth_indep _ (0, 0)%Z (f 0)) by (rewrite map_length, seq_length; auto).
    rewrite map_nth, seq_nth by auto. auto. }
  rewrite !NT. reflexivity.
Qed.
End Item.

Lemma level_ok {Res} K (next : host parray Res) Q : kind_facts K ->
  has K bmin (idim inp * al) (idim inp * al) (bounds bbmin) -> has K bmax (idim inp * al) (idim inp * al) (bounds bbmax) ->
  (forall K', keeps (fun x => x = bmin \/ x = bmax) K K' ->
     has K' bmin (idim inp * al) (idim inp * al) (bounds (fun b a => if (first <=? b) && (b <? next_first) then newmin b a else bbmin b a)) ->
     has K' bmax (idim inp * al) (idim inp * al) (bounds (fun b a => if (first <=? b) && (b <? next_first) then newmax b a else bbmax b a)) ->
     okp K' next Q) ->
  okp K (Launch (next_first - first) (extents_item inp al starts counts parts (if have_extent inp then Some rads else None) bmin bmax first) next) Q.
Proof.
  intros H HMIN HMAX O. assert (NA := aligned_ge (p_nboxes ps)). apply ok_launch_cells with (Wr := new_cells).
  - intros i Hi. apply (extents_item_G K H HMIN HMAX (cell_ok K new_cells)); [|lia|].
    + intros. eapply cell_load; eauto.
    + apply cell_for_each; [|exact Logic.I]. intros a nx Ia N. apply in_axes in Ia. destruct (new_at a (first + i)) as [E1 E2]; [lia|].
      eapply cell_store; [apply HMIN|nia|exact E1|]. eapply cell_store; [apply HMAX|nia|exact E2|]. exact N.
  - intros x m k w L B V.
    assert (SH : (x = bmin \/ x = bmax) /\ first <= k mod al < next_first).
    { unfold new_cells in V. destruct (parray_eq x bmin), (parray_eq x bmax); try discriminate;
        destruct (Nat.leb_spec first (k mod al)), (Nat.ltb_spec (k mod al) next_first); try discriminate; auto. }
    destruct SH as [SX SK]. assert (LX : m = z (idim inp * al)).
    { destruct SX as [-> | ->]; [destruct HMIN as [A _ _]|destruct HMAX as [A _ _]]; rewrite A in L; congruence. }
    subst m. assert (DM := Nat.div_mod k al ltac:(lia)). assert (KA : k / al < idim inp) by (apply Nat.div_lt_upper_bound; lia).
    exists (k mod al - first). split; [lia|].
    apply (extents_item_G K H HMIN HMAX (fun p => stores K p x k)); [|lia|].
    + intros a k' nx m nn f HH Hk _ S. eapply stores_load; eauto.
    + apply stores_for_each with (x := k / al); [apply in_axes; auto| |].
      * intros nx. replace (k / al * al + (first + (k mod al - first))) with k by lia.
        destruct SX as [-> | ->]; [apply stores_here|apply stores_later, stores_here].
      * intros y nx _ S. apply stores_later, stores_later. auto.
  - apply O.
    + intros b m k f N [A B C]. constructor; auto. intros j Hj. cbn [put_cells val]. rewrite new_other; auto.
    + destruct HMIN as [A B C]. constructor; auto. intros k Hk. cbn [put_cells val]. unfold new_cells, bounds. destruct (parray_eq bmin bmin); [|contradiction].
      destruct ((first <=? k mod al) && (k mod al <? next_first)); [auto|exact (C k Hk)].
    + destruct HMAX as [A B C]. constructor; auto. intros k Hk. cbn [put_cells val]. unfold new_cells, bounds.
      destruct (parray_eq bmax bmin); [congruence|]. destruct (parray_eq bmax bmax); [|contradiction].
      destruct ((first <=? k mod al) && (k mod al <? next_first)); [auto|exact (C k Hk)].
Qed.
End Level.

Section Extents.
Variable inp : input.
Variable ps : pstate.
Variable q : nat -> list nat.
Variable sp : nat -> bool.
Variable room : nat.
Hypothesis P : pinv inp ps q sp.
Hypothesis NS : nsrc inp <= npart inp.
Hypothesis SAME : same inp = true -> nsrc inp = npart inp.
Hypothesis EXT : have_extent inp = true -> same inp = false.
Notation np := (npart inp).
Notation nch := (nchild inp).
Notation n := (p_nboxes ps).
Notation R := (the_split inp ps).
Notation ntgt := (ntgt inp).
Notation al := (aligned_nboxes (p_nboxes ps)).
Notation snc := (info_source_nonchild inp ps R).
Notation tnc := (info_target_nonchild inp ps R).
Notation lstart := (p_lstart ps).
(** the boxes of a level come before those of the next, and are all in use *)
Hypothesis LEV : forall l, S l < length lstart -> nth l lstart 0 <= nth (S l) lstart 0 <= n.
Hypothesis DOWN : forall l b m, S l < length lstart -> nth l lstart 0 <= b < nth (S l) lstart 0 -> m < nch -> p_child ps m b <> 0 ->
  nth (S l) lstart 0 <= p_child ps m b < n.
Notation info_facts := (info_facts inp ps room).
Definition is_bound (x : parray) : Prop := x = SourceMin \/ x = SourceMax \/ x = TargetMin \/ x = TargetMax.
Lemma info_facts_keep (W : parray -> Prop) K K' : keeps W K K' -> (forall x, W x -> is_bound x) -> info_facts K -> info_facts K'.
Proof.
  intros KE WB H.
  assert (N : forall x, ~ is_bound x -> ~ W x) by (intros x A B; apply A, WB, B).
  assert (B' : box_facts inp ps room K').
  { destruct H. apply (box_facts_keep inp ps room W K K' KE); auto; [intros a|]; apply N; unfold is_bound; intuition discriminate. }
  destruct H. constructor; auto; intros; apply KE; auto; apply N; unfold is_bound;
    unfold source_ids, source_starts, source_counts, target_starts, target_counts, target_points, source_nonchild, target_nonchild in *;
    try destruct (same inp); intuition discriminate.
Qed.
Lemma source_bound b : b < n -> 0 < snc b -> sp_source_starts R b + snc b <= nsrc inp.
Proof.
  intros Hb C. destruct (stay_info inp ps q sp P NS SAME EXT b Hb) as [k [_ [Hk [_ [S _]]]]]. rewrite S in *.
  assert (Z := cntr_le (src_pos inp ps) (p_start ps b) (p_start ps b + k)).
  rewrite (fin_source_starts inp ps q sp P NS SAME) by (auto; lia). rewrite <- cnt_cntr by lia.
  assert (X := pi_range_np _ _ _ _ P b Hb ltac:(lia)).
  rewrite <- (cnt_src inp ps q sp P NS SAME). rewrite (cnt_cntr (src_pos inp ps) (p_start ps b + k) np) by lia. lia.
Qed.
Lemma target_bound b : b < n -> 0 < tnc b -> sp_target_starts R b + tnc b <= ntgt.
Proof.
  intros Hb C. destruct (stay_info inp ps q sp P NS SAME EXT b Hb) as [_ [k [_ [Hk [_ S]]]]]. rewrite S in *.
  assert (Z := cntr_le (tgt_pos inp ps) (p_start ps b) (p_start ps b + k)).
  rewrite (fin_target_starts inp ps q sp P NS SAME) by (auto; lia). rewrite <- cnt_cntr by lia.
  assert (X := pi_range_np _ _ _ _ P b Hb ltac:(lia)).
  rewrite <- (cnt_tgt inp ps q sp P NS SAME). rewrite (cnt_cntr (tgt_pos inp ps) (p_start ps b + k) np) by lia. lia.
Qed.
Lemma rad0 u : have_extent inp = false -> rad_of inp u = 0%Z.
Proof. unfold have_extent, rad_of. destruct (ext inp); [discriminate|auto]. Qed.
Lemma extents_level_at pick reach pst pct bb l b a : a < idim inp ->
  extents_level inp ps pick reach pst pct bb l b a =
  if (nth l lstart 0 <=? b) && (b <? nth (S l) lstart 0) then box_extent inp ps pick reach pst pct bb b a else bb b a.
Proof.
  intros Ha. unfold extents_level. rewrite Nat.add_1_r.
  destruct (Nat.leb_spec (nth l lstart 0) b), (Nat.ltb_spec b (nth (S l) lstart 0)); cbn [andb].
  - rewrite (scatter_map_in (fun b => b) (fun b => kernel_map (idim inp) (box_extent inp ps pick reach pst pct bb b) (fun _ => 0%Z)) _ _ b).
    + apply kernel_map_lt; auto.
    + apply in_seq. lia.
    + intros y _ E. subst. auto.
  - rewrite (scatter_map_notin (fun b => b) (fun b => kernel_map (idim inp) (box_extent inp ps pick reach pst pct bb b) (fun _ => 0%Z))); auto.
    intros y Hy. apply in_seq in Hy. lia.
  - rewrite (scatter_map_notin (fun b => b) (fun b => kernel_map (idim inp) (box_extent inp ps pick reach pst pct bb b) (fun _ => 0%Z))); auto.
    intros y Hy. apply in_seq in Hy. lia.
  - rewrite (scatter_map_notin (fun b => b) (fun b => kernel_map (idim inp) (box_extent inp ps pick reach pst pct bb b) (fun _ => 0%Z))); auto.
    intros y Hy. apply in_seq in Hy. lia.
Qed.
Lemma bounds_ext (K : knownp) x (f g : nat -> nat -> Z) : (forall b a, a < idim inp -> f b a = g b a) ->
  has K x (idim inp * al) (idim inp * al) (bounds ps f) -> has K x (idim inp * al) (idim inp * al) (bounds ps g).
Proof.
  intros E [A B C]. constructor; auto. intros k Hk. rewrite C by auto. unfold bounds. f_equal. apply E.
  assert (N := pi_pos _ _ _ _ P). assert (NA := aligned_ge (p_nboxes ps)). apply Nat.div_lt_upper_bound; lia.
Qed.
Notation sc := (fun i a => coord inp (sp_source_ids R i) a).
Notation tc := (fun i a => coord inp (sp_target_ids R i) a).
Notation sr := (fun i => rad_of inp (sp_source_ids R i)).
Notation tr := (fun i => rad_of inp (sp_target_ids R i)).
Notation slo := (extents_level inp ps Z.min (fun i a => (coord inp (sp_source_ids R i) a - rad_of inp (sp_source_ids R i))%Z) (sp_source_starts R) snc).
Notation shi := (extents_level inp ps Z.max (fun i a => (coord inp (sp_source_ids R i) a + rad_of inp (sp_source_ids R i))%Z) (sp_source_starts R) snc).
Notation tlo := (extents_level inp ps Z.min (fun i a => (coord inp (sp_target_ids R i) a - rad_of inp (sp_target_ids R i))%Z) (sp_target_starts R) tnc).
Notation thi := (extents_level inp ps Z.max (fun i a => (coord inp (sp_target_ids R i) a + rad_of inp (sp_target_ids R i))%Z) (sp_target_starts R) tnc).
Record bounds_facts (smin smax tmin tmax : nat -> nat -> Z) (K : knownp) : Prop := {
  xf_info : info_facts K;
  xf_smin : has K SourceMin (idim inp * al) (idim inp * al) (bounds ps smin);
  xf_smax : has K SourceMax (idim inp * al) (idim inp * al) (bounds ps smax);
  xf_tmin : same inp = false -> has K TargetMin (idim inp * al) (idim inp * al) (bounds ps tmin);
  xf_tmax : same inp = false -> has K TargetMax (idim inp * al) (idim inp * al) (bounds ps tmax)
}.
Lemma source_level {Res} K (next : host parray Res) Q l smin smax tmin tmax : S l < length lstart -> bounds_facts smin smax tmin tmax K ->
  (forall K', bounds_facts (slo smin l) (shi smax l) tmin tmax K' -> okp K' next Q) ->
  okp K (Launch (nth (S l) lstart 0 - nth l lstart 0)
    (extents_item inp al (source_starts inp) source_nonchild Sources (radii_of inp SourceRadii) SourceMin SourceMax (nth l lstart 0)) next) Q.
Proof.
  intros Hl B O. assert (N := pi_pos _ _ _ _ P).
  apply (level_ok inp ps N (source_starts inp) source_nonchild Sources SourceRadii SourceMin SourceMax
     (sp_source_starts R) snc (nsrc inp) sc sr (part_room inp ps room)) with (bbmin := smin) (bbmax := smax).
  - discriminate.
  - intros x Hx. unfold source_starts, source_nonchild. destruct Hx as [-> | ->]; destruct (same inp); repeat split; try discriminate.
  - intros E k. apply rad0; auto.
  - apply source_bound.
  - apply LEV; auto.
  - intros b m. apply DOWN; auto.
  - destruct B as [B _ _ _ _]. destruct B. constructor; auto.
  - apply B.
  - apply B.
  - intros K' KE H1 H2. apply O. constructor.
    + apply (info_facts_keep _ _ _ KE); [|apply B]. unfold is_bound. intuition.
    + refine (bounds_ext _ _ _ _ _ H1). intros b a Ha. symmetry. apply extents_level_at; auto.
    + refine (bounds_ext _ _ _ _ _ H2). intros b a Ha. symmetry. apply extents_level_at; auto.
    + intros SM. apply KE; [intuition discriminate|]. apply B; auto.
    + intros SM. apply KE; [intuition discriminate|]. apply B; auto.
Qed.
Lemma target_level {Res} K (next : host parray Res) Q l smin smax tmin tmax : same inp = false -> S l < length lstart -> bounds_facts smin smax tmin tmax K ->
  (forall K', bounds_facts smin smax (tlo tmin l) (thi tmax l) K' -> okp K' next Q) ->
  okp K (Launch (nth (S l) lstart 0 - nth l lstart 0)
    (extents_item inp al (target_starts inp) (target_nonchild inp) Targets (radii_of inp TargetRadii) TargetMin TargetMax (nth l lstart 0)) next) Q.
Proof.
  intros SM Hl B O. assert (N := pi_pos _ _ _ _ P).
  apply (level_ok inp ps N (target_starts inp) (target_nonchild inp) Targets TargetRadii TargetMin TargetMax
     (sp_target_starts R) tnc ntgt tc tr (part_room inp ps room)) with (bbmin := tmin) (bbmax := tmax).
  - discriminate.
  - intros x Hx. unfold target_starts, target_nonchild. destruct Hx as [-> | ->]; destruct (same inp); repeat split; try discriminate.
  - intros E k. apply rad0; auto.
  - apply target_bound.
  - apply LEV; auto.
  - intros b m. apply DOWN; auto.
  - destruct B as [B _ _ _ _]. destruct B. constructor; auto. intros a Ha. unfold target_points in nf_tgt. rewrite SM in nf_tgt. auto.
  - apply B; auto.
  - apply B; auto.
  - intros K' KE H1 H2. apply O. constructor.
    + apply (info_facts_keep _ _ _ KE); [|apply B]. unfold is_bound. intuition.
    + apply KE; [intuition discriminate|]. apply B; auto.
    + apply KE; [intuition discriminate|]. apply B; auto.
    + intros _. refine (bounds_ext _ _ _ _ _ H1). intros b a Ha. symmetry. apply extents_level_at; auto.
    + intros _. refine (bounds_ext _ _ _ _ _ H2). intros b a Ha. symmetry. apply extents_level_at; auto.
Qed.
Lemma levels_ok {Res} (next : host parray Res) Q : forall ls K smin smax tmin tmax,
  (forall l, In l ls -> S l < length lstart) -> bounds_facts smin smax tmin tmax K ->
  (forall K', bounds_facts (fold_left slo ls smin) (fold_left shi ls smax) (fold_left tlo ls tmin) (fold_left thi ls tmax) K' -> okp K' next Q) ->
  okp K (each ls (fun l nx =>
    let first := nth l lstart 0 in
    let count := nth (l + 1) lstart 0 - first in
    Launch count (extents_item inp al (source_starts inp) source_nonchild Sources (radii_of inp SourceRadii) SourceMin SourceMax first)
      (if same inp then nx
       else Launch count (extents_item inp al (target_starts inp) (target_nonchild inp) Targets (radii_of inp TargetRadii) TargetMin TargetMax first) nx)) next) Q.
Proof.
  induction ls as [|l ls IH]; intros K smin smax tmin tmax HL B O; cbn [each fold_left] in *; [apply O; auto|].
  assert (Hl := HL l (or_introl eq_refl)). assert (HL' : forall l', In l' ls -> S l' < length lstart) by (intros l' I'; apply HL; right; auto).
  cbn zeta. rewrite Nat.add_1_r. apply (source_level K _ Q l smin smax tmin tmax); auto. intros K1 B1.
  assert (CA : {same inp = true} + {same inp = false}) by (destruct (same inp); auto). destruct CA as [SM|SM].
  - rewrite SM at 1. cbn beta iota. apply (IH K1 (slo smin l) (shi smax l) (tlo tmin l) (thi tmax l)); auto.
    destruct B1. constructor; auto; intros; congruence.
  - rewrite SM at 1. cbn beta iota. apply (target_level K1 _ Q l (slo smin l) (shi smax l) tmin tmax); auto. intros K2 B2.
    apply (IH K2 (slo smin l) (shi smax l) (tlo tmin l) (thi tmax l)); auto.
Qed.
Notation smin := (box_extents inp ps Z.min (fun i a => (coord inp (sp_source_ids R i) a - rad_of inp (sp_source_ids R i))%Z) (sp_source_starts R) snc).
Notation smax := (box_extents inp ps Z.max (fun i a => (coord inp (sp_source_ids R i) a + rad_of inp (sp_source_ids R i))%Z) (sp_source_starts R) snc).
Notation tmin := (box_extents inp ps Z.min (fun i a => (coord inp (sp_target_ids R i) a - rad_of inp (sp_target_ids R i))%Z) (sp_target_starts R) tnc).
Notation tmax := (box_extents inp ps Z.max (fun i a => (coord inp (sp_target_ids R i) a + rad_of inp (sp_target_ids R i))%Z) (sp_target_starts R) tnc).
Lemma bounds_zero (K : knownp) x : has K x (idim inp * al) (idim inp * al) (fun _ => 0%Z) -> has K x (idim inp * al) (idim inp * al) (bounds ps (fun _ _ => 0%Z)).
Proof. auto. Qed.
Theorem extents_ok {Res} K (next : host parray Res) Q : info_facts K -> (forall K', bounds_facts smin smax tmin tmax K' -> okp K' next Q) ->
  okp K (extents_program inp n lstart next) Q.
Proof.
  intros B O. unfold extents_program. cbn zeta.
  assert (LS : forall l, In l (rev (seq 0 (length lstart - 1))) -> S l < length lstart).
  { intros l I. apply in_rev in I. apply in_seq in I. lia. }
  assert (CA : {same inp = true} + {same inp = false}) by (destruct (same inp); auto).
  apply ok_alloc; [lia|]. set (K1 := k_alloc _ _ _ _ _). assert (KE1 : keeps (fun x => x = SourceMin) K K1) by (intros ? ? ? ? ?; apply has_alloc_other; auto).
  assert (S1 : has K1 SourceMin (idim inp * al) (idim inp * al) (fun _ => 0%Z)) by (apply has_alloc_same; auto).
  assert (B1 : info_facts K1) by (apply (info_facts_keep _ _ _ KE1); auto; unfold is_bound; intuition). clearbody K1. clear K KE1 B.
  apply ok_alloc; [lia|]. set (K2 := k_alloc _ _ _ _ _). assert (KE2 : keeps (fun x => x = SourceMax) K1 K2) by (intros ? ? ? ? ?; apply has_alloc_other; auto).
  assert (T2 : has K2 SourceMax (idim inp * al) (idim inp * al) (fun _ => 0%Z)) by (apply has_alloc_same; auto).
  assert (S2 : has K2 SourceMin (idim inp * al) (idim inp * al) (fun _ => 0%Z)) by (apply KE2; auto; discriminate).
  assert (B2 : info_facts K2) by (apply (info_facts_keep _ _ _ KE2); auto; unfold is_bound; intuition). clearbody K2. clear K1 KE2 B1 S1.
  destruct CA as [SM|SM].
  - rewrite SM at 1. cbn beta iota. apply (levels_ok next Q _ K2 (fun _ _ => 0%Z) (fun _ _ => 0%Z) (fun _ _ => 0%Z) (fun _ _ => 0%Z)); auto.
    constructor; auto; intros; congruence.
  - rewrite SM at 1. cbn beta iota.
    apply ok_alloc; [lia|]. set (K3 := k_alloc _ _ _ _ _). assert (KE3 : keeps (fun x => x = TargetMin) K2 K3) by (intros ? ? ? ? ?; apply has_alloc_other; auto).
    assert (U3 : has K3 TargetMin (idim inp * al) (idim inp * al) (fun _ => 0%Z)) by (apply has_alloc_same; auto).
    assert (S3 : has K3 SourceMin (idim inp * al) (idim inp * al) (fun _ => 0%Z)) by (apply KE3; auto; discriminate).
    assert (T3 : has K3 SourceMax (idim inp * al) (idim inp * al) (fun _ => 0%Z)) by (apply KE3; auto; discriminate).
    assert (B3 : info_facts K3) by (apply (info_facts_keep _ _ _ KE3); auto; unfold is_bound; intuition). clearbody K3. clear K2 KE3 B2 S2 T2.
    apply ok_alloc; [lia|]. set (K4 := k_alloc _ _ _ _ _). assert (KE4 : keeps (fun x => x = TargetMax) K3 K4) by (intros ? ? ? ? ?; apply has_alloc_other; auto).
    assert (V4 : has K4 TargetMax (idim inp * al) (idim inp * al) (fun _ => 0%Z)) by (apply has_alloc_same; auto).
    assert (B4 : info_facts K4) by (apply (info_facts_keep _ _ _ KE4); auto; unfold is_bound; intuition).
    apply (levels_ok next Q _ K4 (fun _ _ => 0%Z) (fun _ _ => 0%Z) (fun _ _ => 0%Z) (fun _ _ => 0%Z)); auto.
    constructor; auto; intros; apply bounds_zero; auto; apply KE4; auto; discriminate.
Qed.
End Extents.
