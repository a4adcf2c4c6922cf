(** * C107: moving trees, lists and records between host and device *)
From Coq Require Import List Arith ZArith String Bool Lia.
From Verif Require Import Transfer SpecTransfer TransferFacts.
Import ListNotations.
Local Open Scope string_scope.
Local Open Scope list_scope.
Local Open Scope nat_scope.

(** ** Array containers: what is moved, and when it is refused *)
Theorem C107_moves q x y : well_named x ->
  (to_numpy x = Some y <-> moved downloaded x y) /\
  (from_numpy q x = Some y <-> moved (uploaded q) x y) /\
  (freeze x = Some y <-> moved (requeued None) x y) /\
  (thaw q x = Some y <-> moved (requeued (Some q)) x y).
Proof.
  intros W. split; [|split; [|split]]; [apply to_numpy_moved|apply from_numpy_moved|apply freeze_moved|apply thaw_moved]; auto.
Qed.

(** the contents do not change *)
Theorem C107_contents q x y : well_named x ->
  to_numpy x = Some y \/ from_numpy q x = Some y \/ freeze x = Some y \/ thaw q x = Some y -> contents y = contents x.
Proof.
  intros W [H|[H|[H|H]]]; [apply to_numpy_moved in H|apply from_numpy_moved in H|apply freeze_moved in H|apply thaw_moved in H]; auto;
    revert H; apply moved_contents; intros a b L; destruct L; reflexivity.
Qed.

(** ** Round trips *)
Lemma proper_down : proper downloaded. Proof. intros x y H. destruct H; reflexivity. Qed.
Lemma proper_up q : proper (uploaded q). Proof. intros x y H. destruct H; reflexivity. Qed.
Lemma proper_re q : proper (requeued q). Proof. intros x y H. destruct H; reflexivity. Qed.
Lemma same_result (f g : obj -> option obj) x y : (forall z, f x = Some z <-> g y = Some z) -> g y = f x.
Proof.
  intros H. destruct (f x) as [z|] eqn:E; [apply H; auto|]. destruct (g y) as [z|] eqn:G; auto. discriminate (proj2 (H z) eq_refl).
Qed.
Theorem C107_round_trips q q' x y : well_named x ->
  (** to the device and back *)
  (from_numpy q x = Some y -> to_numpy y = Some x) /\
  (** to the host and back: the arrays belong to the queue of the array context *)
  (to_numpy x = Some y -> from_numpy q y = thaw q x /\ thaw q x <> None) /\
  (** freezing is undone by thawing, which may change the queue *)
  (freeze x = Some y -> thaw q y = thaw q x /\ thaw q x <> None) /\
  (thaw q x = Some y -> thaw q' y = thaw q' x /\ freeze y = freeze x /\ to_numpy y = to_numpy x).
Proof.
  intros W.
  assert (NAMED : forall P : obj -> obj -> Prop, (forall a b, P a b -> well_named b) -> moved P x y -> well_named y) by (intros P HP M; eapply moved_named; eauto).
  assert (DEF : forall P : obj -> obj -> Prop, (forall a b, P a b -> exists c, requeued (Some q) a c) -> moved P x y -> thaw q x <> None).
  { intros P HP M E. destruct (moved_defined P (requeued (Some q)) HP x y M) as [z Mz]. apply thaw_moved in Mz; auto. congruence. }
  split; [|split; [|split]]; intros H.
  - apply from_numpy_moved in H; auto. assert (Wy : well_named y). { eapply NAMED; [|exact H]. intros a b L. destruct L; exact Logic.I. }
    apply to_numpy_moved; auto. revert H. apply moved_flip. intros a b L. destruct L; constructor.
  - apply to_numpy_moved in H; auto. assert (Wy : well_named y). { eapply NAMED; [|exact H]. intros a b L. destruct L; exact Logic.I. }
    split; [|eapply DEF; [|exact H]; intros a b L; destruct L; eexists; constructor].
    apply same_result. intros z. rewrite (thaw_moved q x z W), (from_numpy_moved q y z Wy).
    apply (moved_switch downloaded); [apply proper_re|apply proper_up|intros a b L; destruct L; split; reflexivity| |auto].
    intros a b c L. destruct L; split; intros G; inversion G; subst; constructor.
  - apply freeze_moved in H; auto. assert (Wy : well_named y). { eapply NAMED; [|exact H]. intros a b L. destruct L; exact Logic.I. }
    split; [|eapply DEF; [|exact H]; intros a b L; destruct L; eexists; constructor].
    apply same_result. intros z. rewrite (thaw_moved q x z W), (thaw_moved q y z Wy).
    apply (moved_switch (requeued None)); [apply proper_re|apply proper_re|intros a b L; destruct L; split; reflexivity| |auto].
    intros a b c L. destruct L; split; intros G; inversion G; subst; constructor.
  - apply thaw_moved in H; auto. assert (Wy : well_named y). { eapply NAMED; [|exact H]. intros a b L. destruct L; exact Logic.I. }
    assert (PS : forall a b, requeued (Some q) a b -> serialize a = None /\ serialize b = None) by (intros a b L; destruct L; split; reflexivity).
    split; [|split]; apply same_result; intros z.
    + rewrite (thaw_moved q' x z W), (thaw_moved q' y z Wy). apply (moved_switch (requeued (Some q))); [apply proper_re|apply proper_re|auto| |auto].
      intros a b c L. destruct L; split; intros G; inversion G; subst; constructor.
    + rewrite (freeze_moved x z W), (freeze_moved y z Wy). apply (moved_switch (requeued (Some q))); [apply proper_re|apply proper_re|auto| |auto].
      intros a b c L. destruct L; split; intros G; inversion G; subst; constructor.
    + rewrite (to_numpy_moved x z W), (to_numpy_moved y z Wy). apply (moved_switch (requeued (Some q))); [apply proper_down|apply proper_down|auto| |auto].
      intros a b c L. destruct L; split; intros G; inversion G; subst; constructor.
Qed.

(** ** Refusals *)
Definition device_data (x : obj) : Prop := match x with ONone | OScalar _ | ODev _ _ => True | _ => False end.
Definition host_data (x : obj) : Prop := match x with ONone | OScalar _ | OHost _ => True | _ => False end.
(** TypeError if and only if some leaf is of another kind *)
Theorem C107_refused q x : well_named x ->
  (to_numpy x = None <-> some_leaf (fun v => ~ device_data v) x) /\
  (freeze x = None <-> some_leaf (fun v => ~ device_data v) x) /\
  (thaw q x = None <-> some_leaf (fun v => ~ device_data v) x) /\
  (from_numpy q x = None <-> some_leaf (fun v => ~ host_data v) x).
Proof.
  intros W. split; [|split; [|split]].
  - apply (refused to_numpy downloaded); [intros y; apply to_numpy_moved; auto|apply proper_down| |intros a b L; destruct L; exact Logic.I].
    intros a S. destruct a; try discriminate S; try (right; intros []; fail); left; eexists; constructor.
  - apply (refused freeze (requeued None)); [intros y; apply freeze_moved; auto|apply proper_re| |intros a b L; destruct L; exact Logic.I].
    intros a S. destruct a; try discriminate S; try (right; intros []; fail); left; eexists; constructor.
  - apply (refused (thaw q) (requeued (Some q))); [intros y; apply thaw_moved; auto|apply proper_re| |intros a b L; destruct L; exact Logic.I].
    intros a S. destruct a; try discriminate S; try (right; intros []; fail); left; eexists; constructor.
  - apply (refused (from_numpy q) (uploaded q)); [intros y; apply from_numpy_moved; auto|apply proper_up| |intros a b L; destruct L; exact Logic.I].
    intros a S. destruct a; try discriminate S; try (right; intros []; fail); left; eexists; constructor.
Qed.
(** In particular what has been moved is not accepted once more: a record with an array that is on the
    host is refused by to_numpy *)
Theorem C107_on_the_host_already q x y : well_named x -> to_numpy x = Some y -> some_leaf (fun v => exists d, v = OHost d) y ->
  to_numpy y = None /\ freeze y = None /\ thaw q y = None.
Proof.
  intros W H A. assert (Wy : well_named y). { apply to_numpy_moved in H; auto. eapply moved_named; [|exact H|auto]. intros a b L. destruct L; exact Logic.I. }
  assert (B : some_leaf (fun v => ~ device_data v) y).
  { clear -A. induction A as [x E [d ->]|x l name v E I A IH]; [apply some_here; auto; intros []|eapply some_below; eauto]. }
  destruct (C107_refused q y Wy) as [R1 [R2 [R3 _]]]. split; [|split]; [apply R1|apply R2|apply R3]; auto.
Qed.

(** ** Which fields of a class are moved *)
(** Those declared as arrays, as containers, as object arrays of these, or as one of these or None.
    Fields without init are rejected, and classes without array fields. *)
Inductive array_type : ty -> Prop :=
| at_array : array_type TArray
| at_ndarray : array_type TNdarray
| at_container n : array_type (TContainer n)
| at_objs e : array_type e -> array_type (TObjArray e).
Theorem C107_array_fields fields l : dataclass_array_container fields = Some l ->
  map fst l = map f_name fields /\ (exists n, In (n, true) l) /\
  forall k f, nth_error fields k = Some f -> exists b, nth_error l k = Some (f_name f, b) /\
    match f_type f with
    | TUnion args => b = true <-> forall a, In a args -> a = TNone \/ is_array_or_container_type a = true
    | t => f_init f = true /\ (b = true <-> array_type t)
    end.
Proof.
  unfold dataclass_array_container. destruct (map_all _ fields) as [l0|] eqn:M; [|discriminate]. destruct (existsb snd l0) eqn:E; [|discriminate]. intros [= ->].
  apply map_all_Forall2 in M. split; [|split].
  - clear E. induction M as [|f [n b] fs l H M IH]; auto. cbn. destruct (is_array_field f); [|discriminate]. injection H as -> _. f_equal. auto.
  - apply existsb_exists in E. destruct E as [[n b] [I E]]. cbn in E. subst b. eauto.
  - clear E. induction M as [|f [n b] fs l H M IH]; intros k g G; [destruct k; discriminate|]. destruct k as [|k]; [|apply (IH k g G)].
    cbn in G. injection G as <-. cbn [nth_error]. destruct (is_array_field f) as [b'|] eqn:F; [|discriminate]. injection H as <- <-. exists b'. split; auto.
    unfold is_array_field in F.
    assert (LS : forall t, leaves_satisfy t = true <-> array_type t).
    { induction t; cbn; split; intros X; try discriminate X; try (inversion X; fail); try constructor; auto; [apply IHt; auto|]. inversion X. apply IHt; auto. }
    destruct (f_type f) eqn:T; cbn in F; try (destruct (f_init f); [|discriminate]; cbn in F; injection F as <-; split; auto);
      try (split; [constructor|reflexivity]); try (split; [discriminate|intros X; inversion X]).
    + rewrite <- LS. reflexivity.
    + injection F as <-. rewrite forallb_forall. split.
      * intros A a I. specialize (A a I). apply orb_prop in A. destruct A as [A|A]; auto. left. destruct a; try discriminate A; auto.
      * intros A a I. destruct (A a I) as [->| ->]; auto.
Qed.

(** ** Records *)
Theorem C107_record_contents q ex x y :
  record_get x = Some y \/ record_with_queue q x = Some y \/ record_to_device ex x = Some y -> contents y = contents x.
Proof. intros [H|[H|H]]; [eapply record_get_contents|eapply record_with_queue_contents|eapply record_to_device_contents]; eauto. Qed.

Lemma get_total x : simple x = true -> exists y, get_leaf x = Some y.
Proof. destruct x; try discriminate; intros _; eexists; reflexivity. Qed.
Lemma device_total x : simple x = true -> exists y, device_leaf x = Some y.
Proof. destruct x; try discriminate; intros _; eexists; reflexivity. Qed.
Lemma queue_total q x : simple x = true -> exists y, queue_leaf q x = Some y.
Proof. destruct x; try discriminate; intros _; eexists; reflexivity. Qed.
(** All arrays of a plain record arrive *)
Theorem C107_record_arrives q fs : plain_value (ORecord fs) = true ->
  (exists y, record_get (ORecord fs) = Some y /\ on_host y = true) /\
  (exists y, record_to_device nothing (ORecord fs) = Some y /\ on_device y = true) /\
  (exists y, record_with_queue q (ORecord fs) = Some y /\ in_queue q y = true).
Proof.
  intros P. split; [|split].
  - destruct (record_total get_leaf record_get_eq get_total nothing fs P) as [y E]. exists y. split; auto.
    destruct (places get_leaf _ record_get_eq get_host nothing fs y E) as [fs' [-> F]]. eapply arrays_fields; eauto.
  - destruct (record_total device_leaf (record_to_device_eq nothing) device_total nothing fs P) as [y E]. exists y. split; auto.
    destruct (places device_leaf _ (record_to_device_eq nothing) device_device nothing fs y E) as [fs' [-> F]]. eapply arrays_fields; eauto.
  - destruct (record_total (queue_leaf q) (record_with_queue_eq q) (queue_total q) nothing fs P) as [y E]. exists y. split; auto.
    destruct (places (queue_leaf q) _ (record_with_queue_eq q) (queue_queue q) nothing fs y E) as [fs' [-> F]]. eapply arrays_fields; eauto.
Qed.
(** Excluded fields are left alone, the others arrive *)
Theorem C107_record_excluded ex fs y : plain_value (ORecord fs) = true -> record_to_device ex (ORecord fs) = Some y ->
  exists fs', y = ORecord fs' /\ Forall2 (fun f f' => fst f' = fst f /\ (ex (fst f) = true -> f' = f) /\
    (ex (fst f) = false -> match snd f, snd f' with Some _, Some v' => on_device v' = true | None, None => True | _, _ => False end)) fs fs'.
Proof.
  intros P H. rewrite record_to_device_eq in H.
  destruct (places device_leaf _ (record_to_device_eq nothing) device_device ex fs y H) as [fs' [-> F]]. exists fs'. split; auto.
  cbn [plain_value] in P. clear H. revert P. induction F as [|[n o] [n' o'] fs fs' [E G] F IH]; intros P; constructor.
  - cbn [fst snd forallb] in *. split; auto. destruct o as [v|].
    + destruct (ex n) eqn:X; [split; [auto|discriminate]|]. destruct G as [v' [-> G]]. split; [discriminate|]. intros _. apply G. apply andb_prop in P. apply P.
    + split; auto. intros _. injection G as _ ->. exact Logic.I.
  - apply IH. cbn [forallb] in P. apply andb_prop in P. apply P.
Qed.
(** To the device and back *)
Theorem C107_record_round_trip ex fs y : plain_value (ORecord fs) = true -> on_host (ORecord fs) = true ->
  record_to_device ex (ORecord fs) = Some y -> record_get y = Some (ORecord fs).
Proof.
  intros P O H. pose proof (record_to_device_contents ex _ _ H) as C.
  assert (Y : exists fs', y = ORecord fs').
  { rewrite record_to_device_eq in H. unfold over_fields in H. destruct (map_all _ fs); [|discriminate]. injection H as <-. eauto. }
  destruct Y as [fs' ->].
  assert (P' : plain_value (ORecord fs') = true) by (rewrite <- plain_contents, C, plain_contents; auto).
  destruct (C107_record_arrives None fs' P') as [[z [G Hz]] _]. rewrite G. f_equal.
  rewrite <- (host_contents z Hz), (record_get_contents _ _ G), C. apply host_contents. auto.
Qed.
(** Not for all records: lists in an object array - as a traversal has them for list 3 - stay where they
    are, and so does a tree in a record; a dictionary makes get fail *)
Theorem C107_record_refuted :
  (exists fs y, record_get (ORecord fs) = Some y /\ on_host y = false /\ forallb (fun f => match snd f with Some (OObjs l) => forallb (fun v => match v with OBuilt _ _ _ _ _ _ => true | _ => false end) l | _ => false end) fs = true) /\
  (exists fs y, record_get (ORecord fs) = Some y /\ on_host y = false /\ exists cls l, fs = [("tree", Some (OCont cls l))]) /\
  (exists fs, In ("d", Some ODict) fs /\ record_get (ORecord fs) = None).
Proof.
  split; [|split].
  - exists [("from_sep_smaller_by_level", Some (OObjs [OBuilt 3 ONone (ODev None [0; 1]%Z) (ODev None [5]%Z) ONone ONone]))]. eexists. split; [reflexivity|]. split; reflexivity.
  - exists [("tree", Some (OCont "Tree" [("box_levels", (true, ODev None [0; 1]%Z))]))]. eexists. split; [reflexivity|]. split; [reflexivity|]. eauto.
  - exists [("d", Some ODict)]. split; [left|]; reflexivity.
Qed.

(** ** A traversal and its tree *)
Definition example_tree : obj :=
  OCont "Tree" [("root_extent", (true, OScalar 8)); ("box_levels", (true, ODev (Some 1) [0; 1; 1; 1; 1]%Z)); ("box_flags", (true, ONone));
    ("extent_norm", (false, OOther "linf")); ("bounding_box", (false, OOther "(lower, upper)"))].
Definition example_traversal : obj :=
  OCont "FMMTraversalInfo" [("tree", (true, example_tree)); ("well_sep_is_n_away", (false, OScalar 1));
    ("source_boxes", (true, ODev (Some 1) [1; 2; 3; 4]%Z));
    ("from_sep_smaller_by_level", (true, OObjs [OBuilt 4 (OScalar 2) (ODev (Some 1) [0; 1; 2]%Z) (ODev None [3; 4]%Z) (ODev (Some 1) [0; 3]%Z) ONone]));
    ("from_sep_close_smaller_starts", (true, ONone))].
Example example_moves : well_named example_traversal /\ exists h d, to_numpy example_traversal = Some h /\ on_host h = true /\
  from_numpy 7 h = Some d /\ in_queue (Some 7) d = true /\ on_device d = true /\ to_numpy d = Some h /\ contents d = h /\ to_numpy h = None /\ from_numpy 7 d = None.
Proof.
  split.
  - cbn. repeat split; auto; repeat constructor; cbn; intuition discriminate.
  - eexists. eexists. split; [reflexivity|]. repeat split; reflexivity.
Qed.
(** the classes of the repository: all fields but the bounding box of the particles *)
Example tree_class : exists l, dataclass_array_container tree_fields = Some l /\ In ("box_flags", true) l /\ In ("sources", true) l /\ In ("bounding_box", false) l /\ In ("extent_norm", false) l.
Proof. eexists. split; [reflexivity|]. cbn. intuition. Qed.
Example traversal_class : exists l, dataclass_array_container traversal_fields = Some l /\ In ("tree", true) l /\ In ("from_sep_smaller_by_level", true) l /\ In ("well_sep_is_n_away", false) l.
Proof. eexists. split; [reflexivity|]. cbn. intuition. Qed.
Definition example_record : list (string * option obj) :=
  [("n", Some (OScalar 3)); ("a", Some (OHost [1; 2]%Z)); ("missing", None); ("points", Some (OObjs [OHost [4]%Z; OHost [5]%Z]));
   ("levels", Some (OList [OBuilt 2 ONone (OHost [0; 1]%Z) (OHost [9]%Z) ONone ONone])); ("inner", Some (ORecord [("a", Some (OHost [7]%Z))]))].
Example record_moves : plain_value (ORecord example_record) = true /\ on_host (ORecord example_record) = true /\
  exists y, record_to_device (String.eqb "a") (ORecord example_record) = Some y /\ on_host y = false /\ on_device y = false.
Proof. split; [reflexivity|]. split; [reflexivity|]. eexists. split; [reflexivity|]. split; reflexivity. Qed.

Print Assumptions C107_moves.
Print Assumptions C107_contents.
Print Assumptions C107_round_trips.
Print Assumptions C107_refused.
Print Assumptions C107_on_the_host_already.
Print Assumptions C107_array_fields.
Print Assumptions C107_record_contents.
Print Assumptions C107_record_arrives.
Print Assumptions C107_record_excluded.
Print Assumptions C107_record_round_trip.
Print Assumptions C107_record_refuted.
