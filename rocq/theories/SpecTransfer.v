(** What it means that a record was moved between host and device. *)
From Coq Require Import List ZArith String Bool.
From Verif Require Import Transfer.
Import ListNotations.

(** ** Contents: the object without the places where its arrays live *)
Fixpoint contents (x : obj) : obj :=
  match x with
  | ODev _ d => OHost d
  | OObjs l => OObjs (map contents l)
  | OList l => OList (map contents l)
  | OBuilt c n st li ne ci => OBuilt c (contents n) (contents st) (contents li) (contents ne) (contents ci)
  | OCont cls fs => OCont cls (map (fun f => (fst f, (fst (snd f), contents (snd (snd f))))) fs)
  | ORecord fs => ORecord (map (fun f => (fst f, option_map contents (snd f))) fs)
  | _ => x
  end.

(** ** Array containers *)
(** [y] is [x] with the leaves replaced as [leaf] says.  Leaves are the elements of object arrays, the
    arrays of lists and the array fields of containers, at any depth; the numbers of lists, other fields
    and the names stay. *)
Inductive field_moved (P : obj -> obj -> Prop) : string * (bool * obj) -> string * (bool * obj) -> Prop :=
| array_field name x y : P x y -> field_moved P (name, (true, x)) (name, (true, y))
| other_field name v : field_moved P (name, (false, v)) (name, (false, v)).
Inductive moved (leaf : obj -> obj -> Prop) : obj -> obj -> Prop :=
| moved_leaf x y : leaf x y -> moved leaf x y
| moved_objs l l' : Forall2 (moved leaf) l l' -> moved leaf (OObjs l) (OObjs l')
| moved_built c n a b e g a' b' e' g' : moved leaf a a' -> moved leaf b b' -> moved leaf e e' -> moved leaf g g' ->
    moved leaf (OBuilt c n a b e g) (OBuilt c n a' b' e' g')
| moved_cont cls fs fs' : Forall2 (field_moved (moved leaf)) fs fs' -> moved leaf (OCont cls fs) (OCont cls fs').
(** missing values and numbers stay *)
Inductive downloaded : obj -> obj -> Prop :=
| down_none : downloaded ONone ONone
| down_scalar v : downloaded (OScalar v) (OScalar v)
| down_array q d : downloaded (ODev q d) (OHost d).
Inductive uploaded (q : nat) : obj -> obj -> Prop :=
| up_none : uploaded q ONone ONone
| up_scalar v : uploaded q (OScalar v) (OScalar v)
| up_array d : uploaded q (OHost d) (ODev (Some q) d).
Inductive requeued (q : option nat) : obj -> obj -> Prop :=
| re_none : requeued q ONone ONone
| re_scalar v : requeued q (OScalar v) (OScalar v)
| re_array q' d : requeued q (ODev q' d) (ODev q d).

(** no two fields of a class have the same name *)
Fixpoint well_named (x : obj) : Prop :=
  match x with
  | OObjs l => fold_right and True (map well_named l)
  | OBuilt _ _ st li ne ci => well_named st /\ well_named li /\ well_named ne /\ well_named ci
  | OCont _ fs => NoDup (map fst fs) /\ fold_right and True (map (fun f => well_named (snd (snd f))) fs)
  | _ => True
  end.

(** [P] holds of some leaf *)
Inductive some_leaf (P : obj -> Prop) : obj -> Prop :=
| some_here x : serialize x = None -> P x -> some_leaf P x
| some_below x l name v : serialize x = Some l -> In (name, v) l -> some_leaf P v -> some_leaf P x.

(** ** Records *)
(** all arrays of the object are where [ok] says, however deep *)
Fixpoint arrays (ok : obj -> bool) (x : obj) : bool :=
  match x with
  | OHost _ | ODev _ _ => ok x
  | OObjs l | OList l => forallb (arrays ok) l
  | OBuilt _ n st li ne ci => arrays ok n && arrays ok st && arrays ok li && arrays ok ne && arrays ok ci
  | OCont _ fs => forallb (fun f => arrays ok (snd (snd f))) fs
  | ORecord fs => forallb (fun f => match snd f with Some v => arrays ok v | None => true end) fs
  | _ => true
  end.
Definition on_host (x : obj) : bool := arrays (fun a => match a with OHost _ => true | _ => false end) x.
Definition on_device (x : obj) : bool := arrays (fun a => match a with ODev _ _ => true | _ => false end) x.
(** device arrays belong to the queue [q]; [None]: to no queue *)
Definition same_queue (q q' : option nat) : bool :=
  match q, q' with None, None => true | Some a, Some b => Nat.eqb a b | _, _ => false end.
Definition in_queue (q : option nat) (x : obj) : bool := arrays (fun a => match a with ODev q' _ => same_queue q q' | _ => true end) x.
(** arrays, numbers, missing values, text *)
Definition simple (x : obj) : bool :=
  match x with ONone | OScalar _ | OHost _ | ODev _ _ | OOther _ => true | _ => false end.
(** records of simple values, object arrays of simple values, lists of arrays with simple fields, Python
    lists of all these, and records *)
Fixpoint plain_value (x : obj) : bool :=
  match x with
  | OObjs l => forallb simple l
  | OList l => forallb plain_value l
  | OBuilt _ n st li ne ci => forallb simple [n; st; li; ne; ci]
  | OCont _ _ | ODict => false
  | ORecord fs => forallb (fun f => match snd f with Some v => plain_value v | None => true end) fs
  | _ => true
  end.
