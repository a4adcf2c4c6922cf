(** Moving trees, lists and other records between host and device: boxtree/array_context.py:63-239 and
    DeviceDataRecord (boxtree/tools.py:294-402).

    The array context's from_numpy, to_numpy, freeze and thaw are arraycontext's; they call the function
    _boxtree_rec_map_container of this repository with the arguments given below.  Recursion over a
    container (arraycontext.rec_map_array_container) serializes it, recurs and deserializes.

    Simplifications: arrays are one-dimensional and hold integers; element types, tags and allocators
    are not represented; deprecation warnings are not represented. *)
From Coq Require Import List Arith ZArith String Bool.
Import ListNotations.
Local Open Scope string_scope.
Local Open Scope list_scope.
Local Open Scope nat_scope.

(** ** Python objects *)
Inductive obj :=
| ONone
| OScalar (v : Z)                                        (* Python or numpy number *)
| OHost (data : list Z)                                  (* numpy array of numbers *)
| ODev (queue : option nat) (data : list Z)              (* pyopencl array; its queue, [None]: frozen *)
| OObjs (elts : list obj)                                (* numpy array of objects *)
| OList (elts : list obj)                                (* Python list *)
| ODict                                                  (* dictionary *)
| OBuilt (count : Z) (num_nonempty_lists starts lists nonempty_indices compressed_indices : obj)
                                                         (* pyopencl.algorithm.BuiltList *)
| OCont (cls : string) (fields : list (string * (bool * obj)))
                                                         (* instance of a class made with
                                                            dataclass_array_container; [true]: array field *)
| ORecord (fields : list (string * option obj))          (* DeviceDataRecord; [None]: no such attribute *)
| OOther (s : string).                                   (* anything else: types, text, tuples; what is in
                                                            a tuple is never moved, and not represented *)

(** in order, until the first exception *)
Section MapAll.
Variable A B : Type.
Variable f : A -> option B.
Fixpoint map_all (l : list A) : option (list B) :=
  match l with
  | [] => Some []
  | x :: l' => match f x with None => None | Some y => option_map (cons y) (map_all l') end
  end.
End MapAll.
Arguments map_all {A B}.

(** ** Serialization *)
Definition lookup (name : string) (l : list (string * obj)) : option obj :=
  option_map snd (find (fun kv => String.eqb (fst kv) name) l).
(** array_context.py:222-229 serialize_built_list; containers of the repository list their array
    fields, object arrays their elements; [None]: NotAnArrayContainerError *)
Definition serialize (x : obj) : option (list (string * obj)) :=
  match x with
  | OObjs l => Some (map (fun v => (EmptyString, v)) l)
  | OBuilt _ _ st li ne ci => Some [("starts", st); ("lists", li); ("nonempty_indices", ne); ("compressed_indices", ci)]
  | OCont _ fs => Some (map (fun f => (fst f, snd (snd f))) (filter (fun f => fst (snd f)) fs))
  | _ => None
  end.
(** array_context.py:232-238 deserialize_built_list: [dict(iterable)] as keyword arguments, with the
    default None.  Classes of the repository get their array fields from [iterable], the other fields
    from the template.  [None]: an exception. *)
Definition keyword (name : string) (l : list (string * obj)) : obj := match lookup name l with Some v => v | None => ONone end.
Definition known (name : string) : bool := existsb (String.eqb name) ["starts"; "lists"; "nonempty_indices"; "compressed_indices"].
Definition deserialize (template : obj) (l : list (string * obj)) : option obj :=
  match template with
  | OObjs _ => Some (OObjs (map snd l))
  | OBuilt count n _ _ _ _ =>
    if forallb (fun kv => known (fst kv)) l
    then Some (OBuilt count n (keyword "starts" l) (keyword "lists" l) (keyword "nonempty_indices" l) (keyword "compressed_indices" l))
    else None
  | OCont cls fs =>
    option_map (OCont cls) (map_all (fun f : string * (bool * obj) =>
      if fst (snd f) then option_map (fun v => (fst f, (true, v))) (lookup (fst f) l) else Some f) fs)
  | _ => None
  end.

(** ** array_context.py:63-103 _boxtree_rec_map_container *)
Section RecMap.
Variable func : obj -> obj.
Variable allowed_types : obj -> bool.                    (* isinstance(ary, allowed_types) *)
Variable default_scalar : option Z.
Variable strict : bool.
(** actx.array_types: device arrays *)
Definition is_dev (x : obj) : bool := match x with ODev _ _ => true | _ => false end.
(** array_context.py:75-101; [None] is TypeError *)
Definition wrapper (x : obj) : option obj :=
  match x with
  | ONone => Some ONone
  | _ =>
    if allowed_types x then Some (func x)
    else if negb strict && is_dev x then Some (func x)
    else match x with
    | OScalar v => match default_scalar with None => Some x | Some s => Some (OScalar s) end
    | _ => None
    end
  end.
(** arraycontext.rec_map_array_container: the equation of the recursion is rec_map_step in
    TransferFacts.v *)
Fixpoint rec_map (x : obj) : option obj :=
  match x with
  | OObjs l => match map_all rec_map l with None => None | Some l' => deserialize x (map (fun v => (EmptyString, v)) l') end
  | OBuilt _ _ st li ne ci =>
    match rec_map st, rec_map li, rec_map ne, rec_map ci with
    | Some st', Some li', Some ne', Some ci' =>
      deserialize x [("starts", st'); ("lists", li'); ("nonempty_indices", ne'); ("compressed_indices", ci')]
    | _, _, _, _ => None
    end
  | OCont _ fs =>
    match map_all (fun f : string * (bool * obj) => if fst (snd f) then option_map (fun v => [(fst f, v)]) (rec_map (snd (snd f))) else Some []) fs with
    | None => None
    | Some l => deserialize x (List.concat l)
    end
  | _ => wrapper x
  end.
End RecMap.

(** The callers in arraycontext (pyopencl array context with the queue [q]) *)
Definition is_host (x : obj) : bool := match x with OHost _ => true | _ => false end.
Definition upload (q : nat) (x : obj) : obj := match x with OHost d => ODev (Some q) d | _ => x end.      (* to_device *)
Definition download (x : obj) : obj := match x with ODev _ d => OHost d | _ => x end.                     (* ary.get() *)
Definition requeue (q : option nat) (x : obj) : obj := match x with ODev _ d => ODev q d | _ => x end.    (* ary.with_queue(q) *)
Definition from_numpy (q : nat) (x : obj) : option obj := rec_map (upload q) is_host None true x.
Definition to_numpy (x : obj) : option obj := rec_map download is_dev None false x.
Definition freeze (x : obj) : option obj := rec_map (requeue None) is_dev None false x.
Definition thaw (q : nat) (x : obj) : option obj := rec_map (requeue (Some q)) is_dev None false x.

(** ** array_context.py:139-214 dataclass_array_container: which fields are array fields *)
Inductive ty :=
| TArray                                                 (* arraycontext.Array *)
| TNdarray                                               (* numpy.ndarray *)
| TNone
| TContainer (name : string)                             (* class of array containers, also BuiltList *)
| TObjArray (elt : ty)                                   (* ObjectArray1D[elt] *)
| TUnion (args : list ty)
| TTuple (args : list ty)
| TSpecial                                               (* Literal, Any *)
| TPlain (name : string).                                (* int, bool, numpy.dtype, ... *)
(** array_context.py:158-169 *)
Definition is_array_or_container_type (t : ty) : bool :=
  match t with TArray | TNdarray | TContainer _ | TObjArray _ => true | _ => false end.
Definition is_none_type (t : ty) : bool := match t with TNone => true | _ => false end.
(** arraycontext's all_type_leaves_satisfy_predicate, for the types that get there *)
Fixpoint leaves_satisfy (t : ty) : bool :=
  match t with TObjArray e => leaves_satisfy e | _ => is_array_or_container_type t end.
Record dfield := mkF { f_name : string; f_type : ty; f_init : bool }.
(** array_context.py:171-201; [None] is ValueError *)
Definition is_array_field (f : dfield) : option bool :=
  match f_type f with
  | TUnion args => Some (forallb (fun a => is_array_or_container_type a || is_none_type a) args)
  | _ =>
    if negb (f_init f) then None
    else match f_type f with
    | TSpecial => Some false
    | t => if negb (is_array_or_container_type t) then Some false else Some (leaves_satisfy t)
    end
  end.
(** array_context.py:203-214; [None] is ValueError *)
Definition dataclass_array_container (fields : list dfield) : option (list (string * bool)) :=
  match map_all (fun f => option_map (fun b => (f_name f, b)) (is_array_field f)) fields with
  | None => None
  | Some l => if existsb snd l then Some l else None
  end.

(** Fields of the classes of the repository *)
Definition arr (s : string) : dfield := mkF s TArray true.
Definition opt (s : string) : dfield := mkF s (TUnion [TArray; TNone]) true.
Definition plain (s : string) : dfield := mkF s (TPlain s) true.
(** tree.py:228-248 TreeOfBoxes *)
Definition tree_of_boxes_fields : list dfield :=
  [arr "root_extent"; arr "box_centers"; arr "box_parent_ids"; arr "box_child_ids"; arr "box_levels";
   opt "box_flags"; opt "level_start_box_nrs"; plain "box_id_dtype"; plain "box_level_dtype"; plain "coord_dtype";
   plain "sources_have_extent"; plain "targets_have_extent"; mkF "extent_norm" TSpecial true; plain "stick_out_factor"; plain "_is_pruned"].
(** tree.py:558-590 Tree; [init]: line 572 (field(init=True)) *)
Definition tree_fields : list dfield :=
  tree_of_boxes_fields ++
  [plain "sources_are_targets"; plain "particle_id_dtype"; arr "sources"; arr "source_radii"; arr "targets"; arr "target_radii";
   mkF "bounding_box" (TTuple [TArray; TArray]) true; arr "user_source_ids"; arr "sorted_target_ids";
   arr "box_source_starts"; arr "box_source_counts_nonchild"; arr "box_source_counts_cumul";
   arr "box_target_starts"; arr "box_target_counts_nonchild"; arr "box_target_counts_cumul";
   arr "box_source_bounding_box_min"; arr "box_source_bounding_box_max"; arr "box_target_bounding_box_min"; arr "box_target_bounding_box_max"].
(** traversal.py:1595-1630 FMMTraversalInfo *)
Definition traversal_fields : list dfield :=
  [mkF "tree" (TContainer "Tree") true; plain "well_sep_is_n_away"; arr "source_boxes"; arr "target_boxes";
   opt "level_start_source_box_nrs"; opt "level_start_target_box_nrs"; arr "source_parent_boxes"; opt "level_start_source_parent_box_nrs";
   arr "target_or_target_parent_boxes"; opt "level_start_target_or_target_parent_box_nrs";
   arr "same_level_non_well_sep_boxes_starts"; arr "same_level_non_well_sep_boxes_lists";
   arr "neighbor_source_boxes_starts"; arr "neighbor_source_boxes_lists"; arr "from_sep_siblings_starts"; arr "from_sep_siblings_lists";
   mkF "from_sep_smaller_by_level" (TObjArray (TContainer "BuiltList")) true; mkF "target_boxes_sep_smaller_by_source_level" (TObjArray TArray) true;
   opt "from_sep_close_smaller_starts"; opt "from_sep_close_smaller_lists"; arr "from_sep_bigger_starts"; arr "from_sep_bigger_lists";
   opt "from_sep_close_bigger_starts"; opt "from_sep_close_bigger_lists"].

(** ** DeviceDataRecord *)
(** tools.py:302-336 _transform_arrays; the field names of a record are those of [fields]; the fields
    are replaced in a copy *)
Section Transform.
Variable f : obj -> option obj.
Fixpoint transform_val (x : obj) : option obj :=
  match x with
  | OObjs l => option_map OObjs (map_all f l)
  | OList l => option_map OList (map_all transform_val l)
  | OBuilt count n st li ne ci =>
    match f n, f st, f li, f ne, f ci with
    | Some n', Some st', Some li', Some ne', Some ci' => Some (OBuilt count n' st' li' ne' ci')
    | _, _, _, _, _ => None
    end
  | _ => f x
  end.
End Transform.
Definition transform_field (tr : obj -> option obj) (exclude : string -> bool) (kv : string * option obj) : option (string * option obj) :=
  if exclude (fst kv) then Some kv
  else match snd kv with
  | None => Some kv
  | Some v => option_map (fun v' => (fst kv, Some v')) (tr v)
  end.
(** tools.py:338-358 get: [try_get]; dict.get does not take the keyword argument queue (TypeError) *)
Fixpoint record_get (x : obj) : option obj :=
  match x with
  | ORecord fs => option_map ORecord (map_all (transform_field (transform_val (fun v =>
      match v with
      | ODev _ d => Some (OHost d)
      | ORecord _ => record_get v
      | ODict => None
      | _ => Some v
      end)) (fun _ => false)) fs)
  | _ => None
  end.
(** tools.py:360-379 with_queue: [try_with_queue] *)
Fixpoint record_with_queue (q : option nat) (x : obj) : option obj :=
  match x with
  | ORecord fs => option_map ORecord (map_all (transform_field (transform_val (fun v =>
      match v with
      | ODev _ d => Some (ODev q d)
      | ORecord _ => record_with_queue q v
      | _ => Some v
      end)) (fun _ => false)) fs)
  | _ => None
  end.
(** tools.py:381-402 to_device: the arrays have no queue afterwards; pyopencl does not take arrays of
    objects (an exception); nested records are transferred without excluded fields *)
Fixpoint record_to_device (exclude : string -> bool) (x : obj) : option obj :=
  match x with
  | ORecord fs => option_map ORecord (map_all (transform_field (transform_val (fun v =>
      match v with
      | OHost d => Some (ODev None d)
      | OObjs _ => None
      | ORecord _ => record_to_device (fun _ => false) v
      | _ => Some v
      end)) exclude) fs)
  | _ => None
  end.
