(** Plotting (boxtree/visualization.py), box extents (boxtree/tree.py:265-287, 625-631) and lookup of
    interaction lists (boxtree/traversal.py:1699-1703).  What a user sees of matplotlib is the list of
    patches that were added to the axes, what they see of TikZ the lines of the returned document.

    Simplifications: coordinates are exact; repr of a float is represented by the number; matplotlib's
    transparency and line width are not represented; print output is not represented. *)
From Coq Require Import List Arith ZArith QArith String Ascii DecimalString Lia Bool.
From Verif Require Import Base Tree Traversal.
Import ListNotations.
Local Open Scope string_scope.
Local Open Scope list_scope.
Local Open Scope nat_scope.

(** ** visualization.py:31-51 int_to_roman.  [int(inp / ints[i])] is integer division (exact for
    arguments below 4000).  [None] is ValueError; the argument is an integer. *)
Definition ints : list Z := [1000; 900; 500; 400; 100; 90; 50; 40; 10; 9; 5; 4; 1]%Z.
Definition nums : list string :=
  ["M"; "CM"; "D"; "CD"; "C"; "XC"; "L"; "XL"; "X"; "IX"; "V"; "IV"; "I"].
(** visualization.py:49  nums[i] * count *)
Fixpoint times (count : nat) (s : string) : string :=
  match count with 0 => EmptyString | S c => append s (times c s) end.
(** visualization.py:46-50 *)
Fixpoint roman_loop (table : list (Z * string)) (inp : Z) : string :=
  match table with
  | [] => EmptyString
  | (v, s) :: table' => let count := (inp / v)%Z in
    append (times (Z.to_nat count) s) (roman_loop table' (inp - v * count)%Z)
  end.
Definition int_to_roman (inp : Z) : option string :=
  if (inp =? 0)%Z then Some "Z"
  else if negb ((0 <? inp)%Z && (inp <? 4000)%Z) then None
  else Some (roman_loop (combine ints nums) inp).

(** ** tree.py:627-628 (Tree.get_box_extent) and tree.py:279-281 (TreeOfBoxes.get_box_size): the two
    formulas agree in exact arithmetic *)
Definition get_box_size (t : tree) (ibox : nat) : Q :=
  inject_Z (root_extent t) / inject_Z (2 ^ Z.of_nat (box_level t ibox)).
(** tree.py:626-631 and 283-287 get_box_extent *)
Definition extent_low (t : tree) (ibox a : nat) : Q := (inject_Z (box_center t ibox a) - (1#2) * get_box_size t ibox)%Q.
Definition extent_high (t : tree) (ibox a : nat) : Q := (extent_low t ibox a + get_box_size t ibox)%Q.

(** ** visualization.py:58-128 TreePlotter *)
(** keyword arguments of matplotlib.patches.PathPatch; [fill] is true by default *)
Record style := mkStyle { facecolor : option string; edgecolor : option string; hatch : option string; fill : bool }.
Record patch := mkPatch { vertices : list (Q * Q); look : style }.

(** visualization.py:86-116 draw_box; [shrink] is the keyword argument shrink_factor, default 0 *)
Definition draw_box (t : tree) (ibox : nat) (shrink : Q) (s : style) : patch :=
  let lo := extent_low t ibox in let hi := extent_high t ibox in
  let center a := ((1#2) * (lo a + hi a))%Q in
  let el a := if Qeq_bool shrink 0 then lo a else (lo a + (center a - lo a) * shrink)%Q in
  let eh a := if Qeq_bool shrink 0 then hi a else (hi a + (center a - hi a) * shrink)%Q in
  mkPatch [(el 0, el 1); (eh 0, el 1); (eh 0, eh 1); (el 0, eh 1); (el 0, el 1)] s.

(** visualization.py:66-76 draw_tree without keyword arguments; [None] is NotImplementedError *)
Definition draw_tree (t : tree) : option (list patch) :=
  if negb (dim t =? 2) then None
  else Some (map (fun ibox => draw_box t ibox 0 (mkStyle None (Some "black") None false)) (seq 0 (nboxes t))).

(** ** visualization.py:130-171 get_tikz_for_tree *)
Inductive value := VInt (n : Z) | VNum (q : Q) | VText (s : string).
Inductive tikz_line :=
| Def (name : string) (v : value)                       (* \def\name{v} *)
| Coordinate (name : string) (x y : Q).                 (* \coordinate (name) at (x, y); *)
(** decimal representation of a box number, as in f"{ibox}" *)
Definition dec (n : nat) : string := NilEmpty.string_of_uint (Nat.to_uint n).
(** visualization.py:139-157 *)
Definition tikz_box (t : tree) (ibox : nat) : option (list tikz_line) :=
  let el := extent_low t ibox in let eh := extent_high t ibox in
  let c a := inject_Z (box_center t ibox a) in
  match int_to_roman (Z.of_nat ibox) with
  | None => None
  | Some r => Some
    [Coordinate (append "boxl" (dec ibox)) (el 0) (el 1);
     Coordinate (append "boxh" (dec ibox)) (eh 0) (eh 1);
     Coordinate (append "boxc" (dec ibox)) (c 0) (c 1);
     Def (append "boxsize" r) (VNum (eh 0%nat - el 0%nat)%Q);
     Def (append "boxlevel" r) (VInt (Z.of_nat (box_level t ibox)))]
  end.
Definition get_tikz_for_tree (t : tree) : option (list tikz_line) :=
  if negb (dim t =? 2) then None
  else match run_all (tikz_box t) (seq 0 (nboxes t)) with
  | None => None
  | Some boxes => Some (
      [Def "nboxes" (VInt (Z.of_nat (nboxes t))); Def "lastboxnr" (VInt (Z.of_nat (nboxes t) - 1))]
      ++ List.concat boxes ++
      [Def "boxpath" (VText "(boxl#1) rectangle (boxh#1)");   (* #1 is the argument of \boxpath *)
       Def "drawboxes" (VText "\foreach \ibox in {0,...,\lastboxnr}{\draw \boxpath{\ibox};}");
       Def "drawboxnrs" (VText "\foreach \ibox in {0,...,\lastboxnr}{\node [font=\tiny] at (boxc\ibox) {\ibox};}")])
  end.

(** ** visualization.py:178-215 _draw_box_list *)
(** np.where(key_to_box == ibox) *)
Definition where_equal (keys : list nat) (b : nat) : list nat :=
  filter (fun i => nth i keys 0 =? b) (seq 0 (List.length keys)).
(** visualization.py:202-215: the row [key]; [r] is rng.random().  [None] is ValueError (unpacking
    starts[key:key+2]) *)
Definition draw_row (t : tree) (c : csr) (key : nat) (color : string) (hatching : option string) (r : Q) : option (list patch) :=
  if negb (S key <? List.length (starts c)) then None
  else if nth key (starts c) 0 =? nth (S key) (starts c) 0 then Some []
  else Some (map (fun jbox => draw_box t jbox ((1#10) + r * (2#10))%Q (mkStyle (Some color) None hatching true)) (csr_get c key)).
(** The outline for an empty list is in the default color: [getattr(kwargs, "facecolor", "blue")] looks
    for an attribute of the dictionary [kwargs], which has none of this name. *)
Definition draw_box_list (t : tree) (ibox : nat) (c : csr) (key_to_box : option (list nat)) (color : string)
    (hatching : option string) (r : Q) : option (list patch) :=
  match key_to_box with
  | Some keys =>
    match where_equal keys ibox with
    | [] => Some [draw_box t ibox (-(1#10) + (1#10) * r)%Q (mkStyle None (Some "blue") None false)]
    | [key] => draw_row t c key color hatching r
    | _ => None
    end
  | None => draw_row t c ibox color hatching r
  end.

Definition then_draw (a b : option (list patch)) : option (list patch) :=
  match a, b with Some x, Some y => Some (x ++ y) | _, _ => None end.

Definition red_box (t : tree) (ibox : nat) : patch := draw_box t ibox 0 (mkStyle (Some "red") None None true).

(** visualization.py:218-226 draw_same_level_non_well_sep_boxes *)
Definition draw_same_level_non_well_sep_boxes (t : tree) (tr : traversal) (ibox : nat) (rnd : nat -> Q) : option (list patch) :=
  then_draw (Some [red_box t ibox])
    (draw_box_list t ibox (same_level_non_well_sep_boxes tr) None "green" None (rnd 0)).

(** visualization.py:229-276 draw_box_lists; [rnd] gives the random numbers, one for each call of
    _draw_box_list (6 + l for level l of list 3) *)
Definition draw_levels (t : tree) (tr : traversal) (ibox : nat) (rnd : nat -> Q) : option (list patch) :=
  fold_left (fun acc ilev => then_draw acc
    match nth_error (from_sep_smaller_by_level tr) ilev with
    | None => None
    | Some (keys, c) => draw_box_list t ibox c (Some keys) "orange" None (rnd (6 + ilev))
    end) (seq 0 (nlevels t)) (Some []).
Definition draw_optional (t : tree) (ibox : nat) (o : option csr) (keys : list nat) (color : string) (r : Q) : option (list patch) :=
  match o with
  | None => Some []
  | Some c => draw_box_list t ibox c (Some keys) color (Some ".") r
  end.
Definition draw_box_lists (t : tree) (tr : traversal) (ibox : nat) (rnd : nat -> Q) : option (list patch) :=
  then_draw (Some [red_box t ibox])
  (then_draw (draw_box_list t ibox (neighbor_source_boxes tr) (Some (target_boxes tr)) "green" None (rnd 0))
  (then_draw (draw_box_list t ibox (from_sep_siblings tr) (Some (target_or_target_parent_boxes tr)) "blue" None (rnd 1))
  (then_draw (draw_levels t tr ibox rnd)
  (then_draw (draw_optional t ibox (from_sep_close_smaller tr) (target_boxes tr) "orange" (rnd 2))
  (then_draw (draw_box_list t ibox (from_sep_bigger tr) (Some (target_or_target_parent_boxes tr)) "purple" None (rnd 3))
             (draw_optional t ibox (from_sep_close_bigger tr) (target_boxes tr) "purple" (rnd 4))))))).

(** ** traversal.py:1699-1703 get_box_list: [None] is AttributeError (no such list), TypeError (a list
    that was merged) or ValueError (no such row) *)
Definition list_named (tr : traversal) (what : string) : option csr :=
  if String.eqb what "same_level_non_well_sep_boxes" then Some (same_level_non_well_sep_boxes tr)
  else if String.eqb what "neighbor_source_boxes" then Some (neighbor_source_boxes tr)
  else if String.eqb what "from_sep_siblings" then Some (from_sep_siblings tr)
  else if String.eqb what "from_sep_bigger" then Some (from_sep_bigger tr)
  else if String.eqb what "from_sep_close_smaller" then from_sep_close_smaller tr
  else if String.eqb what "from_sep_close_bigger" then from_sep_close_bigger tr
  else None.
Definition get_box_list (tr : traversal) (what : string) (index : nat) : option (list nat) :=
  match list_named tr what with
  | None => None
  | Some c => if negb (S index <? List.length (starts c)) then None else Some (csr_get c index)
  end.
