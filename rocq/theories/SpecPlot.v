(** What a reader of a plot expects: Roman numerals, rectangles around the center of a box, names of
    macros and coordinates in a TikZ document. *)
From Coq Require Import List Arith ZArith QArith String Ascii Lia Bool.
From Verif Require Import Base Tree Traversal Plot.
Import ListNotations.
Local Open Scope string_scope.
Local Open Scope list_scope.
Local Open Scope nat_scope.

(** ** Roman numerals *)
(** one decimal digit, with the symbols for one, five and ten *)
Definition roman_digit (one five ten : string) (d : Z) : string :=
  nth (Z.to_nat d)
    ["";
     one; one ++ one; one ++ one ++ one; one ++ five;
     five; five ++ one; five ++ one ++ one; five ++ one ++ one ++ one; one ++ ten]%string "".
(** the usual notation of a number from 1 to 3999: thousands, hundreds, tens and units *)
Definition roman_numeral (n : Z) : string :=
  (times (Z.to_nat (n / 1000)) "M" ++ roman_digit "C" "D" "M" (n / 100 mod 10)
   ++ roman_digit "X" "L" "C" (n / 10 mod 10) ++ roman_digit "I" "V" "X" (n mod 10))%string.
(** reading a numeral: a symbol before one of larger value is subtracted *)
Definition symbol_value (c : ascii) : option Z :=
  if ascii_dec c "M" then Some 1000%Z else if ascii_dec c "D" then Some 500%Z
  else if ascii_dec c "C" then Some 100%Z else if ascii_dec c "L" then Some 50%Z
  else if ascii_dec c "X" then Some 10%Z else if ascii_dec c "V" then Some 5%Z
  else if ascii_dec c "I" then Some 1%Z else None.
Fixpoint roman_value (s : string) : option Z :=
  match s with
  | EmptyString => Some 0%Z
  | String c s' =>
    match symbol_value c, roman_value s' with
    | Some v, Some r =>
      match s' with
      | String c' _ => match symbol_value c' with
                       | Some v' => if (v <? v')%Z then Some (r - v)%Z else Some (r + v)%Z
                       | None => None end
      | EmptyString => Some v
      end
    | _, _ => None
    end
  end.

(** TeX macro names consist of letters *)
Definition is_letter (c : ascii) : bool :=
  let n := nat_of_ascii c in ((65 <=? n) && (n <=? 90)) || ((97 <=? n) && (n <=? 122)).
Fixpoint letters_only (s : string) : bool :=
  match s with EmptyString => true | String c s' => is_letter c && letters_only s' end.

(** ** Rectangles *)
(** The patch is the rectangle around the center of box [b] whose half width is [f] times that of the
    box (in the plane of the first two axes), traversed once and closed. *)
Definition point_eq (p q : Q * Q) : Prop := (fst p == fst q)%Q /\ (snd p == snd q)%Q.
Definition scaled_box (t : tree) (b : nat) (f : Q) (p : patch) : Prop :=
  let x := inject_Z (box_center t b 0) in let y := inject_Z (box_center t b 1) in
  let r := (f * inject_Z (box_rad t b))%Q in
  Forall2 point_eq (vertices p)
    [(x - r, y - r); (x + r, y - r); (x + r, y + r); (x - r, y + r); (x - r, y - r)]%Q.
(** a smaller rectangle in the middle of the box, still at least 7/10 of its width *)
Definition marks (t : tree) (p : patch) (b : nat) : Prop :=
  exists f, (7#10 < f)%Q /\ (f <= 9#10)%Q /\ scaled_box t b f p.
(** a rectangle at most one tenth wider than the box *)
Definition surrounds (t : tree) (p : patch) (b : nat) : Prop :=
  exists f, (1 < f)%Q /\ (f <= 11#10)%Q /\ scaled_box t b f p.

(** filled patches with the given color and hatching *)
Definition option_string_eqb (a b : option string) : bool :=
  match a, b with Some x, Some y => String.eqb x y | None, None => true | _, _ => false end.
Definition colored (color : string) (hatching : option string) (ps : list patch) : list patch :=
  filter (fun p => fill (look p) && option_string_eqb (facecolor (look p)) (Some color)
                   && option_string_eqb (hatch (look p)) hatching) ps.
Definition outlines (ps : list patch) : list patch := filter (fun p => negb (fill (look p))) ps.

(** the boxes that have a row, list by list (list 3: level by level) *)
Definition row_keys (tr : traversal) : list (list nat) :=
  [target_boxes tr] ++ [target_or_target_parent_boxes tr] ++ map fst (from_sep_smaller_by_level tr)
  ++ match from_sep_close_smaller tr with Some _ => [target_boxes tr] | None => [] end
  ++ [target_or_target_parent_boxes tr]
  ++ match from_sep_close_bigger tr with Some _ => [target_boxes tr] | None => [] end.

(** random numbers are in [0, 1) *)
Definition unit_numbers (rnd : nat -> Q) : Prop := forall k, (0 <= rnd k)%Q /\ (rnd k < 1)%Q.

(** ** TikZ *)
(** the macro (coordinate) is defined exactly with this value *)
Definition value_eq (v w : value) : Prop :=
  match v, w with
  | VInt m, VInt n => m = n
  | VNum p, VNum q => (p == q)%Q
  | VText r, VText s => r = s
  | _, _ => False
  end.
Definition macro_is (doc : list tikz_line) (name : string) (v : value) : Prop :=
  (exists w, In (Def name w) doc) /\ forall w, In (Def name w) doc -> value_eq w v.
Definition coordinate_is (doc : list tikz_line) (name : string) (x y : Q) : Prop :=
  (exists x' y', In (Coordinate name x' y') doc) /\
  forall x' y', In (Coordinate name x' y') doc -> (x' == x)%Q /\ (y' == y)%Q.
