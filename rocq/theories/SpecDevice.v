(** What it means that the device holds the input, or the state of the tree builder. *)
From Coq Require Import List Arith ZArith.
From Verif Require Import TreeBuild Kernel Device BuildDevice.

(** array [a] of [d] has [n] elements, the k-th being [f k] *)
Definition holds_array (d : device array) (a : array) (n : nat) (f : nat -> Z) : Prop :=
  size d a = Z.of_nat n /\ forall k, k < n -> cells d a (Z.of_nat k) = f k.

(** the particles as given by the user: tree_build.py:323-452 *)
Record device_has_input (inp : input) (d : device array) : Prop := {
  d_coords : forall a, a < idim inp -> holds_array d (Coords a) (npart inp) (fun u => coord inp u a);
  d_radii : forall e, ext inp = Some e -> holds_array d Radii (npart inp) (radius e);
  d_weights : holds_array d RefineWeights (npart inp) (weight inp)
}.

(** the arrays that are used after the level loop: tree_build.py:1235-1700 *)
Record device_has_state (inp : input) (st : state) (d : device array) : Prop := {
  d_user : holds_array d UserIds (npart inp) (fun i => Z.of_nat (s_user st i));
  d_box : holds_array d BoxIds (npart inp) (fun i => Z.of_nat (s_box st i));
  d_start : holds_array d Starts (s_guess st) (fun b => Z.of_nat (s_start st b));
  d_cumul : holds_array d Counts (s_guess st) (fun b => Z.of_nat (s_cumul st b));
  d_nonchild : have_extent inp = true ->
    holds_array d (BoxBin (Cnt 0)) (s_guess st) (fun b => Z.of_nat (s_bins st b 0));
  d_parent : holds_array d Parents (s_guess st) (fun b => Z.of_nat (s_parent st b));
  d_child : forall m, m < nchild inp -> holds_array d (Children m) (s_guess st) (fun b => Z.of_nat (s_child st m b));
  d_center : forall a, a < idim inp -> holds_array d (Centers a) (s_guess st) (fun b => s_center st b a);
  d_level : holds_array d Levels (s_guess st) (fun b => Z.of_nat (s_blevel st b));
  d_has_children : holds_array d HasChildren (s_guess st) (fun b => if s_has_children st b then 1%Z else 0%Z)
}.

(** the Python variables of the level loop agree with the state *)
Record host_has_state (st : state) (h : hstate) : Prop := {
  hh_level : h_level h = s_level st;
  hh_lstart : h_lstart h = s_lstart st;
  hh_used : h_used h = s_used st;
  hh_leaves : h_leaves h = s_leaves st;
  hh_guess : h_guess h = s_guess st
}.
