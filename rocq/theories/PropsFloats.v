(** C75: in floating-point arithmetic, too, scaled coordinates are below 1 and distinct particles
    can be separated. *)
From Coq Require Import List ZArith Bool Reals Lra Lia SpecFloat.
From Flocq Require Import Core.
From Verif Require Import Floats FloatFacts.
Import ListNotations.

(** [s] is the size of the smallest cube around the particles *)
Definition spread_is (axes : list (list R)) (s : R) : Prop :=
  (exists xs x y, In xs axes /\ In x xs /\ In y xs /\ x - y = s)%R /\
  (forall xs x y, In xs axes -> In x xs -> In y xs -> x - y <= s)%R.

(** With at least 24 binary digits, scaled coordinates are below 1 if no coordinate exceeds the
    spread of the particles by a factor of more than 2^(prec-16): 256 in single precision. *)
Theorem C75_scaled_below_one : forall prec huge axes s, (24 <= prec)%Z ->
  (forall xs, In xs axes -> xs <> []) ->
  (forall xs x, In xs axes -> In x xs -> Rabs x <= huge)%R ->
  spread_is axes s -> (0 < s)%R ->
  (forall xs x, In xs axes -> In x xs -> Rabs x <= bpow radix2 (prec - 16) * s)%R ->
  forall xs x, In xs axes -> In x xs -> (0 <= scaled (rounded prec huge) axes xs x < 1)%R.
Proof. intros prec huge axes s Hp NE HB [S1 S2] S0 MAG xs x Hxs Hx. apply (scaled_below_one prec Hp huge axes NE HB s S1 S2 S0 MAG xs x Hxs Hx). Qed.

(** Otherwise it is false: adding the stretched extent to the minimum rounds back to the maximum.
    The two particles (1000, 1000) and (1000.1, 1000.1) in single precision have the same Morton
    numbers at all levels, so that no tree separates them. *)
Definition finite (x : spec_float) : bool := match x with S754_finite _ _ _ | S754_zero _ => true | _ => false end.
Definition single_axes : list (list spec_float) :=
  let x := [binary_normalize 24 128 1000 0 false; binary_normalize 24 128 (1000 * 2 ^ 14 + 1638) (-14) false] in [x; x].
Theorem C75_refuted_single : exists axes, length axes = 2%nat /\
  (forall xs, In xs axes -> length xs = 2%nat /\ (forall x, In x xs -> finite x = true) /\ SFltb (nth 0 xs S754_nan) (nth 1 xs S754_nan) = true) /\
  (forall xs, In xs axes -> SFeqb (scaled (ieee 24 128) axes xs (nth 1 xs S754_nan)) (binary_normalize 24 128 1 0 false) = true) /\
  (forall level, (level <= 30)%nat -> morton_digits 24 128 axes 0 level = morton_digits 24 128 axes 1 level).
Proof.
  exists single_axes. split; [reflexivity|]. split; [|split].
  - intros xs [<-|[<-|[]]]; (split; [reflexivity|split; [|reflexivity]]); intros x [<-|[<-|[]]]; reflexivity.
  - intros xs [<-|[<-|[]]]; vm_compute; reflexivity.
  - intros level H. do 31 (destruct level as [|level]; [vm_compute; reflexivity|]). lia.
Qed.
(** The same in double precision, with a spread of about 2e-7 near 10^6. *)
Definition double_axes : list (list spec_float) :=
  let x := [binary_normalize 53 1024 1000000 0 false; binary_normalize 53 1024 (1000000 * 2 ^ 33 + 2000) (-33) false] in [x; x; x].
Theorem C75_refuted_double : exists axes, length axes = 3%nat /\
  (forall xs, In xs axes -> length xs = 2%nat /\ (forall x, In x xs -> finite x = true) /\ SFltb (nth 0 xs S754_nan) (nth 1 xs S754_nan) = true) /\
  (forall xs, In xs axes -> SFeqb (scaled (ieee 53 1024) axes xs (nth 1 xs S754_nan)) (binary_normalize 53 1024 1 0 false) = true) /\
  (forall level, (level <= 30)%nat -> morton_digits 53 1024 axes 0 level = morton_digits 53 1024 axes 1 level).
Proof.
  exists double_axes. split; [reflexivity|]. split; [|split].
  - intros xs [<-|[<-|[<-|[]]]]; (split; [reflexivity|split; [|reflexivity]]); intros x [<-|[<-|[]]]; reflexivity.
  - intros xs [<-|[<-|[<-|[]]]]; vm_compute; reflexivity.
  - intros level H. do 31 (destruct level as [|level]; [vm_compute; reflexivity|]). lia.
Qed.

(** the hypotheses of the positive theorem hold for three particles in the plane *)
Example ex_floats : let axes := [[-1; 3; 100]; [7; 7; 5/2]]%R in forall xs x, In xs axes -> In x xs ->
  (0 <= scaled (rounded 24 1000) axes xs x < 1)%R.
Proof.
  intros axes. subst axes. apply C75_scaled_below_one with (s := 101%R); [lia| | | |lra|].
  - intros xs [<-|[<-|[]]]; discriminate.
  - intros xs x [<-|[<-|[]]] [<-|[<-|[<-|[]]]]; apply Rabs_le; lra.
  - split; [exists [-1; 3; 100]%R, 100%R, (-1)%R; cbn; intuition lra|].
    intros xs x y [<-|[<-|[]]] [<-|[<-|[<-|[]]]] [<-|[<-|[<-|[]]]]; lra.
  - intros xs x [<-|[<-|[]]] [<-|[<-|[<-|[]]]]; apply Rabs_le; simpl; lra.
Qed.
(** and so do those of the IEEE model: a separable pair *)
Example ex_ieee : exists level, morton_digits 24 128 [[binary_normalize 24 128 1 0 false; binary_normalize 24 128 3 0 false]] 0 level <>
  morton_digits 24 128 [[binary_normalize 24 128 1 0 false; binary_normalize 24 128 3 0 false]] 1 level.
Proof. exists 0%nat. vm_compute. discriminate. Qed.

Print Assumptions C75_scaled_below_one.
Print Assumptions C75_refuted_single.
Print Assumptions C75_refuted_double.
