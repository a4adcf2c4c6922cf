(** What may be expected of routines that report errors. *)
From Coq Require Import List Arith ZArith NArith Bool Qcanon.
From Verif Require Import Base Tree Traversal Fmm FmmGen Layout FmmLib FmmGrad FmmErr.
Import ListNotations.

(** Where no error is reported, the routines compute what the routines of [exact] compute.  About
    values that come with an error nothing is known.  Direct evaluation, and in two dimensions
    translation and evaluation of expansions, report no errors. *)
Record correct_unless_reported {pt str ang rmat : Type} {M L V : cmonoid} (dim : nat) (lib : library pt str ang rmat M L V)
    (ier : codes pt str rmat M L) (raw : raw_library pt str M L V) (exact : library pt str ang rmat M L V) : Prop := {
  cu_formmp : forall f xs ws, formmp_ier ier f xs ws = 0%Z -> formmp lib f xs ws = formmp exact f xs ws;
  cu_mpmp : forall r f m f', dim = 2 \/ mpmp_ier ier r f m f' = 0%Z -> mpmp lib r f m f' = mpmp exact r f m f';
  cu_mploc : forall o r f m f', dim = 2 \/ mploc_ier ier o r f m f' = 0%N -> mploc lib o r f m f' = mploc exact o r f m f';
  cu_formta : forall f xs ws, formta_ier ier f xs ws = 0%N -> formta lib f xs ws = formta exact f xs ws;
  cu_locloc : forall r f l f', dim = 2 \/ locloc_ier ier r f l f' = 0%Z -> locloc lib r f l f' = locloc exact r f l f';
  cu_potgrad2 : dim = 2 -> forall xs ws y, fst (fst (potgrad2 raw false false xs ws y)) = potall exact xs ws y;
  cu_potfld3 : dim = 3 -> forall xs ws y, fst (potfld3 raw false xs ws y) = potall exact xs ws y;
  cu_mpeval2 : dim = 2 -> forall f m y, fst (fst (mpeval2 raw false false f m y)) = mpeval exact f m y;
  cu_mpeval3 : dim = 3 -> forall f m y, snd (mpeval3 raw false f m y) = 0%Z -> fst (fst (mpeval3 raw false f m y)) = mpeval exact f m y;
  cu_taeval2 : dim = 2 -> forall f l y, fst (fst (taeval2 raw false false f l y)) = taeval exact f l y;
  cu_taeval3 : dim = 3 -> forall f l y, snd (taeval3 raw false f l y) = 0%Z -> fst (fst (taeval3 raw false f l y)) = taeval exact f l y;
  cu_rotmat : forall n a, rotmat_builder lib n a = rotmat_builder exact n a;
  cu_negated : forall a, negated lib a = negated exact a
}.
(** Some routine reports an error for some arguments. *)
Definition reports_an_error {pt str rmat : Type} {M L V : cmonoid} (dim : nat) (ier : codes pt str rmat M L) (raw : raw_library pt str M L V) : Prop :=
  (exists f xs ws, formmp_ier ier f xs ws <> 0%Z) \/ (exists f xs ws, formta_ier ier f xs ws <> 0%N) \/
  (dim <> 2 /\ ((exists r f m f', mpmp_ier ier r f m f' <> 0%Z) \/ (exists o r f m f', mploc_ier ier o r f m f' <> 0%N) \/
     (exists r f l f', locloc_ier ier r f l f' <> 0%Z))) \/
  (dim = 3 /\ ((exists f m y, snd (mpeval3 raw false f m y) <> 0%Z) \/ (exists f l y, snd (taeval3 raw false f l y) <> 0%Z))).
