(** A library for which all hypotheses about pyfmmlib hold: the kernel |x - y|^2 in two dimensions
    and its derivative for dipoles.  Expansions are moments in units that depend on scaling factor
    and order, so that reading an expansion with another center, scaling factor or order, or
    translating with other rotation matrices, gives another result.  Nothing here models code. *)
From Coq Require Import List Arith ZArith Lia Bool QArith Qcanon Qcabs.
From Verif Require Import Base Tree Spec Traversal Fmm FmmGen SpecFmmGen Layout FmmLib SpecFmmLib.
Import ListNotations.
Local Open Scope Qc_scope.

Definition spt := (Qc * Qc)%type.
Definition squad := (Qc * Qc * Qc * Qc)%type.
Definition sqadd (a b : squad) : squad :=
  let '(a1, a2, a3, a4) := a in let '(b1, b2, b3, b4) := b in (a1 + b1, a2 + b2, a3 + b3, a4 + b4).
Ltac squads := repeat match goal with x : squad |- _ => destruct x as [[[? ?] ?] ?] | x : spt |- _ => destruct x as [? ?] end.
Ltac spairs := repeat match goal with |- (_, _) = (_, _) => apply pair_equal_spec; split end.
Lemma sqadd_assoc a b c : sqadd a (sqadd b c) = sqadd (sqadd a b) c.
Proof. squads. simpl. spairs; ring. Qed.
Lemma sqadd_comm a b : sqadd a b = sqadd b a.
Proof. squads. simpl. spairs; ring. Qed.
Lemma sqadd_0 a : sqadd (0, 0, 0, 0) a = a.
Proof. squads. simpl. spairs; ring. Qed.
Definition SQm : cmonoid := mkMonoid squad (0, 0, 0, 0) sqadd sqadd_assoc sqadd_comm sqadd_0.
Definition SVm : cmonoid := mkMonoid Qc 0 Qcplus Qcplus_assoc Qcplus_comm Qcplus_0_l.

(** moments of a source about c *)
Definition moments (c x : spt) (s : strength Qc spt) : squad :=
  let dx := fst x - fst c in let dy := snd x - snd c in
  match s with
  | Charge w | ComplexDipole w => (w, w * dx, w * dy, w * (dx * dx + dy * dy))
  | Dipole w (d1, d2) => (0, w * d1, w * d2, w * (1 + 1) * (dx * d1 + dy * d2))
  end.
(** moments about c as moments about c' *)
Definition shift (c c' : spt) (m : squad) : squad :=
  let '(q, px, py, s) := m in let dx := fst c - fst c' in let dy := snd c - snd c' in
  (q, px + q * dx, py + q * dy, s + (1 + 1) * (px * dx + py * dy) + q * (dx * dx + dy * dy)).
(** the potential at a point is the last moment about it *)
Definition last_moment (m : squad) : Qc := let '(_, _, _, s) := m in s.
Definition potential (y x : spt) (s : strength Qc spt) : Qc := last_moment (moments y x s).

(** units *)
Definition unit (f : frame spt) : Qc := fr_rscale f * Q2Qc (inject_Z (Z.of_nat (fr_order f) + 1)).
Definition stretch (u : Qc) (m : squad) : squad := let '(q, px, py, s) := m in (q, px * u, py * u, s * (u * u)).
Definition pack (f : frame spt) (m : squad) : squad := stretch (/ unit f) m.
Definition unpack (f : frame spt) (m : squad) : squad := stretch (unit f) m.
Definition flip (m : squad) : squad := let '(a, b, c, d) := m in (d, c, b, a).
Definition packl (f : frame spt) (m : squad) : squad := flip (stretch (unit f) m).
Definition unpackl (f : frame spt) (m : squad) : squad := stretch (/ unit f) (flip m).

(** rotation matrices that know what they were made for *)
Definition smat := (nat * spt)%type.
Definition fits (o : option (rotation smat)) (f f' : frame spt) : bool :=
  match o with
  | None => true
  | Some ro =>
    let a := (fst (fr_center f') - fst (fr_center f), snd (fr_center f') - snd (fr_center f)) in
    (fst (rot_f ro) =? rot_ldm ro)%nat && (fst (rot_b ro) =? rot_ldm ro)%nat &&
    (if Qc_eq_dec (fst (snd (rot_f ro))) (fst a) then true else false) && (if Qc_eq_dec (snd (snd (rot_f ro))) (snd a) then true else false) &&
    (if Qc_eq_dec (fst (snd (rot_b ro))) (- fst a) then true else false) && (if Qc_eq_dec (snd (snd (rot_b ro))) (- snd a) then true else false) &&
    (rot_nterms ro =? fr_order f')%nat && (rot_nterms1 ro =? fr_order f)%nat && (fr_order f <=? rot_ldm ro)%nat
  end.

Definition scaled_lib : library spt (strength Qc spt) spt smat SQm SQm SVm := {|
  formmp := fun f xs ws => (msum (map (fun xw => pack f (moments (fr_center f) (fst xw) (snd xw)) : SQm) (combine xs ws)));
  mpmp := fun _ f m f' => pack f' (shift (fr_center f) (fr_center f') (unpack f m)) : SQm;
  mploc := fun o _ f m f' => (if fits o f f' then packl f' (shift (fr_center f) (fr_center f') (unpack f m)) else (0, 0, 0, 0)) : SQm;
  mpeval := fun f m y => last_moment (shift (fr_center f) y (unpack f m)) : SVm;
  formta := fun f xs ws => (msum (map (fun xw => packl f (moments (fr_center f) (fst xw) (snd xw)) : SQm) (combine xs ws)));
  locloc := fun _ f l f' => packl f' (shift (fr_center f) (fr_center f') (unpackl f l)) : SQm;
  taeval := fun f l y => last_moment (shift (fr_center f) y (unpackl f l)) : SVm;
  potall := fun xs ws y => (msum (map (fun xw => potential y (fst xw) (snd xw) : SVm) (combine xs ws)));
  rotmat_builder := fun ldm a => (ldm, a);
  negated := fun a => (- fst a, - snd a) |}.

Definition sangle (x y : spt) : spt := (fst y - fst x, snd y - snd x).
Definition total_moments (c : spt) (s : list (spt * strength Qc spt)) : squad :=
  msum (map (fun xw => moments c (fst xw) (snd xw) : SQm) s).
Definition smultipole (f : frame spt) (m : squad) s : Prop := unpack f m = total_moments (fr_center f) s.
Definition slocal (f : frame spt) (m : squad) s : Prop := unpackl f m = total_moments (fr_center f) s.

Lemma unit_pos f : 0 < fr_rscale f -> unit f <> 0.
Proof.
  intros H E. unfold unit in E. apply Qcmult_integral in E. destruct E as [E|E].
  - rewrite E in H. revert H. apply Qcle_not_lt, Qcle_refl.
  - assert (X : Q2Qc (inject_Z (Z.of_nat (fr_order f) + 1)) == 0) by (rewrite E; reflexivity).
    cbn [this Q2Qc] in X. rewrite Qred_correct in X. unfold Qeq, inject_Z in X. cbn in X. lia.
Qed.
Lemma unpack_pack f m : 0 < fr_rscale f -> unpack f (pack f m) = m.
Proof. intros H. apply unit_pos in H. unfold unpack, pack. squads. cbn. spairs; auto; field; auto. Qed.
Lemma unpackl_packl f m : 0 < fr_rscale f -> unpackl f (packl f m) = m.
Proof. intros H. apply unit_pos in H. unfold unpackl, packl. squads. cbn. spairs; auto; field; auto. Qed.
Lemma shift_moments c c' x s : shift c c' (moments c x s) = moments c' x s.
Proof. destruct s as [w|w|w [d1 d2]]; squads; cbn; spairs; ring. Qed.
Lemma shift_add c c' a b : shift c c' (sqadd a b) = sqadd (shift c c' a) (shift c c' b).
Proof. squads; cbn; spairs; ring. Qed.
Lemma shift_zero c c' : shift c c' (0, 0, 0, 0) = (0, 0, 0, 0).
Proof. squads; cbn; spairs; ring. Qed.
Lemma shift_total c c' s : shift c c' (total_moments c s) = total_moments c' s.
Proof.
  unfold total_moments. induction s as [|[x w] s IH]; [apply shift_zero|].
  cbn [map]. change (shift c c' (sqadd (moments c x w) (total_moments c s)) = sqadd (moments c' x w) (total_moments c' s)).
  rewrite shift_add, shift_moments. f_equal. exact IH.
Qed.
Lemma last_total y s : last_moment (total_moments y s) = msum (map (fun xw => potential y (fst xw) (snd xw) : SVm) s).
Proof.
  unfold total_moments. induction s as [|[x w] s IH]; [reflexivity|].
  cbn [map]. change (last_moment (sqadd (moments y x w) (total_moments y s)) = potential y x w + msum (map (fun xw => potential y (fst xw) (snd xw) : SVm) s)).
  rewrite <- IH. unfold potential. unfold total_moments. set (q := msum _). clearbody q. destruct (moments y x w) as [[[? ?] ?] ?].
  change (carrier SQm) with squad in q. destruct q as [[[? ?] ?] ?]. reflexivity.
Qed.
Lemma stretch_add u a b : stretch u (sqadd a b) = sqadd (stretch u a) (stretch u b).
Proof. squads; cbn; spairs; ring. Qed.
Lemma stretch_zero u : stretch u (0, 0, 0, 0) = (0, 0, 0, 0).
Proof. cbn; spairs; ring. Qed.
Lemma flip_add a b : flip (sqadd a b) = sqadd (flip a) (flip b).
Proof. squads; reflexivity. Qed.
Lemma last_add a b : last_moment (sqadd a b) = last_moment a + last_moment b.
Proof. squads; reflexivity. Qed.
Lemma sum_of_singles {X : cmonoid} {A} (g : A -> X) l : msum (map g l) = msum (map (fun x => msum (map g [x])) l).
Proof.
  induction l as [|x l IH]; [reflexivity|]. cbn [map]. change (op (g x) (msum (map g l)) = op (op (g x) e0) (msum (map (fun x => msum (map g [x])) l))).
  rewrite IH. f_equal. symmetry. apply op_0_r.
Qed.

Lemma msum_1 {X : cmonoid} (a : X) : msum [a] = a.
Proof. apply op_0_r. Qed.

Theorem scaled_linear : linear_library scaled_lib.
Proof.
  split.
  - intros f xs ws _. cbn [formmp scaled_lib]. rewrite sum_of_singles. reflexivity.
  - intros f xs ws _. cbn [formta scaled_lib]. rewrite sum_of_singles. reflexivity.
  - intros xs ws y _. cbn [potall scaled_lib]. rewrite sum_of_singles. reflexivity.
  - intros rad f f'. cbn [mpmp scaled_lib]. change (@e0 SQm) with ((0, 0, 0, 0) : squad). unfold pack, unpack. rewrite ?stretch_zero, ?shift_zero, ?stretch_zero. auto.
  - intros rad f f' a b. cbn [mpmp scaled_lib]. change (@op SQm) with sqadd. unfold pack, unpack. rewrite stretch_add, shift_add, stretch_add. auto.
  - intros o rad f f'. cbn [mploc scaled_lib]. change (@e0 SQm) with ((0, 0, 0, 0) : squad). destruct (fits o f f'); auto.
    unfold packl, unpack. rewrite ?stretch_zero, ?shift_zero, ?stretch_zero. auto.
  - intros o rad f f' a b. cbn [mploc scaled_lib]. change (@op SQm) with sqadd. destruct (fits o f f').
    + unfold packl, unpack. rewrite stretch_add, shift_add, stretch_add, flip_add. auto.
    + symmetry. apply sqadd_0.
  - intros f y. cbn [mpeval scaled_lib]. change (@e0 SQm) with ((0, 0, 0, 0) : squad). unfold unpack. rewrite ?stretch_zero, ?shift_zero. auto.
  - intros f y a b. cbn [mpeval scaled_lib]. change (@op SQm) with sqadd. unfold unpack. rewrite stretch_add, shift_add, last_add. auto.
  - intros rad f f'. cbn [locloc scaled_lib]. change (@e0 SQm) with ((0, 0, 0, 0) : squad). unfold packl, unpackl. change (flip (0, 0, 0, 0)) with ((0, 0, 0, 0) : squad).
    rewrite ?stretch_zero, ?shift_zero, ?stretch_zero. auto.
  - intros rad f f' a b. cbn [locloc scaled_lib]. change (@op SQm) with sqadd. unfold packl, unpackl. rewrite flip_add, stretch_add, shift_add, stretch_add, flip_add. auto.
  - intros f y. cbn [taeval scaled_lib]. change (@e0 SQm) with ((0, 0, 0, 0) : squad). unfold unpackl. change (flip (0, 0, 0, 0)) with ((0, 0, 0, 0) : squad).
    rewrite ?stretch_zero, ?shift_zero. auto.
  - intros f y a b. cbn [taeval scaled_lib]. change (@op SQm) with sqadd. unfold unpackl. rewrite flip_add, stretch_add, shift_add, last_add. auto.
Qed.

Theorem scaled_exact : exact_library scaled_lib sangle potential smultipole slocal.
Proof.
  split.
  - intros f x w H. unfold smultipole. cbn [formmp scaled_lib combine map]. unfold total_moments. cbn [map fst snd].
    rewrite !msum_1. apply unpack_pack. auto.
  - intros rad f m s f' H H' E. unfold smultipole in *. cbn [mpmp scaled_lib]. rewrite unpack_pack by auto. rewrite E. apply shift_total.
  - intros o rad f m s f' H H' E FT. unfold smultipole, slocal in *. cbn [mploc scaled_lib].
    assert (FO : fits o f f' = true).
    { destruct o as [ro|]; auto. destruct (FT ro eq_refl) as [F1 [F2 [F3 [F4 F5]]]]. unfold fits. rewrite F1, F2. cbn.
      rewrite F3, F4, !Nat.eqb_refl. repeat (destruct (Qc_eq_dec _ _) as [|N]; [|exfalso; apply N; reflexivity]).
      cbn. apply Nat.leb_le. auto. }
    rewrite FO. rewrite unpackl_packl by auto. rewrite E. apply shift_total.
  - intros f m s y H E. unfold smultipole in E. cbn [mpeval scaled_lib]. rewrite E, shift_total. apply last_total.
  - intros f x w H. unfold slocal. cbn [formta scaled_lib combine map]. unfold total_moments. cbn [map fst snd].
    rewrite !msum_1. apply unpackl_packl. auto.
  - intros rad f l s f' H H' E. unfold slocal in *. cbn [locloc scaled_lib]. rewrite unpackl_packl by auto. rewrite E. apply shift_total.
  - intros f l s y H E. unfold slocal in E. cbn [taeval scaled_lib]. rewrite E, shift_total. apply last_total.
  - intros x w y. cbn [potall scaled_lib combine map]. apply op_0_r.
Qed.
