(** The constructor of the pyfmmlib wrangler: which arguments it accepts and what it stores. *)
From Coq Require Import List Arith ZArith Lia Bool QArith Qcanon Qcabs.
From Verif Require Import Base Tree Spec Traversal Fmm FmmGen SpecFmmGen Layout FmmLib SpecFmmLib.
Import ListNotations.
Local Open Scope nat_scope.

Lemma Qc_mul_pos a b : (0 < a)%Qc -> (0 < b)%Qc -> (0 < a * b)%Qc.
Proof.
  intros A B. rewrite <- (Qcmult_0_l b). apply Qcmult_lt_compat_r; auto.
Qed.
Lemma Qc_inv_pos a : (0 < a)%Qc -> (0 < / a)%Qc.
Proof.
  intros A. destruct (Qclt_le_dec 0 (/ a)) as [H|H]; auto. exfalso.
  assert (N : a <> 0%Qc) by (intros ->; revert A; apply Qclt_irrefl || (intros A; apply (Qclt_not_le _ _ A), Qcle_refl)).
  assert (E := Qcmult_inv_r a N). assert (X : (a * / a <= 0)%Qc).
  { rewrite Qcmult_comm. rewrite <- (Qcmult_0_l a). apply Qcmult_le_compat_r; auto. apply Qclt_le_weak. auto. }
  rewrite E in X. revert X. apply Qclt_not_le. reflexivity.
Qed.
Lemma Qc_pow2_pos l : (0 < Qcpower (Q2Qc 2) l)%Qc.
Proof. induction l; cbn [Qcpower]; [reflexivity|]. apply Qc_mul_pos; [reflexivity|auto]. Qed.
Lemma Qcabs_of_pos a : (0 < a)%Qc -> Qcabs a = a.
Proof. intros H. apply Qcabs_pos. apply Qclt_le_weak. auto. Qed.

Section Rscale.
Context {ang D : Type}.
Variable wr : wrangler ang D.
Hypothesis RE : (0 < wr_root_extent wr)%Qc.
Hypothesis RF : (0 < wr_rscale_factor wr)%Qc.
Definition raw_rscale l : Qc := (wr_root_extent wr * / Qcpower (Q2Qc 2) l * wr_rscale_factor wr)%Qc.
Lemma raw_pos l : (0 < raw_rscale l)%Qc.
Proof. unfold raw_rscale. apply Qc_mul_pos; auto. apply Qc_mul_pos; auto. apply Qc_inv_pos, Qc_pow2_pos. Qed.
Lemma capped l : exists m, (m = raw_rscale l \/ m = 1%Qc) /\ (m <= raw_rscale l)%Qc /\ (m <= 1)%Qc /\ (0 < m)%Qc /\
  level_to_rscale wr l = match wr_dim wr, wr_kernel wr with 3, LAPLACE => (1 / m)%Qc | _, _ => m end.
Proof.
  unfold level_to_rscale. fold (raw_rscale l). rewrite (Qcabs_of_pos (raw_rscale l)) by apply raw_pos.
  destruct (Qclt_le_dec 1 (raw_rscale l)) as [H|H].
  - exists 1%Qc. split; auto. split; [apply Qclt_le_weak; auto|]. split; [apply Qcle_refl|]. split; [reflexivity|]. reflexivity.
  - exists (raw_rscale l). split; auto. split; [apply Qcle_refl|]. split; auto. split; [apply raw_pos|]. reflexivity.
Qed.
Lemma rscale_pos l : (0 < level_to_rscale wr l)%Qc.
Proof.
  destruct (capped l) as [m [_ [_ [_ [Hm ->]]]]]. destruct (wr_dim wr) as [|[|[|[|d]]]]; auto. destruct (wr_kernel wr); auto.
  unfold Qcdiv. rewrite Qcmult_1_l. apply Qc_inv_pos. auto.
Qed.
End Rscale.
