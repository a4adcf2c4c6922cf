(** Area queries on trees made by the particle tree builder. *)
From Coq Require Import List Arith ZArith NArith Lia Bool Permutation.
From Verif Require Import Base Tree Spec SpecArea TreeFacts.
From Verif Require Import TreeBuild ArrayFacts BuildInv BuildStep BuildDone BuildPrune BuildFull BuildGeom SpecBuild BuildThm BuildThm2.
Import ListNotations.

(** boxes lie inside the root box *)
Lemma inside_root t (W : wf_tree t) x i : x < nboxes t -> i < dim t ->
  (Z.abs (box_center t 0 i - box_center t x i) <= box_rad t 0 - box_rad t x)%Z.
Proof.
  intros Hx Hi. rewrite <- (anc_0 t W x Hx). unfold anc. induction (box_level t x - 0) as [|j IH]; [change (up t 0 x) with x; lia|].
  change (up t (S j) x) with (box_parent t (up t j x)).
  destruct (Nat.eq_dec (up t j x) 0) as [E|N].
  - rewrite E, (wf_root_parent t W). rewrite E in IH. auto.
  - pose proof (up_lt t W j x Hx) as HU.
    pose proof (parent_center t W (up t j x) i HU ltac:(lia) Hi) as PC.
    pose proof (parent_rad t W (up t j x) HU ltac:(lia)). pose proof (box_rad_pos t W _ HU). lia.
Qed.
(** the stretch is too small to hide a box of the first 14 levels *)
Lemma shallow_meets t (W : wf_tree t) b : b < nboxes t -> box_level t b <= 13 -> meets_unstretched t b.
Proof.
  intros Hb Hl. exists (fun i => box_center t b i - box_rad t b)%Z. assert (P := box_rad_pos t W b Hb). split.
  - intros i Hi. lia.
  - intros i Hi. assert (I := inside_root t W b i Hb Hi).
    assert (L := wf_level_lt t W b Hb). assert (E := rad_exact t W (box_level t b) L). fold (box_rad t b) in E.
    assert (E0 := rad_exact t W (box_level t 0) ltac:(rewrite (wf_root_level t W); lia)). fold (box_rad t 0) in E0.
    rewrite (wf_root_level t W) in E0. change (2 ^ Z.of_nat (0 + 1))%Z with 2%Z in E0.
    assert (Q : (2 ^ Z.of_nat (box_level t b + 1) <= 2 ^ 14)%Z) by (apply Z.pow_le_mono_r; lia). change (2 ^ 14)%Z with 16384%Z in Q.
    assert (root_extent t <= 16384 * box_rad t b)%Z by (rewrite E; nia). lia.
Qed.

Section Built.
Variable inp : input.
Hypothesis V : valid_input inp.
Variable st : state.
Variable pth : nat -> list nat.
Hypothesis F : fin inp st pth.
Hypothesis NR : not_restricted_with_extents inp.
Notation B := (finish inp st).
Notation T := (b_tree B).
Notation ps := (prune inp st).
Notation q := (pq inp st pth).
Notation sp := (psp inp st).

Lemma PE : (level_restrict inp && have_extent inp)%bool = false.
Proof. unfold level_restrict, have_extent. destruct (build_kind inp) eqn:K; auto. rewrite (NR K). auto. Qed.

(** a split box keeps a child *)
Lemma leaf_unsplit b : levels_stay_populated inp -> b < nboxes T -> leaf_box T b -> sp b = false.
Proof.
  intros LP Hb L. destruct (sp b) eqn:S; auto. exfalso.
  destruct (have_extent inp) eqn:HE; [|rewrite (leaf_sp inp V st pth F b HE Hb L) in S; discriminate].
  assert (NE : ext inp <> None) by (intros X; unfold have_extent in HE; rewrite X in HE; discriminate).
  destruct LP as [SK|[K|K]]; [|..|congruence].
  - assert (S0 := S). apply negb_true_iff, Nat.eqb_neq in S0. assert (Y := f_inv inp st pth F). assert (N0 := v_npart _ V).
    assert (U := old_used inp st pth F N0 b Hb).
    destruct (i_split _ _ _ Y (old inp st b) 0 U S0 (nch_pos inp)) as [U' E'].
    assert (IS : In (s_child st 0 (old inp st b)) (src_boxes inp st)).
    { apply (in_src inp st pth F N0). split; [apply (used_lt st (i_layout _ _ _ Y)); auto|]. unfold keep. rewrite SK.
      apply (usedb_spec st (i_layout _ _ _ Y)). auto. }
    assert (C := L 0 (nch_pos inp)). change (box_child T 0 b) with (p_child ps 0 b) in C.
    cbn [prune p_child] in C. rewrite kernel_map_lt in C by apply nch_pos. unfold pruned in C. rewrite kernel_map_lt in C by exact Hb.
    change (nth b (src_boxes inp st) 0) with (old inp st b) in C.
    assert (X := old_dst inp st pth F N0 _ IS). rewrite C in X. rewrite (old_0 inp st pth F N0) in X.
    rewrite <- X in E'. rewrite (pth_0 inp st pth Y) in E'. destruct (pth (old inp st b)); discriminate.
  - assert (A : build_kind inp = Adaptive).
    { destruct (build_kind inp) eqn:Q; auto; [|congruence]; exfalso; apply NE, NR, Q. }
    assert (LR : level_restrict inp = false) by (unfold level_restrict; rewrite A; auto).
    assert (H := prune_split inp st pth F (v_npart _ V) LR b Hb S).
    assert (AD : adaptive inp = true) by (unfold adaptive; rewrite A; auto).
    destruct (heavy_particle inp (V_MW inp V) (v_npart _ V) (v_guess _ V) (q b) AD H) as [u [m [Hu [Hm R]]]].
    apply (pi_split _ _ _ _ (PI inp V st pth F) m b u Hb Hm S Hu R). apply (L m Hm).
Qed.
Lemma built_flags_tell_leaves : levels_stay_populated inp -> flags_tell_leaves T.
Proof.
  intros LP b Hb. destruct (finish_flags inp V st pth F PE b Hb) as [_ [_ [E1 E2]]]. rewrite E1, E2. split.
  - intros [S _] m Hm. apply (pi_leaf _ _ _ _ (PI inp V st pth F)); auto.
  - intros L. assert (S := leaf_unsplit b LP Hb L). auto.
Qed.

Hypothesis G : valid_geometry inp.
Hypothesis D : nlevels T <= 30.
Lemma built_lower_corner : lower_corner T (bbox_min inp).
Proof.
  intros i Hi. assert (P := pi_pos _ _ _ _ (PI inp V st pth F)). change (i < idim inp) in Hi.
  rewrite (T_center inp V st pth F 0 i P Hi), (T_rad inp V st pth F 0 P).
  rewrite (pi_root _ _ _ _ (PI inp V st pth F)). 
  rewrite (path_center_idx inp (G_cube inp G) (v_unit _ G) [] i Hi); [|cbn; lia].
  unfold idx. cbn [fold_left length]. lia.
Qed.
(** every box of a pruned tree holds a particle *)
Lemma built_meets b : skip_prune inp = false ->
  (forall u a, u < npart inp -> a < idim inp -> (10001 * (coord inp u a - bbox_min inp a) <= 10000 * the_root_extent inp)%Z) ->
  b < nboxes T -> meets_unstretched T b.
Proof.
  intros SK IN Hb. assert (C := prune_nonempty inp st pth F (v_npart _ V) SK b Hb).
  rewrite (pi_cumul _ _ _ _ (PI inp V st pth F) b Hb) in C. apply cnt_pos in C. destruct C as [u [Hu R]].
  exists (coord inp u). assert (X := reach_cell inp V st pth F G D u b Hu Hb R). split.
  - intros i Hi. specialize (X i Hi). lia.
  - intros i Hi. rewrite <- (built_lower_corner i Hi). apply (IN u i Hu Hi).
Qed.
End Built.
