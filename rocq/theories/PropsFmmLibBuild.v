(** Property C93, from particles to potentials: tree builder, traversal builder and the FMM with
    pyfmmlib composed, for any library that is exact. *)
From Coq Require Import List Arith ZArith Lia Bool Permutation QArith Qcanon.
From Verif Require Import Base Tree Spec SpecTraversal SpecClasses LevelStarts Fmm SpecFmm FmmGen SpecFmmGen Layout FmmLib SpecFmmLib
  ScaledQuad ExampleTree PropsTraversal PropsFmm PropsFmmGen Traversal PropsFmmLib.
From Verif Require Import TreeBuild BuildInv BuildStep BuildLoop BuildDone BuildTerm BuildPrune BuildFull BuildSplit BuildFinish BuildLR BuildSkip
  SpecBuild BuildThm BuildThm2 ExampleBuild PropsBuild PropsFmmGenBuild.
Import ListNotations.
Local Open Scope nat_scope.

(** The potential of the caller's target j is the sum over the caller's sources, in the caller's
    order, of the kernel of their coordinates, weights and dipole directions.  [point] makes a point
    of the library from its coordinates. *)
Definition coordinates (d : nat) (x : nat -> Z) : list Z := map x (seq 0 d).
Theorem C93_particles_to_potentials : forall (pt Wt D ang rmat : Type) (M L V : cmonoid) (lib : library pt (strength Wt D) ang rmat M L V)
    angle kern multipole local complex_dipole times real_part (point : list Z -> pt) inp B P tr
    k root_extent helmholtz_k level_to_order order dipole_vec already cutoff rot wr weights dipoles j,
  valid_input inp -> valid_geometry inp -> not_restricted_with_extents inp -> levels_stay_populated inp ->
  build_tree inp = inl B -> nlevels (b_tree B) <= 30 ->
  1 <= well_sep_is_n_away P -> sources_are_targets P = same inp ->
  (forall b, source_boxes_mask P b = true) -> (forall b, source_parent_boxes_mask P b = true) ->
  (targets_have_extent (Traversal.extents P) = true -> wf_extent (Traversal.extents P)) ->
  (forall l, level_start_box_nrs P l = nth l (b_level_starts B) 0) ->
  (build_traversal (b_tree B) P = Some tr \/
   exists tr0, build_traversal (b_tree B) P = Some tr0 /\ merge_close_lists tr0 = Some tr) ->
  linear_library lib -> exact_library lib angle kern multipole local ->
  let t := b_tree B in let p := b_particles B in let d := dim t in
  let box_centers := fun b => point (coordinates d (box_center t b)) in
  make_wrangler k d d (nlevels t) (nsrc inp) root_extent (user_source_ids p) helmholtz_k level_to_order order dipole_vec already cutoff rot = inr wr ->
  (0 < root_extent)%Qc -> (forall a, helmholtz_k = Some a -> (0 <= a)%Qc) -> describes_dipoles (user_source_ids p) already dipole_vec dipoles ->
  (forall rd, rot = Some rd -> rotation_data_fits tr (fun A B => angle (box_centers A) (box_centers B)) rd) ->
  j < num_targets inp ->
  drive_fmm_lib lib wr complex_dipole times real_part t p (level_start_box_nrs P) box_centers
    (fun i => point (coordinates d (b_sources B i))) (fun i => point (coordinates d (b_targets B i))) tr weights j =
  with_factor times real_part k d
    (msum (map (fun u => kern (point (coordinates d (coord inp (first_target inp + j)))) (point (coordinates d (coord inp u)))
                              (user_strength k d complex_dipole weights dipoles u))
               (seq 0 (nsrc inp)))).
Proof.
  intros pt Wt D ang rmat M L V lib angle kern mu lo cd times rp point inp B P tr k re hk f o dip al cu rot wr w dp j
    VI G NR LP H D30 WS ST M1 M2 WE LV TR LIN EX t p d bc MW RE HK DD RD Hj.
  pose proof (C76_built_trees_qualify inp B P tr VI G NR LP H D30 WS ST M1 M2 WE LV TR) as I.
  destruct (C17_particles_are_permuted inp B VI H) as [N1 [N2 [U [S1 [_ [_ [T1 _]]]]]]].
  assert (LS : level_start_box_nrs P (nlevels t) = nboxes t).
  { destruct (built_levels inp B VI LP H) as [st [pth [_ [F [EB FULL]]]]]. rewrite LV. unfold t. rewrite EB.
    apply (finish_levels inp VI st pth F FULL). }
  rewrite <- N1 in *. rewrite <- N2 in Hj.
  apply (C93_exact_library_gives_direct_sum pt Wt D ang rmat M L V lib angle kern mu lo cd times rp t P p tr bc
    (fun i => point (coordinates d (b_sources B i))) (fun i => point (coordinates d (b_targets B i)))
    (fun u => point (coordinates d (coord inp u))) (fun j => point (coordinates d (coord inp (first_target inp + j))))
    k re hk f o dip al cu rot wr w dp j LIN EX I LS MW RE HK DD RD); auto.
  - intros i Hi. f_equal. apply map_ext. intros a. apply S1, Hi.
  - f_equal. apply map_ext. intros a. apply T1, Hj.
Qed.

(** ** Non-vacuity: the input of ExampleBuild.v with separate targets, an exact library, and a
    wrangler with dipoles. *)
Example built_lib_case : forall B, build_tree separate_input = inl B -> nlevels (b_tree B) <= 30 ->
  exists tr (wr : wrangler (Qc * Qc) (Qc * Qc)), build_traversal (b_tree B) (built_params separate_input B) = Some tr /\
    make_wrangler HELMHOLTZ (dim (b_tree B)) (dim (b_tree B)) (nlevels (b_tree B)) (nsrc separate_input) (Q2Qc 8) (user_source_ids (b_particles B))
      (Some (Q2Qc (1 # 3))) None (Some 2) (Some (dim (b_tree B), nsrc separate_input, fun u => (q_of (Z.of_nat u), q_of 2))) false 10 None = inr wr /\
    linear_library scaled_lib /\ exact_library scaled_lib sangle potential smultipole slocal /\
    fmm_input (b_tree B) (built_params separate_input B) (b_particles B) tr /\ 0 < num_targets separate_input.
Proof.
  intros B H D. destruct (built_case B H D) as [tr [T [I N]]]. exists tr.
  destruct (proj2 (C94_accepted_arguments (Qc * Qc) (Qc * Qc) HELMHOLTZ (dim (b_tree B)) (dim (b_tree B)) (nlevels (b_tree B)) (nsrc separate_input) (Q2Qc 8)
    (user_source_ids (b_particles B)) (Some (Q2Qc (1 # 3))) None (Some 2)
    (Some (dim (b_tree B), nsrc separate_input, fun u => (q_of (Z.of_nat u), q_of 2))) false 10 None)) as [wr E].
  { split; [auto|]. split; [left; discriminate|]. split; [eexists; split; [reflexivity|]; discriminate|].
    split; auto. intros r c d X. injection X as <- <- _. auto. }
  exists wr. split; auto. split; auto. split; [apply scaled_linear|]. split; [apply scaled_exact|]. split; auto.
Qed.

Print Assumptions C93_particles_to_potentials.
