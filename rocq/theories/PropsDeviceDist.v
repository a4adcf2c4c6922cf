(** * C102: the tree of a rank, set up on its device *)
From Coq Require Import List Arith ZArith NArith Lia Bool Permutation.
From Verif Require Import Base Tree Spec Traversal SpecTraversal Fmm SpecFmm FmmThm Partition LocalTree SpecDist Kernel Device DeviceRuns DeviceSeq DistDevice SpecDistDevice DevDistLocal
  ExampleTree PropsTraversal PropsFmm PropsPartition PropsDist.
Import ListNotations.

(** ** C102: no kernel of the setup accesses an array outside of its bounds, and it comes to an end *)
Theorem C102_setup_in_bounds t P p cumul have_extent tr boxes coords radii d :
  wf_tree t -> wf_params t P -> built_or_merged t P tr -> (forall b, In b boxes -> b < nboxes t) -> ranges_inside t p cumul ->
  device_has_global t p cumul have_extent tr boxes coords radii d ->
  safe darr darr_eq (local_tree_program (dist_arguments t p have_extent tr boxes)) d.
Proof. intros W WP BM BR RI G. destruct (local_tree_on_device t P p cumul have_extent tr boxes coords radii d W WP BM BR RI G) as [l [_ [S _]]]. exact S. Qed.
Theorem C102_setup_ends t P p cumul have_extent tr boxes coords radii d :
  wf_tree t -> wf_params t P -> built_or_merged t P tr -> (forall b, In b boxes -> b < nboxes t) -> ranges_inside t p cumul ->
  device_has_global t p cumul have_extent tr boxes coords radii d ->
  exists r d', completes darr darr_eq (local_tree_program (dist_arguments t p have_extent tr boxes)) d r d'.
Proof. intros. eapply safe_completes, C102_setup_in_bounds; eauto. Qed.

(** Whatever the order of the accesses, the device ends up with the tree that LocalTree.v says the
    rank works on, and the host with the indices of its particles. *)
Theorem C102_device_computes_the_local_tree t P p cumul have_extent tr boxes coords radii d r d' :
  wf_tree t -> wf_params t P -> built_or_merged t P tr -> (forall b, In b boxes -> b < nboxes t) -> ranges_inside t p cumul ->
  device_has_global t p cumul have_extent tr boxes coords radii d ->
  completes darr darr_eq (local_tree_program (dist_arguments t p have_extent tr boxes)) d r d' ->
  exists l, generate_local_tree t p (cumul Sources) (cumul Targets) have_extent tr boxes = Some l /\
    r = Some (lt_src_idx l, lt_tgt_idx l) /\ device_has_local t p cumul have_extent coords radii l d'.
Proof.
  intros W WP BM BR RI G C. destruct (local_tree_on_device t P p cumul have_extent tr boxes coords radii d W WP BM BR RI G) as [l [E [_ R]]].
  exists l. split; auto. Qed.

(** ** What that means for the particles: on the device of the rank, the boxes it is responsible for
    have their targets, and the source boxes their targets interact with directly have their
    sources, with their coordinates, in the order of the global tree *)
Definition has_particles (t : tree) (p : particles) (coords : side -> nat -> nat -> Z) (d : device darr) (s : side) (b : nat) : Prop :=
  cells d (LCounts s) (Z.of_nat b) = Z.of_nat (counts_of p s b) /\
  forall j a, j < counts_of p s b -> a < dim t ->
    cells d (LCoord s a) (cells d (LStarts s) (Z.of_nat b) + Z.of_nat j)%Z = coords s (starts_of p s b + j) a.
Theorem C102_particles_on_the_device t P p cumul have_extent tr boxes coords radii d r d' :
  wf_tree t -> wf_params t P -> wf_particles t p -> built_or_merged t P tr -> (forall b, In b boxes -> b < nboxes t) -> ranges_inside t p cumul ->
  device_has_global t p cumul have_extent tr boxes coords radii d ->
  completes darr darr_eq (local_tree_program (dist_arguments t p have_extent tr boxes)) d r d' ->
  (forall b, In b boxes -> has_particles t p coords d' Targets b) /\
  (forall b, b < nboxes t -> ~ In b boxes -> cells d' (LCounts Targets) (Z.of_nat b) = 0%Z) /\
  forall T b, In T boxes -> b < nboxes t -> In b (list1_of tr T) \/ (exists A, In A (ancestors_or_self t T) /\ In b (list4_of tr A)) ->
    has_particles t p coords d' Sources b.
Proof.
  intros W WP HP BM BR RI G C. destruct (C102_device_computes_the_local_tree t P p cumul have_extent tr boxes coords radii d r d' W WP BM BR RI G C) as [l [E [_ L]]].
  destruct (C39_local_particles t p _ _ _ _ _ l HP E) as [RS [_ [RT _]]].
  assert (M : get_box_masks t tr have_extent boxes = Some (lt_masks l)).
  { unfold generate_local_tree in E. destruct (get_box_masks t tr have_extent boxes); [|discriminate]. injection E as <-. auto. }
  destruct (C38_masks t tr have_extent boxes W BR) as [m [M' [M1 [_ [M3 [M4 _]]]]]]. rewrite M in M'. injection M' as <-.
  assert (GEN : forall s mask, restricted t mask (starts_of p s) (counts_of p s) (count_of p s) (local_index l s) (starts_of (lt_particles l) s) (counts_of (lt_particles l) s) ->
    forall b, b < nboxes t -> mask b = true -> has_particles t p coords d' s b).
  { intros s mask [R1 R2 R3 R4 R5] b Hb MB. specialize (R3 b Hb MB). specialize (R4 b Hb MB).
    assert (CE : counts_of (lt_particles l) s b = counts_of p s b) by (apply (f_equal (@length nat)) in R4; rewrite map_length, !seq_length in R4; auto).
    split; [rewrite (proj2 (l_counts _ _ _ _ _ _ _ _ L s) b Hb); auto|]. intros j a Hj Ha.
    rewrite (proj2 (l_starts _ _ _ _ _ _ _ _ L s) b Hb), <- Nat2Z.inj_add, (proj2 (l_coords _ _ _ _ _ _ _ _ L s a Ha)) by lia. f_equal.
    apply (f_equal (fun x => nth j x 0)) in R4. rewrite seq_nth in R4 by auto. rewrite <- R4, CE. set (g := fun k => nth k (local_index l s) 0).
    rewrite (nth_indep (map g _) 0 (g 0)) by (rewrite map_length, seq_length; auto). rewrite (map_nth g), seq_nth by auto. reflexivity. }
  split; [|split].
  - intros b Hb. apply (GEN Targets _ RT); auto. apply M1. auto.
  - intros b Hb N. rewrite (proj2 (l_counts _ _ _ _ _ _ _ _ L Targets) b Hb). cbn [counts_of]. rewrite (rs_empty _ _ _ _ _ _ _ _ RT); auto.
    destruct (bm_responsible (lt_masks l) b) eqn:EB; auto. exfalso. apply N, M1, EB.
  - intros T b HT Hb [H|[A [HA H]]]; apply (GEN Sources _ RS); auto; [apply (M3 T); auto|apply (M4 T A); auto].
Qed.

(** Two runs on devices that agree on nothing but the arguments end with the same tree. *)
Theorem C102_order_independent t P p cumul have_extent tr boxes coords radii d1 d2 r1 r2 d1' d2' :
  wf_tree t -> wf_params t P -> built_or_merged t P tr -> (forall b, In b boxes -> b < nboxes t) -> ranges_inside t p cumul ->
  device_has_global t p cumul have_extent tr boxes coords radii d1 -> device_has_global t p cumul have_extent tr boxes coords radii d2 ->
  completes darr darr_eq (local_tree_program (dist_arguments t p have_extent tr boxes)) d1 r1 d1' ->
  completes darr darr_eq (local_tree_program (dist_arguments t p have_extent tr boxes)) d2 r2 d2' ->
  r1 = r2 /\ exists l, device_has_local t p cumul have_extent coords radii l d1' /\ device_has_local t p cumul have_extent coords radii l d2'.
Proof.
  intros W WP BM BR RI G1 G2 C1 C2. destruct (C102_device_computes_the_local_tree t P p cumul have_extent tr boxes coords radii d1 r1 d1' W WP BM BR RI G1 C1) as [l [E [-> L1]]].
  destruct (C102_device_computes_the_local_tree t P p cumul have_extent tr boxes coords radii d2 r2 d2' W WP BM BR RI G2 C2) as [l2 [E2 [-> L2]]].
  rewrite E in E2. injection E2 as <-. eauto.
Qed.

(** ** A case meeting the hypotheses: the example tree with targets with extents, three ranks *)
Definition nths (l : list nat) (k : Z) : Z := z (nth (Z.to_nat k) l 0).
Definition list_cells (tr : traversal) (l : dlist) : csr :=
  match l with
  | Neighbors => neighbor_source_boxes tr | Siblings => from_sep_siblings tr | Bigger => from_sep_bigger tr
  | Smaller lev => snd (nth lev (from_sep_smaller_by_level tr) ([], csr_of []))
  | CloseSmaller => match from_sep_close_smaller tr with Some c => c | None => csr_of [] end
  | CloseBigger => match from_sep_close_bigger tr with Some c => c | None => csr_of [] end
  end.
(** a device with the arguments, and nothing else *)
Definition rank_device (t : tree) (p : particles) (cumul : side -> nat -> nat) (tr : traversal) (boxes : list nat) (coords : side -> nat -> nat -> Z) (radii : nat -> Z) : device darr :=
  let per_box (f : nat -> nat) := (fun k : Z => z (f (Z.to_nat k)), z (nboxes t)) in
  let of_list (l : list nat) := (nths l, z (length l)) in
  let contents (a : darr) : (Z -> Z) * Z := match a with
    | RespBoxes => of_list boxes | ParentIds => per_box (box_parent t) | Flags => (fun k => Z.of_N (box_flags t (Z.to_nat k)), z (nboxes t))
    | TargetList => of_list (target_boxes tr) | TargetOrParentList => of_list (target_or_target_parent_boxes tr)
    | SmallerList lev => of_list (fst (nth lev (from_sep_smaller_by_level tr) ([], csr_of [])))
    | ListStarts l => of_list (starts (list_cells tr l)) | ListEntries l => of_list (lists (list_cells tr l))
    | PStarts s => per_box (starts_of p s) | PCounts s => per_box (counts_of p s) | PCumul s => per_box (cumul s)
    | PCoord s a => (fun k => coords s (Z.to_nat k) a, z (count_of p s)) | PRadii s => (fun k => radii (Z.to_nat k), z (count_of p s))
    | _ => (fun _ => 0%Z, 0%Z) end in
  mkDevice (fun a => fst (contents a)) (fun a => snd (contents a)).
Lemma rank_device_ok t p cumul have_extent tr boxes coords radii : device_has_global t p cumul have_extent tr boxes coords radii (rank_device t p cumul tr boxes coords radii).
Proof.
  constructor; unfold lists_hold, list_holds, array_holds; cbn [rank_device cells size fst snd list_cells]; unfold nths;
    intros; repeat match goal with H : _ = Some _ |- _ => rewrite H end; repeat match goal with |- _ /\ _ => split end; auto; intros; rewrite ?Nat2Z.id; auto.
Qed.
Definition ex_cumuls (s : side) : nat -> nat := match s with Sources => table (ex_cumul ex_sc) | Targets => table (ex_cumul ex_tc) end.
Definition ex_coords (s : side) (i a : nat) : Z := z (match s with Sources => 100 | Targets => 200 end + 10 * a + i).
Definition ex_radii (i : nat) : Z := z (i + 1).
Definition ex_dist_trav : option traversal := build_traversal ex_tree (ex_dist_params true static_l2 0).
Definition is_some {A} (o : option A) : bool := match o with Some _ => true | None => false end.
Lemma some_of {A} (o : option A) : is_some o = true -> exists x, o = Some x.
Proof. destruct o; [eauto|discriminate]. Qed.
Lemma ex_dist_trav_built : exists tr, ex_dist_trav = Some tr.
Proof. apply some_of. vm_cast_no_check (eq_refl true). Qed.
Example C102_case : exists tr, ex_dist_trav = Some tr /\ forall r, r < 3 ->
  wf_tree ex_tree /\ wf_params ex_tree (ex_dist_params true static_l2 0) /\ wf_particles ex_tree ex_dfs_particles /\
  built_or_merged ex_tree (ex_dist_params true static_l2 0) tr /\ (forall b, In b (ex_boxes r) -> b < nboxes ex_tree) /\ ranges_inside ex_tree ex_dfs_particles ex_cumuls /\
  device_has_global ex_tree ex_dfs_particles ex_cumuls true tr (ex_boxes r) ex_coords ex_radii (rank_device ex_tree ex_dfs_particles ex_cumuls tr (ex_boxes r) ex_coords ex_radii) /\
  1 < length (ex_boxes r).
Proof.
  destruct ex_dist_trav_built as [tr E]. exists tr. split; [exact E|]. unfold ex_dist_trav in E. intros r Hr. destruct (ex_distributed_input true static_l2 0) as [W F HP N WP LS LC WE M1 M2 SA SZ ON].
  split; auto. split; auto. split; auto. split; [exists tr; split; [exact E|left; reflexivity]|].
  assert (X : forallb (fun r => forallb (fun b => b <? nboxes ex_tree) (ex_boxes r) && (1 <? length (ex_boxes r))) (seq 0 3) = true) by (vm_compute; reflexivity).
  rewrite forallb_forall in X. specialize (X r ltac:(apply in_seq; lia)). apply andb_true_iff in X. destruct X as [X1 X2]. rewrite forallb_forall in X1. apply Nat.ltb_lt in X2.
  split; [intros b Hb; apply Nat.ltb_lt; auto|]. split; [|split; [apply rank_device_ok|auto]].
  assert (Y : forallb (fun s => forallb (fun b => (counts_of ex_dfs_particles s b <=? ex_cumuls s b) && (starts_of ex_dfs_particles s b + ex_cumuls s b <=? count_of ex_dfs_particles s))
    (seq 0 (nboxes ex_tree))) [Sources; Targets] = true) by (vm_compute; reflexivity).
  rewrite forallb_forall in Y. intros s b Hb. specialize (Y s ltac:(destruct s; cbn; auto)). rewrite forallb_forall in Y. specialize (Y b ltac:(apply in_seq; lia)).
  apply andb_true_iff in Y. rewrite !Nat.leb_le in Y. exact Y.
Qed.
(** the program run on the device of rank 1, work item by work item: the indices of its targets, and
    starts, counts, first coordinates and radii on the device *)
Definition rank_run (t : tree) (p : particles) (cumul : side -> nat -> nat) (tr : traversal) (boxes : list nat) : option (list nat * list (list Z)) :=
  match seq_run darr darr_eq (local_tree_program (dist_arguments t p true tr boxes)) (rank_device t p cumul tr boxes ex_coords ex_radii) with
  | Some (Some (_, tgt), d) =>
    let read (a : darr) (l : list nat) := map (fun b => cells d a (z b)) l in
    Some (tgt, [read (LStarts Targets) boxes; read (LCounts Targets) boxes; read (LCoord Targets 0) (seq 0 (length tgt)); read (LRadii Targets) (seq 0 (length tgt))])
  | _ => None
  end.
Definition with_trav {A} (f : traversal -> option A) (o : option traversal) : option A := match o with Some tr => f tr | None => None end.
Definition ex_rank_run : option (list nat * list (list Z)) := with_trav (fun tr => rank_run ex_tree ex_dfs_particles ex_cumuls tr (ex_boxes 1)) ex_dist_trav.
Definition ex_rank_result : list nat * list (list Z) :=
  ([8; 9; 10; 11; 12; 13; 14; 15; 16],
   [[0; 0; 0; 1; 3; 4; 4; 4; 5; 6; 8]; [0; 0; 1; 2; 1; 0; 0; 1; 1; 2; 1]; [208; 209; 210; 211; 212; 213; 214; 215; 216]; [9; 10; 11; 12; 13; 14; 15; 16; 17]]%Z).
Example C102_run : ex_rank_run = Some ex_rank_result.
Proof. vm_cast_no_check (eq_refl (Some ex_rank_result)). Qed.

Print Assumptions C102_setup_in_bounds.
Print Assumptions C102_setup_ends.
Print Assumptions C102_device_computes_the_local_tree.
Print Assumptions C102_particles_on_the_device.
Print Assumptions C102_order_independent.
