(** * C88, C89: building the traversal on the device *)
From Coq Require Import List Arith ZArith NArith Lia Bool.
From Verif Require Import Base Tree Traversal SpecTraversal LevelStarts Kernel Device DeviceRuns DeviceSeq ListBuilder TravDevice SpecDeviceTrav DevTravThm
  ExampleTree PropsTraversal.
Import ListNotations.

(** ** C88: no kernel of the traversal accesses an array (or the stack of its tree walk) outside
    of its bounds, and the traversal comes to an end *)
Theorem C88_traversal_in_bounds t P source_mask parent_mask d :
  wf_tree t -> wf_params t P -> level_sorted t (level_start_box_nrs P) -> device_has_arguments t P source_mask parent_mask d ->
  safe varr varr_eq (traversal_program (scalar_arguments t P source_mask parent_mask)) d.
Proof. intros. apply traversal_on_device; auto. Qed.
Theorem C88_traversal_ends t P source_mask parent_mask d :
  wf_tree t -> wf_params t P -> level_sorted t (level_start_box_nrs P) -> device_has_arguments t P source_mask parent_mask d ->
  exists r d', completes varr varr_eq (traversal_program (scalar_arguments t P source_mask parent_mask)) d r d'.
Proof. intros. apply safe_completes, C88_traversal_in_bounds; auto. Qed.
(** the same for merge_close_lists *)
Theorem C88_merge_in_bounds t P tr d : wf_tree t -> wf_params t P -> build_traversal t P = Some tr ->
  targets_have_extent (extents P) = true -> device_has_traversal P tr d ->
  safe varr varr_eq (merge_close_program (length (target_boxes tr))) d.
Proof.
  intros W WP B E D. destruct (C11_merge_possible t P tr W (proj1 WP) B E) as [tr' M]. exact (proj1 (merge_on_device t P tr tr' d W WP B M D)).
Qed.

(** ** C89: whatever the order of the accesses, the device ends up with the lists of
    build_traversal (Traversal.v) *)
Theorem C89_device_computes_the_traversal t P source_mask parent_mask d r d' :
  wf_tree t -> wf_params t P -> level_sorted t (level_start_box_nrs P) -> device_has_arguments t P source_mask parent_mask d ->
  completes varr varr_eq (traversal_program (scalar_arguments t P source_mask parent_mask)) d r d' ->
  exists tr, build_traversal t P = Some tr /\ r = starts_of tr /\ device_has_traversal P tr d'.
Proof. intros W WP LS A C. apply (traversal_on_device t P source_mask parent_mask d W WP LS A). exact C. Qed.
Theorem C89_merge_on_device t P tr tr' d r d' : wf_tree t -> wf_params t P -> build_traversal t P = Some tr ->
  merge_close_lists tr = Some tr' -> device_has_traversal P tr d ->
  completes varr varr_eq (merge_close_program (length (target_boxes tr))) d r d' ->
  device_has_traversal P tr d' /\ lists_are d' Merged (neighbor_source_boxes tr').
Proof. intros W WP B M D C. exact (proj2 (merge_on_device t P tr tr' d W WP B M D) r d' C). Qed.
(** in particular two runs, on devices that agree on nothing but the arguments, agree on every
    cell of the lists *)
Theorem C89_order_independent t P source_mask parent_mask d1 d2 r1 r2 d1' d2' :
  wf_tree t -> wf_params t P -> level_sorted t (level_start_box_nrs P) ->
  device_has_arguments t P source_mask parent_mask d1 -> device_has_arguments t P source_mask parent_mask d2 ->
  completes varr varr_eq (traversal_program (scalar_arguments t P source_mask parent_mask)) d1 r1 d1' ->
  completes varr varr_eq (traversal_program (scalar_arguments t P source_mask parent_mask)) d2 r2 d2' ->
  r1 = r2 /\ exists tr, build_traversal t P = Some tr /\ device_has_traversal P tr d1' /\ device_has_traversal P tr d2'.
Proof.
  intros W WP LS A1 A2 C1 C2. destruct (C89_device_computes_the_traversal _ _ _ _ _ _ _ W WP LS A1 C1) as [tr [E [-> D1]]].
  destruct (C89_device_computes_the_traversal _ _ _ _ _ _ _ W WP LS A2 C2) as [tr2 [E2 [-> D2]]]. rewrite E in E2. injection E2 as <-. eauto.
Qed.

(** ** A case meeting the hypotheses: the 29-box tree of ExampleTree.v with every separation
    criterion, with masks, and a device holding it *)
Definition arguments (t : tree) (P : trav_params) (lo hi : nat -> nat -> Z) : device varr :=
  let st := z ((nboxes t + 31) / 32 * 32) in
  let row k := Z.to_nat (k / st) in let col k := Z.to_nat (k mod st) in
  mkDevice (fun a k => match a with
    | Base BoxCenters => box_center t (col k) (row k)
    | Base BoxChildren => z (box_child t (row k) (col k))
    | Base BoxLevels => z (box_level t (Z.to_nat k))
    | Base BoxParents => z (box_parent t (Z.to_nat k))
    | Base BoxFlags => Z.of_N (box_flags t (Z.to_nat k))
    | Base LevelStartBoxNrs => z (level_start_box_nrs P (Z.to_nat k))
    | Base SourceMask => if source_boxes_mask P (Z.to_nat k) then 1 else 0
    | Base SourceParentMask => if source_parent_boxes_mask P (Z.to_nat k) then 1 else 0
    | Base TargetMin => lo (col k) (row k)
    | Base TargetMax => hi (col k) (row k)
    | Base SourceCounts => z (box_source_counts_cumul (extents P) (Z.to_nat k))
    | _ => 0 end)%Z
  (fun a => match a with
    | Base BoxCenters | Base TargetMin | Base TargetMax => z (dim t * ((nboxes t + 31) / 32 * 32))
    | Base BoxChildren => z (2 ^ dim t * ((nboxes t + 31) / 32 * 32))
    | Base LevelStartBoxNrs => z (nlevels t)
    | Base _ => z (nboxes t)
    | _ => 0 end)%Z.
Lemma stride_index n r k : k < n -> let st := (n + 31) / 32 * 32 in
  Z.to_nat (z (r * st + k) / z st) = r /\ Z.to_nat (z (r * st + k) mod z st) = k.
Proof.
  intros H st. assert (X : n <= st).
  { assert (D := Nat.div_mod (n + 31) 32 ltac:(lia)). assert (E := Nat.mod_upper_bound (n + 31) 32 ltac:(lia)). unfold st. lia. }
  clearbody st. rewrite Nat2Z.inj_add, Nat2Z.inj_mul.
  rewrite Z.add_comm, Z.div_add, Z_mod_plus_full by lia. rewrite Z.div_small, Z.mod_small by lia. rewrite Z.add_0_l, !Nat2Z.id. auto.
Qed.
Lemma arguments_ok t P lo hi : (forall a b, tgt_ext_center2 (extents P) b a = (lo b a + hi b a)%Z) -> (forall a b, tgt_ext_radius2 (extents P) b a = (hi b a - lo b a)%Z) ->
  device_has_arguments t P true true (arguments t P lo hi).
Proof.
  intros C R.
  constructor; unfold has_rows, starts_with, mask_is; cbv zeta; cbn [arguments cells size];
    try (split; [lia|]; intros r k Hr Hk; destruct (stride_index (nboxes t) r k Hk) as [-> ->]; auto);
    try (split; [lia|]; intros k Hk; rewrite ?Nat2Z.id; auto).
  - destruct (source_boxes_mask P k); split; auto; discriminate.
  - destruct (source_parent_boxes_mask P k); split; auto; discriminate.
  - intros _ _. exists lo, hi. split; [|split; auto]; (split; [lia|]; intros r k Hr Hk; destruct (stride_index (nboxes t) r k Hk) as [-> ->]; auto).
Qed.
Definition ex_device (P : trav_params) : device varr :=
  arguments ex_tree P (fun b i => (box_center ex_tree b i - box_rad ex_tree b)%Z) (fun b i => (box_center ex_tree b i + box_rad ex_tree b)%Z).
Example C88_case : forall n have crit k, 1 <= n -> let P := ex_params n (ex_extent have crit k) in
  wf_tree ex_tree /\ wf_params ex_tree P /\ level_sorted ex_tree (level_start_box_nrs P) /\ device_has_arguments ex_tree P true true (ex_device P).
Proof.
  intros n have crit k Hn P. destruct ex_tree_wf as [W [_ L]]. destruct (ex_params_wf n have crit k Hn) as [WP _].
  split; [auto|]. split; [auto|]. split; [auto|]. apply arguments_ok; intros a b; cbn [P ex_params ex_extent extents tgt_ext_center2 tgt_ext_radius2]; lia.
Qed.
(** the program run on that device, work item by work item: the lists of merged close lists 4 *)
Example C89_case :
  let P := ex_params 1 (ex_extent true static_l2 2) in
  option_map (fun rd => let a := Lists SepCloseBigger in (h_target (fst rd), map (fun k => cells (snd rd) a (z k)) (seq 0 (Z.to_nat (size (snd rd) a)))))
    (seq_run varr varr_eq (traversal_program (scalar_arguments ex_tree P true true)) (ex_device P))
  = Some ([0; 0; 0; 12; 15; 18], [5; 7; 13; 14; 17; 5; 11; 17; 5; 7; 13; 23; 5; 7; 22; 5; 5; 7]%Z).
Proof. vm_cast_no_check (eq_refl (Some ([0; 0; 0; 12; 15; 18], [5; 7; 13; 14; 17; 5; 11; 17; 5; 7; 13; 23; 5; 7; 22; 5; 5; 7]%Z))). Qed.

Print Assumptions C88_traversal_in_bounds.
Print Assumptions C88_traversal_ends.
Print Assumptions C88_merge_in_bounds.
Print Assumptions C89_device_computes_the_traversal.
Print Assumptions C89_merge_on_device.
Print Assumptions C89_order_independent.
