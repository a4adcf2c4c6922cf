(** Concrete inputs for the particle tree builder. *)
From Coq Require Import List Arith ZArith Lia Bool.
From Verif Require Import Base Tree Fmm TreeBuild SpecBuild.
Import ListNotations.
Local Open Scope Z_scope.

Definition unit30 : Z := 1073741824.
(** root box [0, 16)^2 in steps of 2^30/16 *)
Definition tick : Z := 67108864.
Definition points_coord (pts : list (list Z)) (u a : nat) : Z := tick * nth a (nth u pts []) 0.

Definition example_input (pts : list (list Z)) (nsources : nat) (shared : bool) (extent : option extents) (w : list Z) (maxw : Z)
  (k : kind) (skip : bool) : input :=
  {| idim := 2; npart := length pts; nsrc := nsources; same := shared; coord := points_coord pts; ext := extent;
     weight := fun u => nth u w 1; max_weight := maxw; bbox_min := fun _ => 0; bbox_max := fun _ => unit30;
     build_kind := k; nlevels_max := 48; skip_prune := skip; nboxes_guess := 20; lr_lookbehind := 1 |}.

(** sources = targets, adaptive *)
Definition shared_points : list (list Z) := [[1;1]; [2;1]; [9;3]; [14;14]; [15;15]; [3;12]; [2;2]].
Definition shared_input := example_input shared_points 7 true None [] 2 Adaptive false.
(** four sources, three targets *)
Definition separate_input := example_input shared_points 4 false None [1;2;1;2;1;1;1] 3 Adaptive false.
Definition separate_unpruned := example_input shared_points 4 false None [1;2;1;2;1;1;1] 3 Adaptive true.
(** level restricted *)
Definition restricted_points : list (list Z) := [[7;7]; [6;7]; [8;7]; [14;14]; [7;6]].
Definition restricted_input := example_input restricted_points 5 true None [] 1 LevelRestricted false.
(** targets with extents *)
Definition radii (r : list Z) (nm : norm) : extents :=
  {| radius := fun u => tick * nth u r 0; sof_num := 1; sof_den := 4; extent_norm := nm |}.
Definition extent_input := example_input shared_points 4 false (Some (radii [0;0;0;0;1;0;4] Linf)) [] 2 Adaptive false.

Definition summary (r : built + error) :=
  match r with
  | inl B => let t := b_tree B in let p := b_particles B in
     Some (nlevels t, b_level_starts B,
      map (fun b => (box_level t b, box_parent t b, map (fun m => box_child t m b) (seq 0 4), box_flags t b,
        (box_source_starts p b, box_source_counts_nonchild p b, b_source_cumul B b),
        (box_target_starts p b, box_target_counts_nonchild p b, b_target_cumul B b),
        map (fun a => box_center t b a / tick) [0;1]%nat)) (seq 0 (nboxes t)),
      map (user_source_ids p) (seq 0 (nsources p)), map (sorted_target_ids p) (seq 0 (ntargets p)))
  | inr e => None
  end.

Local Close Scope Z_scope.
(** these inputs are valid *)
Definition example_ok (pts : list (list Z)) (nsources : nat) (shared : bool) (extent : option extents) (w : list Z) (maxw : Z) : bool :=
  (0 <? length pts) && (nsources <=? length pts) && implb shared (nsources =? length pts) &&
  implb (match extent with Some _ => true | None => false end) (negb shared) &&
  forallb (fun u => (0 <=? nth u w 1) && (nth u w 1 <=? maxw))%Z (seq 0 (length pts)) && (0 <? maxw)%Z && (maxw <=? INT_MAX)%Z.
Definition example_inside (pts : list (list Z)) : bool :=
  forallb (fun u => forallb (fun a => (0 <=? nth a (nth u pts []) 0) && (nth a (nth u pts []) 0 <? 16))%Z [0; 1]) (seq 0 (length pts)).
Lemma example_valid pts ns sh ex w mw k sk : example_ok pts ns sh ex w mw = true -> valid_input (example_input pts ns sh ex w mw k sk).
Proof.
  unfold example_ok. rewrite !andb_true_iff, !Nat.ltb_lt, Nat.leb_le, Z.ltb_lt, Z.leb_le, forallb_forall. intros [[[[[[H1 H2] H3] H4] H5] H6] H7].
  constructor; cbn [npart nsrc same weight max_weight nboxes_guess example_input]; auto; try lia.
  - intros ->. apply Nat.eqb_eq. exact H3.
  - unfold have_extent. cbn [ext example_input]. destruct ex; [|discriminate]. intros _. destruct sh; [discriminate H4|reflexivity].
  - intros u Hu. specialize (H5 u ltac:(apply in_seq; lia)). apply andb_true_iff in H5. destruct H5 as [A C]. apply Z.leb_le in A, C. lia.
Qed.
Lemma example_geometry pts ns sh ex w mw k sk : example_inside pts = true -> valid_geometry (example_input pts ns sh ex w mw k sk).
Proof.
  unfold example_inside. rewrite forallb_forall. intros H. constructor.
  - cbn. lia.
  - intros. reflexivity.
  - reflexivity.
  - exists 1%Z. reflexivity.
  - cbn [npart idim bbox_min bbox_max coord example_input]. intros u a Hu Ha. specialize (H u ltac:(apply in_seq; lia)).
    rewrite forallb_forall in H. specialize (H a). rewrite andb_true_iff, Z.leb_le, Z.ltb_lt in H.
    unfold points_coord, unit30, tick. destruct a as [|[|a]]; [specialize (H (or_introl eq_refl))|specialize (H (or_intror (or_introl eq_refl)))|]; lia.
Qed.
(** a boolean fact about the returned tree *)
Definition holds (inp : input) (check : built -> bool) : bool := match build_tree inp with inl B => check B | inr _ => false end.
Lemma holds_spec inp check : holds inp check = true -> exists B, build_tree inp = inl B /\ check B = true.
Proof. unfold holds. destruct (build_tree inp) as [B|]; [|discriminate]. intros. exists B. auto. Qed.
