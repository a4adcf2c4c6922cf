(** The device after the level loop computes [finish]. *)
From Coq Require Import List Arith ZArith NArith Lia Bool Permutation.
From Verif Require Import Base Tree Walk Traversal Fmm SpecFmm TreeBuild ArrayFacts Kernel Device DeviceRules DeviceFacts BuildDevice
  BuildDeviceEnd BuildInv BuildDone BuildPrune BuildFull BuildSplit BuildFinish BuildThm SpecBuild BuildView DevTrip DevTake DevPrune DevSplit DevInfo
  DevExtents SpecDeviceEnd.
Import ListNotations.

Section Carry.
Variable inp : input.
Variable st : state.
(** what is known when the level loop has been left *)
Definition carried : knownp := mkKnown
  (fun x => match x with Kept a => lenv inp st a | _ => None end)
  (fun x k => match x with Kept a => cellv inp st nothing a k | _ => None end).
Lemma carry_agrees d : agrees (view inp st nothing) d -> agrees carried (carry d).
Proof.
  intros [A B]. split.
  - intros x m. cbn [carried len carry size]. destruct x; try discriminate. apply A.
  - intros x m k v. cbn [carried len val carry cells]. destruct x; try discriminate. apply B.
Qed.
Lemma carried_has a m f : lenv inp st a = Some (z m) -> (forall k, cellv inp st nothing a k = Some (f k)) -> has carried (Kept a) m m f.
Proof. intros L V. constructor; cbn [carried len val]; auto. Qed.
Lemma carried_facts : loop_facts inp st carried.
Proof.
  constructor; try (apply carried_has; reflexivity).
  - intros E. apply carried_has; [cbn [lenv field_in]; rewrite E|]; reflexivity.
  - intros m Hm. apply carried_has; [cbn [lenv]|reflexivity]. apply Nat.ltb_lt in Hm. rewrite Hm. reflexivity.
  - intros a Ha. apply carried_has; [cbn [lenv]|reflexivity]. apply Nat.ltb_lt in Ha. rewrite Ha. reflexivity.
  - constructor; [reflexivity|lia|]. intros k Hk. lia.
  - intros a Ha. apply carried_has; [cbn [lenv]|reflexivity]. apply Nat.ltb_lt in Ha. rewrite Ha. reflexivity.
  - intros E. apply carried_has; [cbn [lenv]; rewrite E|]; reflexivity.
Qed.
End Carry.

Section Finish.
Variable inp : input.
Hypothesis V : valid_input inp.
Variable st : state.
Variable pth : nat -> list nat.
Hypothesis F : fin inp st pth.
Hypothesis FT : fits inp st.
Hypothesis FULL : skip_prune inp = true \/ populated inp st pth.
Notation ps := (prune inp st).
Notation q := (pq inp st pth).
Notation sp := (psp inp st).
Notation n := (p_nboxes ps).
Notation R := (the_split inp ps).
Notation B := (finish inp st).
Lemma EXT : have_extent inp = true -> same inp = false.
Proof. apply (v_ext _ V). Qed.

Lemma lev l : S l < length (p_lstart ps) -> nth l (p_lstart ps) 0 <= nth (S l) (p_lstart ps) 0 <= n.
Proof.
  rewrite (p_lstart_length inp st pth F). intros Hl. assert (FU := full inp V st pth F FULL).
  rewrite !(p_lstart_nth inp st pth F (NP inp V) FU) by lia.
  assert (A := before_lt inp st pth F (NP inp V) FU l ltac:(lia)). assert (C := before_le inp st pth (S l)). lia.
Qed.
Lemma down l b m : S l < length (p_lstart ps) -> nth l (p_lstart ps) 0 <= b < nth (S l) (p_lstart ps) 0 -> m < nchild inp ->
  p_child ps m b <> 0 -> nth (S l) (p_lstart ps) 0 <= p_child ps m b < n.
Proof.
  intros Hl Hb Hm C. assert (LV := lev l Hl). rewrite (p_lstart_length inp st pth F) in Hl.
  assert (Hbn : b < n) by lia. destruct (child_nonzero_path inp ps q sp (PI inp V st pth F) m b Hbn Hm C) as [Hc E].
  split; [|exact Hc].
  apply (lstart_iff inp V st pth F FULL); [lia|exact Hc|]. rewrite E, app_length. cbn [length].
  assert (X := proj1 (lstart_iff inp V st pth F FULL l b ltac:(lia) Hbn) (proj1 Hb)). lia.
Qed.

Lemma box_extents_ext pick reach pst pst' pct pct' : (forall b, pst b = pst' b) -> (forall b, pct b = pct' b) ->
  forall b a, box_extents inp ps pick reach pst pct b a = box_extents inp ps pick reach pst' pct' b a.
Proof.
  intros E1 E2. unfold box_extents.
  assert (H : forall ls bb bb', (forall b a, bb b a = bb' b a) -> forall b a,
    fold_left (extents_level inp ps pick reach pst pct) ls bb b a = fold_left (extents_level inp ps pick reach pst' pct') ls bb' b a).
  { induction ls as [|l ls IH]; intros bb bb' EB b a; cbn [fold_left]; auto. apply IH. intros b' a'.
    unfold extents_level.
    assert (LE : forall bs, scatter (map (fun b => (b, kernel_map (idim inp) (box_extent inp ps pick reach pst pct bb b) (fun _ => 0%Z))) bs) bb b' a' =
      scatter (map (fun b => (b, kernel_map (idim inp) (box_extent inp ps pick reach pst' pct' bb' b) (fun _ => 0%Z))) bs) bb' b' a').
    { intros bs. destruct (in_dec Nat.eq_dec b' bs) as [I|I].
      - rewrite (scatter_map_in (fun b => b) (fun b => kernel_map (idim inp) (box_extent inp ps pick reach pst pct bb b) (fun _ => 0%Z)) bs bb b' I) by (intros; subst; auto).
        rewrite (scatter_map_in (fun b => b) (fun b => kernel_map (idim inp) (box_extent inp ps pick reach pst' pct' bb' b) (fun _ => 0%Z)) bs bb' b' I) by (intros; subst; auto).
        destruct (Nat.lt_ge_cases a' (idim inp)); [|rewrite !kernel_map_ge by auto; auto]. rewrite !kernel_map_lt by auto.
        unfold box_extent. rewrite E1, E2.
        assert (FE : forall ms x, fold_left (fun acc m => let c := p_child ps m b' in if c =? 0 then acc else pick acc (bb c a')) ms x =
          fold_left (fun acc m => let c := p_child ps m b' in if c =? 0 then acc else pick acc (bb' c a')) ms x).
        { induction ms as [|m ms IHm]; intros x; cbn [fold_left]; auto. cbn zeta. rewrite EB. apply IHm. }
        apply FE.
      - rewrite !scatter_map_notin; auto; intros y Hy E; subst; auto. }
    apply LE. }
  apply H. auto.
Qed.
Lemma same_tnc b : same inp = true -> info_target_nonchild inp ps R b = info_source_nonchild inp ps R b.
Proof.
  intros SM. unfold info_target_nonchild, info_source_nonchild, nonchild_source_count, nonchild_target_count, the_split.
  destruct (Nat.lt_ge_cases b n); [rewrite !kernel_map_lt by auto|rewrite !kernel_map_ge by auto; auto].
  rewrite SM. auto.
Qed.
Definition finished (r : nat * list nat) (d : device parray) : Prop :=
  r = (nboxes (b_tree B), b_level_starts B) /\ device_has_tree inp B d.

Lemma rows_at (K : knownp) x (f : nat -> nat -> Z) d : has K x (idim inp * aligned_nboxes n) (idim inp * aligned_nboxes n) (bounds ps f) -> agrees K d ->
  holds_rows d x (idim inp) n (fun a b => f b a).
Proof.
  intros H A. destruct (has_agrees _ K x _ _ _ d H A) as [S C]. split; [exact S|]. intros r k Hr Hk.
  change ((n + 31) / 32 * 32) with (aligned_nboxes n). assert (NA := aligned_ge n).
  rewrite C by nia. apply (bounds_at ps); auto; lia.
Qed.
Theorem finish_refines K : loop_facts inp st K -> okp K (finish_program inp (host_of st)) finished.
Proof.
  intros L. unfold finish_program. cbn [host_of h_lstart h_used].
  assert (P := PI inp V st pth F). assert (NS := NSL inp V). assert (SAME := SM inp V).
  assert (NA := aligned_ge n). assert (NPB := pi_pos _ _ _ _ P).
  refine (prune_ok inp st pth F (NP inp V) FT K _ _ L _). clear K L. intros K PF. destruct PF.
  change (length (src_boxes inp st)) with n in *.
  refine (split_ok inp ps q sp (box_room inp st) P NS SAME EXT K _ _ _ _); [constructor; auto|]. intros K1 H1.
  refine (points_ok inp ps q sp (box_room inp st) P NS SAME EXT K1 _ _ H1 _). intros K2 H2.
  refine (tables_ok inp ps q sp (box_room inp st) P NS SAME EXT K2 _ _ H2 _). intros K3 H3.
  refine (info_ok inp ps q sp (box_room inp st) P NS SAME EXT K3 _ _ H3 _). intros K4 H4.
  refine (extents_ok inp ps q sp (box_room inp st) P NS SAME EXT lev down K4 _ _ H4 _). intros K5 H5.
  apply ok_ret. intros d A. split; [reflexivity|].
  assert (NF := xf_info _ _ _ _ _ _ _ _ H5).
  assert (HO : forall x m f, has K5 x m m f -> holds d x m f) by (intros x m f H; apply (has_agrees _ K5 x m m f d H A)).
  assert (HF : forall x r m f, has K5 x r m f -> holds_first d x m f).
  { intros x r m f H. destruct (has_agrees _ K5 x r m f d H A) as [S C]. split; [|exact C]. rewrite S. destruct H. lia. }
  assert (XN : ext inp <> None -> have_extent inp = true) by (unfold have_extent; destruct (ext inp); [auto|congruence]).
  assert (TX : forall x rows (g : nat -> nat -> Z), has K5 x (rows * aligned_nboxes n) (rows * aligned_nboxes n) (table (aligned_nboxes n) n g) -> holds_rows d x rows n g).
  { intros x rows g H. destruct (has_agrees _ K5 x _ _ _ d H A) as [S C]. split; [exact S|]. intros r k Hr Hk.
    change ((n + 31) / 32 * 32) with (aligned_nboxes n). rewrite C by nia. apply table_at; lia. }
  assert (TM : holds_rows d (target_min inp) (idim inp) n (fun a b => b_target_bbox_min B b a) /\
               holds_rows d (target_max inp) (idim inp) n (fun a b => b_target_bbox_max B b a)).
  { assert (CA : {same inp = true} + {same inp = false}) by (destruct (same inp); auto). destruct CA as [SA|SA].
    - assert (RE : forall x f g, holds_rows d x (idim inp) n (fun a b => f b a) -> (forall b a, f b a = g b a) -> holds_rows d x (idim inp) n (fun a b => g b a)).
      { intros x f g [X1 X2] E. split; [exact X1|]. intros r k Hr Hk. rewrite <- E. apply X2; auto. }
      assert (RS : R = share_particles inp ps) by (unfold the_split; rewrite SA; auto).
      assert (TM : target_min inp = SourceMin) by (unfold target_min; rewrite SA; auto).
      assert (TX' : target_max inp = SourceMax) by (unfold target_max; rewrite SA; auto).
      rewrite TM, TX'. split.
      + apply RE with (f := b_source_bbox_min B); [apply (rows_at K5); auto; apply (xf_smin _ _ _ _ _ _ _ _ H5)|].
        intros b a. assert (E := box_extents_ext Z.min (fun i a => (coord inp (sp_source_ids R i) a - rad_of inp (sp_source_ids R i))%Z) (sp_source_starts R) (sp_target_starts R)
          (info_source_nonchild inp ps R) (info_target_nonchild inp ps R) ltac:(intros; rewrite RS; reflexivity) ltac:(intros; symmetry; apply same_tnc; auto) b a).
        etransitivity; [exact E|]. assert (E2 : sp_source_ids R = sp_target_ids R) by (rewrite RS; reflexivity). rewrite E2. reflexivity.
      + apply RE with (f := b_source_bbox_max B); [apply (rows_at K5); auto; apply (xf_smax _ _ _ _ _ _ _ _ H5)|].
        intros b a. assert (E := box_extents_ext Z.max (fun i a => (coord inp (sp_source_ids R i) a + rad_of inp (sp_source_ids R i))%Z) (sp_source_starts R) (sp_target_starts R)
          (info_source_nonchild inp ps R) (info_target_nonchild inp ps R) ltac:(intros; rewrite RS; reflexivity) ltac:(intros; symmetry; apply same_tnc; auto) b a).
        etransitivity; [exact E|]. assert (E2 : sp_source_ids R = sp_target_ids R) by (rewrite RS; reflexivity). rewrite E2. reflexivity.
    - assert (TM : target_min inp = TargetMin) by (unfold target_min; rewrite SA; auto).
      assert (TX' : target_max inp = TargetMax) by (unfold target_max; rewrite SA; auto).
      rewrite TM, TX'. split; apply (rows_at K5); auto; [apply (xf_tmin _ _ _ _ _ _ _ _ H5 SA)|apply (xf_tmax _ _ _ _ _ _ _ _ H5 SA)]. }
  constructor.
  - intros a Ha. apply HO. exact (nf_src _ _ _ _ NF a Ha).
  - intros a Ha. apply HO. exact (nf_tgt _ _ _ _ NF a Ha).
  - intros E. apply HO. exact (nf_srad _ _ _ _ NF (XN E)).
  - intros E. apply HO. exact (nf_trad _ _ _ _ NF (XN E)).
  - apply HO. exact (nf_sids _ _ _ _ NF).
  - apply HO. exact (nf_sorted _ _ _ _ NF).
  - eapply HF. exact (nf_sstart _ _ _ _ NF).
  - apply HO. exact (nf_snc _ _ _ _ NF).
  - eapply HF. exact (nf_scount _ _ _ _ NF).
  - eapply HF. exact (nf_tstart _ _ _ _ NF).
  - apply HO. exact (nf_tnc _ _ _ _ NF).
  - eapply HF. exact (nf_tcount _ _ _ _ NF).
  - eapply HF. exact (bf_parent _ _ _ _ (nf_box _ _ _ _ NF)).
  - eapply HF. exact (bf_level _ _ _ _ (nf_box _ _ _ _ NF)).
  - apply TX. exact (nf_child _ _ _ _ NF).
  - apply TX. exact (nf_center _ _ _ _ NF).
  - apply HO. exact (nf_flags _ _ _ _ NF).
  - apply (rows_at K5); auto. apply (xf_smin _ _ _ _ _ _ _ _ H5).
  - apply (rows_at K5); auto. apply (xf_smax _ _ _ _ _ _ _ _ H5).
  - apply TM.
  - apply TM.
Qed.
End Finish.
