(** Property C114: rounding of costs. *)
From Coq Require Import List Arith ZArith NArith Lia Bool Permutation SpecFloat QArith Qcanon.
From Verif Require Import Base Tree Spec TreeFacts Traversal SpecTraversal LevelStarts Fmm SpecFmm Partition PartitionFacts LocalTree SpecDist Distributed
  CheckTree ExampleTree PropsPartition PropsDist Cost CostFacts FmmGen Layout FmmLib SpecFmmLib PropsFmmLib DistributedLib SpecDistLib DistLibThm PropsDistLib
  Runner RunnerFacts PropsRunner PartitionFloat.
From Verif Require Import TreeBuild SpecBuild.
From Verif Require PropsBuild PropsDistBuild PropsFmmLibBuild ExampleBuild.
Import ListNotations.
Local Open Scope nat_scope.

(** ** The model of C112 is the one with exact numbers *)
Lemma loop_exact n size total : forall costs i start seg w,
  segment_loop_in exact_costs n size total costs i start seg w = segment_loop_q n size total costs i start seg w.
Proof.
  induction costs as [|c costs IH]; intros i start seg w; [reflexivity|]. cbn [segment_loop_in segment_loop_q].
  destruct (seg + 1 =? size); auto. cbv zeta. cbn [cplus exceeds exact_costs]. destruct (_ || _); [f_equal|]; apply IH.
Qed.
Theorem C114_exact : forall t cost size rank, partition_work_in exact_costs t cost size rank = partition_work_q t cost size rank.
Proof.
  intros. unfold partition_work_in, partition_work_q. destruct (_ <? _); auto. destruct (get_box_ids_dfs_order t); auto.
  cbv zeta. rewrite loop_exact. reflexivity.
Qed.

Lemma chain_in A n size total : forall costs i start seg work,
  seg < size -> start <= i -> i + length costs = n -> (costs = [] -> start = n) ->
  chain_of start (segment_loop_in A n size total costs i start seg work) n /\
  length (segment_loop_in A n size total costs i start seg work) <= size - seg.
Proof.
  induction costs as [|c costs IH]; intros i start seg work HS HI HN HE; cbn [segment_loop_in length] in *.
  - split; [cbn; auto|lia].
  - destruct (Nat.eqb_spec (seg + 1) size) as [E|NE]; [cbn; repeat split; try lia|]. cbv zeta.
    destruct (_ || _) eqn:C.
    + destruct (IH (i + 1) (i + 1) (seg + 1) (cplus A work c)) as [X1 X2]; try lia.
      { intros ->. cbn in HN. lia. }
      cbn [chain_of length]. repeat split; auto; lia.
    + destruct (IH (i + 1) start seg (cplus A work c)) as [X1 X2]; auto; try lia.
      intros ->. apply orb_false_iff in C. destruct C as [_ C]. apply Nat.eqb_neq in C. cbn in HN. lia.
Qed.

(** ** Whatever the arithmetic, the boxes are handed out once each *)
Theorem C114_assignment : forall A t cost size, wf_tree t -> 1 <= size -> size <= nboxes t ->
  exists order k, get_box_ids_dfs_order t = Some order /\ 1 <= k <= size /\
    concat (map (fun r => boxes_of (partition_work_in A t cost size r)) (seq 0 size)) = order /\
    forall r, r < size ->
      if r <? k then exists l, partition_work_in A t cost size r = Responsible l /\ l <> []
      else partition_work_in A t cost size r = Uninitialised.
Proof.
  intros A t cost size W S1 S2. destruct (C36_dfs_order t W) as [order [EO [PO _]]].
  assert (LO : length order = nboxes t) by (rewrite (Permutation_length PO), seq_length; auto).
  unfold partition_work_in. destruct (Nat.ltb_spec (nboxes t) size); [lia|]. rewrite EO. cbv zeta.
  set (total := csum A (map cost (seq 0 (nboxes t)))).
  set (segs := segment_loop_in A (nboxes t) size total (map cost order) 0 0 0 (czero A)).
  destruct (chain_in A (nboxes t) size total (map cost order) 0 0 0 (czero A)) as [C L]; rewrite ?map_length; try lia.
  { intros E. apply map_eq_nil in E. subst order. cbn in LO. lia. }
  fold segs in C, L. exists order, (length segs). split; auto. split; [split; [|lia]|split].
  - destruct segs; cbn [chain_of length] in *; [|lia]. assert (X := wf_nboxes t W). lia.
  - destruct (chain_concat order segs 0 (nboxes t) C) as [_ E].
    assert (F : py_slice order 0 (nboxes t) = order) by (unfold py_slice; rewrite Nat.sub_0_r, <- LO; cbn [skipn]; apply firstn_all).
    rewrite F in E. transitivity (concat (map (fun p => py_slice order (fst p) (snd p)) segs)); [|exact E]. clear - L.
    assert (G : forall segs k, concat (map (fun r => boxes_of match nth_error segs r with
       | Some (s, e) => Responsible (py_slice order s e) | None => Uninitialised end) (seq 0 (length segs + k))) =
       concat (map (fun p => py_slice order (fst p) (snd p)) segs)).
    { induction segs0 as [|[a b] segs0 IH]; intros k.
      - cbn [length Nat.add map concat]. generalize 0. induction k as [|k IK]; intros i; cbn [seq map concat]; auto.
        rewrite IK. destruct i; reflexivity.
      - cbn [length Nat.add seq map concat fst snd]. rewrite <- seq_shift, map_map. cbn [nth_error boxes_of].
        rewrite IH. reflexivity. }
    rewrite <- (G segs (size - length segs)). replace (length segs + (size - length segs)) with size by lia. reflexivity.
  - intros r Hr. destruct (Nat.ltb_spec r (length segs)) as [K|K].
    + destruct (nth_error segs r) as [[a b]|] eqn:E; [|apply nth_error_None in E; lia].
      eexists. split; [reflexivity|]. clear - C E LO.
      assert (B : a < b /\ b <= nboxes t).
      { revert C E. generalize 0 as s. revert r. induction segs as [|[x y] l IH]; intros r s C E; [destruct r; discriminate|].
        destruct C as [-> [XY C]]. destruct r as [|r]; [injection E as <- <-; split; auto|apply (IH r y); auto].
        destruct (chain_concat order _ _ _ C). auto. }
      intros Z. apply (f_equal (@length nat)) in Z. unfold py_slice in Z. rewrite firstn_length, skipn_length in Z. cbn in Z. lia.
    + apply nth_error_None in K. rewrite K. auto.
Qed.

(** ** ... so that rounding does not change the potentials *)
Theorem C114_potentials_do_not_depend_on_rounding :
  forall A (cost : nat -> cnum A) (pt Wt D ang rmat : Type) (M L V : cmonoid) (lib : library pt (strength Wt D) ang rmat M L V)
    angle kern multipole local complex_dipole times real_part (point : list Z -> pt) inp B P tr size boxes merge loc trl wr
    k root_extent helmholtz_k level_to_order order dipoles cutoff rot rendezvous weights result j,
  runner_input inp B P tr size -> linear_library lib -> exact_library lib angle kern multipole local ->
  let t := b_tree B in let p := b_particles B in let d := dim t in
  let box_centers := fun b => point (coordinates d (box_center t b)) in
  (0 < root_extent)%Qc -> (forall a, helmholtz_k = Some a -> (0 <= a)%Qc) ->
  (forall r, r < size -> partition_work_in A t cost size r = Responsible (boxes r)) ->
  wranglers_made t size loc wr k root_extent helmholtz_k level_to_order order (fun r => rank_dipoles t p (loc r) dipoles) true cutoff rot ->
  (forall r rd, r < size -> rot r = Some rd -> rotation_data_fits (trl r) (fun A B => angle (box_centers A) (box_centers B)) rd) ->
  distributed_execution_lib lib complex_dipole times real_part t p (b_source_cumul B) (b_target_cumul B) P tr size boxes merge box_centers
    (fun i => point (coordinates d (b_sources B i))) (fun i => point (coordinates d (b_targets B i))) loc trl wr rendezvous weights result ->
  j < num_targets inp ->
  result j = with_factor times real_part k d
    (msum (map (fun u => kern (point (coordinates d (coord inp (first_target inp + j)))) (point (coordinates d (coord inp u)))
                              (user_strength k d complex_dipole weights dipoles u)) (seq 0 (nsrc inp)))).
Proof.
  intros A cost pt Wt D ang rmat M L V lib angle kern mu lc cd times rp point inp B P tr size boxes merge loc trl wr k re hk f o dip cu rot rdv w result j I LIN EX
    t p d bc RE HK BX MADE ROT X Hj.
  pose proof (input_tree _ _ _ _ _ I) as W. fold t in W. pose proof (ri_ranks _ _ _ _ _ I) as S1.
  destruct (PropsBuild.C17_particles_are_permuted inp B (ri_valid _ _ _ _ _ I) (ri_built _ _ _ _ _ I)) as [N1 [N2 [_ [SS [_ [_ [T1 _]]]]]]].
  assert (S2 : size <= nboxes t).
  { specialize (BX 0 S1). unfold partition_work_in in BX. destruct (Nat.ltb_spec (nboxes t) size); [discriminate|auto]. }
  assert (DI : distributed_input t p (b_target_cumul B) P size boxes).
  { assert (I1 : runner_input inp B P tr 1) by (destruct I; split; auto; lia).
    assert (D1 : distributed_input t p (b_target_cumul B) P 1 (fun _ => boxes_of (partition_work_q t (fun _ => 1%Qc) 1 0))).
    { apply (input_distributed inp B P tr 1 (fun _ => 1%Qc) _ I1). intros r Hr. replace r with 0 by lia.
      destruct (C112_assignment t (fun _ => 1%Qc) 1 W (le_n 1) (wf_nboxes _ W)) as [od [kk [_ [K [_ Y]]]]]. specialize (Y 0 ltac:(lia)).
      destruct (Nat.ltb_spec 0 kk); [|lia]. destruct Y as [l [Y _]]. fold t. rewrite Y. reflexivity. }
    destruct D1. split; auto; [apply (ri_size _ _ _ _ _ I)|].
    destruct (C114_assignment A t cost size W S1 S2) as [od [kk [EO [_ [CC _]]]]]. destruct (C36_dfs_order t W) as [od' [EO' [PO _]]].
    rewrite EO in EO'. injection EO' as <-. unfold every_box_once.
    replace (map boxes (seq 0 size)) with (map (fun r => boxes_of (partition_work_in A t cost size r)) (seq 0 size)); [rewrite CC; auto|].
    apply map_ext_in. intros r Hr. apply in_seq in Hr. rewrite BX by lia. reflexivity. }
  rewrite <- N1.
  apply (C111_exact_library_gives_direct_sum pt Wt D ang rmat M L V lib angle kern mu lc cd times rp t p (b_source_cumul B) (b_target_cumul B) P tr size boxes merge bc
    (fun i => point (coordinates d (b_sources B i))) (fun i => point (coordinates d (b_targets B i)))
    (fun u => point (coordinates d (coord inp u))) (fun j => point (coordinates d (coord inp (first_target inp + j))))
    loc trl wr k re hk f o dip cu rot rdv w result j LIN EX DI (ri_threshold _ _ _ _ _ I) (ri_trav _ _ _ _ _ I) MADE RE HK ROT); auto.
  - intros i Hi. f_equal. apply map_ext. intros q. apply SS, Hi.
  - fold p in N2. lia.
  - f_equal. apply map_ext. intros q. apply T1. fold p in N2 |- *. lia.
Qed.

(** ** But a rank can be left without boxes because of rounding *)
Definition c_first : spec_float := S754_finite false (Z.to_pos (2 ^ 52 + 2)) (-52).
Definition c_last : spec_float := S754_finite false (Z.to_pos (2 ^ 52 + 1)) (-52).
(** 0 is the first and 5 the last box of the example in depth-first order *)
Definition ex_costs (b : nat) : spec_float := if b =? 0 then c_first else if b =? 5 then c_last else S754_zero false.
Definition tag (x : spec_float) : nat * nat :=
  match x with S754_finite _ m _ => if Pos.eqb m (Z.to_pos (2 ^ 52 + 2)) then (1, 0) else (0, 1) | _ => (0, 0) end.
Definition firsts (l : list spec_float) : nat := nsum (map (fun x => fst (tag x)) l).
Definition lasts (l : list spec_float) : nat := nsum (map (fun x => snd (tag x)) l).
Definition of_tags (a b : nat) : spec_float :=
  match a, b with
  | 0, 0 => S754_zero false | 0, _ => c_last | _, 0 => c_first | _, _ => SFadd 53 1024 c_first c_last
  end.
Lemma nsum_app' l l' : nsum (l ++ l') = nsum l + nsum l'.
Proof. induction l as [|x l IH]; cbn [app]; [reflexivity|]. change (x + nsum (l ++ l') = x + nsum l + nsum l'). lia. Qed.
Lemma nsum_perm' l l' : Permutation l l' -> nsum l = nsum l'.
Proof. induction 1; auto; repeat match goal with |- context [nsum (?a :: ?b)] => change (nsum (a :: b)) with (a + nsum b) end; lia. Qed.
Lemma added_up_tags l x : added_up l x -> (forall y, In y l -> y = c_first \/ y = c_last \/ y = S754_zero false) ->
  firsts l <= 1 -> lasts l <= 1 -> x = of_tags (firsts l) (lasts l).
Proof.
  induction 1 as [y|l1 l2 x1 x2 _ IH1 _ IH2|l l' x P _ IH]; intros I F T.
  - destruct (I y (or_introl eq_refl)) as [->|[->| ->]]; reflexivity.
  - unfold firsts, lasts in *. rewrite !map_app, !nsum_app' in *.
    rewrite (IH1 (fun y Hy => I y (in_or_app _ _ _ (or_introl Hy)))), (IH2 (fun y Hy => I y (in_or_app _ _ _ (or_intror Hy)))) by lia.
    clear - F T.
    destruct (nsum (map (fun x => fst (tag x)) l1)) as [|[|a]], (nsum (map (fun x => fst (tag x)) l2)) as [|[|b]],
      (nsum (map (fun x => snd (tag x)) l1)) as [|[|c]], (nsum (map (fun x => snd (tag x)) l2)) as [|[|e]]; try lia; vm_compute; reflexivity.
  - unfold firsts, lasts in *. rewrite <- !(nsum_perm' _ _ (Permutation_map _ P)) in *. apply IH; auto.
    intros y Hy. apply I. apply (Permutation_in _ P Hy).
Qed.
Theorem C114_every_rank_served_refuted : exists t cost,
  wf_tree t /\ 2 <= nboxes t /\ (forall b, b < nboxes t -> (0 <= exact_value (cost b))%Qc) /\
  (forall r, r < 2 -> exists l, partition_work_in exact_costs t (fun b => exact_value (cost b)) 2 r = Responsible l) /\
  forall sum, added_up (map cost (seq 0 (nboxes t))) (sum (map cost (seq 0 (nboxes t)))) ->
    partition_work_in (double_costs sum) t cost 2 1 = Uninitialised.
Proof.
  exists ex_tree, ex_costs. assert (W : wf_tree ex_tree) by (apply check_wf_ok; vm_compute; reflexivity).
  assert (N : nboxes ex_tree = 29) by reflexivity.
  split; [exact W|]. split; [rewrite N; lia|]. split; [|split].
  - intros b _. unfold ex_costs. destruct (b =? 0); [|destruct (b =? 5)]; vm_compute; discriminate.
  - intros r Hr. destruct r as [|[|r]]; [| |lia]; eexists; vm_compute; reflexivity.
  - intros sum A. apply added_up_tags in A.
    + unfold partition_work_in. cbv zeta. change (csum (double_costs sum) (map ex_costs (seq 0 (nboxes ex_tree)))) with (sum (map ex_costs (seq 0 (nboxes ex_tree)))). rewrite A. vm_compute. reflexivity.
    + intros y Hy. apply in_map_iff in Hy. destruct Hy as [b [<- _]]. unfold ex_costs. destruct (b =? 0); [|destruct (b =? 5)]; auto.
    + vm_compute. lia.
    + vm_compute. lia.
Qed.

(** ** The hypotheses can be met: rounded costs for which both ranks get boxes *)
Definition sum_in_order (l : list spec_float) : spec_float := fold_left (SFadd 53 1024) l (S754_zero false).
Example ex_rounded : wf_tree ex_tree /\ 2 <= nboxes ex_tree /\
  exists l0 l1, partition_work_in (double_costs sum_in_order) ex_tree (fun b => double_of (b + 1)) 2 0 = Responsible l0 /\
    partition_work_in (double_costs sum_in_order) ex_tree (fun b => double_of (b + 1)) 2 1 = Responsible l1 /\ length l0 + length l1 = 29.
Proof.
  split; [apply check_wf_ok; vm_compute; reflexivity|]. split; [vm_compute; lia|].
  do 2 eexists. split; [vm_compute; reflexivity|]. split; vm_compute; reflexivity.
Qed.

Print Assumptions C114_exact.
Print Assumptions C114_assignment.
Print Assumptions C114_potentials_do_not_depend_on_rounding.
Print Assumptions C114_every_rank_served_refuted.
