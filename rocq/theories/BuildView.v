(** What the device arrays hold when the tree builder is in a given state of TreeBuild.v. *)
From Coq Require Import List Arith ZArith NArith Lia Bool Permutation.
From Verif Require Import Base Tree Walk Traversal Fmm TreeBuild ArrayFacts Kernel Device DeviceRules BuildDevice BuildInv
  BuildScan BuildIds BuildSort BuildAdvance BuildRenumber BuildStep BuildNext BuildLoop BuildTerm.
Import ListNotations.

Notation z := Z.of_nat.
Notation known := (known array).

Section View.
Variable inp : input.
Notation nch := (nchild inp).
Notation np := (npart inp).

Definition field_in (f : field) : bool :=
  match f with Cnt 0 => have_extent inp | Cnt (S m) => m <? nch | Wt m => m <? nch end.
Lemma field_in_iff f : In f (fields inp) <-> field_in f = true.
Proof.
  unfold fields, counts_only, weights_only. rewrite !in_app_iff, !in_map_iff. split.
  - intros [[I|[m [<- I]]]|[m [<- I]]].
    + unfold field_in. destruct (have_extent inp); [|destruct I]. destruct I as [<-|[]]. auto.
    + apply in_seq in I. cbn. apply Nat.ltb_lt. lia.
    + apply in_seq in I. cbn. apply Nat.ltb_lt. lia.
  - destruct f as [[|m]|m]; cbn [field_in]; intros E.
    + left. left. rewrite E. left. auto.
    + apply Nat.ltb_lt in E. left. right. exists m. split; auto. apply in_seq. lia.
    + apply Nat.ltb_lt in E. right. exists m. split; auto. apply in_seq. lia.
Qed.
Lemma count_in_iff f : In f (counts_only inp) <-> field_in f = true /\ exists k, f = Cnt k.
Proof.
  rewrite <- field_in_iff. unfold fields, counts_only, weights_only. rewrite !in_app_iff, !in_map_iff. split.
  - intros [I|[m [<- I]]].
    + destruct (have_extent inp); [|destruct I]. destruct I as [<-|[]]. split; [left; left; left; auto|eauto].
    + split; [left; right; eauto|eauto].
  - intros [[I|[m [<- I]]] [k E]]; [auto|discriminate].
Qed.
Lemma fields_nodup : NoDup (fields inp).
Proof.
  unfold fields, counts_only, weights_only. apply NoDup_app_intro.
  - apply NoDup_app_intro.
    + destruct (have_extent inp); repeat constructor; auto.
    + apply FinFun.Injective_map_NoDup; [intros a b E; congruence|apply seq_NoDup].
    + intros f I J. apply in_map_iff in J. destruct J as [m [<- _]]. destruct (have_extent inp); [|destruct I].
      destruct I as [I|[]]. discriminate.
  - apply FinFun.Injective_map_NoDup; [intros a b E; congruence|apply seq_NoDup].
  - intros f I J. apply in_map_iff in J. destruct J as [m [<- _]]. apply in_app_iff in I. destruct I as [I|I].
    + destruct (have_extent inp); [|destruct I]. destruct I as [I|[]]. discriminate.
    + apply in_map_iff in I. destruct I as [k [I _]]. discriminate.
Qed.

(** lengths of the arrays *)
Definition lenv (st : state) (x : array) : option Z :=
  match x with
  | UserIds | BoxIds | StartFlags | MortonNrs | RefineWeights => Some (z np)
  | MortonBin f => if field_in f then Some (z np) else None
  | Coords a => if a <? idim inp then Some (z np) else None
  | Radii => if have_extent inp then Some (z np) else None
  | SplitIds | Starts | Counts | Parents | Levels | HasChildren => Some (z (s_guess st))
  | BoxBin f => if field_in f then Some (z (s_guess st)) else None
  | Children m => if m <? nch then Some (z (s_guess st)) else None
  | Centers a => if a <? idim inp then Some (z (s_guess st)) else None
  | ForceSplit => Some (if level_restrict inp then z (s_guess st) else 0%Z)
  | LevelStarts | LevelUsed => Some (z (nlevels_max inp))
  | Oversize | UpperSplit => Some 1%Z
  | _ => None
  end.
Definition radius_of (u : nat) : Z := match ext inp with Some e => radius e u | None => 0%Z end.
(** contents; [tmp] stands for arrays valid during a trip only *)
Definition cellv (st : state) (tmp : array -> nat -> option Z) (x : array) (k : nat) : option Z :=
  match x with
  | UserIds => Some (z (s_user st k))
  | BoxIds => Some (z (s_box st k))
  | StartFlags => Some (bool_z (s_start_flag st k))
  | Coords a => Some (coord inp k a)
  | Radii => Some (radius_of k)
  | RefineWeights => Some (weight inp k)
  | BoxBin (Cnt j) => Some (z (s_bins st k j))
  | BoxBin (Wt m) => Some (s_wts st k m)
  | Starts => Some (z (s_start st k))
  | Counts => Some (z (s_cumul st k))
  | Parents => Some (z (s_parent st k))
  | Children m => Some (z (s_child st m k))
  | Centers a => Some (s_center st k a)
  | Levels => Some (z (s_blevel st k))
  | HasChildren => Some (bool_z (s_has_children st k))
  | ForceSplit => Some (bool_z (s_force st k))
  | LevelStarts => if k <? length (s_lstart st) then Some (z (nth k (s_lstart st) 0)) else None
  | LevelUsed => Some (z (nth k (s_used st) 0))
  | Oversize => Some (bool_z (s_oversize st))
  | MortonNrs | MortonBin _ | SplitIds => tmp x k
  | _ => None
  end.
Definition view (st : state) (tmp : array -> nat -> option Z) : known := mkKnown (lenv st) (cellv st tmp).
Definition nothing : array -> nat -> option Z := fun _ _ => None.
Definition host_of (st : state) : hstate :=
  mkHost (s_level st) (s_lstart st) (s_used st) (s_leaves st) (s_final st) (s_guess st).

(** ** There is room for all the boxes, and what has not been used is zero *)
Record roomy (st : state) : Prop := {
  r_guess : lst st (nlev st) <= s_guess st;
  r_level : forall b, lst st (nlev st) <= b -> s_blevel st b = 0;
  r_unused : forall b, ~ used st b ->
    s_start st b = 0 /\ s_parent st b = 0 /\ (forall a, a < idim inp -> s_center st b a = 0%Z)
}.

Hypothesis WT : forall u, u < np -> (0 <= weight inp u <= INT_MAX)%Z.
Hypothesis MW : (0 <= max_weight inp)%Z.
Hypothesis NPOS : 0 < np.
Hypothesis GU : 0 < nboxes_guess inp.

Lemma initial_roomy : roomy (initial_state inp).
Proof.
  assert (U0 : used (initial_state inp) 0) by (apply initial_used; auto).
  constructor.
  - change (lst (initial_state inp) (nlev (initial_state inp))) with 1. cbn [initial_state s_guess]. lia.
  - auto.
  - intros b N. split; [|split]; auto. intros a Ha. cbn [initial_state s_center].
    destruct (Nat.eqb_spec b 0) as [->|]; [contradiction|auto].
Qed.

Section Advance.
Variable st : state.
Variable pth : nat -> list nat.
Hypothesis G : good inp st pth.
Hypothesis RM : roomy st.
Let H := g_head inp st pth G.
Let I := h_inv inp st pth H.
Let Y := i_layout inp st pth I.
Notation st2 := (marks inp st).
Notation nu := (nused inp st).
Notation L := (nlev st).
Notation n := (lst st L).

Section Split.
Variables (nl : list nat) (nbn : nat).
Hypothesis NB : n + nth L nu 0 <= nbn.
Hypothesis NR : forall l, l < L -> nth l nu 0 <= lst st (S l) - lst st l.
Hypothesis GB : nbn <= s_guess st.
Notation s5 := (st5 inp st nl nbn).

Lemma advance_roomy : roomy s5.
Proof.
  assert (N5 := nlev5 inp st pth H nl nbn). assert (LL := lst5_last inp st pth H nl nbn NB).
  constructor.
  - rewrite N5, LL. exact GB.
  - rewrite N5, LL. intros b Hb.
    change (s_blevel s5) with (scatter (map (fun b => (b, s_level st)) (seq
       (nth (s_level st) (s_lstart st2 ++ [nbn]) 0 + nth (s_level st) nu 0)
       (nbn - (nth (s_level st) (s_lstart st2 ++ [nbn]) 0 + nth (s_level st) nu 0))))
       (s_blevel (splitter inp (with_level_counts st2 (s_lstart st2 ++ [nbn]) nu nl) nbn (split_box_ids inp (scanned inp st))))).
    rewrite (scatter_map_notin (fun b => b) (fun b => s_level st)).
    2:{ intros x Hx. apply in_seq in Hx. lia. }
    cbn [splitter s_blevel].
    rewrite (scatter_other inp WT st pth H nl nbn NB NR (fun b m => s_blevel st2 b + 1) _ b).
    + apply (r_level st RM). lia.
    + intros b' m M Hm ->. assert (X := nid_lt inp st pth H nl nbn NB NR b' m M Hm). lia.
  - intros b N. assert (U5 := used5_iff inp st pth H nl nbn NB b).
    assert (Nb : forall b' m, moves inp st b' -> m < nch -> b <> nid inp st b' m).
    { intros b' m M Hm E. apply N, U5. right. exists b', m. auto. }
    assert (Nu : ~ used st b) by (intros U; apply N, U5; auto).
    destruct (r_unused st RM b Nu) as [R1 [R2 R3]]. split; [|split].
    + change (s_start s5) with (s_start (splitter inp (with_level_counts st2 (s_lstart st2 ++ [nbn]) nu nl) nbn (split_box_ids inp (scanned inp st)))).
      cbn [splitter s_start]. rewrite scatter_in_lt.
      * rewrite scatter_notin; [exact R1|]. intros v Hv.
        apply in_concat_map in Hv. destruct Hv as [b' [Hb' Hv]]. apply in_map_iff in Hv. destruct Hv as [m [E Hm]].
        apply filter_In in Hm. destruct Hm as [Hm _]. apply in_seq in Hm.
        apply (split_boxes_in inp WT st pth H nl nbn NB) in Hb'. injection E as E _.
        rewrite (new_box_id_val inp st pth H b' m (proj1 Hb') (proj2 Hb')) in E. apply (Nb b' m Hb' ltac:(lia)). auto.
      * intros j v Hv.
        apply in_concat_map in Hv. destruct Hv as [b' [Hb' Hv]]. apply in_map_iff in Hv. destruct Hv as [m [E Hm]].
        apply filter_In in Hm. destruct Hm as [Hm _]. apply in_seq in Hm.
        apply (split_boxes_in inp WT st pth H nl nbn NB) in Hb'. injection E as E _.
        rewrite (new_box_id_val inp st pth H b' m (proj1 Hb') (proj2 Hb')) in E. subst j.
        apply (nid_lt inp st pth H nl nbn NB NR b' m Hb'). lia.
    + change (s_parent s5) with (s_parent (splitter inp (with_level_counts st2 (s_lstart st2 ++ [nbn]) nu nl) nbn (split_box_ids inp (scanned inp st)))).
      cbn [splitter s_parent]. rewrite (scatter_other inp WT st pth H nl nbn NB NR (fun b m => b) _ b Nb). exact R2.
    + intros a Ha.
      change (s_center s5) with (s_center (splitter inp (with_level_counts st2 (s_lstart st2 ++ [nbn]) nu nl) nbn (split_box_ids inp (scanned inp st)))).
      cbn [splitter s_center].
      rewrite (scatter_other inp WT st pth H nl nbn NB NR
        (fun b m => kernel_map (idim inp) (new_center inp (with_level_counts st2 (s_lstart st2 ++ [nbn]) nu nl) b m) (fun _ => 0%Z)) _ b Nb).
      apply R3; auto.
Qed.
End Split.

Lemma marks_roomy : roomy st2.
Proof. destruct RM as [A B C]. constructor; auto. Qed.
Lemma guess_roomy g : s_guess st <= g -> roomy (with_guess st2 g).
Proof. intros E. destruct RM as [A B C]. constructor; auto. cbn [with_guess s_guess]. change (lst (with_guess st2 g) (nlev (with_guess st2 g))) with n. lia. Qed.

Section Renumber.
Variables (ns : list nat) (nbn : nat).
Hypothesis NSlen : length ns = S L.
Hypothesis NS0 : nth 0 ns 0 = 0.
Hypothesis NSle : forall l, l < L -> nth l ns 0 + (lst st (S l) - lst st l) <= nth (S l) ns 0.
Hypothesis NB : nth L ns 0 <= nbn.
Lemma renumber_roomy : roomy (renumbered inp st2 ns nbn).
Proof.
  assert (MH := marked_head inp WT MW st pth H). assert (O := old_n inp st2 pth MH).
  assert (NV : nlev (renumbered inp st2 ns nbn) = L) by reflexivity.
  assert (LV : lst (renumbered inp st2 ns nbn) L = nth L ns 0) by reflexivity.
  constructor.
  - rewrite NV, LV. cbn [renumbered s_guess].
    assert (X := grow_ge (s_guess st2) nbn (g_guess inp st pth G)). lia.
  - rewrite NV, LV. intros b Hb. cbn [renumbered s_blevel]. unfold fill_levels. apply scatter_notin. intros v Hv.
    apply in_concat_map in Hv. destruct Hv as [l [Hl Hv]]. apply in_map_iff in Hv. destruct Hv as [x [E Hx]].
    injection E as -> <-. apply in_seq in Hl, Hx. rewrite NSlen in Hl.
    assert (X := nst_le st2 ns NSlen NS0 NSle (l + 1) L ltac:(lia) (le_n _)). lia.
  - intros b N.
    assert (D : (exists x, x < n /\ b = renumbering st2 ns x) \/ (forall x, x < n -> b <> renumbering st2 ns x)).
    { clear. induction n as [|k IH]; [right; intros; lia|]. destruct IH as [[x [A B]]|IH]; [left; exists x; auto|].
      destruct (Nat.eq_dec b (renumbering st2 ns k)); [left; exists k; auto|]. right. intros x Hx.
      destruct (Nat.eq_dec x k); [subst; auto|apply IH; lia]. }
    cbn [renumbered s_start s_parent s_center]. rewrite O. destruct D as [[x [Hx ->]]|D].
    + assert (Nx : ~ used st x). { intros U. apply N. apply (used'_dst inp st2 pth MH ns nbn NSlen NS0 NSle x Hx). exact U. }
      destruct (r_unused st RM x Nx) as [R1 [R2 R3]].
      change n with (lst st2 (nlev st2)). rewrite !(gappy_val inp st2 pth MH ns NSlen NS0 NSle) by exact Hx.
      split; [exact R1|]. split; [|exact R3].
      change (s_parent st2 x) with (s_parent st x). rewrite R2. apply (dst_0 inp st2 pth MH ns NSlen NS0).
    + change n with (lst st2 (nlev st2)). rewrite !(gappy_other st2 ns NSlen NS0) by exact D. auto.
Qed.
End Renumber.
End Advance.
End View.
