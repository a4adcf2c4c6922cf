(** Facts about the array primitives of TreeBuild.v: kernels, scatters, segmented scans,
    counting. *)
From Coq Require Import List Arith ZArith NArith Lia Bool Permutation.
From Verif Require Import Base Tree Walk Traversal Fmm TreeBuild.
Import ListNotations.

Lemma kernel_map_lt {A} n (f old : nat -> A) i : i < n -> kernel_map n f old i = f i.
Proof.
  intros Hi. unfold kernel_map.
  rewrite (nth_error_nth' _ (f i)) by (rewrite map_length, seq_length; exact Hi).
  rewrite nth_map_seq; auto.
Qed.
Lemma kernel_map_ge {A} n (f old : nat -> A) i : n <= i -> kernel_map n f old i = old i.
Proof.
  intros Hi. unfold kernel_map.
  replace (nth_error (map f (seq 0 n)) i) with (@None A); auto.
  symmetry. apply nth_error_None. rewrite map_length, seq_length. exact Hi.
Qed.
Lemma kernel_map_same {A} n (f : nat -> A) i : kernel_map n f f i = f i.
Proof.
  destruct (Nat.lt_ge_cases i n); [apply kernel_map_lt|apply kernel_map_ge]; auto.
Qed.

(** ** Scatter *)
Lemma scatter_app {A} (w1 w2 : list (nat * A)) old :
  scatter (w1 ++ w2) old = scatter w2 (scatter w1 old).
Proof. unfold scatter. apply fold_left_app. Qed.
Lemma scatter_notin {A} (w : list (nat * A)) old i :
  (forall v, ~ In (i, v) w) -> scatter w old i = old i.
Proof.
  revert old. induction w as [|[j v] w IH]; intros old H; simpl; auto.
  unfold scatter in *; simpl. rewrite IH.
  - simpl. destruct (Nat.eqb_spec i j); auto. subst. exfalso. apply (H v). left; auto.
  - intros v' Hv. apply (H v'). right; auto.
Qed.
(** all writes to [i] agree *)
Lemma scatter_in_eq {A} (w : list (nat * A)) old i v :
  In (i, v) w -> (forall v', In (i, v') w -> v' = v) -> scatter w old i = v.
Proof.
  revert old. induction w as [|[j x] w IH] using rev_ind; intros old Hin Hall; [contradiction|].
  rewrite scatter_app. unfold scatter at 1; simpl.
  destruct (Nat.eqb_spec i j).
  - subst. apply Hall. apply in_or_app. right; left; auto.
  - apply IH.
    + apply in_app_or in Hin. destruct Hin as [|[E|[]]]; auto. inversion E; subst; contradiction.
    + intros v' Hv. apply Hall. apply in_or_app; auto.
Qed.
Lemma scatter_cases {A} (w : list (nat * A)) old i :
  (exists v, In (i, v) w /\ scatter w old i = v) \/ ((forall v, ~ In (i, v) w) /\ scatter w old i = old i).
Proof.
  induction w as [|[j x] w IH] using rev_ind.
  - right. split; auto.
  - rewrite scatter_app. unfold scatter at 1 3; simpl. destruct (Nat.eqb_spec i j).
    + left. exists x. subst. split; auto. apply in_or_app; right; left; auto.
    + destruct IH as [[v [H1 H2]]|[H1 H2]].
      * left. exists v. split; auto. apply in_or_app; auto.
      * right. split; auto. intros v Hv. apply in_app_or in Hv. destruct Hv as [Hv|[Hv|[]]].
        -- apply (H1 v Hv).
        -- inversion Hv; subst; contradiction.
Qed.
(** writes of [val x] at [key x] for [x] in a list *)
Lemma scatter_map_in {X A} (key : X -> nat) (val : X -> A) l old x :
  In x l -> (forall y, In y l -> key y = key x -> val y = val x) ->
  scatter (map (fun y => (key y, val y)) l) old (key x) = val x.
Proof.
  intros Hx Hall. apply scatter_in_eq.
  - apply in_map_iff. exists x; auto.
  - intros v' Hv. apply in_map_iff in Hv. destruct Hv as [y [E Hy]]. inversion E; subst. auto.
Qed.
Lemma scatter_map_notin {X A} (key : X -> nat) (val : X -> A) l old i :
  (forall x, In x l -> key x <> i) -> scatter (map (fun y => (key y, val y)) l) old i = old i.
Proof.
  intros H. apply scatter_notin. intros v Hv. apply in_map_iff in Hv. destruct Hv as [y [E Hy]].
  inversion E; subst. apply (H y); auto.
Qed.
Lemma scatter_in_lt {A} n (w : list (nat * A)) old i :
  (forall j v, In (j, v) w -> j < n) -> scatter_in n w old i = scatter w old i.
Proof.
  intros H. unfold scatter_in. destruct (Nat.lt_ge_cases i n).
  - apply kernel_map_lt; auto.
  - rewrite kernel_map_ge by auto. symmetry. apply scatter_notin. intros v Hv. specialize (H _ _ Hv). lia.
Qed.

(** ** Counting *)
Definition cnt (p : nat -> bool) (n : nat) : nat := length (filter p (seq 0 n)).
Definition cntr (p : nat -> bool) (a b : nat) : nat := length (filter p (seq a (b - a))).

Lemma filter_ext_in' {A} (f g : A -> bool) l : (forall x, In x l -> f x = g x) -> filter f l = filter g l.
Proof. apply filter_ext_in. Qed.
Lemma filter_length_ext {A} (f g : A -> bool) l :
  (forall x, In x l -> f x = g x) -> length (filter f l) = length (filter g l).
Proof. intros. f_equal. apply filter_ext_in; auto. Qed.
Lemma filter_length_le {A} (f g : A -> bool) l :
  (forall x, In x l -> f x = true -> g x = true) -> length (filter f l) <= length (filter g l).
Proof.
  induction l as [|x l IH]; intros H; simpl; auto.
  assert (IH' := IH (fun y Hy => H y (or_intror Hy))).
  destruct (f x) eqn:E.
  - rewrite (H x (or_introl eq_refl) E). simpl. lia.
  - destruct (g x); simpl; lia.
Qed.
Lemma cnt_ext p q n : (forall i, i < n -> p i = q i) -> cnt p n = cnt q n.
Proof. intros H. apply filter_length_ext. intros x Hx. apply in_seq in Hx. apply H. lia. Qed.
Lemma cnt_0 p n : (forall i, i < n -> p i = false) <-> cnt p n = 0.
Proof.
  unfold cnt. split.
  - intros H. replace (filter p (seq 0 n)) with (@nil nat); auto. symmetry.
    rewrite (filter_ext_in p (fun _ => false)). { induction (seq 0 n); auto. }
    intros x Hx. apply in_seq in Hx. apply H. lia.
  - intros H i Hi. destruct (p i) eqn:E; auto. exfalso.
    apply length_zero_iff_nil in H. assert (X : In i (filter p (seq 0 n))).
    { apply filter_In. split; auto. apply in_seq. lia. } rewrite H in X. contradiction.
Qed.
Lemma cnt_pos p n : 0 < cnt p n <-> exists i, i < n /\ p i = true.
Proof.
  split.
  - intros H. unfold cnt in H. destruct (filter p (seq 0 n)) as [|x l] eqn:E; [simpl in H; lia|].
    assert (X : In x (filter p (seq 0 n))) by (rewrite E; left; auto).
    apply filter_In in X. destruct X as [X1 X2]. apply in_seq in X1. exists x. split; auto. lia.
  - intros [i [Hi Hp]]. destruct (Nat.eq_dec (cnt p n) 0) as [E|]; [|lia].
    rewrite <- cnt_0 in E. rewrite (E i Hi) in Hp. discriminate.
Qed.
Lemma cnt_le p n : cnt p n <= n.
Proof.
  unfold cnt. rewrite <- (seq_length n 0) at 2. generalize (seq 0 n). intros l.
  induction l; simpl; auto. destruct (p a); simpl; lia.
Qed.
Lemma cnt_mono p q n : (forall i, i < n -> p i = true -> q i = true) -> cnt p n <= cnt q n.
Proof. intros H. apply filter_length_le. intros x Hx. apply in_seq in Hx. apply H. lia. Qed.
Lemma filter_length_or {A} (p q : A -> bool) l :
  (forall x, In x l -> p x = true -> q x = false) ->
  length (filter (fun x => p x || q x) l) = length (filter p l) + length (filter q l).
Proof.
  induction l as [|x l IH]; intros H; simpl; auto.
  assert (IH' := IH (fun y Hy => H y (or_intror Hy))).
  destruct (p x) eqn:E.
  - rewrite (H x (or_introl eq_refl) E). simpl. lia.
  - destruct (q x); simpl; lia.
Qed.
Lemma cnt_or p q n : (forall i, i < n -> p i = true -> q i = false) ->
  cnt (fun i => p i || q i) n = cnt p n + cnt q n.
Proof. intros H. apply filter_length_or. intros x Hx. apply in_seq in Hx. apply H. lia. Qed.

(** counting by a key: the keys below [k] *)
Lemma cnt_key_sum p (key : nat -> nat) n k :
  nsum (map (fun j => cnt (fun i => p i && (key i =? j)) n) (seq 0 k)) = cnt (fun i => p i && (key i <? k)) n.
Proof.
  induction k.
  - simpl. symmetry. apply cnt_0. intros i Hi. apply andb_false_r.
  - rewrite seq_S, map_app, nsum_app, IHk. cbn [map nsum fold_right]. rewrite Nat.add_0_r, <- cnt_or.
    + apply cnt_ext. intros i Hi. simpl. rewrite <- andb_orb_distrib_r. f_equal.
      destruct (Nat.ltb_spec (key i) k), (Nat.eqb_spec (key i) k), (Nat.ltb_spec (key i) (S k)); auto; lia.
    + intros i Hi Hp. apply andb_true_iff in Hp. destruct Hp as [-> Hp]. simpl.
      apply Nat.ltb_lt in Hp. apply Nat.eqb_neq. lia.
Qed.

(** counts over a permutation *)
Lemma filter_perm {A} (p : A -> bool) l1 l2 : Permutation l1 l2 -> Permutation (filter p l1) (filter p l2).
Proof.
  intros P. induction P; simpl; auto.
  - destruct (p x); auto.
  - destruct (p x), (p y); auto. apply perm_swap.
  - eapply perm_trans; eauto.
Qed.
Lemma cnt_perm p (user : nat -> nat) n :
  Permutation (map user (seq 0 n)) (seq 0 n) -> cnt (fun i => p (user i)) n = cnt p n.
Proof.
  intros P. unfold cnt.
  assert (E : length (filter p (map user (seq 0 n))) = length (filter (fun i => p (user i)) (seq 0 n))).
  { generalize (seq 0 n). intros l. induction l; simpl; auto. destruct (p (user a)); simpl; auto. }
  rewrite <- E. apply Permutation_length, filter_perm, P.
Qed.

(** ranges *)
Lemma seq_split n a : a <= n -> seq 0 n = seq 0 a ++ seq a (n - a).
Proof. intros. replace n with (a + (n - a)) at 1 by lia. apply seq_app. Qed.
Lemma cntr_split p a b c : a <= b -> b <= c -> cntr p a c = cntr p a b + cntr p b c.
Proof.
  intros. unfold cntr. replace (c - a) with ((b - a) + (c - b)) by lia.
  rewrite seq_app, filter_app, app_length. replace (a + (b - a)) with b by lia. auto.
Qed.
Lemma cntr_ext p q a b : (forall i, a <= i -> i < b -> p i = q i) -> cntr p a b = cntr q a b.
Proof. intros H. apply filter_length_ext. intros x Hx. apply in_seq in Hx. apply H; lia. Qed.
Lemma cntr_all p a b : a <= b -> (forall i, a <= i -> i < b -> p i = true) -> cntr p a b = b - a.
Proof.
  intros Hab H. unfold cntr. rewrite (filter_ext_in p (fun _ => true)).
  - transitivity (length (seq a (b - a))); [|apply seq_length]. generalize (seq a (b - a)). intros l.
    induction l; simpl; congruence.
  - intros x Hx. apply in_seq in Hx. apply H; lia.
Qed.
Lemma cntr_none p a b : (forall i, a <= i -> i < b -> p i = false) -> cntr p a b = 0.
Proof.
  intros H. unfold cntr. rewrite (filter_ext_in p (fun _ => false)).
  - induction (seq a (b - a)); auto.
  - intros x Hx. apply in_seq in Hx. apply H; lia.
Qed.
Lemma cntr_S p a b : a <= b -> cntr p a (S b) = cntr p a b + (if p b then 1 else 0).
Proof.
  intros. rewrite (cntr_split p a b (S b)) by lia. f_equal. unfold cntr.
  replace (S b - b) with 1 by lia. simpl. destruct (p b); auto.
Qed.
Lemma cntr_empty p a b : b <= a -> cntr p a b = 0.
Proof. intros. unfold cntr. replace (b - a) with 0 by lia. auto. Qed.
Lemma cntr_le p a b : cntr p a b <= b - a.
Proof.
  unfold cntr. rewrite <- (seq_length (b - a) a) at 2. generalize (seq a (b - a)). intros l.
  induction l; simpl; auto. destruct (p a0); simpl; lia.
Qed.
Lemma cntr_mono p q a b : (forall i, a <= i -> i < b -> p i = true -> q i = true) -> cntr p a b <= cntr q a b.
Proof. intros H. apply filter_length_le. intros x Hx. apply in_seq in Hx. apply H; lia. Qed.
Lemma cntr_pos p a b i : a <= i -> i < b -> p i = true -> 0 < cntr p a b.
Proof.
  intros H1 H2 H3. rewrite (cntr_split p a i b) by lia. rewrite (cntr_split p i (S i) b) by lia.
  rewrite cntr_S by lia. rewrite H3. lia.
Qed.
Lemma cntr_or p q a b : (forall i, a <= i -> i < b -> p i = true -> q i = false) ->
  cntr (fun i => p i || q i) a b = cntr p a b + cntr q a b.
Proof. intros H. apply filter_length_or. intros x Hx. apply in_seq in Hx. apply H; lia. Qed.
(** counting where the predicate vanishes outside a range *)
Lemma cnt_range p n a b : a <= b -> b <= n -> (forall i, i < n -> p i = true -> a <= i < b) ->
  cnt p n = cntr p a b.
Proof.
  intros H1 H2 H. change (cnt p n) with (length (filter p (seq 0 n))).
  replace (length (filter p (seq 0 n))) with (cntr p 0 n) by (unfold cntr; rewrite Nat.sub_0_r; auto).
  rewrite (cntr_split p 0 a n) by lia. rewrite (cntr_split p a b n) by lia.
  rewrite (cntr_none p 0 a), (cntr_none p b n); [lia| |].
  - intros i Hi1 Hi2. destruct (p i) eqn:E; auto. apply H in E; lia.
  - intros i Hi1 Hi2. destruct (p i) eqn:E; auto. apply H in E; lia.
Qed.

(** ** Segmented scans *)
(** start of the segment of [i] *)
Fixpoint seg_begin (start : nat -> bool) (i : nat) : nat :=
  match i with 0 => 0 | S j => if start i then i else seg_begin start j end.
Lemma seg_begin_le start i : seg_begin start i <= i.
Proof. induction i; cbn [seg_begin]; [lia|]. destruct (start (S i)); lia. Qed.
Lemma seg_begin_start start i : seg_begin start i = 0 \/ start (seg_begin start i) = true.
Proof. induction i; cbn [seg_begin]; auto. destruct (start (S i)) eqn:E; auto. Qed.
Lemma seg_begin_gap start i j : seg_begin start i < j -> j <= i -> start j = false.
Proof.
  induction i; cbn [seg_begin]; [lia|]. destruct (start (S i)) eqn:E; [lia|].
  intros H1 H2. destruct (Nat.eq_dec j (S i)); [subst; auto|]. apply IHi; lia.
Qed.
Lemma seg_begin_eq start i s : s <= i -> (s = 0 \/ start s = true) ->
  (forall j, s < j -> j <= i -> start j = false) -> seg_begin start i = s.
Proof.
  intros Hs Hst Hgap. assert (B := seg_begin_le start i).
  destruct (Nat.lt_trichotomy (seg_begin start i) s) as [C|[C|C]]; auto.
  - exfalso. destruct Hst as [->|Hst]; [lia|].
    rewrite (seg_begin_gap start i s C Hs) in Hst. discriminate.
  - exfalso. destruct (seg_begin_start start i) as [X|X]; [lia|].
    rewrite Hgap in X by lia. discriminate.
Qed.
Lemma seg_scan_count start (p : nat -> bool) i :
  seg_scan start Nat.add (fun j => if p j then 1 else 0) i = cntr p (seg_begin start i) (S i).
Proof.
  induction i.
  - cbn. unfold cntr. simpl. destruct (p 0); auto.
  - cbn [seg_scan seg_begin]. destruct (start (S i)).
    + rewrite cntr_S by lia. rewrite cntr_empty by lia. auto.
    + rewrite IHi. rewrite (cntr_S p _ (S i)); auto. assert (X := seg_begin_le start i). lia.
Qed.
Lemma seg_scan_nsum start (f : nat -> nat) i :
  seg_scan start Nat.add f i = nsum (map f (seq (seg_begin start i) (S i - seg_begin start i))).
Proof.
  induction i.
  - cbn. lia.
  - cbn [seg_scan seg_begin]. destruct (start (S i)).
    + replace (S (S i) - S i) with 1 by lia. cbn. lia.
    + rewrite IHi. assert (X := seg_begin_le start i).
      replace (S (S i) - seg_begin start i) with (S (S i - seg_begin start i)) by lia.
      rewrite seq_S, map_app, nsum_app. replace (seg_begin start i + (S i - seg_begin start i)) with (S i) by lia.
      cbn [map nsum fold_right]. lia.
Qed.

(** ** Saturating sums *)
Lemma add_sat_min a b : (0 <= a)%Z -> (0 <= b)%Z ->
  add_sat (Z.min INT_MAX a) (Z.min INT_MAX b) = Z.min INT_MAX (a + b).
Proof. intros. unfold add_sat. destruct (Z.ltb_spec INT_MAX (Z.min INT_MAX a + Z.min INT_MAX b)); unfold INT_MAX in *; lia. Qed.
Lemma zsum_nonneg l : (forall x, In x l -> 0 <= x)%Z -> (0 <= zsum l)%Z.
Proof.
  induction l; intros H; cbn; [lia|]. assert (0 <= a)%Z by (apply H; left; auto).
  assert (0 <= zsum l)%Z by (apply IHl; intros; apply H; right; auto). unfold zsum in *. lia.
Qed.
Lemma seg_scan_sat start (f : nat -> Z) i :
  (forall j, j <= i -> (0 <= f j <= INT_MAX)%Z) ->
  seg_scan start add_sat f i = Z.min INT_MAX (zsum (map f (seq (seg_begin start i) (S i - seg_begin start i)))).
Proof.
  induction i; intros H.
  - cbn -[INT_MAX]. specialize (H 0 (le_n 0)). lia.
  - cbn [seg_scan seg_begin]. destruct (start (S i)).
    + replace (S (S i) - S i) with 1 by lia. cbn -[INT_MAX]. specialize (H (S i) (le_n _)). lia.
    + rewrite IHi by (intros; apply H; lia). assert (X := seg_begin_le start i).
      replace (S (S i) - seg_begin start i) with (S (S i - seg_begin start i)) by lia.
      rewrite seq_S, map_app, zsum_app. replace (seg_begin start i + (S i - seg_begin start i)) with (S i) by lia.
      cbn [map]. replace (zsum [f (S i)]) with (f (S i)) by (cbn; lia).
      assert (Y := H (S i) (le_n _)).
      rewrite <- (Z.min_r INT_MAX (f (S i))) at 1 by lia.
      apply add_sat_min; [|lia]. apply zsum_nonneg. intros x Hx. apply in_map_iff in Hx.
      destruct Hx as [j [<- Hj]]. apply in_seq in Hj. apply H. lia.
Qed.
Lemma fold_add_sat l a : (0 <= a)%Z -> (forall x, In x l -> (0 <= x)%Z) ->
  fold_left add_sat (map (Z.min INT_MAX) l) (Z.min INT_MAX a) = Z.min INT_MAX (a + zsum l).
Proof.
  revert a. induction l as [|x l IH]; intros a Ha H.
  - simpl. f_equal. lia.
  - assert (Hx : (0 <= x)%Z) by (apply H; left; auto).
    cbn [map fold_left]. rewrite add_sat_min, IH; try lia.
    + f_equal. cbn. unfold zsum. lia.
    + intros; apply H; right; auto.
Qed.

(** ** Permutations of [0, n) *)
Lemma perm_of_inj n (f : nat -> nat) :
  (forall i, i < n -> f i < n) -> (forall i j, i < n -> j < n -> f i = f j -> i = j) ->
  Permutation (map f (seq 0 n)) (seq 0 n).
Proof.
  intros H1 H2. apply NoDup_Permutation_bis.
  - apply NoDup_map_inj; [|apply seq_NoDup]. intros x y Hx Hy. apply in_seq in Hx, Hy. apply H2; lia.
  - rewrite map_length. auto.
  - intros x Hx. apply in_map_iff in Hx. destruct Hx as [i [<- Hi]]. apply in_seq in Hi.
    apply in_seq. specialize (H1 i). lia.
Qed.
Lemma perm_lt n (f : nat -> nat) i : Permutation (map f (seq 0 n)) (seq 0 n) -> i < n -> f i < n.
Proof.
  intros P Hi. assert (X : In (f i) (seq 0 n)).
  { eapply Permutation_in; [exact P|]. apply in_map, in_seq. lia. } apply in_seq in X. lia.
Qed.
Lemma perm_inj n (f : nat -> nat) i j : Permutation (map f (seq 0 n)) (seq 0 n) -> i < n -> j < n -> f i = f j -> i = j.
Proof.
  intros P Hi Hj E. assert (N : NoDup (map f (seq 0 n))).
  { eapply Permutation_NoDup; [symmetry; exact P|apply seq_NoDup]. }
  assert (X : forall l, NoDup (map f l) -> In i l -> In j l -> i = j).
  { induction l as [|x l IH]; intros ND Ii Ij; [contradiction|]. inversion ND; subst.
    destruct Ii as [<-|Ii], Ij as [<-|Ij]; auto.
    - exfalso. apply H1. rewrite E. apply in_map; auto.
    - exfalso. apply H1. rewrite <- E. apply in_map; auto. }
  apply (X (seq 0 n)); auto; apply in_seq; lia.
Qed.
Lemma perm_surj n (f : nat -> nat) u : Permutation (map f (seq 0 n)) (seq 0 n) -> u < n -> exists i, i < n /\ f i = u.
Proof.
  intros P Hu. assert (X : In u (map f (seq 0 n))).
  { eapply Permutation_in; [symmetry; exact P|]. apply in_seq. lia. }
  apply in_map_iff in X. destruct X as [i [E Hi]]. apply in_seq in Hi. exists i. split; [lia|auto].
Qed.

Lemma filter_key_sum (key : nat -> nat) l k :
  nsum (map (fun j => length (filter (fun i => key i =? j) l)) (seq 0 k)) = length (filter (fun i => key i <? k) l).
Proof.
  induction k.
  - simpl. induction l; simpl; auto.
  - rewrite seq_S, map_app, nsum_app, IHk. cbn [map nsum fold_right]. rewrite Nat.add_0_r, <- filter_length_or.
    + apply filter_length_ext. intros i Hi.
      destruct (Nat.ltb_spec (key i) k), (Nat.eqb_spec (key i) (0 + k)), (Nat.ltb_spec (key i) (S k)); auto; lia.
    + intros i Hi Hp. apply Nat.ltb_lt in Hp. apply Nat.eqb_neq. lia.
Qed.
Lemma zsum_filter {A} (p : A -> bool) (w : A -> Z) l :
  zsum (map w (filter p l)) = zsum (map (fun x => if p x then w x else 0%Z) l).
Proof. induction l as [|x l IH]; simpl; auto. destruct (p x); simpl; unfold zsum in *; simpl; rewrite IH; lia. Qed.
Lemma zsum_range (f : nat -> Z) n a b : a <= b -> b <= n -> (forall i, i < n -> ~ (a <= i < b) -> f i = 0%Z) ->
  zsum (map f (seq 0 n)) = zsum (map f (seq a (b - a))).
Proof.
  intros H1 H2 H. rewrite (seq_split n a) by lia.
  replace (n - a) with ((b - a) + (n - b)) by lia. rewrite seq_app, !map_app, !zsum_app.
  rewrite (zsum_map_0 f (seq 0 a)), (zsum_map_0 f (seq (a + (b - a)) (n - b))); [lia| |].
  - intros i Hi. apply in_seq in Hi. apply H; lia.
  - intros i Hi. apply in_seq in Hi. apply H; lia.
Qed.

Lemma cntr_nth p a c r : r < cntr p a c -> exists b, a <= b < c /\ p b = true /\ cntr p a b = r.
Proof.
  induction c; intros H.
  - rewrite cntr_empty in H by lia. lia.
  - destruct (Nat.le_gt_cases a c) as [L|L]; [|rewrite cntr_empty in H; lia].
    rewrite cntr_S in H by auto. destruct (Nat.lt_ge_cases r (cntr p a c)) as [C|C].
    + destruct (IHc C) as [b Hb]. exists b. intuition lia.
    + destruct (p c) eqn:E; [|lia]. exists c. split; [lia|]. split; auto. lia.
Qed.
Lemma cntr_lt p a b c : a <= b -> b < c -> p b = true -> cntr p a b < cntr p a c.
Proof.
  intros H1 H2 E. rewrite (cntr_split p a b c) by lia.
  assert (X := cntr_pos p b c b (le_n b) H2 E). lia.
Qed.
Lemma cntr_inj p a b b' : a <= b -> a <= b' -> p b = true -> p b' = true -> cntr p a b = cntr p a b' -> b = b'.
Proof.
  intros H1 H2 E1 E2 E. destruct (Nat.lt_trichotomy b b') as [C|[C|C]]; auto.
  - assert (X := cntr_lt p a b b' H1 C E1). lia.
  - assert (X := cntr_lt p a b' b H2 C E2). lia.
Qed.
Lemma nth_tl {A} (l : list A) i d : nth i (tl l) d = nth (S i) l d.
Proof. destruct l; simpl; auto. destruct i; auto. Qed.
