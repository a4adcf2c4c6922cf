(** Rotation classes of list 2. *)
From Coq Require Import List Arith ZArith Lia Bool.
From Verif Require Import Base Tree Spec TreeFacts Traversal SpecTraversal TraversalLists Tools AreaMore Classes SpecClasses ClassFacts ClassThm.
Import ListNotations.

(** ** Greatest common divisors *)
Lemma gcd_fold (f : nat -> Z) l : forall a, (0 <= a)%Z ->
  let g := fold_left (fun g i => Z.gcd g (Z.abs (f i))) l a in
  (0 <= g)%Z /\ (g | a)%Z /\ (forall i, In i l -> (g | f i)%Z) /\
  (forall e, (e | a)%Z -> (forall i, In i l -> (e | f i)%Z) -> (e | g)%Z).
Proof.
  induction l as [|x l IH]; intros a Ha; cbn [fold_left].
  - repeat match goal with |- _ /\ _ => split end; auto. apply Z.divide_refl. intros i [].
  - destruct (IH (Z.gcd a (Z.abs (f x))) (Z.gcd_nonneg _ _)) as [H1 [H2 [H3 H4]]].
    assert (D1 := Z.gcd_divide_l a (Z.abs (f x))). assert (D2 := Z.gcd_divide_r a (Z.abs (f x))).
    split; [auto|]. split; [eapply Z.divide_trans; eauto|]. split.
    + intros i [<-|Hi]; [|auto]. apply Z.divide_abs_r. eapply Z.divide_trans; eauto.
    + intros e E1 E2. apply H4; [|intros; apply E2; right; auto]. apply Z.gcd_greatest; auto. apply Z.divide_abs_r. apply E2. left; auto.
Qed.
Lemma vec_gcd_ok d v : 1 <= d -> (exists i, i < d /\ v i <> 0%Z) ->
  (0 < vec_gcd d v)%Z /\ (forall i, i < d -> (vec_gcd d v | v i)%Z) /\ (forall e, (forall i, i < d -> (e | v i)%Z) -> (e | vec_gcd d v)%Z).
Proof.
  intros Hd [i0 [Hi0 N0]]. unfold vec_gcd. destruct (gcd_fold v (seq 1 (d - 1)) (Z.abs (v 0%nat)) (Z.abs_nonneg _)) as [H1 [H2 [H3 H4]]].
  set (g := fold_left _ _ _) in *. assert (D : forall i, i < d -> (g | v i)%Z).
  { intros i Hi. destruct i as [|i]; [apply Z.divide_abs_r; auto|]. apply H3. apply in_seq. lia. }
  split; [|split; auto].
  - destruct (D i0 Hi0) as [k E]. destruct (Z.eq_dec g 0) as [Z0|Z0]; [rewrite Z0, Z.mul_0_r in E; lia|lia].
  - intros e He. apply H4; [apply Z.divide_abs_r; apply He; lia|]. intros i Hi. apply in_seq in Hi. apply He. lia.
Qed.
Definition prim (d : nat) (v : nat -> Z) : nat -> Z := fun i => (v i / vec_gcd d v)%Z.
Lemma prim_mul d v i : 1 <= d -> (exists i, i < d /\ v i <> 0%Z) -> i < d -> v i = (vec_gcd d v * prim d v i)%Z.
Proof. intros Hd N0 Hi. destruct (vec_gcd_ok d v Hd N0) as [P [D _]]. unfold prim. destruct (D i Hi) as [k ->]. rewrite Z.div_mul by lia. ring. Qed.
Lemma prim_direction d v : 1 <= d -> (exists i, i < d /\ v i <> 0%Z) -> direction d v (prim d v).
Proof.
  intros Hd N0. destruct (vec_gcd_ok d v Hd N0) as [P [D G]]. split.
  - exists (vec_gcd d v). split; auto. intros. apply prim_mul; auto.
  - intros g Hg DV. assert (X : (g * vec_gcd d v | vec_gcd d v)%Z).
    { apply G. intros i Hi. rewrite (prim_mul d v i Hd N0 Hi), Z.mul_comm. apply Z.mul_divide_mono_l. auto. }
    assert (Y := Z.divide_pos_le _ _ P X). nia.
Qed.
Lemma prim_bounds d n v : 1 <= d -> (exists i, i < d /\ v i <> 0%Z) -> in_bounds d n v -> in_bounds d n (prim d v).
Proof.
  intros Hd N0 B i Hi. specialize (B i Hi). rewrite (prim_mul d v i Hd N0 Hi) in B. destruct (vec_gcd_ok d v Hd N0) as [P _].
  set (g := vec_gcd d v) in *. set (x := prim d v i) in *. clearbody g x. nia.
Qed.
Lemma vec_gcd_ext d v w : 1 <= d -> (forall i, i < d -> v i = w i) -> vec_gcd d v = vec_gcd d w.
Proof.
  intros Hd E. unfold vec_gcd. rewrite (E 0) by lia. generalize (Z.abs (w 0%nat)).
  assert (K : forall l, (forall i, In i l -> i < d) -> forall a, fold_left (fun g i => Z.gcd g (Z.abs (v i))) l a = fold_left (fun g i => Z.gcd g (Z.abs (w i))) l a).
  { induction l as [|x l IH]; intros H a; cbn [fold_left]; auto. rewrite (E x) by (apply H; left; auto). apply IH. intros; apply H; right; auto. }
  apply K. intros i Hi. apply in_seq in Hi. lia.
Qed.
Lemma norm2_ext d v w : (forall i, i < d -> v i = w i) -> norm2 d v = norm2 d w.
Proof. intros E. unfold norm2. f_equal. apply map_ext_in. intros i Hi. apply in_seq in Hi. rewrite (E i) by lia. auto. Qed.
Lemma zsum_nonneg l : (forall x, In x l -> (0 <= x)%Z) -> (0 <= zsum l)%Z /\ forall x, In x l -> (x <= zsum l)%Z.
Proof.
  induction l as [|y l IH]; intros H; [split; [reflexivity|intros x []]|]. destruct IH as [I1 I2]; [intros; apply H; right; auto|].
  assert (Y := H y ltac:(left; auto)). change (zsum (y :: l)) with (y + zsum l)%Z. split; [lia|]. intros x [<-|Hx]; [lia|]. specialize (I2 x Hx). lia.
Qed.
Lemma norm2_pos d v : (exists i, i < d /\ v i <> 0%Z) -> (0 < norm2 d v)%Z.
Proof.
  intros [i [Hi N0]]. unfold norm2. destruct (zsum_nonneg (map (fun i => v i * v i)%Z (seq 0 d))) as [_ H].
  { intros x Hx. apply in_map_iff in Hx. destruct Hx as [j [<- _]]. nia. }
  specialize (H (v i * v i)%Z). assert (0 < v i * v i)%Z by nia. enough (v i * v i <= zsum (map (fun i => v i * v i)%Z (seq 0 d)))%Z by lia.
  apply H. apply in_map_iff. exists i. split; auto. apply in_seq. lia.
Qed.
Lemma prim_nonzero d v : 1 <= d -> (exists i, i < d /\ v i <> 0%Z) -> exists i, i < d /\ prim d v i <> 0%Z.
Proof. intros Hd N0. assert (X := N0). destruct X as [i [Hi V]]. exists i. split; auto. rewrite (prim_mul d v i Hd N0 Hi) in V. nia. Qed.

(** ** Directions *)
Lemma direction_pos d v w g : (0 < g)%Z -> direction d v w -> direction d (fun i => g * v i)%Z w.
Proof.
  intros Hg [[k [Hk E]] D]. split; auto. exists (g * k)%Z. split; [nia|]. intros i Hi. rewrite (E i Hi). ring.
Qed.
Lemma direction_ext d v v' w : (forall i, i < d -> v i = v' i) -> direction d v w -> direction d v' w.
Proof. intros X [[k [Hk E]] D]. split; auto. exists k. split; auto. intros i Hi. rewrite <- X by auto. auto. Qed.
Lemma direction_unique d v v' w w' g g' : (0 < g)%Z -> (0 < g')%Z -> (forall i, i < d -> (g * v i = g' * v' i)%Z) ->
  direction d v w -> direction d v' w' -> forall i, i < d -> w i = w' i.
Proof.
  intros Hg Hg' X [[k [Hk E]] D] [[k' [Hk' E']] D'].
  (* a w = b w' with a, b > 0; divide by the gcd of a and b *)
  set (a := (g * k)%Z). set (b := (g' * k')%Z). assert (AB : forall i, i < d -> (a * w i = b * w' i)%Z).
  { intros i Hi. specialize (X i Hi). rewrite (E i Hi), (E' i Hi) in X. unfold a, b. nia. }
  assert (Ha : (0 < a)%Z) by (unfold a; nia). assert (Hb : (0 < b)%Z) by (unfold b; nia).
  destruct (Z.gcd_divide_l a b) as [a' EA]. destruct (Z.gcd_divide_r a b) as [b' EB]. set (h := Z.gcd a b) in *.
  assert (Hh : (0 < h)%Z) by (assert (Y := Z.gcd_nonneg a b); fold h in Y; destruct (Z.eq_dec h 0) as [Z0|Z0]; [rewrite Z0, Z.mul_0_r in EA; lia|lia]).
  assert (Ha' : (0 < a')%Z) by nia. assert (Hb' : (0 < b')%Z) by nia.
  assert (CP : Z.gcd a' b' = 1%Z).
  { assert (Y : Z.gcd (a' * h) (b' * h) = (Z.gcd a' b' * h)%Z) by (rewrite Z.gcd_mul_mono_r, (Z.abs_eq h) by lia; auto).
    rewrite <- EA, <- EB in Y. fold h in Y. nia. }
  assert (AB' : forall i, i < d -> (a' * w i = b' * w' i)%Z) by (intros i Hi; specialize (AB i Hi); rewrite EA, EB in AB; nia).
  assert (A1 : a' = 1%Z).
  { apply D'; auto. intros i Hi. apply (Z.gauss a' b' (w' i)); auto. exists (w i). rewrite <- AB' by auto. ring. }
  assert (B1 : b' = 1%Z).
  { apply D; auto. intros i Hi. apply (Z.gauss b' a' (w i)); [|rewrite Z.gcd_comm; auto]. exists (w' i). rewrite AB' by auto. ring. }
  intros i Hi. specialize (AB' i Hi). rewrite A1, B1 in AB'. lia.
Qed.

Lemma direction_norm d v w (g : Z) : (forall i, i < d -> v i = (g * w i)%Z) -> squared_norm d v = (g * g * squared_norm d w)%Z.
Proof.
  intros E. unfold squared_norm.
  assert (K : forall l, (forall i, In i l -> i < d) -> zsum (map (fun i => v i * v i)%Z l) = (g * g * zsum (map (fun i => w i * w i)%Z l))%Z).
  { induction l as [|x l IH]; intros Hl; [cbn; ring|]. cbn [map].
    change (v x * v x + zsum (map (fun i => v i * v i)%Z l) = g * g * (w x * w x + zsum (map (fun i => w i * w i)%Z l)))%Z.
    rewrite IH by (intros; apply Hl; right; auto). rewrite (E x) by (apply Hl; left; auto). ring. }
  apply K. intros i Hi. apply in_seq in Hi. lia.
Qed.
Lemma direction_norm_pos d v w : direction d v w -> (0 < squared_norm d w)%Z.
Proof.
  intros [_ D]. apply norm2_pos. destruct (Exists_dec (fun i => w i <> 0%Z) (seq 0 d)) as [E|E].
  { intros i. destruct (Z.eq_dec (w i) 0); [right; auto|left; auto]. }
  - apply Exists_exists in E. destruct E as [i [Hi E]]. apply in_seq in Hi. exists i. split; auto. lia.
  - exfalso. assert (X : (2 = 1)%Z); [|discriminate]. apply D; [lia|]. intros i Hi. destruct (Z.eq_dec (w i) 0) as [Z0|Z0].
    + rewrite Z0. apply Z.divide_0_r.
    + exfalso. apply E. apply Exists_exists. exists i. split; auto. apply in_seq. lia.
Qed.
Lemma direction_same_angle d v v' w w' : 1 <= d -> direction d v w -> direction d v' w' ->
  same_angle_with_last_axis d v v' <-> same_angle_with_last_axis d w w'.
Proof.
  intros Hd [[g [Hg E]] _] [[g' [Hg' E']] _]. unfold same_angle_with_last_axis.
  rewrite (direction_norm d v w g E), (direction_norm d v' w' g' E'), (E (d - 1)), (E' (d - 1)) by lia.
  rewrite !Z.abs_mul, !(Z.abs_eq g), !(Z.abs_eq g') by lia.
  set (a := (w (d - 1)%nat * Z.abs (w (d - 1)%nat) * squared_norm d w')%Z). set (b := (w' (d - 1)%nat * Z.abs (w' (d - 1)%nat) * squared_norm d w)%Z).
  replace (g * w (d - 1)%nat * (g * Z.abs (w (d - 1)%nat)) * (g' * g' * squared_norm d w'))%Z with ((g * g * (g' * g')) * a)%Z by (unfold a; ring).
  replace (g' * w' (d - 1)%nat * (g' * Z.abs (w' (d - 1)%nat)) * (g * g * squared_norm d w))%Z with ((g * g * (g' * g')) * b)%Z by (unfold b; ring).
  assert (0 < g * g * (g' * g'))%Z by nia. split; [|intros ->; auto]. apply Z.mul_reg_l. lia.
Qed.
Lemma reduced_fraction (x s : Z) : (0 < s)%Z -> let g := Z.gcd x s in
  (0 < g)%Z /\ x = (g * (x / g))%Z /\ s = (g * (s / g))%Z /\ Z.gcd (x / g) (s / g) = 1%Z /\ (0 < s / g)%Z.
Proof.
  intros Hs. cbv zeta. destruct (Z.gcd_divide_l x s) as [a EA]. destruct (Z.gcd_divide_r x s) as [b EB].
  assert (Hg := Z.gcd_nonneg x s). assert (G : (0 < Z.gcd x s)%Z).
  { destruct (Z.eq_dec (Z.gcd x s) 0) as [Z0|Z0]; [rewrite Z0, Z.mul_0_r in EB; lia|lia]. }
  assert (E := Z.gcd_div_gcd x s (Z.gcd x s) ltac:(lia) eq_refl). set (g := Z.gcd x s) in *.
  assert (XG : (x / g)%Z = a) by (rewrite EA at 1; apply Z.div_mul; lia).
  assert (SG : (s / g)%Z = b) by (rewrite EB at 1; apply Z.div_mul; lia).
  rewrite XG, SG in *. repeat match goal with |- _ /\ _ => split end; auto; try lia.
Qed.
Lemma reduced_fraction_inj (c s c' s' : Z) : (0 < s)%Z -> (0 < s')%Z ->
  (let x := (c * Z.abs c)%Z in let g := Z.gcd x s in (x / g, s / g)%Z) = (let x := (c' * Z.abs c')%Z in let g := Z.gcd x s' in (x / g, s' / g)%Z) ->
  (c * Z.abs c * s' = c' * Z.abs c' * s)%Z.
Proof.
  cbv zeta. set (x := (c * Z.abs c)%Z). set (x' := (c' * Z.abs c')%Z). intros Hs Hs' E. injection E as E1 E2.
  destruct (reduced_fraction x s Hs) as [G [EX [ES _]]]. destruct (reduced_fraction x' s' Hs') as [G' [EX' [ES' _]]].
  set (g := Z.gcd x s) in *. set (g' := Z.gcd x' s') in *. set (a := (x / g)%Z) in *. set (b := (s / g)%Z) in *.
  set (a' := (x' / g')%Z) in *. set (b' := (s' / g')%Z) in *.
  transitivity (g * a * (g' * b'))%Z; [rewrite <- EX, <- ES'; auto|]. transitivity (g' * a' * (g * b))%Z; [rewrite E1, E2; ring|rewrite <- EX', <- ES; auto].
Qed.
Lemma reduced_fraction_eq (c s c' s' : Z) : (0 < s)%Z -> (0 < s')%Z -> (c * Z.abs c * s' = c' * Z.abs c' * s)%Z ->
  (let x := (c * Z.abs c)%Z in let g := Z.gcd x s in (x / g, s / g)%Z) = (let x := (c' * Z.abs c')%Z in let g := Z.gcd x s' in (x / g, s' / g)%Z).
Proof.
  cbv zeta. set (x := (c * Z.abs c)%Z). set (x' := (c' * Z.abs c')%Z). intros Hs Hs' E.
  destruct (reduced_fraction x s Hs) as [G [EX [ES [CP SP]]]]. destruct (reduced_fraction x' s' Hs') as [G' [EX' [ES' [CP' SP']]]].
  set (g := Z.gcd x s) in *. set (g' := Z.gcd x' s') in *. set (a := (x / g)%Z) in *. set (b := (s / g)%Z) in *.
  set (a' := (x' / g')%Z) in *. set (b' := (s' / g')%Z) in *.
  assert (AB : (a * b' = a' * b)%Z).
  { rewrite EX, ES', EX', ES in E. apply (Z.mul_reg_l _ _ (g * g')%Z); [nia|]. transitivity (g * a * (g' * b'))%Z; [ring|]. rewrite E. ring. }
  assert (D1 : (b | b')%Z). { apply (Z.gauss b a b'); [exists a'; auto|rewrite Z.gcd_comm; auto]. }
  assert (D2 : (b' | b)%Z). { apply (Z.gauss b' a' b); [exists a; auto|rewrite Z.gcd_comm; auto]. }
  assert (BB : b = b'). { apply Z.divide_antisym_nonneg; auto; lia. }
  f_equal; auto. rewrite BB in AB. apply Z.mul_reg_r in AB; auto. lia.
Qed.

(** ** How many angles there can be *)
Definition zrange (n : nat) : list Z := map (fun k => Z.of_nat k - (2 * Z.of_nat n + 1))%Z (seq 0 (4 * n + 3)).
Lemma zrange_in n z : (- (2 * Z.of_nat n + 1) <= z <= 2 * Z.of_nat n + 1)%Z -> In z (zrange n).
Proof. intros H. apply in_map_iff. exists (Z.to_nat (z + (2 * Z.of_nat n + 1))). split; [lia|]. apply in_seq. lia. Qed.
Lemma zrange_length n : length (zrange n) = 4 * n + 3.
Proof. unfold zrange. rewrite map_length, seq_length. auto. Qed.
Lemma flat_map_length_const {A B} (f : A -> list B) l k : (forall x, In x l -> length (f x) = k) -> length (flat_map f l) = length l * k.
Proof. induction l as [|x l IH]; intros H; cbn [flat_map length]; auto. rewrite app_length, IH, H; try (left; auto; fail). lia. intros; apply H; right; auto. Qed.
Definition cover (d n : nat) : list (Z * Z) :=
  match d with
  | 1 => [(1, 1); (-1, 1)]%Z
  | 2 => ([(1, 1); (-1, 1)] ++ map (fun y => (y, 1 + y * y)) (zrange n))%Z ++
      flat_map (fun x => flat_map (fun k => let y := (Z.of_nat (if k <? x then k else S k)) in
          [(y, Z.of_nat x * Z.of_nat x + y * y); (- y, Z.of_nat x * Z.of_nat x + y * y)]%Z) (seq 1 (2 * n))) (seq 2 (2 * n))
  | _ => flat_map (fun z => flat_map (fun x => map (fun y => (z, Z.of_nat x * Z.of_nat x + Z.of_nat y * Z.of_nat y + z * z)%Z) (seq 0 (S x)))
            (seq 0 (2 * n + 2))) (zrange n)
  end.
Lemma tri_length m : forall (f : nat -> nat -> Z * Z), 2 * length (flat_map (fun x => map (f x) (seq 0 (S x))) (seq 0 m)) = m * (m + 1).
Proof.
  induction m as [|m IH]; intros f; [reflexivity|]. rewrite seq_S, flat_map_app, app_length, Nat.mul_add_distr_l, IH. cbn [flat_map].
  rewrite app_nil_r, map_length, seq_length. lia.
Qed.
Lemma cover_length d n : 1 <= n -> 1 <= d <= 3 -> length (cover d n) <= 2 ^ (d - 1) * (2 * n + 1) ^ d.
Proof.
  intros Hn Hd. destruct d as [|[|[|[|d]]]]; try lia.
  - cbn [cover length Nat.sub Nat.pow]. lia.
  - unfold cover. rewrite !app_length, map_length, zrange_length. rewrite (flat_map_length_const _ _ (4 * n)).
    + rewrite seq_length. change (2 ^ (2 - 1)) with 2. cbn [length]. replace ((2 * n + 1) ^ 2) with ((2 * n + 1) * (2 * n + 1)) by (cbn; lia). nia.
    + intros x _. rewrite (flat_map_length_const _ _ 2) by reflexivity. rewrite seq_length. lia.
  - unfold cover. set (f := fun (z : Z) (x y : nat) => (z, Z.of_nat x * Z.of_nat x + Z.of_nat y * Z.of_nat y + z * z)%Z).
    set (T := (n + 1) * (2 * n + 3)).
    rewrite (flat_map_length_const _ _ T).
    + rewrite zrange_length. change (2 ^ (3 - 1)) with 4. replace ((2 * n + 1) ^ 3) with ((2 * n + 1) * ((2 * n + 1) * (2 * n + 1))) by (cbn; lia). unfold T. nia.
    + intros z _. assert (X := tri_length (2 * n + 2) (f z)). unfold f in X. unfold T. lia.
Qed.
Lemma cover_ok d n w : 1 <= d <= 3 -> 1 <= n -> in_bounds d n w -> (exists i, i < d /\ w i <> 0%Z) ->
  (forall g : Z, (0 < g)%Z -> (forall i, i < d -> (g | w i)%Z) -> g = 1%Z) -> In (w (d - 1), norm2 d w) (cover d n).
Proof.
  intros Hd Hn B N0 PR. destruct d as [|[|[|[|d]]]]; try lia.
  - change (norm2 1 w) with (w 0%nat * w 0%nat + 0)%Z. cbn [cover Nat.sub]. destruct N0 as [i [Hi N0]]. replace i with 0 in N0 by lia.
    assert (G := PR (Z.abs (w 0%nat)) ltac:(lia)). assert (A : Z.abs (w 0%nat) = 1%Z).
    { apply G. intros j Hj. replace j with 0 by lia. apply Z.divide_abs_l. apply Z.divide_refl. }
    destruct (Z.abs_eq_or_opp (w 0%nat)) as [Q|Q]; rewrite A in Q.
    + left. rewrite <- Q. reflexivity.
    + right. left. replace (w 0%nat) with (-1)%Z by lia. reflexivity.
  - change (norm2 2 w) with (w 0%nat * w 0%nat + (w 1%nat * w 1%nat + 0))%Z. cbn [Nat.sub]. assert (B0 := B 0 ltac:(lia)). assert (B1 := B 1 ltac:(lia)).
    assert (P2 : forall g : Z, (0 < g)%Z -> (g | w 0%nat)%Z -> (g | w 1%nat)%Z -> g = 1%Z).
    { intros g Hg D0 D1. apply PR; auto. intros [|[|i]] Hi; auto; lia. }
    assert (NZ : w 0%nat <> 0%Z \/ w 1%nat <> 0%Z).
    { destruct N0 as [[|[|i]] [Hi N0]]; auto; lia. }
    unfold cover. destruct (Z.eq_dec (w 0%nat) 0) as [Z0|Z0].
    { (* x = 0 *)
      assert (A : Z.abs (w 1%nat) = 1%Z).
      { apply P2; [lia| |]; [rewrite Z0; apply Z.divide_0_r|]. apply Z.divide_abs_l, Z.divide_refl. }
      rewrite Z0. destruct (Z.abs_eq_or_opp (w 1%nat)) as [Q|Q]; rewrite A in Q.
      - left. rewrite <- Q. reflexivity.
      - right. left. replace (w 1%nat) with (-1)%Z by lia. reflexivity. }
    destruct (Z.eq_dec (Z.abs (w 0%nat)) 1) as [Z1|Z1].
    { apply in_or_app. left. right. right. apply in_map_iff. exists (w 1%nat). split; [f_equal; nia|]. apply zrange_in. lia. }
    assert (Y0 : w 1%nat <> 0%Z).
    { intros Y. apply Z1. apply P2; [lia| |]; [apply Z.divide_abs_l, Z.divide_refl|rewrite Y; apply Z.divide_0_r]. }
    assert (YX : Z.abs (w 1%nat) <> Z.abs (w 0%nat)).
    { intros Y. apply Z1. apply P2; [lia| |]; [apply Z.divide_abs_l, Z.divide_refl|].
      rewrite <- Y. apply Z.divide_abs_l, Z.divide_refl. }
    apply in_or_app. right. apply in_flat_map. exists (Z.to_nat (Z.abs (w 0%nat))). split; [apply in_seq; lia|].
    apply in_flat_map. set (x := Z.to_nat (Z.abs (w 0%nat))) in *. set (y := Z.to_nat (Z.abs (w 1%nat))). exists (if y <? x then y else y - 1).
    assert (XX : (Z.of_nat x * Z.of_nat x = w 0%nat * w 0%nat)%Z) by (unfold x; rewrite Z2Nat.id by lia; nia).
    assert (KY : (if (if y <? x then y else y - 1) <? x then if y <? x then y else y - 1 else S (if y <? x then y else y - 1)) = y).
    { destruct (Nat.ltb_spec y x) as [L|L]; [destruct (Nat.ltb_spec y x); lia|]. destruct (Nat.ltb_spec (y - 1) x); lia. }
    split. { apply in_seq. destruct (Nat.ltb_spec y x); lia. }
    cbv zeta. rewrite KY, XX. replace (Z.of_nat y) with (Z.abs (w 1%nat)) by lia.
    destruct (Z.abs_eq_or_opp (w 1%nat)) as [Q|Q]; rewrite Q.
    + left. f_equal. lia.
    + right. left. f_equal; lia.
  - change (norm2 3 w) with (w 0%nat * w 0%nat + (w 1%nat * w 1%nat + (w 2%nat * w 2%nat + 0)))%Z. cbn [Nat.sub].
    assert (B0 := B 0 ltac:(lia)). assert (B1 := B 1 ltac:(lia)). assert (B2 := B 2 ltac:(lia)).
    unfold cover. apply in_flat_map. exists (w 2%nat). split; [apply zrange_in; lia|]. apply in_flat_map.
    set (x := Z.to_nat (Z.abs (w 0%nat))). set (y := Z.to_nat (Z.abs (w 1%nat))).
    assert (XX : (Z.of_nat x * Z.of_nat x = w 0%nat * w 0%nat)%Z) by (unfold x; rewrite Z2Nat.id by lia; nia).
    assert (YY : (Z.of_nat y * Z.of_nat y = w 1%nat * w 1%nat)%Z) by (unfold y; rewrite Z2Nat.id by lia; nia).
    exists (max x y). split; [apply in_seq; lia|]. apply in_map_iff. exists (min x y). split; [|apply in_seq; lia].
    f_equal. destruct (Nat.le_ge_cases x y) as [L|L].
    + rewrite (Nat.max_r x y L), (Nat.min_l x y L), XX, YY. ring.
    + rewrite (Nat.max_l x y L), (Nat.min_r x y L), XX, YY. ring.
Qed.

(** ** The dictionary of angles *)
Section Rot.
Variable angle : Type.
Variable angle_eqb : angle -> angle -> bool.
Variable angle_of : Z -> Z -> angle.
Hypothesis EQB : forall a b, angle_eqb a b = true <-> a = b.
Notation index_of := (index_of angle angle_eqb).

Lemma index_some x l r : index_of x l = Some r -> nth_error l r = Some x.
Proof.
  revert r. induction l as [|y l IH]; intros r H; [discriminate|]. cbn [Classes.index_of] in H. destruct (angle_eqb y x) eqn:E.
  - injection H as <-. apply EQB in E. subst. auto.
  - destruct (index_of x l) as [r'|]; [|discriminate]. injection H as <-. cbn. auto.
Qed.
Lemma index_none x l : index_of x l = None -> ~ In x l.
Proof.
  induction l as [|y l IH]; intros H; [intros []|]. cbn [Classes.index_of] in H. destruct (angle_eqb y x) eqn:E; [discriminate|].
  destruct (index_of x l); [discriminate|]. intros [->|Hin]; [|apply IH; auto]. assert (angle_eqb x x = true) by (apply EQB; auto). congruence.
Qed.
Lemma rotation_inv n d used (a : nat -> angle) : (forall k, In k used -> class_angle angle angle_of n d k = Some (a k)) ->
  exists angles m, compute_rotation_classes angle angle_eqb angle_of n d used = Some (angles, m) /\ NoDup angles /\
    (forall k, In k used -> exists r, m k = Some r /\ nth_error angles r = Some (a k)) /\
    (forall r x, nth_error angles r = Some x -> exists k, In k used /\ m k = Some r /\ a k = x).
Proof.
  unfold compute_rotation_classes. induction used as [|k used IH] using rev_ind; intros H.
  - exists [], (fun _ => None). split; [reflexivity|]. split; [constructor|]. split; [intros k []|]. intros [|r] x Q; discriminate.
  - destruct IH as [angles [m [E [ND [H1 H2]]]]]. { intros; apply H. apply in_or_app; auto. }
    rewrite fold_left_app, E. cbn [fold_left rotation_step]. rewrite (H k) by (apply in_or_app; right; left; auto).
    assert (OLD : forall angles' r0, (forall r x, nth_error angles r = Some x -> nth_error angles' r = Some x) -> nth_error angles' r0 = Some (a k) ->
      forall k', In k' (used ++ [k]) -> exists r, set m k r0 k' = Some r /\ nth_error angles' r = Some (a k')).
    { intros angles' r0 X Y k' Hk. unfold set. destruct (Nat.eqb_spec k' k) as [->|D]; [eauto|].
      apply in_app_or in Hk. destruct Hk as [Hk|[->|[]]]; [|congruence]. destruct (H1 k' Hk) as [r [R1 R2]]. eauto. }
    destruct (index_of (a k) angles) as [r0|] eqn:I.
    + apply index_some in I. exists angles, (set m k r0). split; auto. split; auto. split; [apply OLD; auto|].
      intros r x Q. destruct (H2 r x Q) as [k' [K1 [K2 K3]]]. exists k'. split; [apply in_or_app; auto|]. split; auto. unfold set.
      destruct (Nat.eqb_spec k' k) as [->|D]; auto. f_equal. apply (proj1 (NoDup_nth_error _) ND); [apply nth_error_Some; congruence|]. congruence.
    + apply index_none in I. exists (angles ++ [a k]), (set m k (length angles)).
      assert (LAST : nth_error (angles ++ [a k]) (length angles) = Some (a k)) by (rewrite nth_error_app2, Nat.sub_diag by lia; auto).
      split; auto. split.
      { apply NoDup_app_intro; auto. { constructor; [intros []|constructor]. } intros x Hx [<-|[]]. auto. }
      split.
      { apply OLD; auto. intros r x Q. rewrite nth_error_app1; auto. apply nth_error_Some. congruence. }
      intros r x Q. destruct (Nat.lt_ge_cases r (length angles)) as [L|L].
      * rewrite nth_error_app1 in Q by auto. destruct (H2 r x Q) as [k' [K1 [K2 K3]]]. exists k'. split; [apply in_or_app; auto|]. split; auto.
        unfold set. destruct (Nat.eqb_spec k' k) as [->|D]; auto. exfalso. apply I. rewrite K3. eapply nth_error_In; eauto.
      * assert (r = length angles). { assert (r < length (angles ++ [a k])) by (apply nth_error_Some; congruence). rewrite app_length in *; cbn in *. lia. }
        subst r. exists k. split; [apply in_or_app; right; left; auto|]. split; [unfold set; rewrite Nat.eqb_refl; auto|]. congruence.
Qed.

Variable t : tree.
Hypothesis W : wf_tree t.
Variable P : trav_params.
Hypothesis WP : wf_params t P.
Variable tr : traversal.
Hypothesis Htr : build_traversal t P = Some tr.
Hypothesis D3 : 1 <= dim t <= 3.
Notation n := (well_sep_is_n_away P).
Notation d := (dim t).
Notation u := (unit_vec t).
Lemma pair_nonzero k A B : list2_pair tr k A B -> exists i, i < d /\ u A B i <> 0%Z.
Proof. intros X. destruct (pair_geometry t W P WP tr Htr k A B X) as [_ [_ [_ [_ [_ [i [Hi Q]]]]]]]. exists i. split; auto. lia. Qed.
Lemma pair_direction k A B : list2_pair tr k A B -> direction d (translation t A B) (prim d (u A B)).
Proof.
  intros X. destruct (pair_geometry t W P WP tr Htr k A B X) as [LA [LB [_ [_ [U _]]]]]. assert (RP := box_rad_pos t W B LB).
  eapply direction_ext; [|apply (direction_pos d (u A B) _ (2 * box_rad t B)%Z); [lia|apply prim_direction; [lia|eapply pair_nonzero; eauto]]].
  intros i Hi. cbv beta. rewrite (U i Hi). ring.
Qed.
Definition pair_angle (A B : nat) : angle := angle_of (prim d (u A B) (d - 1)) (norm2 d (prim d (u A B))).
Lemma pair_class_angle k A B : list2_pair tr k A B -> class_angle angle angle_of n d (full_class t P false A B) = Some (pair_angle A B).
Proof.
  intros X. destruct (pair_geometry t W P WP tr Htr k A B X) as [LA [LB [_ [BD [U _]]]]]. unfold full_class. rewrite Nat.add_0_r.
  unfold class_angle. assert (E : forall i, i < d -> class_to_vector n d (code d n (u A B)) i = u A B i) by (intros; apply code_vector; auto).
  assert (G : vec_gcd d (class_to_vector n d (code d n (u A B))) = vec_gcd d (u A B)) by (apply vec_gcd_ext; auto; lia).
  rewrite G. assert (EN : forall i, i < d -> (class_to_vector n d (code d n (u A B)) i / vec_gcd d (u A B))%Z = prim d (u A B) i)
    by (intros i Hi; rewrite E by auto; reflexivity).
  rewrite (norm2_ext d _ (prim d (u A B)) EN). assert (N0 := pair_nonzero k A B X).
  assert (NP := norm2_pos d _ (prim_nonzero d _ ltac:(lia) N0)). destruct (Z.eqb_spec (norm2 d (prim d (u A B))) 0); [lia|].
  rewrite EN by lia. reflexivity.
Qed.
Lemma rotation_ok : exists classes angles, rotation_classes angle angle_eqb angle_of t n tr = Some (classes, angles) /\
  length classes = length (lists (from_sep_siblings tr)) /\ NoDup angles /\ length angles <= 2 ^ (d - 1) * (2 * n + 1) ^ d /\
  (forall k A B, list2_pair tr k A B -> exists r, nth k classes None = Some r /\ nth_error angles r = Some (pair_angle A B)) /\
  (forall r, r < length angles -> exists k A B, list2_pair tr k A B /\ nth k classes None = Some r).
Proof.
  destruct (compute_ok t W P WP tr Htr false) as [cls [E [L Q]]]. rewrite Nat.mul_1_r in E.
  set (M := nclasses_per_level n d) in *. set (used := map (fun k => existsb (Nat.eqb k) cls) (seq 0 M)) in *.
  assert (LU : length used = M) by (unfold used; rewrite map_length, seq_length; auto).
  assert (US : forall i, i < M -> nth i used false = existsb (Nat.eqb i) cls) by (intros; unfold used; apply (nth_map_seq (fun k => existsb (Nat.eqb k) cls)); auto).
  set (ul := filter (fun k => nth k used false) (seq 0 (length used))).
  assert (UL : forall k, In k ul <-> exists j A B, list2_pair tr j A B /\ full_class t P false A B = k).
  { intros k. unfold ul. rewrite filter_In, in_seq, LU. split.
    - intros [R X]. rewrite US in X by lia. apply existsb_exists in X. destruct X as [x [Hx X]]. apply Nat.eqb_eq in X. subst x.
      apply (In_nth _ _ 0) in Hx. destruct Hx as [j [Hj Ej]]. destruct (pair_exists t W P WP tr Htr j ltac:(lia)) as [A [B Y]].
      exists j, A, B. split; auto. rewrite <- (Q j A B Y). auto.
    - intros [j [A [B [Y <-]]]]. assert (LT := full_class_lt t W P WP tr Htr false j A B Y). rewrite Nat.mul_1_r in LT. fold M in LT.
      split; [lia|]. rewrite US by auto. apply existsb_exists. exists (full_class t P false A B). split; [|apply Nat.eqb_refl].
      rewrite <- (Q j A B Y). apply nth_In. rewrite L. eapply pair_lt; eauto. }
  set (a := fun k => match class_angle angle angle_of n d k with Some x => x | None => angle_of 0 0 end).
  destruct (rotation_inv n d ul a) as [angles [m [EC [ND [H1 H2]]]]].
  { intros k Hk. apply UL in Hk. destruct Hk as [j [A [B [Y <-]]]]. unfold a. rewrite (pair_class_angle j A B Y). auto. }
  assert (PA : forall j A B, list2_pair tr j A B -> a (full_class t P false A B) = pair_angle A B).
  { intros j A B Y. unfold a. rewrite (pair_class_angle j A B Y). auto. }
  assert (BOUND : length angles <= 2 ^ (d - 1) * (2 * n + 1) ^ d).
  { etransitivity; [|apply cover_length; [apply (proj1 WP)|auto]]. rewrite <- (map_length (fun p => angle_of (fst p) (snd p))).
    apply NoDup_incl_length; auto. intros x Hx. apply In_nth_error in Hx. destruct Hx as [r Hr]. destruct (H2 r x Hr) as [k [K1 [_ K3]]].
    apply UL in K1. destruct K1 as [j [A [B [Y <-]]]]. rewrite (PA j A B Y) in K3. subst x. apply in_map_iff. 
    exists (prim d (u A B) (d - 1), norm2 d (prim d (u A B))). split; [reflexivity|].
    destruct (pair_geometry t W P WP tr Htr j A B Y) as [_ [_ [_ [BD _]]]]. assert (N0 := pair_nonzero j A B Y).
    apply cover_ok; auto; [apply (proj1 WP)|apply prim_bounds; auto; lia|apply prim_nonzero; auto; lia|].
    apply (prim_direction d (u A B)); auto; lia. }
  exists (map m cls), angles. unfold rotation_classes. rewrite E. fold ul. rewrite EC.
  destruct (Nat.leb_spec (length angles) (2 ^ (d - 1) * (2 * n + 1) ^ d)); [|lia]. split; auto. split; [rewrite map_length; auto|]. split; auto. split; auto.
  assert (NC : forall j A B, list2_pair tr j A B -> nth j (map m cls) None = m (full_class t P false A B)).
  { intros j A B Y. rewrite (nth_indep _ None (m 0)) by (rewrite map_length, L; eapply pair_lt; eauto). rewrite map_nth, (Q j A B Y). auto. }
  split.
  - intros j A B Y. destruct (H1 (full_class t P false A B)) as [r [R1 R2]]. { apply UL. eauto. }
    exists r. rewrite (NC j A B Y), <- (PA j A B Y). auto.
  - intros r Hr. destruct (nth_error angles r) as [x|] eqn:X; [|apply nth_error_None in X; lia]. destruct (H2 r x X) as [k [K1 [K2 _]]].
    apply UL in K1. destruct K1 as [j [A [B [Y <-]]]]. exists j, A, B. split; auto. rewrite (NC j A B Y). auto.
Qed.
End Rot.
