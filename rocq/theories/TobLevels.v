(** Trees of boxes whose levels are numbers of a fixed width: boxtree/tree_of_boxes.py with the powers
    of two of levels computed in box_level_dtype (default np.int32), as numpy does for
    2**(1+box_levels[...]) and 2**lflevels; otherwise as TreeOfBoxes.v. *)
From Coq Require Import List Arith ZArith NArith Lia Bool.
From Verif Require Import Base Tree Traversal TreeOfBoxes.
Import ListNotations.

(** a signed number of [w] binary digits *)
Definition wrap (w : nat) (z : Z) : Z := ((z + 2 ^ Z.of_nat (w - 1)) mod 2 ^ Z.of_nat w - 2 ^ Z.of_nat (w - 1))%Z.
Definition pow2_in (w k : nat) : Z := wrap w (2 ^ Z.of_nat k).

(** tree_of_boxes.py:155-217 as apply_refine; the offsets (199-203) divide by the power of two as
    computed.  Division by zero, which gives infinite coordinates from exponent [w] on, is not
    represented: the theorems do not reach it. *)
Definition apply_refine_in (w : nat) (rf : nat -> bool) (t : tob) : result tob :=
  if any (tn t) (fun b => rf b && negb (is_leaf t b)) then ValueError
  else
    let parents := flagged (tn t) rf in
    if length parents =? 0 then Ok t
    else
      let d := tdim t in
      let nch := tnch t in
      let n := tn t in
      let n_new := n + length parents * nch in
      let parent_of i := nth ((i - n) / nch) parents 0 in
      let level i := if i <? n then tlevel t i else tlevel t (parent_of i) + 1 in
      let child m b := match index_of b parents with
                       | Some j => (n + nch * j) + m
                       | None => resized n 0 (tchild t m) b
                       end in
      Ok {| tdim := d; tn := n_new; textent := textent t;
            tcenter := fun i a =>
              if i <? n then tcenter t i a
              else (tcenter t (parent_of i) a
                    + textent t * morton_sign d ((i - n) mod nch) a / pow2_in w (1 + level i))%Z;
            tparent := fun i => if i <? n then tparent t i else Z.of_nat (parent_of i);
            tchild := child;
            tlevel := level;
            tflags := compute_flags d child;
            tlevel_starts := None |}.

(** tree_of_boxes.py:351-385 *)
Definition refine_and_coarsen_in (w sentinel : nat) (argsort : list nat) (rf cf : nat -> bool)
           (err : bool) (t : tob) : result tob :=
  if any (tn t) (fun b => rf b && cf b) then ValueError
  else
    bind (apply_refine_in w rf t) (fun t1 =>
    bind (apply_coarsen sentinel (resized (tn t) false cf) err t1) (fun t2 =>
    Ok (sort_and_prune sentinel argsort t2))).
Definition unsorted_result_in (w sentinel : nat) (rf cf : nat -> bool) (err : bool) (t : tob) : result tob :=
  bind (apply_refine_in w rf t) (apply_coarsen sentinel (resized (tn t) false cf) err).

(** boxtree/tree.py:266-269 leaf_boxes *)
Definition leaf_boxes (t : tob) : list nat := filter (is_leaf t) (seq 0 (tn t)).

(** tree_of_boxes.py:467-504 make_meshmode_mesh_from_leaves.  [nodes] are the columns of
    modepy.tensor_product_nodes(dim, [-1, 1]): sign vectors.  A mesh is the list of its vertices and,
    per element, the list of vertex numbers; orientation checks of meshmode are not modelled. *)
Record mesh := mkMesh { vertices : list (nat -> Z); vertex_indices : list (list nat) }.
Definition mesh_from_leaves (w : nat) (nodes : list (nat -> Z)) (t : tob) : mesh * list nat :=
  let lfboxes := leaf_boxes t in
  let lfradius b := (textent t / 2 / pow2_in w (tlevel t b))%Z in
  let lfvertices := concat (map (fun b => map (fun s a => (tcenter t b a + lfradius b * s a)%Z) nodes) lfboxes) in
  (* np.arange(len(lfboxes) * 2**dim).reshape([-1, 2**dim]) *)
  ({| vertices := lfvertices; vertex_indices := map (fun e => seq (e * tnch t) (tnch t)) (seq 0 (length lfboxes)) |}, lfboxes).
