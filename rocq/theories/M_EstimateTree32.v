(** [estimate_tree], treecat/structure.py:431-473, with its float32 weights.

    As M_EstimateTree.v, which it follows line by line.  The logits are never NaN
    here (C85), so [min] is modelled for numbers and infinities only. *)
From Coq Require Import List Arith Reals ZArith.
From Flocq Require Import IEEE754.BinarySingleNaN.
From Verif Require Import Base M_Structure M_EstimateTree M_Float32 M_SampleTree32.
Import ListNotations.
Open Scope nat_scope.

(** [weights.min()] on a float32 array, raising on an empty one. *)
Fixpoint fmin (x : f32) (l : list f32) : f32 :=
  match l with [] => x | y :: t => fmin (if fltb y x then y else x) t end.
Definition fmat_min (m : list (list f32)) : result f32 :=
  match concat m with [] => Raise ValueError | x :: t => Ok (fmin x t) end.

(** structure.py:452-473.  [mst] stands for scipy's [minimum_spanning_tree] and the list
    of (row, col) pairs of the nonzero entries of its result.  It converts the weights
    to float64, which is exact, and takes zero and infinity as "no edge"; [B2R] is
    the value of a number and 0 for an infinity. *)
Definition estimate_tree32 (mst : list (list R) -> list (nat * nat)) (grid : list triple)
  (edge_logits : list f32) : result (list (nat * nat)) :=
  _ <- assert_ (length grid =? length edge_logits) ;;
  weights <- triangular_to_square fzero grid edge_logits ;;
  let weights := map (map (fun x => fmul x (f32_of (-1) 0))) weights in
  m <- fmat_min weights ;;
  let weights := map (map (fun x => fsub x m)) weights in
  let weights := map (map (fun x => fadd x fone)) weights in
  let edges := pair_sort (map sort_pair (mst (map (map (fun x => B2R x)) weights))) in
  _ <- assert_ (length edges + 1 =? length weights) ;;
  Ok edges.
