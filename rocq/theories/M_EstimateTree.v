(** treecat/structure.py:451-473 [estimate_tree]. *)
From Coq Require Import List Arith Reals.
From Verif Require Import Base M_Structure.
Import ListNotations.
Open Scope nat_scope.

(** [weights.min()]: minimum over all entries, raising on an empty array. *)
Fixpoint list_min (x : R) (l : list R) : R :=
  match l with [] => x | y :: t => list_min (Rmin x y) t end.
Definition mat_min (m : list (list R)) : result R :=
  match concat m with [] => Raise ValueError | x :: t => Ok (list_min x t) end.

(** structure.py:452-473.  [mst] stands for scipy's [minimum_spanning_tree] and
    the list of (row, col) pairs of the nonzero entries of its result.
    Floating-point arithmetic is replaced by real arithmetic. *)
Definition estimate_tree (mst : list (list R) -> list (nat * nat)) (grid : list triple)
  (edge_logits : list R) : result (list (nat * nat)) :=
  _ <- assert_ (length grid =? length edge_logits) ;;
  weights <- triangular_to_square 0%R grid edge_logits ;;
  let weights := map (map (fun x => (x * -1)%R)) weights in
  m <- mat_min weights ;;
  let weights := map (map (fun x => (x - m)%R)) weights in
  let weights := map (map (fun x => (x + 1)%R)) weights in
  let edges := pair_sort (map sort_pair (mst weights)) in
  _ <- assert_ (length edges + 1 =? length weights) ;;
  Ok edges.
