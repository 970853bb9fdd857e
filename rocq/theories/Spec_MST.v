(** What is assumed of scipy.sparse.csgraph.minimum_spanning_tree. *)
From Coq Require Import List Reals.
From Verif Require Import Spec_Graph Spec_Sum.
Import ListNotations.
Open Scope nat_scope.

Definition entry (w : list (list R)) (x y : nat) : R := nth y (nth x w []) 0%R.

(** a square symmetric matrix *)
Definition sym_matrix (V : nat) (w : list (list R)) : Prop :=
  length w = V /\ (forall row, In row w -> length row = V) /\
  forall x y, x < V -> y < V -> entry w x y = entry w y x.

(** zero entries are absent edges *)
Definition uses_present_edges (w : list (list R)) (T : list edge) : Prop :=
  forall x y, In (x, y) T -> entry w x y <> 0%R.

Definition total (w : list (list R)) (T : list edge) : R := sumf T (fun '(x, y) => entry w x y).

(** Whenever the graph of nonzero entries has a spanning tree, the routine
    returns one of minimal total weight. *)
Definition mst_contract (mst : list (list R) -> list edge) : Prop :=
  forall V w, sym_matrix V w ->
    (exists T, spanning_tree V T /\ uses_present_edges w T) ->
    spanning_tree V (mst w) /\ uses_present_edges w (mst w) /\
    forall T, spanning_tree V T -> uses_present_edges w T -> (total w (mst w) <= total w T)%R.
