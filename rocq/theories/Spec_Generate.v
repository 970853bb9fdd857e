(** What the generators of treecat/generate.py should return. *)
From Coq Require Import List Arith ZArith Bool Reals.
From Verif Require Import Base Spec_Graph Spec_Sum Spec_Ragged M_Structure M_Util M_Training M_Serving Spec_Stats Spec_Serving Spec_Summary.
Import ListNotations.
Open Scope nat_scope.

(** A tree structure over [V] vertices made from a spanning tree. *)
Definition proper_tree (V : nat) (t : tree_structure) : Prop :=
  exists es, spanning_tree V es /\ t = TS V (make_tree es).

(** The statistics of the model are the counts over the rows of the table, row
    [n] having class [asg n v] at feature [v]. *)
Record counted (ws : list nat) (tb : table) (M : nat) (asg : nat -> nat -> nat) (m : smodel) : Prop := {
  ct_vert : forall v c, v < num_cols tb -> c < M ->
    d_vert m v c = total (seq 0 (num_rows tb)) (fun n => one_if (asg n v =? c));
  ct_edge : forall e v1 v2 c1 c2, nth_error (ts_get_edges (d_tree m)) e = Some (v1, v2) -> c1 < M -> c2 < M ->
    d_edge m e c1 c2 = total (seq 0 (num_rows tb)) (fun n => one_if ((asg n v1 =? c1) && (asg n v2 =? c2)));
  ct_feat : forall v r c, owns ws v r -> c < M ->
    d_feat m r c = total (seq 0 (num_rows tb)) (fun n => one_if (asg n v =? c)%nat * datum tb n r)%Z
}.

(** The probability that features [u] and [v] are in the same class. *)
Definition agreement (m : smodel) (u v : nat) : R :=
  sumf (seq 0 (d_M m)) (fun c => pair_prob m u v c c).

(** Column [v] of row [n]: [C] consecutive entries. *)
Definition cell (C : nat) (tb : table) (n v : nat) : list Z := map (fun k => datum tb n (v * C + k)) (seq 0 C).
