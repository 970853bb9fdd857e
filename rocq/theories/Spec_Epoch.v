(** Trees and classes together. *)
From Coq Require Import List Arith Bool Reals.
From Verif Require Import Base Spec_Sum Spec_Graph Spec_Trees M_Structure M_Util M_Rand M_Training Spec_Gibbs.
Import ListNotations.
Open Scope nat_scope.

(** The tree structure whose edges are [T]. *)
Definition with_tree (tb : table) (T : list edge) : tree_structure := TS (num_cols tb) (make_tree T).

(** The state has the tree [T] and the classes [A]. *)
Definition is_at (tb : table) (T : list edge) (A : list (list nat)) (s : tstate) : bool :=
  (if edge_list_eq_dec (ts_get_edges (s_tree s)) T then true else false) && matrix_eqb (class_matrix tb s) A.

(** Log of the prior mass of a tree, for a prior with one entry for every pair of
    features, in the order of the candidate edges. *)
Definition tree_prior_mass (prior : list R) (T : list edge) : R :=
  sumf T (fun '(x, y) => nth (find_complete_edge x y) prior 0%R).

(** [k] epochs. *)
Definition epochs (lg : R -> R) (tb : table) (prior : list R) (M k : nat) (s : tstate) : rprog tstate :=
  rfold (fun s _ => full_epoch lg tb prior M s) (seq 0 k) s.
