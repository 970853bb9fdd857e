(** Property theorems about treecat/structure.py: C01 - C04. *)
From Coq Require Import List Arith Permutation Sorted.
From Verif Require Import Base Spec_Graph Spec_Program M_Structure.
From Verif Require L_Pairing L_MakeTree L_Program L_ProgramValid L_Center L_Prop1.
Import ListNotations.

(** C01.  Edge numbering of the complete graph is a bijection. *)
Theorem C01_edge_numbering_is_a_bijection : forall V,
  (* the grid lists the edges in order *)
  (exists grid, make_complete_graph V = Ok grid /\ length grid = V * (V - 1) / 2 /\
     forall k x a b, nth_error grid k = Some (x, a, b) ->
       x = k /\ a < b /\ b < V /\ find_complete_edge a b = k /\ find_complete_edge b a = k) /\
  (* symmetric, in range *)
  (forall a b, a < V -> b < V -> a <> b ->
     find_complete_edge a b = find_complete_edge b a /\ find_complete_edge a b < V * (V - 1) / 2) /\
  (* one-to-one on unordered pairs *)
  (forall a b c d, a <> b -> c <> d -> find_complete_edge a b = find_complete_edge c d ->
     same_edge (a, b) (c, d)) /\
  (* onto *)
  (forall k, k < V * (V - 1) / 2 -> exists a b, a < b /\ b < V /\ find_complete_edge a b = k).
Proof. exact L_Prop1.C01_proof. Qed.
Print Assumptions C01_edge_numbering_is_a_bijection.

Example C01_case : find_complete_edge 5 3 = 13 /\ find_complete_edge 3 5 = 13.
Proof. split; reflexivity. Qed.

(** C02.  A tree is stored in canonical form. *)
Theorem C02_make_tree_is_canonical : forall es,
  length (make_tree es) = length es /\
  (forall i x a b, nth_error (make_tree es) i = Some (x, a, b) -> x = i /\ a <= b) /\
  StronglySorted pair_le (map (fun '(_, a, b) => (a, b)) (make_tree es)) /\
  (exists gs, Permutation es gs /\
     Forall2 same_edge gs (map (fun '(_, a, b) => (a, b)) (make_tree es))).
Proof. exact L_MakeTree.make_tree_canonical. Qed.
Print Assumptions C02_make_tree_is_canonical.

Theorem C02_equal_iff_same_undirected_edges : forall V t u es fs t' u',
  ts_V t = V -> ts_V u = V ->
  ts_set_edges t es = Ok t' -> ts_set_edges u fs = Ok u' ->
  (ts_eq t' u' = true <-> exists gs, Permutation es gs /\ Forall2 same_edge gs fs).
Proof. exact L_Prop1.C02_eq_proof. Qed.
Print Assumptions C02_equal_iff_same_undirected_edges.

Theorem C02_set_edges_checks_length_and_get_edges_returns_canonical_list : forall t es,
  (length es + 1 <> ts_V t -> ts_set_edges t es = Raise AssertionError) /\
  (length es + 1 = ts_V t -> exists t', ts_set_edges t es = Ok t' /\ ts_V t' = ts_V t /\
     StronglySorted pair_le (ts_get_edges t') /\
     (forall a b, In (a, b) (ts_get_edges t') -> a <= b) /\
     (exists gs, Permutation es gs /\ Forall2 same_edge gs (ts_get_edges t')) /\
     (* storing the canonical list again changes nothing *)
     ts_set_edges t' (ts_get_edges t') = Ok t').
Proof. exact L_Prop1.C02_set_proof. Qed.
Print Assumptions C02_set_edges_checks_length_and_get_edges_returns_canonical_list.

Theorem C02_initial_tree_is_the_path : forall V,
  (V = 0 -> ts_init V = Raise AssertionError) /\
  (1 <= V -> exists t, ts_init V = Ok t /\ ts_V t = V /\
     ts_get_edges t = map (fun v => (v, S v)) (seq 0 (V - 1)) /\ spanning_tree V (ts_get_edges t)).
Proof. exact L_Prop1.C02_init_proof. Qed.
Print Assumptions C02_initial_tree_is_the_path.

Example C02_case : make_tree [(3, 1); (0, 2); (2, 1)] = [(0, 0, 2); (1, 1, 2); (2, 1, 3)].
Proof. reflexivity. Qed.

(** C03.  find_center_of_tree returns a maximally central vertex. *)
Theorem C03_center_has_minimal_eccentricity : forall V edges, spanning_tree V edges ->
  exists c, find_center_of_tree (make_tree edges) = Ok c /\ center V edges c.
Proof. exact L_Center.find_center_Ok. Qed.
Print Assumptions C03_center_has_minimal_eccentricity.

(** C04.  Propagation programs are valid for every root, and for the default. *)
Theorem C04_propagation_program_valid : forall V edges r, spanning_tree V edges -> r < V ->
  exists prog, make_propagation_program (make_tree edges) (Some r) = Ok prog /\
    valid_program V (map (fun '(_, a, b) => (a, b)) (make_tree edges)) r prog.
Proof. exact L_ProgramValid.make_program_valid. Qed.
Print Assumptions C04_propagation_program_valid.

Theorem C04_default_root_is_a_center : forall V edges, spanning_tree V edges ->
  exists prog c, make_propagation_program (make_tree edges) None = Ok prog /\
    center V edges c /\
    valid_program V (map (fun '(_, a, b) => (a, b)) (make_tree edges)) c prog.
Proof. exact L_Prop1.C04_default_proof. Qed.
Print Assumptions C04_default_root_is_a_center.

(** Every field fits a signed 16-bit integer when V <= 32768 = 2^15. *)
Theorem C04_operands_fit_int16 : forall V edges root prog, spanning_tree V edges ->
  (forall r, root = Some r -> r < V) -> V <= 2 ^ 15 ->
  make_propagation_program (make_tree edges) root = Ok prog ->
  forall i, In i prog -> op_number (i_op i) < 2 ^ 15 /\ i_v i < 2 ^ 15 /\ i_rel i < 2 ^ 15 /\ i_edge i < 2 ^ 15.
Proof. exact L_Prop1.C04_int16_proof. Qed.
Print Assumptions C04_operands_fit_int16.

(** A non-trivial tree meeting the hypotheses: a branching tree on 6 vertices
    whose center is vertex 3. *)
Example C03_C04_case :
  spanning_tree 6 [(0, 3); (3, 1); (4, 2); (3, 4); (5, 4)] /\
  find_center_of_tree (make_tree [(0, 3); (3, 1); (4, 2); (3, 4); (5, 4)]) = Ok 3 /\
  exists prog, make_propagation_program (make_tree [(0, 3); (3, 1); (4, 2); (3, 4); (5, 4)]) None = Ok prog
    /\ length prog = 23.
Proof. exact L_Prop1.C04_example. Qed.
