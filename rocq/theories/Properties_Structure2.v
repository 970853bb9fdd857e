(** Property theorems about treecat/structure.py: C08 - C11. *)
From Coq Require Import String Ascii.
From Coq Require Import List Arith Reals Sorted Permutation.
From Verif Require Import Base Spec_Graph Spec_Sum Spec_Trees Spec_MST Spec_Outline M_Structure M_EstimateTree.
From Verif Require L_MakeTree L_Estimate L_PrintTree L_Order.
Import ListNotations.
Open Scope nat_scope.

(** C08.  Provided scipy's routine returns a minimum spanning tree of the graph
    of nonzero entries ([mst_contract]), estimate_tree returns a spanning tree
    in canonical form whose total logit is maximal. *)
Theorem C08_estimate_tree_maximises_likelihood : forall mst V grid logits,
  mst_contract mst -> 1 <= V -> make_complete_graph V = Ok grid -> length logits = length grid ->
  exists T, estimate_tree mst grid logits = Ok T /\ canonical_tree V T /\
    forall T', spanning_tree V T' ->
      (sumf T' (fun '(x, y) => nth (find_complete_edge x y) logits 0%R) <=
       sumf T (fun '(x, y) => nth (find_complete_edge x y) logits 0%R))%R.
Proof. exact L_Estimate.estimate_tree_Ok. Qed.
Print Assumptions C08_estimate_tree_maximises_likelihood.

(** The contract can be met, so C08 is not vacuous. *)
Example C08_contract_is_satisfiable : exists mst, mst_contract mst.
Proof. exists L_Estimate.naive_mst. exact L_Estimate.naive_mst_contract. Qed.

(** C09.  For a triangle of length V(V-1)/2 the result is the V x V matrix with
    zero diagonal whose (u, v) entry is triangle[find_complete_edge(u, v)]
    (hence symmetric). *)
Theorem C09_triangular_to_square_unpacks : forall A (zero : A) V grid triangle,
  1 <= V -> make_complete_graph V = Ok grid -> length triangle = V * (V - 1) / 2 ->
  exists m, triangular_to_square zero grid triangle = Ok m /\
    length m = V /\ (forall row, In row m -> length row = V) /\
    forall u v, u < V -> v < V ->
      nth_error (nth u m []) v = Some (if u =? v then zero else nth (find_complete_edge u v) triangle zero).
Proof. exact L_Estimate.C09_proof. Qed.
Print Assumptions C09_triangular_to_square_unpacks.

Example C09_case : exists grid, make_complete_graph 3 = Ok grid /\
  triangular_to_square 0 grid [7; 8; 9] = Ok [[0; 7; 8]; [7; 0; 9]; [8; 9; 0]].
Proof. eexists. split; reflexivity. Qed.

(** C10.  For every tree, every root and feature names that contain no line
    break and do not start with two blanks, reading the text of print_tree back
    as an outline gives every vertex exactly once, the root alone at level 0 and
    first, and the parent relation of the outline is exactly the edge relation
    of the tree.  Without a root argument (and distinct names) the root is the
    center. *)
Theorem C10_print_tree_is_a_faithful_outline : forall V edges names root r,
  spanning_tree V edges -> length names = V -> (forall n, In n names -> plain_name n) ->
  match root with
  | Some name => nth_error names r = Some name /\ (forall j, j < r -> nth_error names j <> Some name)
  | None => NoDup names /\ find_center_of_tree (make_tree edges) = Ok r
  end ->
  exists text (lines : list (nat * nat)),
    print_tree edges names root = Ok text /\
    map read_indent (text_lines text) = map (fun '(d, v) => (d, nth v names EmptyString)) lines /\
    Permutation (map snd lines) (seq 0 V) /\
    (exists rest, lines = (0, r) :: rest /\ forall l, In l rest -> 0 < fst l) /\
    (forall x, x < V -> x <> r -> exists p, outline_parent lines x p) /\
    (forall x p, outline_parent lines x p -> adj edges x p) /\
    (forall x y, adj edges x y -> outline_parent lines x y \/ outline_parent lines y x).
Proof. exact L_PrintTree.C10_proof. Qed.
Print Assumptions C10_print_tree_is_a_faithful_outline.

Example C10_case : spanning_tree 3 [(0, 1); (1, 2)] /\
  print_tree [(0, 1); (1, 2)] ["a"; "b"; "c"]%string None =
  Ok ("b" ++ newline ++ "  a" ++ newline ++ "  c")%string.
Proof. split; [exact (L_MakeTree.path_spanning 3 (le_S _ _ (le_S _ _ (le_n 1))))|reflexivity]. Qed.

(** C11.  Whatever the iteration order of Python sets ([iter v s] lists the
    set [s]), order_vertices returns two mutually inverse permutations of
    range(V), and for every edge removed from the tree the side that is cut off
    from the center [c] occupies contiguous positions [o2]. *)
Theorem C11_order_vertices_permutes_and_keeps_branches_together : forall V edges iter,
  spanning_tree V edges -> (forall v s, NoDup s -> Permutation (iter v s) s) ->
  exists order order_inv c, order_vertices iter edges = Ok (map Some order, order_inv) /\
    Permutation order (seq 0 V) /\ Permutation order_inv (seq 0 V) /\
    (forall i v, nth_error order_inv i = Some v <-> nth_error order v = Some i) /\
    center V edges c /\
    (forall e rest, Permutation edges (e :: rest) ->
       exists o1 o2 o3, order_inv = o1 ++ o2 ++ o3 /\ forall u, u < V -> (In u o2 <-> ~ reach rest c u)).
Proof. exact L_Order.C11_proof. Qed.
Print Assumptions C11_order_vertices_permutes_and_keeps_branches_together.

Example C11_case : spanning_tree 4 [(0, 1); (1, 2); (2, 3)] /\
  (forall v s, NoDup s -> Permutation ((fun (_ : nat) (s : list nat) => s) v s) s) /\
  order_vertices (fun _ s => s) [(0, 1); (1, 2); (2, 3)] = Ok ([Some 3; Some 2; Some 1; Some 0], [3; 2; 1; 0]).
Proof.
  split; [exact (L_MakeTree.path_spanning 4 (le_S _ _ (le_S _ _ (le_S _ _ (le_n 1)))))|].
  split; [reflexivity|reflexivity].
Qed.
