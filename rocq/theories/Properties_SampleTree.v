(** Property theorems about [sample_tree] (treecat/structure.py): C05 - C07.
    Random draws: see M_Rand.v.  [always P p] says that whatever is drawn, [p]
    raises nothing (in particular neither OutOfBounds nor OutOfFuel) and its
    result satisfies [P]. *)
From Coq Require Import List Arith Reals Sorted.
From Verif Require Import Base Spec_Graph Spec_Sum Spec_Trees M_Structure M_Rand M_SampleTree.
From Verif Require L_Graph L_AllTrees.
Import ListNotations.
Open Scope nat_scope.

(** C05.  For every spanning tree, every logit vector (minus infinity allowed)
    and every outcome of the generator, the result is a spanning tree in
    canonical form; no array access leaves its array, the DFS terminates. *)
Theorem C05_sample_tree_always_spanning_and_in_bounds : forall V grid logits edges,
  make_complete_graph V = Ok grid ->
  spanning_tree V edges -> length logits = length grid ->
  always (fun T => spanning_tree V T /\
                   (2 <= length edges -> StronglySorted pair_le T /\ forall x y, In (x, y) T -> x < y) /\
                   (length edges <= 1 -> T = edges))
    (sample_tree grid logits edges).
Proof. exact L_AllTrees.C05_proof. Qed.
Print Assumptions C05_sample_tree_always_spanning_and_in_bounds.

(** C06.  After any number of sweep steps (any list [order] of edges), the state
    encodes a spanning tree [cur]; removing any of its edges [(a, b)], the
    candidates written to the buffer are, once each and in increasing order,
    exactly the indices of the pairs whose endpoints are not connected by the
    remaining edges; the removed edge is one of them. *)
Theorem C06_candidates_are_the_bridging_pairs : forall V grid logits edges e2k nb order,
  make_complete_graph V = Ok grid ->
  length logits = length grid -> spanning_tree V edges -> st_init V edges = Ok (e2k, nb) ->
  (forall e, In e order -> e < length edges) ->
  always (fun '(e2k, nb, comp, buf) => exists cur, length cur = length edges /\ spanning_tree V cur /\
      e2k = map (fun '(x, y) => find_complete_edge x y) cur /\
      forall pre a b post, cur = pre ++ (a, b) :: post ->
      exists nb' comp' n buf',
        jit_remove_edge grid e2k nb comp (length pre) = Ok (find_complete_edge a b, nb', comp') /\
        find_valid_edges comp' buf = Ok (n, buf') /\
        StronglySorted lt (firstn n buf') /\
        (forall k, In k (firstn n buf') <->
           exists x y, x < y /\ y < V /\ k = find_complete_edge x y /\ ~ reach (pre ++ post) x y) /\
        In (find_complete_edge a b) (firstn n buf'))
    (rfold (st_step grid logits) order (e2k, nb, repeat false V, repeat 0 (length grid))).
Proof. exact L_AllTrees.C06_proof. Qed.
Print Assumptions C06_candidates_are_the_bridging_pairs.

Open Scope R_scope.

(** C07.  One call of [sample_tree] is a Markov kernel on spanning trees (second
    part: probabilities out of each tree sum to one) that leaves
    P(T) proportional to exp(sum of edge logits) invariant (first part), for
    every logit vector, including minus infinity entries. *)
Theorem C07_sample_tree_leaves_posterior_invariant : forall V grid logits TT,
  (1 <= V)%nat -> make_complete_graph V = Ok grid ->
  length logits = length grid -> enumerates_trees V TT ->
  let mass := tree_mass (fun x y => nth (find_complete_edge x y) logits None) in
  (forall T', In T' TT ->
    sumf TT (fun T => mass T * prob (sample_tree grid logits T)
       (fun T1 => if edge_list_eq_dec T1 T' then true else false)) = mass T') /\
  (forall T, In T TT ->
    sumf TT (fun T' => prob (sample_tree grid logits T)
       (fun T1 => if edge_list_eq_dec T1 T' then true else false)) = 1).
Proof. exact L_AllTrees.sample_tree_leaves_invariant. Qed.
Print Assumptions C07_sample_tree_leaves_posterior_invariant.

(** The hypotheses can be met: for every [V] the spanning trees can be listed,
    and e.g. the path is a spanning tree with a definite array representation. *)
Example C07_trees_can_be_listed : forall V, enumerates_trees V (L_AllTrees.all_trees V).
Proof. exact L_AllTrees.all_trees_enumerate. Qed.

Example C05_C06_case : exists grid nb,
  make_complete_graph 4 = Ok grid /\ length (repeat (Some 0) 6) = length grid /\
  spanning_tree 4 [(3, 0); (1, 2); (0, 1)]%nat /\
  st_init 4 [(3, 0); (1, 2); (0, 1)]%nat = Ok ([3; 2; 0]%nat, nb).
Proof.
  exists [(0, 0, 1); (1, 0, 2); (2, 1, 2); (3, 0, 3); (4, 1, 3); (5, 2, 3)]%nat,
    [[2; 3; 1; 0]; [2; 2; 0; 0]; [1; 1; 0; 0]; [1; 0; 0; 0]]%nat.
  split; [reflexivity|]. split; [reflexivity|]. split; [|reflexivity].
  split; [reflexivity|]. split.
  - intros u v [E|[E|[E|[]]]]; inversion E; repeat constructor.
  - assert (X : forall z, (z < 4)%nat -> reach [(3, 0); (1, 2); (0, 1)]%nat 0 z).
    { intros z Hz. destruct z as [|[|[|[|z]]]].
      - exists 0%nat. constructor.
      - exists 1%nat. apply walk_cons with (v := 1%nat); [|constructor]. left; simpl; auto.
      - exists 2%nat. apply walk_cons with (v := 1%nat); [left; simpl; auto|].
        apply walk_cons with (v := 2%nat); [left; simpl; auto|constructor].
      - exists 1%nat. apply walk_cons with (v := 3%nat); [|constructor]. right; simpl; auto.
      - exfalso. do 4 apply Nat.succ_lt_mono in Hz. inversion Hz. }
    intros u v Hu Hv. apply L_Graph.reach_trans with (v := 0%nat); [apply L_Graph.reach_sym|]; apply X; auto.
Qed.
