(** Property C84: the tree sampler with its float32 weights. *)
From Coq Require Import List Arith ZArith Reals Permutation.
From Flocq Require Import Core.Zaux Core.Raux IEEE754.BinarySingleNaN.
From Verif Require Import Base Spec_Sum Spec_Graph Spec_Trees M_Structure M_Rand M_SampleTree M_Float32 M_Train32 Spec_Float32 Spec_Serving32 Spec_Law M_SampleTree32 Spec_Tree32 L_Serving32a L_AllTrees L_Tree32c L_Tree32d.
Import ListNotations.
Open Scope R_scope.

(** C84.  [sample_tree] computes its weights in float32 and draws with the numbers
    the generator gives.  For all trees, all logits that are numbers up to 2^126 in
    size or minus infinity, and all orders of the edges: every draw is from weights
    the sampler handles, no exception is raised and the result is a spanning tree.
    The probability of every set [b] of trees, over all orders and all outputs of
    the generator, is that of the sampler with exact weights and exact draws, up to
    2*eta + 2^-20 per edge and pair of vertices, [eta] being the error of [np.exp].
    Missing: more than 2^16 pairs of vertices (363 features or more). *)
Theorem C84_tree_moves_follow_the_exact_sampler_partial : forall exp32 sum eta V grid logits edges b,
  exp_ok eta exp32 -> sum_ok sum -> 0 <= eta <= 1 ->
  make_complete_graph V = Ok grid -> spanning_tree V edges -> length logits = length grid ->
  Forall good_logit logits -> (Z.of_nat (length grid) <= 2 ^ 16)%Z ->
  (forall order, Permutation order (seq 0 (length edges)) ->
     draws_usable (spanning_tree V) (sample_tree32 exp32 sum grid logits edges order)) /\
  Rabs (tree_prob32 exp32 sum grid logits edges b - prob (sample_tree grid (map logit_of logits) edges) b)
    <= INR (length edges) * INR (length grid) * (2 * eta + bpow radix2 (-20)).
Proof. exact L_Tree32d.C84_proof. Qed.
Print Assumptions C84_tree_moves_follow_the_exact_sampler_partial.

(** Hence the posterior distribution over trees, proportional to the exponential of
    the sum of the logits, is kept up to that error: from a tree with this
    distribution, one call of [sample_tree] gives every tree [T'] with nearly its
    posterior probability. *)
Theorem C84_the_posterior_is_nearly_invariant_partial : forall exp32 sum eta V grid logits TT,
  exp_ok eta exp32 -> sum_ok sum -> 0 <= eta <= 1 ->
  (1 <= V)%nat -> make_complete_graph V = Ok grid -> length logits = length grid ->
  Forall good_logit logits -> (Z.of_nat (length grid) <= 2 ^ 16)%Z -> enumerates_trees V TT ->
  let mass := tree_mass (fun x y => nth (find_complete_edge x y) (map logit_of logits) None) in
  0 < sumf TT mass ->
  forall T', In T' TT ->
  Rabs (sumf TT (fun T => mass T / sumf TT mass *
          tree_prob32 exp32 sum grid logits T (fun T1 => if edge_list_eq_dec T1 T' then true else false))
        - mass T' / sumf TT mass)
    <= INR (V - 1) * INR (length grid) * (2 * eta + bpow radix2 (-20)).
Proof. exact L_Tree32d.tree_law_invariant. Qed.
Print Assumptions C84_the_posterior_is_nearly_invariant_partial.

(** Summing from left to right and an exponential with 23 fractional bits satisfy the
    assumptions on numpy, and three features with logits 1.5, minus infinity and -3
    meet the rest: the spanning tree without the forbidden pair has positive mass. *)
Example C84_case : exp_ok (bpow radix2 (-23)) exp0 /\ sum_ok seq_sum /\ 0 <= bpow radix2 (-23) <= 1 /\
  exists grid logits, make_complete_graph 3 = Ok grid /\ length logits = length grid /\ Forall good_logit logits /\
    map logit_of logits = [Some (3 / 2); None; Some (-3)] /\ (Z.of_nat (length grid) <= 2 ^ 16)%Z /\
    spanning_tree 3 [(0, 1); (1, 2)]%nat /\
    enumerates_trees 3 (all_trees 3) /\
    0 < sumf (all_trees 3) (tree_mass (fun x y => nth (find_complete_edge x y) (map logit_of logits) None)).
Proof. exact L_Tree32d.C84_case. Qed.
