(** Property C85: the edge logits in float32. *)
From Coq Require Import List Arith ZArith Reals Permutation.
From Flocq Require Import Core.Zaux Core.Raux IEEE754.BinarySingleNaN.
From Verif Require Import Base Spec_Sum Spec_Graph Spec_Trees M_Structure M_Rand M_SampleTree M_Training Spec_Ragged Spec_Stats Spec_Conditional Spec_EdgeLogits M_Float32 M_Train32 Spec_Float32 Spec_Serving32 Spec_Law
  M_SampleTree32 Spec_Tree32 M_Logits32 Spec_Logits32 L_Serving32a L_AllTrees L_Train32g L_Train32h L_Tree32d L_Logits32e L_Logits32f.
Import ListNotations.
Open Scope R_scope.

(** C85.  The trainer computes the logits of all pairs of features in float32, from a
    table of float32 values of log-gamma.  After every history of calls of the
    float32 trainer, for every tree prior of numbers and minus infinities: nothing is
    raised and no table is read out of bounds, there is one logit per pair, and it is
    the log marginal likelihood ratio of the pair, counted from the added rows, plus
    the prior, up to [delta] for each value of log-gamma and one rounding of the
    total size for each addition.  A prior of minus infinity gives minus infinity.
    Missing: numbers of rows equal to the number of features (see C20), and tables
    beyond the bounds of C66. *)
Theorem C85_logits_are_near_the_scores_partial : forall dot ws tb prior M A c t gammaln32 sum lg delta,
  dot_ok dot -> table_ok ws tb -> nonneg_data tb -> (1 <= M <= 128)%nat -> (1 <= c)%nat -> at_most c ws tb ->
  (1 <= A <= 16)%Z -> ((A + 9) * Z.of_nat c + A <= 69)%Z ->
  ((Z.of_nat (num_rows tb) + 1) * Z.of_nat c < 2 ^ A)%Z -> Forall (fun w => (Z.of_nat w <= 2 ^ A)%Z) ws ->
  reachable32 dot tb (map (fun p => B2R p) prior) M t ->
  gammaln_ok delta (num_rows tb) M lg gammaln32 -> sum_near sum -> 0 <= delta <= 1 ->
  let s := t_state t in
  let V := num_cols tb in
  length (s_added s) <> V \/ length (s_added s) = num_rows tb ->
  Forall (fun p => is_finite p = true \/ p = B754_infinity true) prior ->
  (forall a b, (a < b)%nat -> (b < V)%nat ->
     score_size lg M s a b + Rabs (B2R (nth (find_complete_edge a b) prior fzero)) <= bpow radix2 60) ->
  exists l, compute_edge_logits32 gammaln32 sum tb prior M s = Ok l /\ length l = (V * (V - 1) / 2)%nat /\ Forall good_logit l /\
    forall a b, (a < b)%nat -> (b < V)%nat -> exists x p,
      nth_error l (find_complete_edge a b) = Some x /\ nth_error prior (find_complete_edge a b) = Some p /\
      ((is_finite p = true /\ is_finite x = true /\
        Rabs (B2R x - (edge_score lg M s a b + B2R p)) <= logit_error M delta (score_size lg M s a b + Rabs (B2R p))) \/
       (p = B754_infinity true /\ x = B754_infinity true)).
Proof. exact L_Logits32f.C85_logits. Qed.
Print Assumptions C85_logits_are_near_the_scores_partial.

(** Resampling the tree with these logits raises nothing, draws only from weights the
    sampler handles and returns a spanning tree, for every order of the edges; the
    probability of every set of trees is that of the exact sampler given the logits,
    up to the error of C84.
    Missing: also more than 2^16 pairs of features. *)
Theorem C85_the_tree_is_resampled_from_the_logits_partial : forall dot ws tb prior M A c t gammaln32 sum lg delta,
  dot_ok dot -> table_ok ws tb -> nonneg_data tb -> (1 <= M <= 128)%nat -> (1 <= c)%nat -> at_most c ws tb ->
  (1 <= A <= 16)%Z -> ((A + 9) * Z.of_nat c + A <= 69)%Z ->
  ((Z.of_nat (num_rows tb) + 1) * Z.of_nat c < 2 ^ A)%Z -> Forall (fun w => (Z.of_nat w <= 2 ^ A)%Z) ws ->
  reachable32 dot tb (map (fun p => B2R p) prior) M t ->
  gammaln_ok delta (num_rows tb) M lg gammaln32 -> sum_near sum -> 0 <= delta <= 1 ->
  let s := t_state t in
  let V := num_cols tb in
  length (s_added s) <> V \/ length (s_added s) = num_rows tb ->
  Forall (fun p => is_finite p = true \/ p = B754_infinity true) prior ->
  (forall a b, (a < b)%nat -> (b < V)%nat ->
     score_size lg M s a b + Rabs (B2R (nth (find_complete_edge a b) prior fzero)) <= bpow radix2 60) ->
  forall exp32 eta l grid, exp_ok eta exp32 -> sum_ok sum -> 0 <= eta <= 1 ->
  (Z.of_nat (V * (V - 1) / 2) <= 2 ^ 16)%Z ->
  compute_edge_logits32 gammaln32 sum tb prior M s = Ok l -> make_complete_graph V = Ok grid ->
  forall b,
  (forall order, Permutation order (seq 0 (V - 1)) ->
     draws_usable (spanning_tree V) (trainer_sample_tree32 gammaln32 sum exp32 tb prior M s order)) /\
  Rabs (resample_prob32 gammaln32 sum exp32 tb prior M s b
        - prob (sample_tree grid (map logit_of l) (ts_get_edges (s_tree s))) b)
    <= INR (V - 1) * INR (V * (V - 1) / 2) * (2 * eta + bpow radix2 (-20)).
Proof. exact L_Logits32f.C85_resample. Qed.
Print Assumptions C85_the_tree_is_resampled_from_the_logits_partial.

(** Hence the posterior distribution over trees given the classes of the added rows,
    proportional to the exponential of the sum of the exact scores and the prior, is
    kept by one float32 call of [sample_tree] up to the error [eps] of the logits
    and the error of C84. *)
Theorem C85_the_posterior_given_the_classes_is_nearly_invariant_partial : forall dot ws tb prior M A c t gammaln32 sum lg delta,
  dot_ok dot -> table_ok ws tb -> nonneg_data tb -> (1 <= M <= 128)%nat -> (1 <= c)%nat -> at_most c ws tb ->
  (1 <= A <= 16)%Z -> ((A + 9) * Z.of_nat c + A <= 69)%Z ->
  ((Z.of_nat (num_rows tb) + 1) * Z.of_nat c < 2 ^ A)%Z -> Forall (fun w => (Z.of_nat w <= 2 ^ A)%Z) ws ->
  reachable32 dot tb (map (fun p => B2R p) prior) M t ->
  gammaln_ok delta (num_rows tb) M lg gammaln32 -> sum_near sum -> 0 <= delta <= 1 ->
  let s := t_state t in
  let V := num_cols tb in
  length (s_added s) <> V \/ length (s_added s) = num_rows tb ->
  Forall (fun p => is_finite p = true \/ p = B754_infinity true) prior ->
  (forall a b, (a < b)%nat -> (b < V)%nat ->
     score_size lg M s a b + Rabs (B2R (nth (find_complete_edge a b) prior fzero)) <= bpow radix2 60) ->
  forall exp32 eta l grid, exp_ok eta exp32 -> sum_ok sum -> 0 <= eta <= 1 ->
  (Z.of_nat (V * (V - 1) / 2) <= 2 ^ 16)%Z ->
  compute_edge_logits32 gammaln32 sum tb prior M s = Ok l -> make_complete_graph V = Ok grid ->
  forall eps TT, 0 <= eps ->
  (forall a b, (a < b)%nat -> (b < V)%nat ->
     logit_error M delta (score_size lg M s a b + Rabs (B2R (nth (find_complete_edge a b) prior fzero))) <= eps) ->
  enumerates_trees V TT ->
  let mass := tree_mass (exact_logit lg M s prior) in
  0 < sumf TT mass -> forall T', In T' TT ->
  Rabs (sumf TT (fun T => mass T / sumf TT mass *
          tree_prob32 exp32 sum grid l T (fun T1 => if edge_list_eq_dec T1 T' then true else false))
        - mass T' / sumf TT mass)
    <= 2 * (exp (2 * INR (V - 1) * eps) - 1) + INR (V - 1) * INR (V * (V - 1) / 2) * (2 * eta + bpow radix2 (-20)).
Proof. exact L_Logits32f.C85_posterior. Qed.
Print Assumptions C85_the_posterior_given_the_classes_is_nearly_invariant_partial.

(** Two categorical features and three rows, one of them added, meet the hypotheses:
    [lg0] has the recurrence of log-gamma, [g0] is it with ten fractional bits, and
    the logits are within 1/100 of the scores. *)
Example C85_case : dot_ok seq_dot /\ table_ok [2; 3]%nat tb4 /\ nonneg_data tb4 /\ at_most 1 [2; 3]%nat tb4 /\
  (1 <= 16 <= 16)%Z /\ ((16 + 9) * Z.of_nat 1 + 16 <= 69)%Z /\ ((Z.of_nat (num_rows tb4) + 1) * Z.of_nat 1 < 2 ^ 16)%Z /\
  Forall (fun w => (Z.of_nat w <= 2 ^ 16)%Z) [2; 3]%nat /\
  reachable32 seq_dot tb4 (map (fun p => B2R p) [fzero]) 2 q1 /\
  (forall x, 0 < x -> lg0 (x + 1) = lg0 x + ln x) /\
  gammaln_ok (bpow radix2 (-10)) (num_rows tb4) 2 lg0 g0 /\ sum_near seq_sum /\ sum_ok seq_sum /\ exp_ok (bpow radix2 (-23)) exp0 /\
  length (s_added (t_state q1)) <> num_cols tb4 /\
  (forall a b, (a < b)%nat -> (b < num_cols tb4)%nat ->
     score_size lg0 2 (t_state q1) a b + Rabs (B2R (nth (find_complete_edge a b) [fzero] fzero)) <= 72) /\
  logit_error 2 (bpow radix2 (-10)) 72 <= 1 / 100 /\
  enumerates_trees 2 (all_trees 2) /\ num_cols tb4 = 2%nat /\
  0 < sumf (all_trees 2) (tree_mass (exact_logit lg0 2 (t_state q1) [fzero])).
Proof. exact L_Logits32e.C85_case_proof. Qed.
