(** Properties C86 and C87: estimating the tree, and whole training runs, in float32. *)
From Coq Require Import List Arith ZArith Reals Permutation QArith.
From Flocq Require Import Core.Zaux Core.Raux IEEE754.BinarySingleNaN.
From Verif Require Import Base Spec_Sum Spec_Graph Spec_Trees Spec_MST M_Structure M_Rand M_SampleTree M_Training Spec_Ragged Spec_Stats Spec_Conditional Spec_EdgeLogits Spec_Model M_Float32 M_Train32 Spec_Float32 Spec_Serving32
  M_SampleTree32 Spec_Tree32 M_Logits32 Spec_Logits32 M_EstimateTree32 M_Run32 Spec_Run32 L_Estimate L_Serving32a L_Train32g L_Tree32d L_Logits32e L_Run32a L_Run32b L_Run32c.
Import ListNotations.
Open Scope R_scope.

(** C86.  estimate_tree on float32 logits that are numbers up to [B] or minus infinity:
    if some tree avoids the pairs with minus infinity, nothing is raised, the result is
    such a spanning tree with sorted edges, and its total logit is within the
    rounding of the weights of the largest total of any such tree. *)
Theorem C86_the_float32_tree_is_nearly_the_best : forall mst V grid logits B,
  mst_contract mst -> (1 <= V)%nat -> make_complete_graph V = Ok grid ->
  length logits = length grid -> 0 <= B <= bpow radix2 60 ->
  Forall (fun x => (is_finite x = true /\ Rabs (B2R x) <= B) \/ x = B754_infinity true) logits ->
  (exists T, spanning_tree V T /\ allowed_by logits T) ->
  exists T, estimate_tree32 mst grid logits = Ok T /\ canonical_tree V T /\ allowed_by logits T /\
    forall T', spanning_tree V T' -> allowed_by logits T' ->
      sumf T' (fun '(x, y) => B2R (nth (find_complete_edge x y) logits fzero)) <=
      sumf T (fun '(x, y) => B2R (nth (find_complete_edge x y) logits fzero))
      + INR (V - 1) * (bpow radix2 (-20) * (B + 1)).
Proof. exact C86_proof. Qed.
Print Assumptions C86_the_float32_tree_is_nearly_the_best.

(** Three features, the logits 3/2, minus infinity and -3. *)
Example C86_case : mst_contract naive_mst /\
  let logits := [f32_of 3 (-1); B754_infinity true; f32_of (-3) 0] in
  exists grid, make_complete_graph 3 = Ok grid /\ length logits = length grid /\
  Forall (fun x => (is_finite x = true /\ Rabs (B2R x) <= 4) \/ x = B754_infinity true) logits /\ 0 <= 4 <= bpow radix2 60 /\
  spanning_tree 3 [(0, 1); (1, 2)]%nat /\ allowed_by logits [(0, 1); (1, 2)]%nat.
Proof. exact C86_case_proof. Qed.

(** C86.  And if every tree uses a pair with minus infinity, estimate_tree raises
    AssertionError. *)
Theorem C86_without_an_allowed_tree_an_assertion_fails : forall mst V grid logits B,
  mst_forest mst -> (1 <= V)%nat -> make_complete_graph V = Ok grid ->
  length logits = length grid -> 0 <= B <= bpow radix2 60 ->
  Forall (fun x => (is_finite x = true /\ Rabs (B2R x) <= B) \/ x = B754_infinity true) logits ->
  ~ (exists T, spanning_tree V T /\ allowed_by logits T) -> estimate_tree32 mst grid logits = Raise AssertionError.
Proof. exact C86_none. Qed.
Print Assumptions C86_without_an_allowed_tree_an_assertion_fails.

(** Three features, the first of which may be joined to no other. *)
Example C86_none_case : mst_forest naive_mst /\
  let logits := [B754_infinity true; B754_infinity true; fzero] in
  Forall (fun x => (is_finite x = true /\ Rabs (B2R x) <= 0) \/ x = B754_infinity true) logits /\
  ~ (exists T, spanning_tree 3 T /\ allowed_by logits T).
Proof. exact C86_none_case_proof. Qed.

(** C87.  A whole run of [train] in float32: for all tables within the bounds of C66,
    all configs and tree priors that allow some tree, whatever is drawn, nothing is raised and no array is read out
    of bounds, every draw is from weights the sampler handles, and the result is a
    valid model with the statistics counted from scratch; every edge logit is
    the exact score plus the prior up to the error of C85, and if the tree is estimated,
    its exact log posterior is nearly the largest.
    [G] and [P] bound log-gamma and the priors.
    Missing: tables beyond the bounds of C66 and more than 2^16 pairs of features. *)
Theorem C87_training_ends_in_a_valid_model_partial : forall dot gammaln32 exp32 sum mst ws tb prior cfg A c t0 lg delta eta G P,
  dot_ok dot -> table_ok ws tb -> nonneg_data tb -> config_ok cfg -> (1 <= c)%nat -> at_most c ws tb ->
  (1 <= A <= 16)%Z -> ((A + 9) * Z.of_nat c + A <= 69)%Z ->
  ((Z.of_nat (num_rows tb) + 1) * Z.of_nat c < 2 ^ A)%Z -> Forall (fun w => (Z.of_nat w <= 2 ^ A)%Z) ws ->
  mst_contract mst ->
  let M := c_clusters cfg in
  let V := num_cols tb in
  init_trainer32 tb (map (fun p => B2R p) prior) M = Ok t0 ->
  gammaln_ok delta (num_rows tb) M lg gammaln32 -> gammaln_below G (num_rows tb) M lg -> sum_near sum -> sum_ok sum -> exp_ok eta exp32 ->
  0 <= delta <= 1 -> 0 <= eta <= 1 -> 0 <= P ->
  let W := INR (M * M + 2 * M) * G + P in
  W <= bpow radix2 59 ->
  Forall (fun p => (is_finite p = true /\ Rabs (B2R p) <= P) \/ p = B754_infinity true) prior ->
  (Z.of_nat (V * (V - 1) / 2) <= 2 ^ 16)%Z ->
  (exists T, spanning_tree V T /\ allowed_by prior T) ->
  let eps := logit_error M delta W in
  gsafe (fun '(t, logits) => let s := t_state t in let T := ts_get_edges (s_tree s) in
      from_scratch ws tb M s /\ valid_model ws tb M s /\ length logits = (V * (V - 1) / 2)%nat /\
      (forall a b, (a < b)%nat -> (b < V)%nat -> exists x p,
        nth_error logits (find_complete_edge a b) = Some x /\ nth_error prior (find_complete_edge a b) = Some p /\
        ((is_finite p = true /\ is_finite x = true /\ Rabs (B2R x - (edge_score lg M s a b + B2R p)) <= eps) \/
         (p = B754_infinity true /\ x = B754_infinity true))) /\
      (c_estimate_tree cfg = true -> allowed_by prior T /\
        forall T', spanning_tree V T' -> allowed_by prior T' ->
          tree_score lg M s prior T' <= tree_score lg M s prior T + INR (V - 1) * (2 * eps + bpow radix2 (-20) * (W + eps + 1))))
    (train32 dot gammaln32 exp32 sum mst tb prior cfg t0).
Proof. exact train32_safe. Qed.
Print Assumptions C87_training_ends_in_a_valid_model_partial.

(** Hence for all outputs of the generators a run of such a program returns, with a result as
    stated. *)
Theorem C87_runs_of_the_generators : forall A (Q : A -> Prop) us ps p, generators us ps -> forall i j,
  gsafe Q p -> exists a, grun us ps i j p = Ok a /\ Q a.
Proof. exact (fun A Q us ps p => @gsafe_run A Q us ps p). Qed.
Print Assumptions C87_runs_of_the_generators.

(** Two categorical features, three rows, one and a half epochs of annealing and two full
    epochs: all errors together are below 1/50. *)
Example C87_case : dot_ok seq_dot /\ table_ok [2; 3]%nat tb4 /\ nonneg_data tb4 /\ config_ok (Cfg 2 (3 # 2) 2 3 true) /\ at_most 1 [2; 3]%nat tb4 /\
  (1 <= 16 <= 16)%Z /\ ((16 + 9) * Z.of_nat 1 + 16 <= 69)%Z /\ ((Z.of_nat (num_rows tb4) + 1) * Z.of_nat 1 < 2 ^ 16)%Z /\
  Forall (fun w => (Z.of_nat w <= 2 ^ 16)%Z) [2; 3]%nat /\
  mst_contract naive_mst /\ (exists t0, init_trainer32 tb4 (map (fun p => B2R p) [fzero]) 2 = Ok t0) /\
  gammaln_ok (bpow radix2 (-10)) (num_rows tb4) 2 lg0 g0 /\ gammaln_below 9 (num_rows tb4) 2 lg0 /\
  sum_near seq_sum /\ sum_ok seq_sum /\ exp_ok (bpow radix2 (-23)) exp0 /\
  0 <= bpow radix2 (-10) <= 1 /\ 0 <= bpow radix2 (-23) <= 1 /\ INR (2 * 2 + 2 * 2) * 9 + 0 <= bpow radix2 59 /\
  Forall (fun p => (is_finite p = true /\ Rabs (B2R p) <= 0) \/ p = B754_infinity true) [fzero] /\
  (Z.of_nat (num_cols tb4 * (num_cols tb4 - 1) / 2) <= 2 ^ 16)%Z /\
  (spanning_tree (num_cols tb4) [(0, 1)]%nat /\ allowed_by [fzero] [(0, 1)]%nat) /\
  INR 1 * (2 * logit_error 2 (bpow radix2 (-10)) 72 + bpow radix2 (-20) * (72 + logit_error 2 (bpow radix2 (-10)) 72 + 1)) <= 1 / 50.
Proof. exact C87_case_proof. Qed.
Example C87_generators : exists us ps, generators us ps.
Proof. exact generators_exist. Qed.
