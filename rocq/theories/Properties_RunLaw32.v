(** Property C88: whole training runs in float32 approach the joint posterior. *)
From Coq Require Import List Arith ZArith Reals QArith.
From Flocq Require Import Core.Zaux Core.Raux IEEE754.BinarySingleNaN.
From Verif Require Spec_MST.
From Verif Require Import Base Spec_Sum Spec_Graph Spec_Trees Spec_Ragged M_Structure M_Rand M_SampleTree M_Training Spec_Stats Spec_Conditional Spec_EdgeLogits Spec_Gibbs Spec_Epoch Spec_Joint Spec_Model
  M_Float32 M_Train32 Spec_Float32 Spec_Law Spec_Serving32 Spec_TrainLaw M_SampleTree32 Spec_Tree32 M_Logits32 Spec_Logits32 M_EstimateTree32 M_Run32 Spec_Run32 Spec_RunLaw32
  L_AllTrees L_Serving32a L_Train32g L_Tree32d L_Logits32e L_TLaw6 L_Run32c L_RunLaw32g.
Import ListNotations.
Open Scope R_scope.

(** C88.  Full epochs in float32 drive the tree and the classes towards the posterior
    of the exact model: after [k] epochs from any full trainer that the API can reach, and
    after a whole run of [train], the probability of every event is
    within [rho ^ k] of its posterior probability, as in C65, plus an error of rounding.
    That error is at most [k] times that of one epoch, and stays below a multiple of it
    however long the run is. One epoch costs [e1] for each row, as in C82, and [e2]
    for the tree move, as in C84 and C85.
    Missing: tables beyond the stated bounds, tree priors of minus infinity. *)
Theorem C88_training_in_float32_approaches_the_posterior_partial :
  forall dot gammaln32 exp32 sum ws tb prior M A c eta_dot drift lg delta eta G P TT t0,
  (forall x, 0 < x -> lg (x + 1) = lg x + ln x) ->
  dot_ok dot -> dot_accurate (Z.of_nat M) eta_dot dot -> bpow radix2 (-23) <= eta_dot -> drift_bound M A drift ->
  table_ok ws tb -> nonneg_data tb -> (1 <= M <= 128)%nat -> (1 <= A <= 16)%Z -> (1 <= c)%nat -> at_most c ws tb ->
  let N := num_rows tb in
  let V := num_cols tb in
  ((Z.of_nat N + 1) * Z.of_nat c < 2 ^ A)%Z -> Forall (fun w => (Z.of_nat w <= 2 ^ A)%Z) ws ->
  (3 * A + 2 * ((A + 9) * Z.of_nat c) + (A + 8) * Z.of_nat (V - 1) + 12 <= 126)%Z ->
  row_error tb c eta_dot drift <= 1 / 4 ->
  gammaln_ok delta N M lg gammaln32 -> gammaln_below G N M lg -> sum_near sum -> sum_ok sum -> exp_ok eta exp32 ->
  0 <= delta <= 1 -> 0 <= eta <= 1 -> 0 <= P ->
  let W := INR (M * M + 2 * M) * G + P in
  W <= bpow radix2 59 ->
  Forall (fun p => is_finite p = true /\ Rabs (B2R p) <= P) prior -> (Z.of_nat (V * (V - 1) / 2) <= 2 ^ 16)%Z ->
  let exact_prior := map (fun p => B2R p) prior in
  enumerates_trees V TT -> init_trainer32 tb exact_prior M = Ok t0 ->
  let e1 := exp (row_error tb c eta_dot drift) - 1 + INR V * (INR M * bpow radix2 (-21)) in
  let e2 := INR (V - 1) * INR (V * (V - 1) / 2) * (2 * eta + bpow radix2 (-20)) + (exp (2 * logit_error M delta W * INR (V - 1)) - 1) in
  exists lp rho, 0 <= rho < 1 /\
  (forall T B s, In T TT -> full_state tb exact_prior M (with_tree tb T) B s -> logprob lg tb M s = Ok (lp T B)) /\
  let mass T B := exp (lp T B + tree_prior_mass exact_prior T) in
  let total b := sumf TT (fun T => sumf (matrices N V M) (fun B => if b T B : bool then mass T B else 0)) in
  let posterior b := total b / total (fun _ _ => true) in
  (forall b t k, reachable32 dot tb exact_prior M t -> length (s_added (t_state t)) = N ->
     Rabs (gprob (epochs32 dot gammaln32 exp32 sum tb prior M k t)
             (fun t' => b (ts_get_edges (s_tree (t_state t'))) (class_matrix tb (t_state t'))) - posterior b)
       <= rho ^ k + Rmin (INR k) (2 / (1 - rho)) * (INR N * e1 + e2)) /\
  (forall b mst cfg, config_ok cfg -> Spec_MST.mst_contract mst -> c_clusters cfg = M ->
     (c_estimate_tree cfg = false \/ forall T T' B, b T B = b T' B) ->
     Rabs (gprob (train32 dot gammaln32 exp32 sum mst tb prior cfg t0)
             (fun '(t', _) => b (ts_get_edges (s_tree (t_state t'))) (class_matrix tb (t_state t'))) - posterior b)
       <= rho ^ c_full_epochs cfg + Rmin (INR (c_full_epochs cfg)) (2 / (1 - rho)) * (INR N * e1 + e2)).
Proof. exact C88_proof. Qed.
Print Assumptions C88_training_in_float32_approaches_the_posterior_partial.

(** Two categorical features and three rows, with a table of log-gamma accurate to 1/1024:
    the rounding of one epoch is below 1/20. *)
Example C88_case : (forall x, 0 < x -> lg0 (x + 1) = lg0 x + ln x) /\
  dot_ok seq_dot /\ dot_accurate 2 (4 * bpow radix2 (-23)) seq_dot /\ bpow radix2 (-23) <= 4 * bpow radix2 (-23) /\ drift_bound 2 3 0 /\
  table_ok [2; 3]%nat tb4 /\ nonneg_data tb4 /\ at_most 1 [2; 3]%nat tb4 /\
  ((Z.of_nat (num_rows tb4) + 1) * Z.of_nat 1 < 2 ^ 3)%Z /\ Forall (fun w => (Z.of_nat w <= 2 ^ 3)%Z) [2; 3]%nat /\
  (3 * 3 + 2 * ((3 + 9) * Z.of_nat 1) + (3 + 8) * Z.of_nat (num_cols tb4 - 1) + 12 <= 126)%Z /\
  row_error tb4 1 (4 * bpow radix2 (-23)) 0 <= 1 / 4 /\
  gammaln_ok (bpow radix2 (-10)) (num_rows tb4) 2 lg0 g0 /\ gammaln_below 9 (num_rows tb4) 2 lg0 /\ sum_near seq_sum /\ sum_ok seq_sum /\ exp_ok (bpow radix2 (-23)) exp0 /\
  INR (2 * 2 + 2 * 2) * 9 + 0 <= bpow radix2 59 /\ Forall (fun p => is_finite p = true /\ Rabs (B2R p) <= 0) [fzero] /\
  enumerates_trees (num_cols tb4) (all_trees 2) /\ (exists t0, init_trainer32 tb4 (map (fun p => B2R p) [fzero]) 2 = Ok t0) /\
  (exists t, reachable32 seq_dot tb4 [0] 2 t) /\
  INR 3 * (exp (row_error tb4 1 (4 * bpow radix2 (-23)) 0) - 1 + INR 2 * (INR 2 * bpow radix2 (-21)))
    + (INR 1 * INR 1 * (2 * bpow radix2 (-23) + bpow radix2 (-20)) + (exp (2 * logit_error 2 (bpow radix2 (-10)) 72 * INR 1) - 1)) <= 1 / 20.
Proof. exact C88_case_proof. Qed.
