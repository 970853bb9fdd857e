(** Properties C89 and C90: ensembles in float32. *)
From Coq Require Import List Arith ZArith Reals.
From Flocq Require Import Core.Zaux Core.Raux IEEE754.BinarySingleNaN.
From Verif Require Spec_MST.
From Verif Require Import Base Spec_Sum Spec_Graph Spec_Trees Spec_Ragged M_Structure Spec_Stats Spec_Conditional M_Serving Spec_Serving
  M_Float32 M_Train32 M_Serving32 Spec_Serving32 Spec_Accuracy M_SampleTree32 Spec_Tree32 M_EstimateTree32 M_Run32 Spec_Run32 M_Ensemble32 Spec_Ensemble32
  L_Estimate L_Acc1 L_Serve1 L_Serving32a L_Tree32d L_Acc6 L_Ensemble32b L_Ensemble32c.
Import ListNotations.
Open Scope R_scope.

(** C89.  The log probability that an ensemble reports in float32 for a row is close to the
    logarithm of the mean over the members of the exact probability of the row.  The
    error of a member, as in C77, counts once, however many members there are; combining
    them adds [mixture_error].  No assumption says that the log probabilities are
    small: a row has at least probability [2 ^ - (b * c * V)].
    Missing: the rows and trees that C77 leaves out, and more than [W] members. *)
Theorem C89_ensemble_logprob_in_float32_partial : forall lib exp32 log_size ws V M ms A W b c d eta lambda eta_exp row,
  lib_ok lib -> accurate W eta lambda lib -> exp_ok eta_exp exp32 -> 0 <= eta_exp <= 1 -> log_size_ok lambda log_size -> lambda <= 1 ->
  ms <> [] -> (Z.of_nat (length ms) <= W)%Z -> (Z.of_nat (length ms) <= 2 ^ 16)%Z ->
  (forall m, In m ms -> exists N, consistent ws V M N m /\ counts_below A ws N m /\ degree_at_most d m) ->
  (6 <= A <= 16)%Z -> (0 <= b <= 140)%Z -> (0 <= c)%Z -> (2 * (A + 3 + (b + 4) * c) + (A + 8) * Z.of_nat d + 20 <= 126)%Z ->
  bpow radix2 (-23) <= eta -> (Z.of_nat (M * M) <= W)%Z -> (forall v, (v < V)%nat -> (Z.of_nat (nth v ws 0%nat) <= W)%Z) -> (Z.of_nat V <= 2 ^ 16)%Z ->
  length row = list_sum ws -> Forall (fun x => (0 <= x)%Z) row ->
  (forall v, (v < V)%nat -> (block_sum ws row v <= c)%Z) ->
  (forall m v q k, In m ms -> (v < V)%nat -> In q (block ws v) -> (k < M)%nat -> nth q row 0%Z <> 0%Z ->
    bpow radix2 (- b) <= feat_prob ws m v q k) ->
  let total := IZR (37 * Z.of_nat V + 2 * Z.of_nat (list_sum ws) + 8 * fold_right Z.add 0%Z row) * eta in
  total <= 1 / 4 ->
  let member := total + INR V * (lambda + bpow radix2 (-16) * INR (V + 1)) in
  exists servers x, mapM (tree_server32 lib) ms = Ok servers /\
    ens_logprob_row32 lib exp32 log_size servers row = Ok x /\ is_finite x = true /\
    Rabs (B2R x - ln (sumf ms (fun m => row_prob ws m row) / INR (length ms))) <=
    member + mixture_error (length ms) eta lambda eta_exp (IZR (b * c * Z.of_nat V) + member).
Proof. exact C89_proof. Qed.
Print Assumptions C89_ensemble_logprob_in_float32_partial.

(** Two models of three features that disagree about the first one. *)
Example C89_case : lib_ok lib0 /\ accurate 4 (5 * bpow radix2 (-23)) (bpow radix2 (-10)) lib0 /\ exp_ok (bpow radix2 (-23)) exp0 /\ 0 <= bpow radix2 (-23) <= 1 /\
  log_size_ok (bpow radix2 (-10)) log_size0 /\ bpow radix2 (-10) <= 1 /\
  (forall m, In m [ex_model; ex_model2] -> exists N, consistent [2; 1; 3]%nat 3 2 N m /\ counts_below 6 [2; 1; 3]%nat N m /\ degree_at_most 2 m) /\
  (2 * (6 + 3 + (15 + 4) * 1) + (6 + 8) * Z.of_nat 2 + 20 <= 126)%Z /\ bpow radix2 (-23) <= 5 * bpow radix2 (-23) /\
  length [1; 0; 1; 0; 1; 0]%Z = list_sum [2; 1; 3]%nat /\ Forall (fun x => (0 <= x)%Z) [1; 0; 1; 0; 1; 0]%Z /\
  (forall v, (v < 3)%nat -> (block_sum [2; 1; 3]%nat [1; 0; 1; 0; 1; 0] v <= 1)%Z) /\
  (forall m v q k, In m [ex_model; ex_model2] -> (v < 3)%nat -> In q (block [2; 1; 3]%nat v) -> (k < 2)%nat -> nth q [1; 0; 1; 0; 1; 0]%Z 0%Z <> 0%Z ->
    bpow radix2 (- (15)) <= feat_prob [2; 1; 3]%nat m v q k) /\
  IZR (37 * Z.of_nat 3 + 2 * Z.of_nat (list_sum [2; 1; 3]%nat) + 8 * fold_right Z.add 0%Z [1; 0; 1; 0; 1; 0]%Z) * (5 * bpow radix2 (-23)) <= 1 / 4.
Proof. exact C89_case_proof. Qed.

(** C90.  The edge logits that an ensemble serves are the means of the members' edge logits up to
    [mean_error], and minus infinity exactly for the pairs that some member excludes.  The tree
    it estimates is a spanning tree, sorted, that no member excludes, and its mean total
    logit is nearly the largest of all trees that no member excludes. *)
Theorem C90_ensemble_tree_in_float32 : forall mst V grid arrays B, Spec_MST.mst_contract mst -> (1 <= V)%nat -> make_complete_graph V = Ok grid ->
  arrays <> [] -> (Z.of_nat (length arrays) <= 2 ^ 16)%Z -> Forall (fun a => length a = length grid) arrays -> 0 <= B <= bpow radix2 40 ->
  Forall (Forall (fun x => (is_finite x = true /\ Rabs (B2R x) <= B) \/ x = B754_infinity true)) arrays ->
  (exists T, spanning_tree V T /\ Forall (fun a => allowed_by a T) arrays) ->
  exists avg T, ens_tree32 mst grid arrays = Ok (avg, T) /\ length avg = length grid /\
    (forall k, (k < length grid)%nat ->
       (Forall (fun a => is_finite (nth k a fzero) = true) arrays /\ is_finite (nth k avg fzero) = true /\
          Rabs (B2R (nth k avg fzero) - mean_entry arrays k) <= mean_error (length arrays) B) \/
       (~ Forall (fun a => is_finite (nth k a fzero) = true) arrays /\ nth k avg fzero = B754_infinity true)) /\
    canonical_tree V T /\ Forall (fun a => allowed_by a T) arrays /\
    forall T', spanning_tree V T' -> Forall (fun a => allowed_by a T') arrays ->
      mean_score arrays T' <= mean_score arrays T + INR (V - 1) * (2 * mean_error (length arrays) B + bpow radix2 (-20) * (2 * B + 2)).
Proof. exact C90_proof. Qed.
Print Assumptions C90_ensemble_tree_in_float32.

Example C90_case : Spec_MST.mst_contract naive_mst /\
  let arrays := [[f32_of 3 (-1); B754_infinity true; f32_of (-3) 0]; [f32_of 1 0; f32_of 2 0; f32_of (-1) 0]] in
  exists grid, make_complete_graph 3 = Ok grid /\ Forall (fun a => length a = length grid) arrays /\
  Forall (Forall (fun x => (is_finite x = true /\ Rabs (B2R x) <= 4) \/ x = B754_infinity true)) arrays /\ 0 <= 4 <= bpow radix2 40 /\
  spanning_tree 3 [(0, 1); (1, 2)]%nat /\ Forall (fun a => allowed_by a [(0, 1); (1, 2)]%nat) arrays.
Proof. exact C90_case_proof. Qed.

(** If the members exclude every tree between them, although each of them allows one, then
    building the ensemble's server raises an AssertionError. *)
Theorem C90_without_a_common_tree_an_assertion_fails : forall mst V grid arrays B, mst_forest mst -> (1 <= V)%nat -> make_complete_graph V = Ok grid ->
  arrays <> [] -> (Z.of_nat (length arrays) <= 2 ^ 16)%Z -> Forall (fun a => length a = length grid) arrays -> 0 <= B <= bpow radix2 40 ->
  Forall (Forall (fun x => (is_finite x = true /\ Rabs (B2R x) <= B) \/ x = B754_infinity true)) arrays ->
  ~ (exists T, spanning_tree V T /\ Forall (fun a => allowed_by a T) arrays) -> ens_tree32 mst grid arrays = Raise AssertionError.
Proof. exact C90_none. Qed.
Print Assumptions C90_without_a_common_tree_an_assertion_fails.

Example C90_none_case : mst_forest naive_mst /\
  let a := [fzero; B754_infinity true; fzero] in let b := [B754_infinity true; fzero; fzero] in
  Forall (Forall (fun x => (is_finite x = true /\ Rabs (B2R x) <= 0) \/ x = B754_infinity true)) [a; b] /\
  (spanning_tree 3 [(0, 1); (1, 2)]%nat /\ allowed_by a [(0, 1); (1, 2)]%nat) /\
  (spanning_tree 3 [(0, 2); (1, 2)]%nat /\ allowed_by b [(0, 2); (1, 2)]%nat) /\
  ~ (exists T, spanning_tree 3 T /\ Forall (fun l => allowed_by l T) [a; b]).
Proof. exact C90_none_case_proof. Qed.
