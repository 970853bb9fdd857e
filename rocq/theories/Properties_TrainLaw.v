(** Properties C82 and C83: the distribution of the classes training draws with
    weights computed in float32, and the float32 table those weights are read from. *)
From Coq Require Import List Arith ZArith Reals Lia.
From Flocq Require Import Core.Zaux Core.Raux IEEE754.BinarySingleNaN.
From Verif Require Import Base Spec_Graph Spec_Ragged M_Structure M_Rand Spec_Sum Spec_Joint M_Training Spec_MST Spec_Stats Spec_Conditional M_Float32 M_Train32 Spec_Float32
  Spec_Accuracy Spec_Law Spec_TrainLaw L_Train32g L_TLaw6 L_TLaw7.
Import ListNotations.
Open Scope nat_scope.

(** C82: after any history of calls, [add_row] of a row [n] that is not added draws
    the vector [z] of classes with its probability given the classes of the other
    rows, the product of counts in [conditional_weight] normalised over all vectors,
    up to a factor exp([row_error]).  Every draw is taken to be exactly proportional to
    the float32 weights it is made from.
    Proved when counts stay below 2^A, no feature has more than [d] neighbours in the
    tree or is observed more than [c] times in a row, and the observations of row [n] in
    a feature are not less likely than 2^-b in some class.
    Missing: larger counts, and features with more neighbours or observations, where
    C66 is refuted. *)
Theorem C82_training_draws_from_the_conditional_partial : forall dot ws tb prior M d A c b eta delta t n,
  dot_ok dot -> dot_accurate (Z.of_nat M) eta dot -> (bpow radix2 (-23) <= eta)%R -> drift_bound M A delta ->
  table_ok ws tb -> nonneg_data tb -> 1 <= M <= 128 -> (1 <= A <= 16)%Z -> 1 <= c -> ((A + 9) * Z.of_nat c + A <= 69)%Z ->
  ((Z.of_nat (num_rows tb) + 1) * Z.of_nat c < 2 ^ A)%Z -> Forall (fun w => (Z.of_nat w <= 2 ^ A)%Z) ws -> at_most c ws tb ->
  (0 <= b)%Z -> (3 * A + 2 * b + (A + 8) * Z.of_nat d + 12 <= 126)%Z ->
  reachable32 dot tb prior M t -> n < num_rows tb -> ~ In n (s_added (t_state t)) -> neighbours_at_most d (t_state t) ->
  (forall v m, v < num_cols tb -> m < M ->
     (bpow radix2 (- b) <= polya (block ws v) (fun r => IZR (s_feat (t_state t) r m) + 1 / 2 / INR M) (fun r => Z.to_nat (datum tb n r)))%R) ->
  (row_error tb c eta delta <= 1 / 4)%R ->
  forall z, In z (vectors (num_cols tb) M) ->
    agree (row_error tb c eta delta) (prob (ideal (add_row32 dot tb M t n)) (drawn tb n z))
      (conditional_weight ws tb M (t_state t) n z / sumf (vectors (num_cols tb) M) (conditional_weight ws tb M (t_state t) n)).
Proof. exact reachable_law. Qed.
Print Assumptions C82_training_draws_from_the_conditional_partial.

(** C82: with the numbers [np.random.rand()] gives, every multiple of 2^-53 equally
    often, the classes of row [n] are in any set [Zs] with the probability of that set
    given the other rows, up to the float32 error above and 2^-21 for every feature
    and class. Missing: as above. *)
Theorem C82_of_the_generator_partial : forall dot ws tb prior M d A c b eta delta t n,
  dot_ok dot -> dot_accurate (Z.of_nat M) eta dot -> (bpow radix2 (-23) <= eta)%R -> drift_bound M A delta ->
  table_ok ws tb -> nonneg_data tb -> 1 <= M <= 128 -> (1 <= A <= 16)%Z -> 1 <= c -> ((A + 9) * Z.of_nat c + A <= 69)%Z ->
  ((Z.of_nat (num_rows tb) + 1) * Z.of_nat c < 2 ^ A)%Z -> Forall (fun w => (Z.of_nat w <= 2 ^ A)%Z) ws -> at_most c ws tb ->
  (0 <= b)%Z -> (3 * A + 2 * b + (A + 8) * Z.of_nat d + 12 <= 126)%Z ->
  reachable32 dot tb prior M t -> n < num_rows tb -> ~ In n (s_added (t_state t)) -> neighbours_at_most d (t_state t) ->
  (forall v m, v < num_cols tb -> m < M ->
     (bpow radix2 (- b) <= polya (block ws v) (fun r => IZR (s_feat (t_state t) r m) + 1 / 2 / INR M) (fun r => Z.to_nat (datum tb n r)))%R) ->
  (row_error tb c eta delta <= 1 / 4)%R ->
  forall Zs, NoDup Zs -> (forall z, In z Zs -> In z (vectors (num_cols tb) M)) ->
    (Rabs (run_prob (num_cols tb) (add_row32 dot tb M t n) (drawn_in tb n Zs)
           - sumf Zs (fun z => conditional_weight ws tb M (t_state t) n z / sumf (vectors (num_cols tb) M) (conditional_weight ws tb M (t_state t) n)))
     <= (exp (row_error tb c eta delta) - 1) + INR (num_cols tb) * (INR M * bpow radix2 (-21)))%R.
Proof. exact reachable_law_generator. Qed.
Print Assumptions C82_of_the_generator_partial.

(** A trainer of a table of two features with one row added: the second row is added. *)
Example C82_case : dot_accurate 2 (4 * bpow radix2 (-23)) seq_dot /\ dot_ok seq_dot /\ (bpow radix2 (-23) <= 4 * bpow radix2 (-23))%R /\ drift_bound 2 3 0 /\
  table_ok [2; 3] tb4 /\ nonneg_data tb4 /\ at_most 1 [2; 3] tb4 /\
  ((3 + 9) * Z.of_nat 1 + 3 <= 69)%Z /\ ((Z.of_nat (num_rows tb4) + 1) * Z.of_nat 1 < 2 ^ 3)%Z /\
  Forall (fun w => (Z.of_nat w <= 2 ^ 3)%Z) [2; 3] /\ (3 * 3 + 2 * 3 + (3 + 8) * Z.of_nat 1 + 12 <= 126)%Z /\
  reachable32 seq_dot tb4 [0%R] 2 q1 /\ 1 < num_rows tb4 /\ ~ In 1 (s_added (t_state q1)) /\ neighbours_at_most 1 (t_state q1) /\
  (forall v m, v < num_cols tb4 -> m < 2 ->
     (bpow radix2 (- 3) <= polya (block [2; 3]%nat v) (fun r => IZR (s_feat (t_state q1) r m) + 1 / 2 / INR 2) (fun r => Z.to_nat (datum tb4 1 r)))%R) /\
  (row_error tb4 1 (4 * bpow radix2 (-23)) 0 <= 1 / 4)%R /\ In [0; 1] (vectors (num_cols tb4) 2) /\
  NoDup [[0; 1]; [1; 0]] /\ (forall z, In z [[0; 1]; [1; 0]] -> In z (vectors (num_cols tb4) 2)).
Proof. exact C82_case_proof. Qed.

(** C83: after any history, every cell of the float32 table of edge probabilities is a
    number, and is its count plus the prior 1/(2M) up to a factor exp([delta]): none
    when the number M of classes is a power of two, M * 2^(A-21) otherwise, whatever
    the number of rows added and removed.
    Missing: larger counts and features with more observations. *)
Theorem C83_table_follows_counts_partial : forall dot ws tb prior M A c delta,
  dot_ok dot -> table_ok ws tb -> nonneg_data tb -> 1 <= M <= 128 -> (1 <= A <= 16)%Z -> 1 <= c -> ((A + 9) * Z.of_nat c + A <= 69)%Z ->
  ((Z.of_nat (num_rows tb) + 1) * Z.of_nat c < 2 ^ A)%Z -> Forall (fun w => (Z.of_nat w <= 2 ^ A)%Z) ws -> at_most c ws tb ->
  drift_bound M A delta ->
  forall t, reachable32 dot tb prior M t -> forall e m1 m2, e < num_cols tb - 1 -> m1 < M -> m2 < M ->
    is_finite (t_eprobs t e m1 m2) = true /\
    agree delta (B2R (t_eprobs t e m1 m2)) (IZR (s_edge (t_state t) e m1 m2) + 1 / 2 / INR M).
Proof. exact table_follows_counts. Qed.
Print Assumptions C83_table_follows_counts_partial.

(** C83: with 2^a classes the table is exact after any history. Missing: as above. *)
Theorem C83_exact_for_powers_of_two_partial : forall dot ws tb prior a A c,
  dot_ok dot -> table_ok ws tb -> nonneg_data tb -> a <= 7 -> (1 <= A <= 16)%Z -> 1 <= c -> ((A + 9) * Z.of_nat c + A <= 69)%Z ->
  ((Z.of_nat (num_rows tb) + 1) * Z.of_nat c < 2 ^ A)%Z -> Forall (fun w => (Z.of_nat w <= 2 ^ A)%Z) ws -> at_most c ws tb ->
  forall t, reachable32 dot tb prior (2 ^ a) t -> forall e m1 m2, e < num_cols tb - 1 -> m1 < 2 ^ a -> m2 < 2 ^ a ->
    B2R (t_eprobs t e m1 m2) = (IZR (s_edge (t_state t) e m1 m2) + 1 / 2 / INR (2 ^ a))%R.
Proof. exact table_exact. Qed.
Print Assumptions C83_exact_for_powers_of_two_partial.

Example C83_case : dot_ok seq_dot /\ table_ok [2; 3] tb4 /\ nonneg_data tb4 /\ at_most 1 [2; 3] tb4 /\ ((3 + 9) * Z.of_nat 1 + 3 <= 69)%Z /\
  ((Z.of_nat (num_rows tb4) + 1) * Z.of_nat 1 < 2 ^ 3)%Z /\ Forall (fun w => (Z.of_nat w <= 2 ^ 3)%Z) [2; 3] /\
  drift_bound 3 3 (INR 3 * bpow radix2 (3 - 21)) /\ (exists t, reachable32 seq_dot tb4 [0%R] 3 t /\ s_added (t_state t) = [0]) /\
  reachable32 seq_dot tb4 [0%R] (2 ^ 1) q1.
Proof. exact C83_case_proof. Qed.

(** C83: with three classes the table is not a function of the counts: adding a row to
    a new trainer and removing it again restores every count, not the table. *)
Theorem C83_exact_refuted : exists t0 t1 t2 us, init_trainer32 tb4 [0%R] 3 = Ok t0 /\ Forall uniform01 us /\
  frun us (add_row32 seq_dot tb4 3 t0 0) = Ok (t1, None) /\ remove_row32 tb4 3 t1 0 = Ok (t2, None) /\
  (forall e m1 m2, e < 1 -> m1 < 3 -> m2 < 3 -> s_edge (t_state t2) e m1 m2 = s_edge (t_state t0) e m1 m2) /\
  B2R (t_eprobs t2 0 2 0) <> B2R (t_eprobs t0 0 2 0).
Proof. exact C83_exact_refuted_proof. Qed.
Print Assumptions C83_exact_refuted.
