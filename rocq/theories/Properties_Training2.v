(** Property theorems about whole training runs: C19, C23 and C24. *)
From Coq Require Import String.
From Coq Require Import List Arith Bool ZArith Reals QArith Permutation Lia.
From Verif Require Import Base Spec_Graph Spec_Sum Spec_MST M_Structure M_Config M_Rand M_Training M_Ensemble Spec_Joint
  Spec_Conditional Spec_EdgeLogits Spec_Gibbs Spec_Stats Spec_Model Spec_Ensemble.
From Verif Require L_Estimate L_EdgeLogits L_Gibbs L_Train L_Ensemble L_Ensemble2.
Import ListNotations.
Open Scope string_scope.
Open Scope nat_scope.

(** C19.  For every table, config and random outcome: training raises nothing
    and ends in a valid model, with the statistics counted from scratch; the edge
    logits are the scores plus the prior of all candidate edges; and if the tree
    is estimated, no other tree has a larger total. *)
Theorem C19_training_ends_in_a_valid_model : forall ws tb prior lg mst cfg s0,
  table_ok ws tb -> config_ok cfg -> mst_contract mst -> init_trainer tb prior (c_clusters cfg) = Ok s0 ->
  always (fun '(s, logits) => from_scratch ws tb (c_clusters cfg) s /\ valid_model ws tb (c_clusters cfg) s /\
      length logits = num_cols tb * (num_cols tb - 1) / 2 /\
      (forall a b, a < b -> b < num_cols tb ->
        nth_error logits (find_complete_edge a b) =
        Some (edge_score lg (c_clusters cfg) s a b + nth (find_complete_edge a b) prior 0)%R) /\
      (c_estimate_tree cfg = true -> forall T, spanning_tree (num_cols tb) T ->
         (sumf T (fun '(x, y) => nth (find_complete_edge x y) logits 0) <=
          sumf (ts_get_edges (s_tree s)) (fun '(x, y) => nth (find_complete_edge x y) logits 0))%R))
    (train lg mst tb prior cfg s0).
Proof. exact L_Train.C19_proof. Qed.
Print Assumptions C19_training_ends_in_a_valid_model.

(** C19.  The trainer can be constructed for every table with between 1 and 2^15
    features and a prior of the right length. *)
Theorem C19_construction_succeeds : forall tb prior M, M <= 128 -> 1 <= num_cols tb <= 2 ^ 15 ->
  length prior = num_cols tb * (num_cols tb - 1) / 2 -> exists s0, init_trainer tb prior M = Ok s0.
Proof. exact L_Train.init_exists. Qed.
Print Assumptions C19_construction_succeeds.

(** C19 for the API: train_model on an admissible config dict whose seed the
    generators accept returns a valid model. *)
Theorem C19_train_model_returns_a_valid_model : forall g lg mst ws tb prior c st s,
  draws_legally g -> table_ok ws tb -> mst_contract mst -> admissible c ->
  1 <= num_cols tb <= 2 ^ 15 -> length prior = num_cols tb * (num_cols tb - 1) / 2 ->
  key c "seed" = Ok s -> (exists x, np_seed g s = Ok x) -> (exists x, jit_seed g s = Ok x) ->
  exists m z, fst (train_model g lg mst tb prior c st) = Ok m /\ key c "model_num_clusters" = Ok z /\
    valid_model ws tb (Z.to_nat z) (m_state m).
Proof. exact L_Ensemble.train_model_valid. Qed.
Print Assumptions C19_train_model_returns_a_valid_model.

(** A table, a routine, a config, legal generators. *)
Example C19_case : table_ok [2; 2] L_EdgeLogits.cx_tb /\ config_ok (Cfg 4 (3 # 2) 2 3 true) /\
  mst_contract L_Estimate.naive_mst /\ (exists s0, init_trainer L_EdgeLogits.cx_tb [0%R] 4 = Ok s0) /\
  draws_legally L_Ensemble.half_gen /\ admissible DEFAULT_CONFIG.
Proof. exact L_Ensemble.C19_case_proof. Qed.

(** C23.  For every data and tree, the distribution over the class matrices of
    all rows proportional to exp(logprob) is invariant under
    [remove_row(n); add_row(n)], and so under any sequence of such updates. *)
Theorem C23_gibbs_updates_leave_posterior_invariant :
  forall lg, (forall x, 0 < x -> lg (x + 1) = lg x + ln x)%R ->
  forall ws tb prior M T (S : list (list nat) -> tstate) rows, table_ok ws tb -> nonneg_data tb -> 1 <= M ->
  (forall n, In n rows -> n < num_rows tb) ->
  (forall A, In A (matrices (num_rows tb) (num_cols tb) M) -> full_state tb prior M T A (S A)) ->
  exists lp, (forall A, In A (matrices (num_rows tb) (num_cols tb) M) -> logprob lg tb M (S A) = Ok (lp A)) /\
  forall B, In B (matrices (num_rows tb) (num_cols tb) M) ->
  sumf (matrices (num_rows tb) (num_cols tb) M)
    (fun A => exp (lp A) * prob (rfold (gibbs tb M) rows (S A)) (fun s' => matrix_eqb (class_matrix tb s') B))%R = exp (lp B).
Proof. exact L_Gibbs.C23_proof. Qed.
Print Assumptions C23_gibbs_updates_leave_posterior_invariant.

(** C23.  The states in question exist: every class matrix is reached with every
    tree. *)
Theorem C23_every_matrix_is_reachable : forall ws tb prior M s0 edges A, table_ok ws tb -> nonneg_data tb -> 1 <= M ->
  init_trainer tb prior M = Ok s0 -> spanning_tree (num_cols tb) edges -> In A (matrices (num_rows tb) (num_cols tb) M) ->
  exists s, full_state tb prior M (TS (num_cols tb) (make_tree edges)) A s.
Proof. exact L_Gibbs.C23_states. Qed.
Print Assumptions C23_every_matrix_is_reachable.

(** The recurrence of log-gamma can be met. *)
Example C23_case : (forall x, 0 < x -> L_Gibbs.lg_ex (x + 1) = L_Gibbs.lg_ex x + ln x)%R /\
  table_ok [2; 2] L_EdgeLogits.cx_tb /\ nonneg_data L_EdgeLogits.cx_tb.
Proof. exact (conj L_Gibbs.lg_ex_rec (conj L_EdgeLogits.cx_ok L_EdgeLogits.cx_nonneg)). Qed.

(** C24.  What train_model returns does not depend on what the generators did
    before. *)
Theorem C24_train_model_ignores_generator_history : forall g lg mst tb prior config st1 st2,
  fst (train_model g lg mst tb prior config st1) = fst (train_model g lg mst tb prior config st2).
Proof. exact L_Ensemble.train_model_indep. Qed.
Print Assumptions C24_train_model_ignores_generator_history.

(** C24.  For every number of threads, every assignment of the tasks to worker
    processes in any order, and all states of all generators: no config that
    existed before is changed; if models are returned, there are as many as
    configured and the i-th is what train_model returns for the config with seed
    + i; otherwise one of these calls of train_model raises that exception. *)
Theorem C24_ensemble_is_deterministic : forall g lg mst threads workers events st tb prior h a c v size,
  nth_error h a = Some c -> lookup c "seed" = Some v -> key c "model_ensemble_size" = Ok (Z.of_nat size) ->
  Permutation (map snd events) (seq 0 size) ->
  let '(out, h') := train_ensemble g lg mst threads workers events st tb prior h a in
  (forall b, b < length h -> nth_error h' b = nth_error h b) /\
  match out with
  | Ok ms => length ms = size /\ forall i m, nth_error ms i = Some m ->
      seeded c i (m_config m) /\ forall st', fst (train_model g lg mst tb prior (m_config m) st') = Ok m
  | Raise e => exists i c', i < size /\ seeded c i c' /\ forall st', fst (train_model g lg mst tb prior c' st') = Raise e
  end.
Proof. exact L_Ensemble.ensemble_ok. Qed.
Print Assumptions C24_ensemble_is_deterministic.

(** C24.  The configs that train_model refuses before it draws anything: without a
    cluster, and those with latent dimensions, for which the trainers are missing. *)
Theorem C24_configs_that_are_refused : forall g lg mst tb prior config st M D,
  key config "model_num_clusters" = Ok M -> key config "model_latent_dim" = Ok D ->
  ((M < 1 \/ D < 0)%Z -> train_model g lg mst tb prior config st = (Raise AssertionError, st)) /\
  ((M = 1 /\ 0 < D)%Z -> train_model g lg mst tb prior config st = (Raise AssertionError, st)) /\
  ((1 < M /\ 0 < D)%Z -> train_model g lg mst tb prior config st = (Raise NotImplementedError, st)).
Proof. exact L_Ensemble2.refuses. Qed.
Print Assumptions C24_configs_that_are_refused.
Example C24_refused_case : exists c, make_config [("model_num_clusters", PInt 0)] = Ok c /\ key c "model_num_clusters" = Ok 0%Z /\ key c "model_latent_dim" = Ok 0%Z.
Proof. eexists. split; [reflexivity|]. split; reflexivity. Qed.

(** C24.  A config without the keys that train_ensemble reads is refused: no empty or
    partial ensemble is returned. *)
Theorem C24_missing_settings_raise : forall g lg mst threads workers events st tb prior h a c,
  nth_error h a = Some c ->
  (lookup c "model_ensemble_size" = None -> fst (train_ensemble g lg mst threads workers events st tb prior h a) = Raise KeyError) /\
  (forall size, key c "model_ensemble_size" = Ok (Z.of_nat (S size)) -> lookup c "seed" = None ->
     fst (train_ensemble g lg mst threads workers events st tb prior h a) = Raise KeyError).
Proof. exact L_Ensemble2.ensemble_missing_keys. Qed.
Print Assumptions C24_missing_settings_raise.
Example C24_missing_case : let c := filter (fun kv => negb (String.eqb (fst kv) "seed")) DEFAULT_CONFIG in
  nth_error [c] 0 = Some c /\ key c "model_ensemble_size" = Ok (Z.of_nat 8) /\ lookup c "seed" = None.
Proof. split; [reflexivity|]. split; reflexivity. Qed.

(** The default config: eight tasks, here on three processes. *)
Example C24_case : lookup DEFAULT_CONFIG "seed" = Some (PInt 0) /\
  key DEFAULT_CONFIG "model_ensemble_size" = Ok (Z.of_nat 8) /\
  Permutation (map snd [(2, 4); (0, 0); (2, 5); (1, 2); (1, 3); (0, 1); (0, 6); (1, 7)]) (seq 0 8).
Proof. exact L_Ensemble.C24_case_proof. Qed.
