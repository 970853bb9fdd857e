(** Property theorem about the limit of training: C65. *)
From Coq Require Import List Arith Bool ZArith QArith Reals.
From Verif Require Import Base Spec_Graph Spec_Sum Spec_Trees M_Structure M_Util M_Rand M_SampleTree M_Training Spec_Joint
  Spec_Conditional Spec_EdgeLogits Spec_Gibbs Spec_Stats Spec_Model Spec_Epoch.
From Verif Require Spec_MST L_AllTrees L_EdgeLogits L_Gibbs L_Estimate L_Converge2 L_TreeReach.
Import ListNotations.
Open Scope R_scope.

(** C65.  Give every tree T and every matrix A of classes the mass
    exp(logprob + log prior of T), and every set b of such pairs the probability
    [posterior b] proportional to it.  There is a rate rho < 1, fixed by the data,
    prior and number of clusters, such that after k epochs from any state the
    trainer is in b with probability [posterior b], up to rho^k.  And a whole
    training run, with any annealing schedule, ends in b with probability
    [posterior b] up to rho^learning_full_epochs: for all sets b if the tree is
    not estimated at the end, and for sets of classes otherwise. *)
Theorem C65_training_converges_to_the_posterior : forall lg, (forall x, 0 < x -> lg (x + 1) = lg x + ln x) ->
  forall ws tb prior M TT s0, table_ok ws tb -> nonneg_data tb -> (1 <= M)%nat -> enumerates_trees (num_cols tb) TT -> init_trainer tb prior M = Ok s0 ->
  exists lp rho, 0 <= rho < 1 /\
  (forall T A s, In T TT -> full_state tb prior M (with_tree tb T) A s -> logprob lg tb M s = Ok (lp T A)) /\
  let mass T A := exp (lp T A + tree_prior_mass prior T) in
  let total b := sumf TT (fun T => sumf (matrices (num_rows tb) (num_cols tb) M) (fun A => if b T A : bool then mass T A else 0)) in
  let posterior b := total b / total (fun _ _ => true) in
  (forall b T A s k, In T TT -> full_state tb prior M (with_tree tb T) A s ->
     Rabs (prob (epochs lg tb prior M k s) (fun s' => b (ts_get_edges (s_tree s')) (class_matrix tb s')) - posterior b) <= rho ^ k) /\
  (forall b mst cfg, config_ok cfg -> Spec_MST.mst_contract mst -> c_clusters cfg = M ->
     (c_estimate_tree cfg = false \/ forall T T' A, b T A = b T' A) ->
     Rabs (prob (train lg mst tb prior cfg s0) (fun '(s', _) => b (ts_get_edges (s_tree s')) (class_matrix tb s')) - posterior b) <= rho ^ c_full_epochs cfg).
Proof. exact L_Converge2.C65_proof. Qed.
Print Assumptions C65_training_converges_to_the_posterior.

(** C65.  sample_tree with finite logits may turn any tree into any other. *)
Theorem C65_sample_tree_reaches_every_tree : forall V grid l T T', make_complete_graph V = Ok grid -> length l = length grid ->
  canonical_tree V T -> canonical_tree V T' ->
  0 < prob (sample_tree grid (map Some l) T) (fun E => if edge_list_eq_dec E T' then true else false).
Proof. exact L_Converge2.C65_reach. Qed.
Print Assumptions C65_sample_tree_reaches_every_tree.

(** The hypotheses are met by a table of two rows of two features and a config
    with 100 full epochs. *)
Example C65_case : (forall x, 0 < x -> L_Gibbs.lg_ex (x + 1) = L_Gibbs.lg_ex x + ln x) /\
  table_ok [2; 2]%nat L_EdgeLogits.cx_tb /\ nonneg_data L_EdgeLogits.cx_tb /\
  enumerates_trees (num_cols L_EdgeLogits.cx_tb) (L_AllTrees.all_trees 2) /\ (exists s0, init_trainer L_EdgeLogits.cx_tb [0] 2 = Ok s0) /\
  config_ok (Cfg 2 2 100 3 false) /\ Spec_MST.mst_contract L_Estimate.naive_mst /\
  canonical_tree 3 [(0, 1); (0, 2)]%nat.
Proof.
  split; [exact L_Gibbs.lg_ex_rec|]. split; [exact L_EdgeLogits.cx_ok|]. split; [exact L_EdgeLogits.cx_nonneg|].
  split; [exact (L_AllTrees.all_trees_enumerate 2)|]. split; [eexists; reflexivity|].
  split; [repeat split; unfold Qle; cbn; auto with zarith|]. split; [exact L_Estimate.naive_mst_contract|].
  exact L_Converge2.star_tree.
Qed.
