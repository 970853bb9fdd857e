(** Property theorems about the posterior of trees and classes: C62 and C63. *)
From Coq Require Import List Arith Bool ZArith Reals.
From Verif Require Import Base Spec_Graph Spec_Sum Spec_Trees M_Structure M_Util M_Rand M_Training Spec_Joint
  Spec_Conditional Spec_EdgeLogits Spec_Gibbs Spec_Stats Spec_Epoch Spec_Evidence.
From Verif Require L_AllTrees L_EdgeLogits L_Gibbs L_Train L_Epoch L_Evidence3.
Import ListNotations.
Open Scope R_scope.

(** C62.  Give every tree T and every matrix A of classes the mass
    exp(logprob + log prior of T).  Start the trainer in a state drawn with
    probability proportional to this mass, and run any number of epochs: it is
    then in each (T', A') with probability proportional to the mass of (T', A').
    [St T A] is any state of the trainer with tree T and classes A. *)
Theorem C62_epochs_leave_the_posterior_invariant : forall lg, (forall x, 0 < x -> lg (x + 1) = lg x + ln x) ->
  forall ws tb prior M TT (St : list edge -> list (list nat) -> tstate) k, table_ok ws tb -> nonneg_data tb -> (1 <= M)%nat ->
  length prior = (num_cols tb * (num_cols tb - 1) / 2)%nat -> enumerates_trees (num_cols tb) TT ->
  (forall T A, In T TT -> In A (matrices (num_rows tb) (num_cols tb) M) -> full_state tb prior M (with_tree tb T) A (St T A)) ->
  exists lp, (forall T A, In T TT -> In A (matrices (num_rows tb) (num_cols tb) M) -> logprob lg tb M (St T A) = Ok (lp T A)) /\
  let mass T A := exp (lp T A + tree_prior_mass prior T) in
  forall T' A', In T' TT -> In A' (matrices (num_rows tb) (num_cols tb) M) ->
  sumf TT (fun T => sumf (matrices (num_rows tb) (num_cols tb) M) (fun A =>
    mass T A * prob (epochs lg tb prior M k (St T A)) (is_at tb T' A'))) = mass T' A'.
Proof. exact L_Epoch.C62_proof. Qed.
Print Assumptions C62_epochs_leave_the_posterior_invariant.

(** C62.  Whatever is drawn, epochs raise nothing and end in one of the pairs
    (T', A') that were listed. *)
Theorem C62_epochs_end_in_a_listed_state : forall lg ws tb prior M TT T A s k, table_ok ws tb -> nonneg_data tb -> (1 <= M)%nat ->
  length prior = (num_cols tb * (num_cols tb - 1) / 2)%nat -> enumerates_trees (num_cols tb) TT ->
  full_state tb prior M (with_tree tb T) A s ->
  always (fun s' => exists T' A', In T' TT /\ In A' (matrices (num_rows tb) (num_cols tb) M) /\ is_at tb T' A' s' = true) (epochs lg tb prior M k s).
Proof. exact L_Evidence3.C62_always. Qed.
Print Assumptions C62_epochs_end_in_a_listed_state.

(** C62.  Such states exist for every table for which a trainer can be made. *)
Theorem C62_every_tree_and_matrix_is_reachable : forall ws tb prior M s0 TT, table_ok ws tb -> nonneg_data tb -> (1 <= M)%nat ->
  init_trainer tb prior M = Ok s0 -> enumerates_trees (num_cols tb) TT ->
  exists St, forall T A, In T TT -> In A (matrices (num_rows tb) (num_cols tb) M) -> full_state tb prior M (with_tree tb T) A (St T A).
Proof. exact L_Evidence3.C62_states. Qed.
Print Assumptions C62_every_tree_and_matrix_is_reachable.

(** The hypotheses are met by a table of two rows of two features. *)
Example C62_case : (forall x, 0 < x -> L_Gibbs.lg_ex (x + 1) = L_Gibbs.lg_ex x + ln x) /\
  table_ok [2; 2]%nat L_EdgeLogits.cx_tb /\ nonneg_data L_EdgeLogits.cx_tb /\
  enumerates_trees (num_cols L_EdgeLogits.cx_tb) (L_AllTrees.all_trees 2) /\ (exists s0, init_trainer L_EdgeLogits.cx_tb [0] 2 = Ok s0).
Proof.
  split; [exact L_Gibbs.lg_ex_rec|]. split; [exact L_EdgeLogits.cx_ok|]. split; [exact L_EdgeLogits.cx_nonneg|].
  split; [exact (L_AllTrees.all_trees_enumerate 2)|]. eexists. reflexivity.
Qed.

(** C63.  For every number of rows there is one constant: summed over all data
    with a given pattern of observed cells and over all classes, exp(logprob) is
    this constant, whichever the tree and the pattern. *)
Theorem C63_logprob_is_normalised_equally : forall lg, (forall x, 0 < x -> lg (x + 1) = lg x + ln x) ->
  forall ws M prior N, (1 <= M <= 128)%nat -> (1 <= length ws <= 2 ^ 15)%nat -> (forall w, In w ws -> (1 <= w)%nat) ->
  length prior = (length ws * (length ws - 1) / 2)%nat ->
  exists c, 0 < c /\
  forall T pats (St : list (list Z) -> list (list nat) -> tstate), canonical_tree (length ws) T ->
  length pats = N -> Forall (fun p => length p = length ws) pats ->
  (forall D A, In D (pattern_data ws pats) -> In A (matrices N (length ws) M) ->
     full_state (table_of ws D) prior M (with_tree (table_of ws D) T) A (St D A)) ->
  exists lp, (forall D A, In D (pattern_data ws pats) -> In A (matrices N (length ws) M) -> logprob lg (table_of ws D) M (St D A) = Ok (lp D A)) /\
    sumf (pattern_data ws pats) (fun D => sumf (matrices N (length ws) M) (fun A => exp (lp D A))) = c.
Proof. exact L_Evidence3.C63_proof. Qed.
Print Assumptions C63_logprob_is_normalised_equally.

(** C63.  So with no cell observed, the posterior of the trees is their prior. *)
Theorem C63_without_data_trees_follow_the_prior : forall lg, (forall x, 0 < x -> lg (x + 1) = lg x + ln x) ->
  forall ws M prior N TT (St : list edge -> list (list nat) -> tstate), (1 <= M <= 128)%nat -> (1 <= length ws <= 2 ^ 15)%nat -> (forall w, In w ws -> (1 <= w)%nat) ->
  length prior = (length ws * (length ws - 1) / 2)%nat -> enumerates_trees (length ws) TT ->
  let tb := table_of ws (repeat (repeat 0%Z (list_sum ws)) N) in
  (forall T A, In T TT -> In A (matrices N (length ws) M) -> full_state tb prior M (with_tree tb T) A (St T A)) ->
  exists lp c, 0 < c /\
    (forall T A, In T TT -> In A (matrices N (length ws) M) -> logprob lg tb M (St T A) = Ok (lp T A)) /\
    forall T, In T TT -> sumf (matrices N (length ws) M) (fun A => exp (lp T A + tree_prior_mass prior T)) = c * exp (tree_prior_mass prior T).
Proof. exact L_Evidence3.C63_prior_proof. Qed.
Print Assumptions C63_without_data_trees_follow_the_prior.

(** C63.  The states exist. *)
Theorem C63_states_exist : forall ws M prior T pats, (1 <= M <= 128)%nat -> (1 <= length ws <= 2 ^ 15)%nat ->
  length prior = (length ws * (length ws - 1) / 2)%nat -> canonical_tree (length ws) T -> Forall (fun p => length p = length ws) pats ->
  exists St, forall D A, In D (pattern_data ws pats) -> In A (matrices (length pats) (length ws) M) ->
    full_state (table_of ws D) prior M (with_tree (table_of ws D) T) A (St D A).
Proof. exact L_Evidence3.C63_states. Qed.
Print Assumptions C63_states_exist.

(** Two features of 2 and 3 categories, the second missing in the first row: 2 * 6
    datasets. *)
Example C63_case : canonical_tree 2 [(0, 1)]%nat /\ length (pattern_data [2; 3]%nat [[true; false]; [true; true]]) = 12%nat /\
  pattern_rows [2; 3]%nat [true; false] = [[1; 0; 0; 0; 0]; [0; 1; 0; 0; 0]]%Z.
Proof.
  exact (conj L_Evidence3.pair_tree (conj eq_refl eq_refl)).
Qed.
