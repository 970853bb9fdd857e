(** Property theorems about the trainer: C18, C20, C21 and C22. *)
From Coq Require Import List Arith Bool ZArith Reals Permutation.
From Verif Require Import Base Spec_Graph Spec_Sum M_Structure M_Rand M_Training M_Repaired3 M_Parallel Spec_Joint Spec_Stats
  Spec_Conditional Spec_EdgeLogits.
From Verif Require L_Conditional L_EdgeLogits L_Parallel L_Repaired3.
Import ListNotations.
Open Scope nat_scope.

(** C18.  After every history of add_row, remove_row and set_edges calls,
    accepted or rejected, and whatever classes are drawn, nothing has been raised
    and all statistics are the counts over exactly the added rows. *)
Theorem C18_statistics_are_counts_from_scratch : forall ws tb prior M s0 ops, table_ok ws tb -> 1 <= M ->
  init_trainer tb prior M = Ok s0 -> Forall (op_ok tb) ops -> always (from_scratch ws tb M) (run_ops tb M ops s0).
Proof. exact L_Conditional.history_counts. Qed.
Print Assumptions C18_statistics_are_counts_from_scratch.

(** C18.  Adding an added row, removing an absent row and setting a wrong number
    of edges are rejected and change nothing. *)
Theorem C18_rejected_calls_change_nothing : forall ws tb prior M s n, table_ok ws tb -> 1 <= M -> reachable tb prior M s ->
  (In n (s_added s) -> add_row tb M s n = Ret (s, Some AssertionError)) /\
  (~ In n (s_added s) -> remove_row tb M s n = Ok (s, Some AssertionError)) /\
  (forall edges, S (length edges) <> num_cols tb -> set_edges M s edges = Ok (s, Some AssertionError)).
Proof. exact L_Conditional.history_rejects. Qed.
Print Assumptions C18_rejected_calls_change_nothing.

(** C18.  All other calls are accepted and have exactly their effect on the rows,
    the tree and the classes of other rows. *)
Theorem C18_accepted_calls_have_their_effect : forall ws tb prior M s, table_ok ws tb -> 1 <= M -> reachable tb prior M s ->
  (forall n, n < num_rows tb -> ~ In n (s_added s) ->
     always (fun '(s', x) => x = None /\ Permutation (s_added s') (n :: s_added s) /\ s_tree s' = s_tree s /\
               forall k, k <> n -> s_asg s' k = s_asg s k) (add_row tb M s n)) /\
  (forall n, In n (s_added s) -> exists s', remove_row tb M s n = Ok (s', None) /\
     Permutation (s_added s) (n :: s_added s') /\ s_tree s' = s_tree s /\ s_asg s' = s_asg s) /\
  (forall edges, spanning_tree (num_cols tb) edges -> exists s', set_edges M s edges = Ok (s', None) /\
     s_added s' = s_added s /\ s_asg s' = s_asg s /\
     exists gs, Permutation edges gs /\ Forall2 same_edge gs (ts_get_edges (s_tree s'))).
Proof. exact L_Conditional.history_accepts. Qed.
Print Assumptions C18_accepted_calls_have_their_effect.

(** Two features with two categories each and three rows; the new trainer. *)
Example C18_case : table_ok [2; 2] L_EdgeLogits.cx_tb /\ nonneg_data L_EdgeLogits.cx_tb /\
  (exists s0, init_trainer L_EdgeLogits.cx_tb [0%R] 2 = Ok s0 /\ reachable L_EdgeLogits.cx_tb [0%R] 2 s0) /\
  Forall (op_ok L_EdgeLogits.cx_tb) [OpAdd 2; OpAdd 2; OpAdd 0; OpSetEdges [(0, 1)]; OpSetEdges []; OpRemove 2; OpRemove 1].
Proof. exact L_EdgeLogits.cx_case. Qed.

(** C20.  A state of the trainer in which compute_edge_logits reads the classes of
    a row outside the subsample: two reachable states with the same tree, the
    same added rows and the same classes for these, but different logits. *)
Theorem C20_edge_logits_depend_only_on_subsample_refuted :
  forall lg, (forall x, 0 < x -> lg (x + 1) = lg x + ln x)%R ->
  exists ws tb prior M s1 s2 k,
    table_ok ws tb /\ nonneg_data tb /\ reachable tb prior M s1 /\ reachable tb prior M s2 /\
    s_tree s1 = s_tree s2 /\ s_added s1 = s_added s2 /\ (forall n, In n (s_added s1) -> s_asg s1 n = s_asg s2 n) /\
    exists l1 l2 x1 x2, compute_edge_logits lg tb prior M s1 = Ok l1 /\ compute_edge_logits lg tb prior M s2 = Ok l2 /\
      nth_error l1 k = Some x1 /\ nth_error l2 k = Some x2 /\ x1 <> x2.
Proof. exact L_EdgeLogits.logits_stale. Qed.
Print Assumptions C20_edge_logits_depend_only_on_subsample_refuted.

(** C20, what holds: unless the number of added rows is the number of features
    and there are further rows, the logit of the edge (a, b) is its score from
    the added rows plus its prior. *)
Theorem C20_edge_logits_partial : forall ws tb prior M, table_ok ws tb -> 1 <= M -> forall lg s,
  reachable tb prior M s ->
  length (s_added s) <> num_cols tb \/ length (s_added s) = num_rows tb ->
  exists logits, compute_edge_logits lg tb prior M s = Ok logits /\
    length logits = num_cols tb * (num_cols tb - 1) / 2 /\
    forall a b, a < b -> b < num_cols tb ->
      nth_error logits (find_complete_edge a b) =
      Some (edge_score lg M s a b + nth (find_complete_edge a b) prior 0)%R.
Proof. exact L_EdgeLogits.logits_subsample. Qed.
Print Assumptions C20_edge_logits_partial.

(** C20, with the number of added rows compared with the number of rows, as was
    meant: the claim in full. *)
Theorem C20_repaired_edge_logits_depend_only_on_subsample : forall ws tb prior M, table_ok ws tb -> 1 <= M -> forall lg s,
  reachable tb prior M s ->
  exists logits, repaired_compute_edge_logits lg tb prior M s = Ok logits /\
    length logits = num_cols tb * (num_cols tb - 1) / 2 /\
    forall a b, a < b -> b < num_cols tb ->
      nth_error logits (find_complete_edge a b) =
      Some (edge_score lg M s a b + nth (find_complete_edge a b) prior 0)%R.
Proof. exact L_Repaired3.C20_repaired. Qed.
Print Assumptions C20_repaired_edge_logits_depend_only_on_subsample.

(** C21.  Under every schedule of the steps of the parallel iterations: no step
    fails; a finished iteration has written the sequential logit; when all are
    finished the array is the sequential result; and any schedule giving every
    iteration enough steps finishes all of them. *)
Theorem C21_parallel_equals_sequential : forall lg N M V grid rows vert_logits logits,
  compute_edge_logits_seq lg N M V grid rows vert_logits = Ok logits ->
  forall sched, Forall (fun k => k < length grid) sched ->
  exists ths mem, run_schedule lg N M V grid rows vert_logits sched = Ok (ths, mem) /\
    length ths = length grid /\ length mem = length grid /\
    (forall k, nth_error ths k = Some PDone -> nth_error mem k = nth_error logits k) /\
    (Forall (eq PDone) ths -> mem = logits) /\
    ((forall k, k < length grid -> length rows + M * (M + 1) + 4 <= count_occ Nat.eq_dec sched k) -> Forall (eq PDone) ths).
Proof. exact L_Parallel.parallel_result. Qed.
Print Assumptions C21_parallel_equals_sequential.

(** C21.  The sequential version is defined, every table lookup being in bounds,
    whenever there are at most N rows and all classes are below M ... *)
Theorem C21_lookups_in_bounds : forall lg N M V grid (rows : list (nat -> nat)) vert_logits,
  make_complete_graph V = Ok grid -> length rows <= N -> (forall a v, In a rows -> v < V -> a v < M) ->
  exists logits, compute_edge_logits_seq lg N M V grid rows vert_logits = Ok logits.
Proof. exact L_EdgeLogits.seq_defined. Qed.
Print Assumptions C21_lookups_in_bounds.

(** ... and so is compute_edge_logits in every state of the trainer. *)
Theorem C21_trainer_lookups_in_bounds : forall ws tb prior M lg s, table_ok ws tb -> 1 <= M -> reachable tb prior M s ->
  exists logits, compute_edge_logits lg tb prior M s = Ok logits.
Proof. exact L_EdgeLogits.trainer_logits_defined. Qed.
Print Assumptions C21_trainer_lookups_in_bounds.

(** Three vertices, two classes, four rows. *)
Example C21_case : exists logits,
  compute_edge_logits_seq (fun x => x) 4 2 3 [(0, 0, 1); (1, 0, 2); (2, 1, 2)]
    [(fun _ => 0); (fun v => v mod 2); (fun _ => 1); (fun v => (v + 1) mod 2)] (fun _ => 1%R) = Ok logits.
Proof. eexists. reflexivity. Qed.

(** C22.  In every state of the trainer, for every row that is not added, add_row
    draws the class vector [z] with probability proportional to
    [conditional_weight] - with the program for any root [r], and with the
    trainer's own program. *)
Theorem C22_add_row_draws_from_full_conditional : forall ws tb prior M s root prog n z,
  table_ok ws tb -> nonneg_data tb -> 1 <= M ->
  reachable tb prior M s -> n < num_rows tb -> ~ In n (s_added s) ->
  (forall r, root = Some r -> r < num_cols tb) -> make_propagation_program (ts_grid (s_tree s)) root = Ok prog ->
  In z (vectors (num_cols tb) M) ->
  (0 < conditional_weight ws tb M s n z)%R /\
  prob (add_row tb M (with_program s prog) n) (fun r => if list_eq_dec Nat.eq_dec (classes_of tb (fst r) n) z then true else false) =
  (conditional_weight ws tb M s n z / sumf (vectors (num_cols tb) M) (conditional_weight ws tb M s n))%R.
Proof. exact L_Conditional.add_row_law. Qed.
Print Assumptions C22_add_row_draws_from_full_conditional.

Theorem C22_with_the_trainers_program : forall ws tb prior M s n z,
  table_ok ws tb -> nonneg_data tb -> 1 <= M ->
  reachable tb prior M s -> n < num_rows tb -> ~ In n (s_added s) ->
  In z (vectors (num_cols tb) M) ->
  prob (add_row tb M s n) (fun r => if list_eq_dec Nat.eq_dec (classes_of tb (fst r) n) z then true else false) =
  (conditional_weight ws tb M s n z / sumf (vectors (num_cols tb) M) (conditional_weight ws tb M s n))%R.
Proof. exact L_Conditional.add_row_law_own. Qed.
Print Assumptions C22_with_the_trainers_program.

(** A state with one row added, of classes (1, 0), and row 2 still to add, for
    both roots. *)
Example C22_case : exists s, reachable L_EdgeLogits.cx_tb [0%R] 2 s /\ s_added s = [1] /\
  classes_of L_EdgeLogits.cx_tb s 1 = [1; 0] /\ 2 < num_rows L_EdgeLogits.cx_tb /\ ~ In 2 (s_added s) /\
  (exists prog, make_propagation_program (ts_grid (s_tree s)) (Some 0) = Ok prog) /\
  (exists prog, make_propagation_program (ts_grid (s_tree s)) (Some 1) = Ok prog) /\
  In [1; 1] (vectors (num_cols L_EdgeLogits.cx_tb) 2).
Proof. exact L_EdgeLogits.cx_case22. Qed.
