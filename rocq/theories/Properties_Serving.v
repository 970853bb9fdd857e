(** Properties C25 - C27: the server's tables and logprob. *)
From Coq Require Import List Arith ZArith Reals.
From Verif Require Import Base Spec_Graph Spec_Sum Spec_Joint Spec_Stats Spec_Conditional Spec_MST Spec_Model M_Structure M_Rand M_Util M_Training M_Serving Spec_Serving.
From Verif Require L_Serve1.
Import ListNotations.
Open Scope R_scope.

(** C25, first part.  Whatever the random choices, training on a table of
    counts ends in a consistent model. *)
Theorem C25_trained_models_are_consistent : forall ws tb prior lg mst cfg s0,
  table_ok ws tb -> nonneg_data tb -> config_ok cfg -> mst_contract mst ->
  init_trainer tb prior (c_clusters cfg) = Ok s0 ->
  always (fun '(s, logits) =>
      consistent ws (num_cols tb) (c_clusters cfg) (num_rows tb) (model_of tb (c_clusters cfg) s logits))
    (train lg mst tb prior cfg s0).
Proof. exact L_Serve1.train_consistent. Qed.
Print Assumptions C25_trained_models_are_consistent.

(** C25.  A server is built from every consistent model.  Its tables are the
    counts plus Jeffreys priors, normalised; all entries are positive; class
    tables sum to one; the two margins of the table of an edge are the class
    tables of its ends; the categories of a feature sum to one in every class. *)
Theorem C25_server_tables_are_positive_normalised_and_consistent : forall ws V M N m mst,
  consistent ws V M N m -> mst_contract mst ->
  exists s, tree_server mst m = Ok s /\
    (forall v c, (v < V)%nat -> (c < M)%nat -> sv_vert s v c = vert_prob m v c /\ 0 < sv_vert s v c) /\
    (forall v, (v < V)%nat -> sumf (seq 0 M) (sv_vert s v) = 1) /\
    (forall e c1 c2, (e < V - 1)%nat -> (c1 < M)%nat -> (c2 < M)%nat ->
       sv_edge s e c1 c2 = edge_prob m e c1 c2 /\ 0 < sv_edge s e c1 c2) /\
    (forall e v1 v2 c, nth_error (ts_get_edges (d_tree m)) e = Some (v1, v2) -> (c < M)%nat ->
       sumf (seq 0 M) (fun c2 => sv_edge s e c c2) = sv_vert s v1 c /\
       sumf (seq 0 M) (fun c1 => sv_edge s e c1 c) = sv_vert s v2 c) /\
    (forall v q c, (v < V)%nat -> In q (block ws v) -> (c < M)%nat ->
       sv_feat s q c = feat_prob ws m v q c /\ 0 < sv_feat s q c) /\
    (forall v c, (v < V)%nat -> (c < M)%nat -> block ws v <> [] -> sumf (block ws v) (fun q => sv_feat s q c) = 1).
Proof. exact L_Serve1.C25_proof. Qed.
Print Assumptions C25_server_tables_are_positive_normalised_and_consistent.

(** Three features with 2, 1 and 3 categories, two classes, two rows. *)
Example C25_case : consistent [2; 1; 3]%nat 3 2 2 L_Serve1.ex_model.
Proof. exact L_Serve1.ex_consistent. Qed.

(** C26.  logprob of a row is the logarithm of its probability, the sum over all
    assignments of classes to features; one value per row. *)
Theorem C26_logprob_is_the_log_of_the_sum_over_all_classes : forall ws V M N m mst s data,
  consistent ws V M N m -> mst_contract mst -> tree_server mst m = Ok s ->
  (forall row, In row data -> length row = list_sum ws) ->
  logprob s data = Ok (map (fun row => ln (row_prob ws m row)) data) /\
  forall row, In row data -> 0 < row_prob ws m row.
Proof. exact L_Serve1.C26_data. Qed.
Print Assumptions C26_logprob_is_the_log_of_the_sum_over_all_classes.

(** C26.  The value does not depend on the root of the propagation program. *)
Theorem C26_logprob_does_not_depend_on_the_root : forall ws V M N m mst s root prog row,
  consistent ws V M N m -> mst_contract mst -> tree_server mst m = Ok s ->
  (forall r, root = Some r -> (r < V)%nat) -> make_propagation_program (ts_grid (d_tree m)) root = Ok prog ->
  length row = list_sum ws ->
  logprob_row (with_prog s prog) row = Ok (ln (row_prob ws m row)) /\ 0 < row_prob ws m row.
Proof. exact L_Serve1.C26_any. Qed.
Print Assumptions C26_logprob_does_not_depend_on_the_root.

(** C26.  Rows of another length are rejected. *)
Theorem C26_logprob_rejects_other_shapes : forall ws V M N m mst s row,
  consistent ws V M N m -> mst_contract mst -> tree_server mst m = Ok s ->
  length row <> list_sum ws -> logprob_row s row = Raise AssertionError.
Proof. exact L_Serve1.C26_shape. Qed.
Print Assumptions C26_logprob_rejects_other_shapes.

Example C26_case : consistent [2; 1; 3]%nat 3 2 2 L_Serve1.ex_model /\
  length [1; 0; 0; 0; 2; 1]%Z = list_sum [2; 1; 3]%nat /\
  (forall r, Some 2%nat = Some r -> (r < 3)%nat) /\
  exists prog, make_propagation_program (ts_grid (d_tree L_Serve1.ex_model)) (Some 2%nat) = Ok prog.
Proof.
  split; [exact L_Serve1.ex_consistent|]. split; [reflexivity|]. split.
  - intros r E. injection E as <-. exact (le_n 3).
  - eexists. reflexivity.
Qed.

(** C27.  The probabilities of the rows with one observation per feature sum to
    one. *)
Theorem C27_complete_rows_have_total_probability_one : forall ws V M N m mst s,
  consistent ws V M N m -> mst_contract mst -> tree_server mst m = Ok s ->
  (forall w, In w ws -> (1 <= w)%nat) ->
  exists lps, logprob s (complete_rows ws) = Ok lps /\ sumf lps exp = 1.
Proof. exact L_Serve1.C27_total. Qed.
Print Assumptions C27_complete_rows_have_total_probability_one.

(** C27.  The row without observations has probability one. *)
Theorem C27_the_empty_row_has_logprob_zero : forall ws V M N m mst s,
  consistent ws V M N m -> mst_contract mst -> tree_server mst m = Ok s ->
  logprob_row s (repeat 0%Z (list_sum ws)) = Ok 0.
Proof. exact L_Serve1.C27_empty. Qed.
Print Assumptions C27_the_empty_row_has_logprob_zero.

(** C27.  Summing over the categories of one more observation of a feature
    gives the probability of the row without it, for every row of counts. *)
Theorem C27_summing_over_a_feature_leaves_it_unobserved : forall ws V M N m mst s row v,
  consistent ws V M N m -> mst_contract mst -> tree_server mst m = Ok s ->
  length row = list_sum ws -> (v < V)%nat -> (1 <= nth v ws 0)%nat ->
  exists lps lp, logprob s (map (bump row) (block ws v)) = Ok lps /\ logprob_row s row = Ok lp /\
    sumf lps exp = exp lp.
Proof. exact L_Serve1.C27_feature. Qed.
Print Assumptions C27_summing_over_a_feature_leaves_it_unobserved.

Example C27_case : consistent [2; 1; 3]%nat 3 2 2 L_Serve1.ex_model /\
  (forall w, In w [2; 1; 3]%nat -> (1 <= w)%nat) /\
  map (bump [1; 0; 0; 0; 2; 1]%Z) (block [2; 1; 3]%nat 0) = [[2; 0; 0; 0; 2; 1]; [1; 1; 0; 0; 2; 1]]%Z /\
  complete_rows [2; 1; 3]%nat =
    [[1; 0; 1; 1; 0; 0]; [1; 0; 1; 0; 1; 0]; [1; 0; 1; 0; 0; 1];
     [0; 1; 1; 1; 0; 0]; [0; 1; 1; 0; 1; 0]; [0; 1; 1; 0; 0; 1]]%Z.
Proof.
  split; [exact L_Serve1.ex_consistent|]. split; [|split; reflexivity].
  intros w [<-|[<-|[<-|[]]]]; repeat constructor.
Qed.
