(** Property theorems about treecat/generate.py: C57 - C61. *)
From Coq Require Import List Arith ZArith Reals.
From Verif Require Import Base Spec_Graph Spec_Sum Spec_Ragged M_Structure M_Util M_Rand M_EstimateTree Spec_MST M_Training Spec_Stats Spec_Conditional M_Serving Spec_Serving Spec_Summary M_Generate Spec_Generate.
From Verif Require L_Graph L_MakeTree L_Estimate L_Prop1 L_Generate L_Generate2 L_Generate3 L_GenerateEx.
Import ListNotations.
Open Scope nat_scope.

(** C57.  For every number of columns the result is a proper tree structure. *)
Theorem C57_generate_tree_spans : forall logits V, 1 <= V -> length logits = V * (V - 1) / 2 ->
  always (proper_tree V) (generate_tree logits V).
Proof. exact L_Generate.generate_tree_always. Qed.
Print Assumptions C57_generate_tree_spans.

(** C58.  The statistics of a fake model are the counts of its assignments over
    the dataset, and they belong together, so that every theorem about servers
    applies. *)
Theorem C58_fake_models_are_consistent : forall ws tb asg M C tree_logits logits,
  table_ok ws tb -> nonneg_data tb -> 1 <= num_cols tb -> 1 <= M <= 128 ->
  (forall n v, n < num_rows tb -> v < num_cols tb -> asg n v < M) -> list_sum ws <= num_cols tb * C ->
  length tree_logits = num_cols tb * (num_cols tb - 1) / 2 -> length logits = num_cols tb * (num_cols tb - 1) / 2 ->
  always (fun m => consistent ws (num_cols tb) M (num_rows tb) m /\ counted ws tb M asg m)
    (generate_fake_model tree_logits asg tb (num_rows tb) (num_cols tb) C M logits).
Proof. exact L_Generate.C58_proof. Qed.
Print Assumptions C58_fake_models_are_consistent.

Theorem C58_fake_ensembles_are_consistent : forall draw seeds N V C M, 1 <= V -> 1 <= C -> 1 <= M <= 128 ->
  (forall v n, v < V -> n < N -> length (draw v n) = C /\ forall x, In x (draw v n) -> (0 <= x <= 127)%Z) ->
  (forall tree_logits asg logits, In (tree_logits, asg, logits) seeds ->
     length tree_logits = V * (V - 1) / 2 /\ length logits = V * (V - 1) / 2 /\ forall n v, n < N -> v < V -> asg n v < M) ->
  always (fun ensemble => length ensemble = length seeds /\ forall m, In m ensemble -> consistent (repeat C V) V M N m)
    (generate_fake_ensemble draw seeds N V C M).
Proof. exact L_Generate3.fake_ensemble. Qed.
Print Assumptions C58_fake_ensembles_are_consistent.

(** C59.  A clean dataset has the requested shape and every row has exactly one
    observation of every feature. *)
Theorem C59_clean_rows_are_complete : forall mst V C N tree, proper_tree V tree -> 1 <= C <= 128 -> mst_contract mst ->
  always (fun tb => table_ok (repeat C V) tb /\ num_cols tb = V /\ num_rows tb = N /\
                    forall row, In row (tb_rows tb) -> legal_row (repeat C V) (repeat 1%Z V) row)
    (generate_clean_dataset mst tree N C).
Proof. exact L_Generate2.C59_proof. Qed.
Print Assumptions C59_clean_rows_are_complete.

(** C59.  Every category of every feature has probability 1/C. *)
Theorem C59_clean_categories_are_uniform : forall V C es mst m v k, spanning_tree V es -> 1 <= C <= 128 -> mst_contract mst ->
  clean_model (TS V (make_tree es)) C = Ok m -> v < V -> k < C ->
  row_prob (repeat C V) m (bump (repeat 0%Z (list_sum (repeat C V))) (v * C + k)) = (/ INR C)%R.
Proof. exact (fun V C es mst m v k T HC MC E => L_Generate2.uniform V C es mst m T HC MC E v k). Qed.
Print Assumptions C59_clean_categories_are_uniform.

(** C59.  A feature in class [c] shows category [c] with probability at least
    200/201. *)
Theorem C59_clean_observations_are_reliable : forall V C es m v k c, spanning_tree V es -> 1 <= C <= 128 ->
  clean_model (TS V (make_tree es)) C = Ok m -> v < V -> k < C -> c < C ->
  feat_prob (repeat C V) m v (v * C + k) c = ((200 * (if k =? c then 1 else 0) + / INR C) / 201)%R.
Proof. exact L_Generate3.reliable. Qed.
Print Assumptions C59_clean_observations_are_reliable.

(** C60.  Without a dataset file: every cell holds what was drawn for it, stored
    as int8, hence exactly if no count exceeds 127. *)
Theorem C60_generated_cells_are_the_draws : forall draw N V C, 1 <= C -> (forall v n, v < V -> n < N -> length (draw v n) = C) ->
  exists tb, generate_dataset draw N V C = Ok tb /\ table_ok (repeat C V) tb /\ num_rows tb = N /\ num_cols tb = V /\
  forall n v, n < N -> v < V -> cell C tb n v = map int8 (draw v n) /\
    ((forall x, In x (draw v n) -> (0 <= x <= 127)%Z) -> cell C tb n v = draw v n).
Proof. exact L_Generate3.C60_proof. Qed.
Print Assumptions C60_generated_cells_are_the_draws.

Theorem C60_no_categories_is_an_error : forall draw N V, generate_dataset draw N V 0 = Raise ZeroDivisionError.
Proof. exact L_Generate3.C60_no_cats. Qed.
Print Assumptions C60_no_categories_is_an_error.

(** C61.  In the model of a clean dataset, the joint distribution of the classes
    of two features depends only on their distance [d] in the tree: with
    probability (2/3)^d they are tied together, otherwise independent. *)
Theorem C61_correlation_decays_with_distance : forall V C es mst m u v a b d, spanning_tree V es -> 1 <= C <= 128 -> mst_contract mst ->
  clean_model (TS V (make_tree es)) C = Ok m ->
  u < V -> v < V -> a < C -> b < C -> dist (ts_get_edges (d_tree m)) u v d ->
  pair_prob m u v a b = (/ INR C * ((2 / 3) ^ d * (if a =? b then 1 else 0) + (1 - (2 / 3) ^ d) / INR C))%R.
Proof. exact L_Generate3.decay_stmt. Qed.
Print Assumptions C61_correlation_decays_with_distance.

(** C61.  Hence, with two or more categories, nearer features agree strictly more
    often, *)
Theorem C61_nearer_features_agree_more : forall V C es mst m u v d u' v' d', spanning_tree V es -> 2 <= C <= 128 -> mst_contract mst ->
  clean_model (TS V (make_tree es)) C = Ok m ->
  u < V -> v < V -> dist (ts_get_edges (d_tree m)) u v d -> u' < V -> v' < V -> dist (ts_get_edges (d_tree m)) u' v' d' -> d < d' ->
  (agreement m u' v' < agreement m u v)%R.
Proof. exact L_Generate3.nearer. Qed.
Print Assumptions C61_nearer_features_agree_more.

(** and estimate_tree, given the probabilities of agreement, recovers exactly the
    generating tree. *)
Theorem C61_the_tree_is_recovered : forall V C es mst m grid, spanning_tree V es -> 2 <= C <= 128 -> mst_contract mst ->
  clean_model (TS V (make_tree es)) C = Ok m -> make_complete_graph V = Ok grid ->
  estimate_tree mst grid (map (fun '(_, u, v) => agreement m u v) grid) = Ok (ts_get_edges (TS V (make_tree es))).
Proof. exact (fun V C es mst m grid T HC MC E => L_Generate3.recover V C es mst m T HC MC E grid). Qed.
Print Assumptions C61_the_tree_is_recovered.

(** The path 0 - 1 - 2 with two categories; a dataset of two rows with 3 + 2
    columns and a count vector. *)
Example C59_case : proper_tree 3 (TS 3 (make_tree [(0, 1); (1, 2)])) /\ (exists mst, mst_contract mst) /\
  (exists m, clean_model (TS 3 (make_tree [(0, 1); (1, 2)])) 2 = Ok m) /\
  dist (ts_get_edges (TS 3 (make_tree [(0, 1); (1, 2)]))) 0 2 2 /\
  generate_dataset (fun v n => [Z.of_nat v; Z.of_nat n; 127%Z]) 2 2 3 =
    Ok (Tab [TY_MULTINOMIAL; TY_MULTINOMIAL] [0; 3; 6] [[0; 0; 127; 1; 0; 127]; [0; 1; 127; 1; 1; 127]]%Z).
Proof. exact L_GenerateEx.case1. Qed.

(** A fake model of that dataset. *)
Example C58_case : let tb := Tab [TY_MULTINOMIAL; TY_MULTINOMIAL] [0; 3; 6] [[0; 0; 127; 1; 0; 127]; [0; 1; 127; 1; 1; 127]]%Z in
  table_ok [3; 3] tb /\ nonneg_data tb /\ (forall n v, n < 2 -> v < 2 -> (n + v) mod 2 < 2).
Proof. exact L_GenerateEx.case2. Qed.
