(** Property theorems about treecat/validate.py: C49, C50, C55, C56. *)
From Coq Require Import String.
From Coq Require Import List Arith ZArith Reals.
From Verif Require Import Base Spec_Sum Spec_Ragged Spec_MST Spec_Serving M_Structure M_Util M_Config M_Strings M_Serving M_Validate M_Repaired3 Spec_Validate.
From Verif Require L_Validate L_Validate2 L_Validate3 L_Serve1 L_Repaired3.
Import ListNotations.
Open Scope list_scope.
Open Scope nat_scope.

(** C49.  For a fixed number of rows and parts, every cell is held out for
    exactly one part. *)
Theorem C49_every_cell_is_held_out_once : forall randint ws N parts, rng_contract randint -> (0 < parts)%Z ->
  forall n p, n < N -> p < list_sum ws ->
  exists! part, exists m, split_data randint (make_ragged_index ws) N parts part = Ok m /\ held_out m n p.
Proof. exact L_Validate.partition. Qed.
Print Assumptions C49_every_cell_is_held_out_once.

(** C49.  Every part has a mask of the shape of the data, which holds out either
    all or none of the entries of a cell; other part numbers are rejected. *)
Theorem C49_masks_hold_out_whole_cells : forall randint ws N parts, rng_contract randint ->
  forall part, (0 <= part < parts)%Z -> exists m, split_data randint (make_ragged_index ws) N parts part = Ok m /\
    shaped N (list_sum ws) m /\
    (forall n v, n < N -> (forall p, owns ws v p -> nth p (nth n m []) None = Some true) \/
                          (forall p, owns ws v p -> nth p (nth n m []) None = Some false)).
Proof. exact L_Validate.C49_masks. Qed.
Print Assumptions C49_masks_hold_out_whole_cells.

Theorem C49_other_parts_are_rejected : forall randint N parts ri part,
  ~ (0 <= part < parts)%Z -> split_data randint ri N parts part = Raise AssertionError.
Proof. exact L_Validate.split_bad. Qed.
Print Assumptions C49_other_parts_are_rejected.

(** C49.  Training, which receives the config through its file name, and
    evaluation use the same mask and the same training data: held-out cells are
    zero and all others are unchanged.  The validation data are the converse. *)
Theorem C49_training_and_evaluation_data : forall randint ws N data c parts part s,
  rng_contract randint -> shaped N (list_sum ws) data ->
  setting c "model_ensemble_size" = Some parts -> setting c "seed" = Some part -> (0 <= part < parts)%Z ->
  serialize_config c = Ok s -> (forall k z, setting c k = Some z -> (0 <= z)%Z) ->
  exists m training validation,
    split_data randint (make_ragged_index ws) N parts part = Ok m /\
    train_task_data randint (make_ragged_index ws) data s = Ok training /\
    eval_split randint (make_ragged_index ws) data c = Ok (m, training, validation) /\
    shaped N (list_sum ws) training /\ shaped N (list_sum ws) validation /\
    forall n p, n < N -> p < list_sum ws ->
      (held_out m n p -> entry training n p = 0%Z /\ entry validation n p = entry data n p) /\
      (~ held_out m n p -> entry training n p = entry data n p /\ entry validation n p = 0%Z).
Proof. exact L_Validate.C49_data. Qed.
Print Assumptions C49_training_and_evaluation_data.

(** Two features with 2 and 1 categories, 3 rows, 4 parts. *)
Example C49_case : rng_contract L_Validate2.ex_rng /\
  split_data L_Validate2.ex_rng (make_ragged_index [2; 1]) 3 4 2 =
  Ok [[Some false; Some false; Some true]; [Some true; Some true; Some false]; [Some false; Some false; Some false]] /\
  (exists s, serialize_config DEFAULT_CONFIG = Ok s) /\ (forall k z, setting DEFAULT_CONFIG k = Some z -> (0 <= z)%Z).
Proof.
  split; [exact L_Validate2.ex_rng_ok|]. split; [reflexivity|]. split; [eexists; reflexivity|].
  intros k z. unfold setting, DEFAULT_CONFIG. cbn [lookup].
  repeat (destruct (String.eqb k _); [intros E; injection E as <-; discriminate|]). discriminate.
Qed.

(** C50.  For every row of the file that counts, in order, one config for each
    part. *)
Theorem C50_read_param_csv_expands_every_row : forall options header rows,
  NoDup (map fst options) -> lookup options "seed" = None ->
  ~ In "seed"%string header -> header <> [] -> incl (map fst options) params -> incl header params ->
  ~ In "model_ensemble_size"%string header ->
  (forall row, In row rows -> used header row = true -> forall cell, In cell row -> int_of_str cell <> None) ->
  exists configs, read_param_csv (header :: rows) options = Ok (header, configs) /\
    length configs = length (filter (used header) rows) * parts_of options /\
    forall i row part, nth_error (filter (used header) rows) i = Some row -> part < parts_of options ->
      exists c, nth_error configs (i * parts_of options + part) = Some c /\ describes options header row part c.
Proof. exact (fun options header rows A B C D E F => L_Validate2.read_Ok options header A B C D E F rows). Qed.
Print Assumptions C50_read_param_csv_expands_every_row.

(** C50.  Different settings have different model files, and every config of a
    known form has one. *)
Theorem C50_model_files_do_not_collide : forall c d f, model_file c = Ok f -> model_file d = Ok f ->
  forall k, setting c k = setting d k.
Proof. exact L_Validate2.model_file_inj. Qed.
Print Assumptions C50_model_files_do_not_collide.

Theorem C50_every_config_has_a_model_file : forall c, map fst c = params -> exists f, model_file c = Ok f.
Proof. exact L_Validate2.model_file_Ok. Qed.
Print Assumptions C50_every_config_has_a_model_file.

(** C50.  What is rejected. *)
Theorem C50_reserved_names_are_rejected : forall header rows options,
  (setting options "seed" <> None \/ In "seed"%string header \/ In "model_ensemble_size"%string header ->
   read_param_csv (header :: rows) options = Raise AssertionError) /\
  (setting options "seed" = None -> read_param_csv [] options = Raise StopIteration).
Proof. exact L_Validate2.read_rejects. Qed.
Print Assumptions C50_reserved_names_are_rejected.

Theorem C50_bad_cells_are_rejected : forall header rows options row cell, header <> [] ->
  setting options "seed" = None -> ~ In "seed"%string header -> ~ In "model_ensemble_size"%string header ->
  In row rows -> used header row = true -> In cell row -> int_of_str cell = None ->
  read_param_csv (header :: rows) options = Raise ValueError.
Proof. exact L_Validate2.read_bad_cell. Qed.
Print Assumptions C50_bad_cells_are_rejected.

Example C50_case : exists configs,
  read_param_csv L_Validate2.ex_csv [("model_ensemble_size"%string, PInt 3)] = Ok (["model_num_clusters"; "learning_init_epochs"]%string, configs) /\
  length configs = 6 /\ option_map (fun c => (setting c "seed", setting c "model_num_clusters", setting c "learning_init_epochs")) (nth_error configs 4) =
    Some (Some 1%Z, Some 32%Z, Some 20%Z) /\
  filter (used ["model_num_clusters"; "learning_init_epochs"]%string) (tl L_Validate2.ex_csv) = [["16"; "10"]; ["32"; " 20"]]%string.
Proof. eexists. split; [vm_compute; reflexivity|]. repeat split. Qed.

(** C55.  The models trained for one row of a parameter file do not hold out
    every cell: without the option model_ensemble_size there are four of them,
    but each is trained with an eighth of the cells held out. *)
Theorem C55_folds_refuted : exists randint, rng_contract randint /\
  exists lines options header configs, read_param_csv lines options = Ok (header, configs) /\ configs <> [] /\
  exists ws N n p, n < N /\ p < list_sum ws /\
    forall c, In c configs -> (exists m, fold_mask randint ws N c m) /\ forall m, fold_mask randint ws N c m -> ~ held_out m n p.
Proof. exact L_Validate2.folds_refuted. Qed.
Print Assumptions C55_folds_refuted.

(** C55.  Whatever the random numbers: then the cells of parts 4 to 7 of 8 are
    never held out. *)
Theorem C55_cells_never_held_out : forall randint ws N header rows options configs, rng_contract randint ->
  header <> [] -> NoDup (map fst options) -> lookup options "seed" = None -> ~ In "seed"%string header ->
  incl (map fst options) params -> incl header params -> ~ In "model_ensemble_size"%string header ->
  (forall row, In row rows -> used header row = true -> forall cell, In cell row -> int_of_str cell <> None) ->
  setting options "model_ensemble_size" = None ->
  read_param_csv (header :: rows) options = Ok (header, configs) ->
  forall n p part m', n < N -> p < list_sum ws -> (4 <= part)%Z ->
  split_data randint (make_ragged_index ws) N 8 part = Ok m' -> held_out m' n p ->
  forall c m, In c configs -> fold_mask randint ws N c m -> ~ held_out m n p.
Proof. exact L_Validate2.folds_incomplete. Qed.
Print Assumptions C55_cells_never_held_out.

(** C55.  With the option given, the [k] models of every row hold out every cell
    exactly once.  Missing: files read without the option. *)
Theorem C55_folds_are_complete_partial : forall randint ws N header rows options configs k, rng_contract randint ->
  header <> [] -> NoDup (map fst options) -> lookup options "seed" = None -> ~ In "seed"%string header ->
  incl (map fst options) params -> incl header params -> ~ In "model_ensemble_size"%string header ->
  (forall row, In row rows -> used header row = true -> forall cell, In cell row -> int_of_str cell <> None) ->
  setting options "model_ensemble_size" = Some k -> (0 < k)%Z ->
  read_param_csv (header :: rows) options = Ok (header, configs) ->
  forall i n p, i < length (filter (used header) rows) -> n < N -> p < list_sum ws ->
  exists! part, part < Z.to_nat k /\
    exists c m, nth_error configs (i * Z.to_nat k + part) = Some c /\ fold_mask randint ws N c m /\ held_out m n p.
Proof. exact L_Validate2.folds_complete. Qed.
Print Assumptions C55_folds_are_complete_partial.

(** C55, with the default of the option stored among the options as well: the
    models of every row hold out every cell exactly once, in all cases. *)
Theorem C55_repaired_folds_are_complete : forall randint ws N header rows options configs, rng_contract randint ->
  header <> [] -> NoDup (map fst options) -> lookup options "seed" = None -> ~ In "seed"%string header ->
  incl (map fst options) params -> incl header params -> ~ In "model_ensemble_size"%string header ->
  (forall row, In row rows -> used header row = true -> forall cell, In cell row -> int_of_str cell <> None) ->
  let k := match setting options "model_ensemble_size" with Some k => k | None => 4%Z end in (0 < k)%Z ->
  repaired_read_param_csv (header :: rows) options = Ok (header, configs) ->
  length configs = length (filter (used header) rows) * Z.to_nat k /\
  forall i n p, i < length (filter (used header) rows) -> n < N -> p < list_sum ws ->
  exists! part, part < Z.to_nat k /\
    exists c m, nth_error configs (i * Z.to_nat k + part) = Some c /\ fold_mask randint ws N c m /\ held_out m n p.
Proof. exact L_Repaired3.C55_repaired. Qed.
Print Assumptions C55_repaired_folds_are_complete.
Example C55_repaired_case : exists configs,
  repaired_read_param_csv [["model_num_clusters"]; ["16"]; ["32"]]%string [] = Ok (["model_num_clusters"]%string, configs) /\
  length configs = 8 /\ filter (used ["model_num_clusters"]%string) [["16"]; ["32"]]%string = [["16"]; ["32"]]%string /\
  int_of_str "16" = Some 16%Z /\ int_of_str "32" = Some 32%Z /\ In "model_num_clusters"%string params.
Proof. eexists. split; [vm_compute; reflexivity|]. repeat split; vm_compute; auto 20. Qed.

(** C56.  The log probability that evaluation reports is the mean over the rows
    of the log of the conditional probability of the held-out cells given the
    others.  The loss is half the L1 distance between the medians given the
    training data and the data, over the compared entries, divided by their
    number plus 0.1. *)
Theorem C56_evaluation_scores : forall ws V M N0 m mst s, consistent ws V M N0 m -> mst_contract mst -> tree_server mst m = Ok s ->
  (forall w, In w ws -> 1 <= w) ->
  forall randint junk N data c parts part, rng_contract randint ->
  (0 < N) -> shaped N (list_sum ws) data -> (forall row x, In row data -> In x row -> (0 <= x)%Z) ->
  (forall row v, In row data -> v < V -> (block_sum ws row v <= 127)%Z) ->
  setting c "model_ensemble_size" = Some parts -> setting c "seed" = Some part -> (0 <= part < parts)%Z ->
  exists mk training validation mx med compare,
    eval_split randint (make_ragged_index ws) data c = Ok (mk, training, validation) /\
    guess_counts (make_ragged_index ws) (list_sum ws) data = Ok mx /\
    median s junk mx training = Ok med /\
    (forall n p, n < N -> p < list_sum ws -> (compare n p = true <-> compared ws data mk mx n p)) /\
    eval_scores randint junk s (make_ragged_index ws) data c =
    Ok (mean_over N (fun n => ln (row_prob ws m (nth n data []) / row_prob ws m (nth n training []))),
        (1 / 2 * sumf (seq 0 N) (fun n => sumf (seq 0 (list_sum ws)) (fun p =>
            if compare n p then Rabs (IZR (entry med n p) - IZR (entry data n p)) else 0)) /
         (sumf (seq 0 N) (fun n => sumf (seq 0 (list_sum ws)) (fun p => if compare n p then 1 else 0)) + 1 / 10)))%R.
Proof. exact L_Validate3.C56_proof. Qed.
Print Assumptions C56_evaluation_scores.

Example C56_case : consistent [2; 1; 3] 3 2 2 L_Serve1.ex_model /\ (forall w, In w [2; 1; 3] -> 1 <= w) /\ rng_contract L_Validate2.ex_rng /\
  shaped 2 (list_sum [2; 1; 3]) [[1; 0; 1; 0; 2; 1]; [0; 1; 0; 0; 0; 0]]%Z /\
  setting DEFAULT_CONFIG "model_ensemble_size" = Some 8%Z /\ setting DEFAULT_CONFIG "seed" = Some 0%Z.
Proof.
  split; [exact L_Serve1.ex_consistent|]. split; [intros w [<-|[<-|[<-|[]]]]; auto with arith|]. split; [exact L_Validate2.ex_rng_ok|].
  split; [|split; reflexivity]. split; [reflexivity|]. intros row [<-|[<-|[]]]; reflexivity.
Qed.
