(** Property theorems about training and evaluating the models of a parameter file: C64. *)
From Coq Require Import String.
From Coq Require Import List Arith ZArith Reals Sorted Permutation.
From Verif Require Import Base M_Util M_Config M_Strings M_Serving M_Validate M_Workflow Spec_Validate Spec_Workflow.
From Verif Require L_Validate2 L_Workflow.
Import ListNotations.
Open Scope list_scope.
Open Scope nat_scope.

(** C64.  train trains exactly the configs that eval reads from the same file, in
    increasing order of learning_init_epochs; configs with equal values keep the order
    of the file. *)
Theorem C64_training_covers_the_file_in_order : forall lines options,
  (forall header configs, read_param_csv lines options = Ok (header, configs) ->
     exists trained, train_configs lines options = Ok trained /\ Permutation trained configs /\
       StronglySorted (fun a b => (init_epochs a <= init_epochs b)%Z) trained /\
       forall z, filter (fun c => (init_epochs c =? z)%Z) trained = filter (fun c => (init_epochs c =? z)%Z) configs) /\
  (forall e, read_param_csv lines options = Raise e -> train_configs lines options = Raise e).
Proof. exact L_Workflow.C64_order. Qed.
Print Assumptions C64_training_covers_the_file_in_order.

(** C64.  After a run of train in which no task failed, whatever the order of the tasks
    and the files that were there before, eval scores every config of the file with the
    model of that config, trained on the data that eval takes as training data. *)
Theorem C64_after_training_every_config_is_scored : forall Mdl (trainer : list nat -> list (list Z) -> dict -> result Mdl) serve randint junk
    ds lines options events fs fs' header configs,
  read_param_csv lines options = Ok (header, configs) -> Permutation (map fst events) (seq 0 (length configs)) ->
  train trainer randint ds lines options events fs = Ok (true, fs') ->
  forall c, In c configs -> exists m, model_for trainer randint ds c m /\
    process_eval_task serve randint junk ds fs' c =
      (s <- serve m ;; scores <- eval_scores randint junk s (ds_ri ds) (ds_rows ds) c ;; Ok (c, Some scores)).
Proof. exact @L_Workflow.C64_complete. Qed.
Print Assumptions C64_after_training_every_config_is_scored.

(** C64.  After any history of runs of train over a dataset, with any parameter files,
    options, orders and killed tasks: a config is either skipped or scored with its own
    model. *)
Theorem C64_scores_are_of_the_configs_own_model : forall Mdl (trainer : list nat -> list (list Z) -> dict -> result Mdl) serve randint junk
    h ds c r, (forall call, In call h -> cl_ds call = ds) ->
  process_eval_task serve randint junk ds (after_calls trainer randint h (fun _ => None)) c = Ok r ->
  fst r = c /\ (snd r = None \/ exists m s sc, snd r = Some sc /\ model_for trainer randint ds c m /\ serve m = Ok s /\
     eval_scores randint junk s (ds_ri ds) (ds_rows ds) c = Ok sc).
Proof. exact @L_Workflow.C64_scores. Qed.
Print Assumptions C64_scores_are_of_the_configs_own_model.

(** C64.  If the runs used several datasets, every complete file is the model of its
    config for one of them. *)
Theorem C64_files_are_models_of_their_config : forall Mdl (trainer : list nat -> list (list Z) -> dict -> result Mdl) randint h c path m,
  model_file c = Ok path -> after_calls trainer randint h (fun _ => None) path = Some (Full m) ->
  exists call, In call h /\ model_for trainer randint (cl_ds call) c m.
Proof. exact @L_Workflow.C64_history. Qed.
Print Assumptions C64_files_are_models_of_their_config.

(** C64.  What eval reports: one entry for every config, in the order of the file; the
    entry has no scores exactly when the file of the model is missing or was not written
    to its end; and the printed lines are those of the scored configs, sorted. *)
Theorem C64_eval_reports_every_config : forall Mdl (serve : Mdl -> result server) randint junk ds lines options fs table result,
  eval serve randint junk ds lines options fs = Ok (table, result) ->
  exists header configs, read_param_csv lines options = Ok (header, configs) /\ map fst result = configs /\
    (forall c r, In (c, r) result -> exists path, model_file c = Ok path /\ (r = None <-> forall m, fs path <> Some (Full m))) /\
    StronglySorted line_le table /\
    Permutation table (flat_map (fun '(c, r) => match r with Some scores => [line_of header c scores] | None => [] end) result).
Proof. exact @L_Workflow.C64_table. Qed.
Print Assumptions C64_eval_reports_every_config.

(** Six configs trained in reverse order, with a trainer that returns its data. *)
Example C64_case : exists header configs fs',
  read_param_csv L_Validate2.ex_csv [("model_ensemble_size"%string, PInt 3)] = Ok (header, configs) /\ length configs = 6 /\
  train (fun _ data _ => Ok data) L_Validate2.ex_rng (Data (make_ragged_index [2; 1]) [[1; 0; 1]; [0; 1; 0]; [0; 1; 1]]%Z)
    L_Validate2.ex_csv [("model_ensemble_size"%string, PInt 3)] (map (fun i => (i, Completes)) [5; 4; 3; 2; 1; 0]) (fun _ => None) = Ok (true, fs') /\
  option_map (fun c => match model_file c with Ok p => fs' p | Raise _ => None end) (nth_error configs 4) = Some (Some (Full [[1; 0; 1]; [0; 1; 0]; [0; 0; 1]]%Z)).
Proof. do 3 eexists. split; [vm_compute; reflexivity|]. split; [reflexivity|]. split; [vm_compute; reflexivity|]. vm_compute. reflexivity. Qed.

(** A task killed while writing: its config, and no other, is skipped. *)
Example C64_killed : exists configs fs' result,
  read_param_csv L_Validate2.ex_csv [("model_ensemble_size"%string, PInt 3)] = Ok (["model_num_clusters"; "learning_init_epochs"]%string, configs) /\
  train (fun _ data _ => Ok data) L_Validate2.ex_rng (Data (make_ragged_index [2; 1]) [[1; 0; 1]; [0; 1; 0]; [0; 1; 1]]%Z)
    L_Validate2.ex_csv [("model_ensemble_size"%string, PInt 3)] [(0, DiesWriting); (1, DiesTraining)] (fun _ => None) = Ok (false, fs') /\
  eval (fun _ => Raise NotImplementedError) L_Validate2.ex_rng (fun _ _ _ => 0%R) (Data (make_ragged_index [2; 1]) [[1; 0; 1]; [0; 1; 0]; [0; 1; 1]]%Z)
    L_Validate2.ex_csv [("model_ensemble_size"%string, PInt 3)] fs' = Ok ([], result) /\ map fst result = configs.
Proof. do 3 eexists. split; [vm_compute; reflexivity|]. split; [vm_compute; reflexivity|]. split; [vm_compute; reflexivity|]. vm_compute. reflexivity. Qed.
