(** treecat/validate.py: training and evaluating the models of a parameter file. *)
From Coq Require Import String.
From Coq Require Import List Arith ZArith Bool Reals.
From Verif Require Import Base M_Structure M_Util M_Config M_Strings M_Serving M_Validate.
Import ListNotations.
Open Scope list_scope.
Open Scope nat_scope.

(** A pickled dataset: its ragged index and data.  The schema's tree prior, which
    train_task also reads, is a fixed part of [trainer] below. *)
Record dataset := Data { ds_ri : list nat; ds_rows : list (list Z) }.

(** The files of models_dir: [Full m] was written to the end, [Cut] was not. *)
Inductive content (Mdl : Type) := Full (m : Mdl) | Cut.
Arguments Full {Mdl} m.
Arguments Cut {Mdl}.
Definition files (Mdl : Type) := string -> option (content Mdl).
Definition put {Mdl} (fs : files Mdl) (path : string) (c : content Mdl) : files Mdl :=
  fun p => if String.eqb p path then Some c else fs p.

(** What happens to the process of a task: it runs to its end; it is killed before
    it opens the file of the model; it is killed while it writes this file
    (format.py:54-56 opens the final name and writes into it). *)
Inductive fate := Completes | DiesTraining | DiesWriting.

Section Workflow.
Context {Mdl : Type}.
(** [train_model(table of these data, tree_prior, config)], whose result depends on
    its arguments only (C24); and [TreeCatServer(model)]. *)
Variable trainer : list nat -> list (list Z) -> dict -> result Mdl.
Variable serve : Mdl -> result server.
Variable randint : rng.
Variable junk : nat -> nat -> nat -> R.

(** validate.py:96-118 [train_task]: whether the process ends without an exception,
    and the files after it. *)
Definition train_task (ds : dataset) (path config_str : string) (k : fate) (fs : files Mdl) : bool * files Mdl :=
  match (config <- deserialize_config config_str ;;
         training_data <- train_task_data randint (ds_ri ds) (ds_rows ds) config_str ;;
         trainer (ds_ri ds) training_data config) with
  | Raise _ => (false, fs)
  | Ok model =>
    match k with
    | Completes => (true, put fs path (Full model))
    | DiesTraining => (false, fs)
    | DiesWriting => (false, put fs path Cut)
    end
  end.

(** validate.py:121-137 [process_train_task]; profile.py:26-29 raises if the process
    failed. *)
Definition process_train_task (ds : dataset) (config : dict) (k : fate) (fs : files Mdl) : bool * files Mdl :=
  match serialize_config config with
  | Raise _ => (false, fs)
  | Ok config_str => train_task ds ("model." ++ config_str ++ ".pkz")%string config_str k fs
  end.

(** validate.py:140-150 [train], once the configs have been read.  The pool runs the
    tasks in some order: an event is a task and its fate.  Every task only writes
    its own file, so that its execution is taken as one step; two tasks for equal
    configs are assumed not to write at the same time. *)
Definition run_events (ds : dataset) (configs : list dict) (events : list (nat * fate)) (fs : files Mdl) : bool * files Mdl :=
  fold_left (fun '(ok, fs) '(i, k) =>
    match nth_error configs i with
    | None => (ok, fs)
    | Some c => let '(done, fs) := process_train_task ds c k fs in (ok && done, fs)
    end) events (true, fs).

(** [train] with these events: the flag says that no task failed. *)
Definition train (ds : dataset) (lines : list (list string)) (options : dict) (events : list (nat * fate)) (fs : files Mdl)
  : result (bool * files Mdl) :=
  configs <- train_configs lines options ;;
  Ok (run_events ds configs events fs).

(** validate.py:160-163, [pickle_load(model_path)]: a missing file raises OSError, one
    that was cut short EOFError. *)
Definition load_model (fs : files Mdl) (path : string) : result Mdl :=
  match fs path with
  | None => Raise OSError
  | Some Cut => Raise EOFError
  | Some (Full m) => Ok m
  end.

(** validate.py:153-204 [process_eval_task]: the config and, unless the model could
    not be loaded, the logprob and the l1_loss.  profiling_stats are left out. *)
Definition process_eval_task (ds : dataset) (fs : files Mdl) (config : dict) : result (dict * option (R * R)) :=
  path <- model_file config ;;
  match load_model fs path with
  | Raise OSError | Raise EOFError => Ok (config, None)
  | Raise e => Raise e
  | Ok model =>
    s <- serve model ;;
    scores <- eval_scores randint junk s (ds_ri ds) (ds_rows ds) config ;;
    Ok (config, Some scores)
  end.

(** Python's order of lists of numbers. *)
Fixpoint lines_leb (a b : list R) : bool :=
  match a, b with
  | [], _ => true
  | _ :: _, [] => false
  | x :: a, y :: b => if Rlt_dec x y then true else if Rlt_dec y x then false else lines_leb a b
  end.
Fixpoint insert_line (x : list R) (l : list (list R)) : list (list R) :=
  match l with [] => [x] | y :: t => if lines_leb x y then x :: y :: t else y :: insert_line x t end.
Definition sort_lines (l : list (list R)) : list (list R) := fold_right insert_line [] l.

(** validate.py:217-222: the lines of the printed table, before the numbers are
    formatted. *)
Definition eval_line (header : list string) (row : dict * option (R * R)) : result (list (list R)) :=
  match snd row with
  | None => Ok []
  | Some (logprob, l1_loss) =>
    cells <- mapM (fun param => config_int (fst row) param) header ;;
    Ok [map IZR cells ++ [logprob; l1_loss]]
  end.

(** validate.py:207-226 [eval]: the printed lines and the pickled result. *)
Definition eval (ds : dataset) (lines : list (list string)) (options : dict) (fs : files Mdl)
  : result (list (list R) * list (dict * option (R * R))) :=
  '(header, configs) <- read_param_csv lines options ;;
  result <- mapM (process_eval_task ds fs) configs ;;
  table <- mapM (eval_line header) result ;;
  Ok (sort_lines (concat table), result).
End Workflow.
