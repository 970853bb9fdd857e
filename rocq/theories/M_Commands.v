(** The commands of treecat/profile.py, on the files of treecat/generate.py. *)
From Coq Require Import String.
From Coq Require Import List Arith ZArith QArith Reals Bool.
From Verif Require Import Base M_Structure M_Rand M_Util M_Config M_Strings M_Training M_Ensemble M_Serving M_Generate M_Validate M_Workflow M_Main.
From Verif Require M_Cache.
Import ListNotations.
Open Scope list_scope.
Open Scope nat_scope.

(** profile.py:32-55 [run_with_tool]: every tool runs the command once, in a process
    of its own, and raises if it failed.  What is raised then is CalledProcessError;
    here, the exception of the command.  The tools are taken to be installed, and
    the tools that pass [-O] to keep the assertions. *)
Definition run_with_tool {A} (command : rprog A) (tool : string) : rprog A :=
  if existsb (String.eqb tool) ["timers"; "time"; "snakeviz"; "line_profiler"; "pdb"]%string then command
  else Fail ValueError.

Section Commands.
Variables (g : generators) (lg : R -> R) (mst : list (list R) -> list (nat * nat)).
(** The number of threads, the generators of the worker processes, the order in
    which they take the tasks, the generators of this process. *)
Variables (threads : nat) (workers : nat -> M_Ensemble.rng g) (events : list (nat * nat)) (st : M_Ensemble.rng g).
(** The counts drawn for column [v] of row [n] (generate.py:46-47), after seeding with
    0, for these arguments. *)
Variable draws : M_Cache.args -> nat -> nat -> list Z.
(** np.random.randint of split_data, and the contents of uninitialised arrays. *)
Variables (randint : M_Validate.rng) (junk : nat -> nat -> nat -> R) (junk4 : nat -> nat -> nat -> nat -> R).

(** What the dataset file for the arguments [a] holds (generate.py:74). *)
Definition dataset_of (a : M_Cache.args) : result table :=
  generate_dataset (draws a) (Z.to_nat (M_Cache.a_rows a)) (Z.to_nat (M_Cache.a_cols a)) (Z.to_nat (M_Cache.a_cats a)).

(** [np.zeros(K, dtype=np.float32)] with K = V (V - 1) // 2. *)
Definition flat_prior (V : nat) : list R := repeat 0%R (V * (V - 1) / 2).

(** What the model file for the arguments [a] holds (generate.py:234-239).  It was
    trained by another process, but the generators are seeded (C24). *)
Definition trained_of (a : M_Cache.args) : result model :=
  tb <- dataset_of a ;;
  config <- make_config [("learning_init_epochs"%string, PInt 5)] ;;
  fst (train_model g lg mst tb (flat_prior (Z.to_nat (M_Cache.a_cols a))) config st).

(** [pickle_load] of a model file, as [M_Cache.load_dataset]; [model['tree']] of a
    dataset raises KeyError. *)
Definition load_trained (s : M_Cache.fs) (path : string) : result M_Cache.args :=
  match M_Cache.fs_files s path with
  | Some (M_Cache.Model a) => Ok a
  | Some (M_Cache.Dataset _) => Raise KeyError
  | Some M_Cache.Truncated => Raise EOFError
  | None => Raise OSError
  end.

(** profile.py:58-68 [train_files]. *)
Definition train_files (s : M_Cache.fs) (dataset_path : string) (config : dict) : result (list model) :=
  a <- M_Cache.load_dataset s dataset_path ;;
  tb <- dataset_of a ;;
  fst (train_ensemble g lg mst threads workers events st tb (flat_prior (num_cols tb)) [config] 0).

(** profile.py:71-84 [serve_files], which drops what the server returns: the samples,
    their log probabilities, their medians and the latent correlations. *)
Definition serve_files (s : M_Cache.fs) (model_path : string) (config : dict) (num_samples : nat)
  : rprog (list (list Z) * list R * list (list Z) * list (list R)) :=
  (a <~ lift (load_trained s model_path) ;;
   tb <~ lift (dataset_of a) ;;
   model <~ lift (trained_of a) ;;
   sm <~ lift (server_model tb (Model config (m_state model) (m_logits model))) ;;
   server <~ lift (tree_server mst sm) ;;
   let counts := repeat 1%Z (ts_V (d_tree sm)) in
   samples <~ sample server num_samples counts None ;;
   lps <~ lift (logprob server samples) ;;
   med <~ lift (median server junk counts samples) ;;
   corr <~ lift (latent_correlation server junk4) ;;
   Ret (samples, lps, med, corr))%rp.

(** The path that a call returned. *)
Definition returned (o : M_Cache.outcome) : result string :=
  match o with
  | M_Cache.Returned path => Ok path
  | M_Cache.Raised e => Raise e
  | M_Cache.Killed => Raise OSError
  end.

(** profile.py:87-107 [train]; num_cats and rate have their defaults.  The file of the
    config is read back as it was written. *)
Definition profile_train (s : M_Cache.fs) (rows cols epochs clusters : Z) (parallel : bool) (tool : string) : rprog (list model) :=
  (config <~ lift (make_config [("learning_init_epochs", PInt epochs); ("model_num_clusters", PInt clusters);
                                ("model_ensemble_size", PInt 1); ("learning_parallel", PBool parallel)]%string) ;;
   let '(o, s) := M_Cache.generate_dataset_file s (M_Cache.Args rows cols 4 1) M_Cache.NoCrash in
   path <~ lift (returned o) ;;
   run_with_tool (lift (train_files s path config)) tool)%rp.

(** profile.py:110-122 [serve]. *)
Definition profile_serve (s : M_Cache.fs) (rows cols cats : Z) (tool : string)
  : rprog (list (list Z) * list R * list (list Z) * list (list R)) :=
  (config <~ lift (make_config []) ;;
   let '(o, s) := M_Cache.generate_model_file s (M_Cache.Args rows cols cats 1) M_Cache.NoCrash M_Cache.NoCrash in
   path <~ lift (returned o) ;;
   run_with_tool (serve_files s path config (Z.to_nat rows)) tool)%rp.

(** train_model on a table, with a flat prior, as the [trainer] of M_Workflow; the
    schema of a generated dataset has this prior (generate.py:54).  The result is
    what TreeCatServer reads. *)
Definition trainer_of (ri : list nat) (data : list (list Z)) (config : dict) : result smodel :=
  let V := length ri - 1 in
  let tb := Tab (repeat TY_MULTINOMIAL V) ri data in
  m <- fst (train_model g lg mst tb (flat_prior V) config st) ;;
  server_model tb m.

(** profile.py:125-149 [eval].  The argument cats is not used: generate_dataset_file is
    called without it.  [order] is the order in which the pool trains the models; no
    process is killed, and one that fails makes [train] raise (here ValueError). *)
Definition profile_eval (s : M_Cache.fs) (order : list nat) (rows cols cats : Z) (tool : string)
  : rprog (list (list R) * list (dict * option (R * R))) :=
  (let '(o, s) := M_Cache.generate_dataset_file s (M_Cache.Args rows cols 4 1) M_Cache.NoCrash in
   path <~ lift (returned o) ;;
   a <~ lift (M_Cache.load_dataset s path) ;;
   tb <~ lift (dataset_of a) ;;
   let ds := Data (tb_ri tb) (tb_rows tb) in
   let param_csv := [["learning_init_epochs"]; ["2"]]%string in
   let options := [("learning_init_epochs"%string, PInt 2)] in
   trained <~ lift (M_Workflow.train trainer_of randint ds param_csv options (map (fun i => (i, Completes)) order) (fun _ => None)) ;;
   let '(ok, models_dir) := trained in
   if ok then run_with_tool (lift (M_Workflow.eval (tree_server mst) randint junk ds param_csv options models_dir)) tool
   else Fail ValueError)%rp.
End Commands.
