(** Model of treecat/__main__.py and of the workflow its commands make up:
    guess-schema, import-data, train, and then serve_model.

    Simplifications: pickle_dump and pickle_load are left out, that is, what is
    written is read back; so is the csv format (the files written by guess_schema
    are read back cell by cell).  Otherwise as in the models of the commands. *)
From Coq Require Import String.
From Coq Require Import List Arith Bool ZArith Reals.
From Verif Require Import Base M_Structure M_Rand M_Util M_Config M_Training M_Ensemble M_Serving M_EnsembleServer M_Format M_DataServer.
Import ListNotations.
Open Scope list_scope.
Open Scope nat_scope.

(** format.py:571-572: the table of an imported dataset. *)
Definition imported_table (imported : schema * list (list Z)) : table :=
  let '(sc, data) := imported in Tab (repeat TY_MULTINOMIAL (length (sc_names sc))) (sc_ri sc) data.

(** What TreeCatServer reads of a model (serving.py:180-227; training.py:280-284,
    628-637): the number of clusters is that of the config. *)
Definition server_model (tb : table) (m : model) : result smodel :=
  M <- key (m_config m) "model_num_clusters" ;;
  Ok (model_of tb (Z.to_nat M) (m_state m) (m_logits m)).

Section Main.
Variables (g : generators) (lg : R -> R) (mst : list (list R) -> list (nat * nat)).
(** The number of threads, the generators of the worker processes, the order in
    which they take the tasks, the generators of this process. *)
Variables (threads : nat) (workers : nat -> rng g) (events : list (nat * nat)) (st : rng g).

(** __main__.py:19-28 [train]. *)
Definition main_train (imported : schema * list (list Z)) (options : dict) : result (list model) :=
  let tb := imported_table imported in
  let tree_prior := sc_prior (fst imported) in
  config <- make_config options ;;
  fst (train_ensemble g lg mst threads workers events st tb tree_prior [config] 0).

(** serving.py:785-803 [serve_model] of the files that import-data and train wrote. *)
Definition main_serve (imported : schema * list (list Z)) (ensemble : list model) : result dserver :=
  ms <- mapM (server_model (imported_table imported)) ensemble ;;
  serve_model mst (imported_dataset imported) (Ensemble ms).

(** guess-schema, import-data without groups, train, serve_model. *)
Definition workflow (float_ : string -> option R) (files : list (string * list (list string))) (options : dict) : result dserver :=
  '(types_csv, values_csv) <- guess_schema files ;;
  imported <- import_data float_ (map snd files) types_csv values_csv None ;;
  ensemble <- main_train imported options ;;
  main_serve imported ensemble.
End Main.
