(** Model of treecat/serving.py:636-803, DataServer and serve_model.

    Simplifications: as in M_Serving.v and M_Format.v. *)
From Coq Require Import String.
From Coq Require Import List Arith Bool ZArith Reals.
From Verif Require Import Base M_Structure M_Rand M_Util M_Training M_Serving M_EnsembleServer M_Format.
Import ListNotations.
Open Scope list_scope.
Open Scope nat_scope.

(** A dataset as pickled by import_data (format.py:572-577): the schema and the
    table, whose data has [ds_ncols] columns. *)
Record dataset := Dataset {
  ds_schema : schema;
  ds_ri : list nat;                  (* table.ragged_index *)
  ds_ncols : nat;                    (* table.data.shape[1] *)
  ds_data : list (list Z)            (* table.data *)
}.

(** The dataset that import_data pickles: format.py:572-576. *)
Definition imported_dataset (imported : schema * list (list Z)) : dataset :=
  let '(sc, data) := imported in Dataset sc (sc_ri sc) (length (hd [] data)) data.

Inductive inner_server := Single (s : server) | Many (es : eserver).
Record dserver := DSrv {
  dv_schema : schema;
  dv_table : dataset;
  dv_counts : list Z;
  dv_server : inner_server
}.

(** serving.py:639-647 [DataServer.__init__]. *)
Definition data_server (mst : list (list R) -> list (nat * nat)) (ds : dataset) (ensemble : list smodel) : result dserver :=
  counts <- guess_counts (ds_ri ds) (ds_ncols ds) (ds_data ds) ;;
  server <- match ensemble with
            | [m] => s <- tree_server mst m ;; Ok (Single s)
            | _ => es <- ensemble_server mst ensemble ;; Ok (Many es)
            end ;;
  Ok (DSrv (ds_schema ds) ds counts server).

(** serving.py:785-803 [serve_model], given objects instead of file names. *)
Inductive model_arg := OneModel (m : smodel) | Ensemble (ms : list smodel).
Definition serve_model (mst : list (list R) -> list (nat * nat)) (ds : dataset) (model : model_arg) : result dserver :=
  data_server mst ds (match model with OneModel m => [m] | Ensemble ms => ms end).

(** serving.py:649-652. *)
Definition data_feature_names (d : dserver) : list string := sc_names (dv_schema d).
(** serving.py:654-661. *)
Definition data_estimate_tree (d : dserver) : list (nat * nat) :=
  match dv_server d with Single s => sv_est s | Many es => es_est es end.
Definition data_sample_tree (d : dserver) (num_samples : nat) : rprog (list (list (nat * nat))) :=
  match dv_server d with Single s => server_sample_tree s num_samples | Many es => ens_sample_tree es num_samples end.

(** serving.py:667-675 [feature_density].  The mean of no rows is nan: [None]. *)
Definition feature_density (d : dserver) : result (list (option R)) :=
  let ri := sc_ri (dv_schema d) in
  let data := ds_data (dv_table d) in
  mapM (fun v =>
    beg <- get IndexError ri v ;; fin <- get IndexError ri (v + 1) ;;
    seen <- mapM (fun row => top <- row_max (slice row beg fin) ;; Ok (negb (Z.eqb top 0))) data ;;
    Ok (match data with
        | [] => None
        | _ => Some (INR (length (filter (fun b => b) seen)) / INR (length data))%R
        end)) (seq 0 (length ri - 1)).

(** serving.py:677-713, passed on to the inner server. *)
Definition data_observed_perplexity (d : dserver) : result (list R) :=
  match dv_server d with
  | Single s => observed_perplexity s (Some (dv_counts d))
  | Many es => ens_observed_perplexity es (Some (dv_counts d))
  end.
Definition data_latent_perplexity (d : dserver) : result (list R) :=
  match dv_server d with Single s => Ok (latent_perplexity s) | Many es => ens_latent_perplexity es end.

Definition inner_logprob (server : inner_server) (data : list (list Z)) : result (list R) :=
  match server with Single s => logprob s data | Many es => ens_logprob es data end.

(** [data + row] for int8 arrays of shapes [N, R] and [1, R]. *)
Definition add_to_rows (data : list (list Z)) (row : list Z) : list (list Z) :=
  map (fun r => map (fun '(a, b) => int8 (a + b)) (combine r row)) data.

(** serving.py:715-736 [logprob].  [data + evidence] adds a dict to every cell
    of an array, which raises TypeError; an array without cells becomes one of
    dtype object, which [logprob] refuses. *)
Definition data_logprob (d : dserver) (rows : rows_arg) (evidence : option jrow) : result (list R) :=
  data <- import_rows (dv_schema d) rows ;;
  match evidence with
  | None => inner_logprob (dv_server d) data
  | Some evidence =>
    ragged_evidence <- import_rows (dv_schema d) (Rows [evidence]) ;;
    row <- get IndexError ragged_evidence 0 ;;
    joint <- inner_logprob (dv_server d) (add_to_rows data row) ;;
    match concat data with
    | [] => Raise AssertionError
    | _ => Raise TypeError
    end
  end.

(** What serving.py:735-736 should be: the second term the log probability of
    [ragged_evidence]. *)
Definition repaired_data_logprob (d : dserver) (rows : rows_arg) (evidence : jrow) : result (list R) :=
  data <- import_rows (dv_schema d) rows ;;
  ragged_evidence <- import_rows (dv_schema d) (Rows [evidence]) ;;
  row <- get IndexError ragged_evidence 0 ;;
  joint <- inner_logprob (dv_server d) (add_to_rows data row) ;;
  given <- inner_logprob (dv_server d) ragged_evidence ;;
  given <- get IndexError given 0 ;;
  Ok (map (fun x => x - given)%R joint).

(** serving.py:738-754 [sample]. *)
Definition data_sample (d : dserver) (N : nat) (evidence : option jrow) : rprog (list jrow) :=
  (data <~ lift (match evidence with
                 | None => Ok None
                 | Some evidence =>
                   imported <- import_rows (dv_schema d) (Rows [evidence]) ;;
                   row <- get IndexError imported 0 ;; Ok (Some row)
                 end) ;;
   ragged_samples <~ match dv_server d with
                     | Single s => sample s N (dv_counts d) data
                     | Many es => ens_sample es N (dv_counts d) data
                     end ;;
   (* the number of columns is server.ragged_size *)
   let ncols := match dv_server d with Single s => Ok (sv_R s) | Many es => last_index (es_ri es) end in
   ncols <~ lift ncols ;;
   lift (export_rows (dv_schema d) ncols ragged_samples))%rp.

(** serving.py:756-768 [median] and 770-782 [mode]. *)
Definition data_median (d : dserver) (junk : nat -> nat -> nat -> R) (evidence : rows_arg) : result (list jrow) :=
  ragged_evidence <- import_rows (dv_schema d) evidence ;;
  ncols <- last_index (sc_ri (dv_schema d)) ;;
  data <- match dv_server d with
          | Single s => median s junk (dv_counts d) ragged_evidence
          | Many es => ens_median es (dv_counts d) ragged_evidence
          end ;;
  export_rows (dv_schema d) ncols data.
Definition data_mode (d : dserver) (evidence : rows_arg) : result (list jrow) :=
  ragged_evidence <- import_rows (dv_schema d) evidence ;;
  Raise NotImplementedError.
