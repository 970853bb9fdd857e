(** Serving an imported dataset: rows of dicts in, rows of dicts out. *)
From Coq Require Import String.
From Coq Require Import List Arith ZArith Reals.
From Verif Require Import Base Spec_MST M_Structure M_Rand M_Util M_Format M_Training M_Serving M_EnsembleServer M_DataServer M_Repaired2 Spec_Ragged Spec_Schema Spec_Sum Spec_Conditional Spec_Serving Spec_DataServer Spec_Median.
From Verif Require L_Serve1 L_EnsServe2 L_DataServer3 L_DataServer4 L_DataServer5 L_DataServer6.
Import ListNotations.
Open Scope list_scope.
Open Scope R_scope.

(** A server is built for every imported dataset and valid models. *)
Theorem C39_imported_datasets_are_served : forall float_ csvs types values groups sc data M N ms mst,
  import_data float_ csvs types values groups = Ok (sc, data) -> (forall csv, In csv csvs -> NoDup (hd [] csv)) -> ranges_fit sc ->
  ms <> [] -> (forall m, In m ms -> consistent (widths sc) (length (sc_names sc)) M N m) -> mst_contract mst ->
  exists d, data_server mst (imported_dataset (sc, data)) ms = Ok d /\ served sc data ms d.
Proof. exact L_DataServer3.served_exists. Qed.
Print Assumptions C39_imported_datasets_are_served.

(** serve_model answers from the model itself if given one, or a list of just one,
    and from the ensemble of the models if given several. *)
Theorem C39_serve_model_takes_a_model_or_several : forall float_ csvs types values groups sc data M N ms mst,
  import_data float_ csvs types values groups = Ok (sc, data) -> (forall csv, In csv csvs -> NoDup (hd [] csv)) -> ranges_fit sc ->
  ms <> [] -> (forall m, In m ms -> consistent (widths sc) (length (sc_names sc)) M N m) -> mst_contract mst ->
  exists d, serve_model mst (imported_dataset (sc, data)) (Ensemble ms) = Ok d /\ served sc data ms d /\
    dv_schema d = sc /\ ds_data (dv_table d) = data /\
    (forall m, ms = [m] -> serve_model mst (imported_dataset (sc, data)) (OneModel m) = Ok d /\ exists s, tree_server mst m = Ok s /\ dv_server d = Single s) /\
    (length ms <> 1%nat -> exists es, ensemble_server mst ms = Ok es /\ dv_server d = Many es).
Proof. exact L_DataServer4.C39_serve_model. Qed.
Print Assumptions C39_serve_model_takes_a_model_or_several.

(** A case: an ordinal feature from 2 to 5, a feature that is never observed and
    a feature with three values, in a table of two rows, and a model for it. *)
Example C39_case : forall mst, mst_contract mst -> exists d,
  data_server mst (imported_dataset L_DataServer3.ds_imported) [L_Serve1.ex_model] = Ok d /\
  served (fst L_DataServer3.ds_imported) (snd L_DataServer3.ds_imported) [L_Serve1.ex_model] d /\
  sc_names (fst L_DataServer3.ds_imported) = ["rating"; "seen"; "genre"]%string /\
  snd L_DataServer3.ds_imported = [[0; 3; 0; 0; 0; 1]; [2; 1; 0; 1; 0; 0]]%Z /\
  tame_row [("genre", JStr "noir"); ("rating", JInt 9)]%string.
Proof.
  intros mst MST. destruct (L_DataServer3.ds_served mst MST) as (d & E & S). exists d.
  split; [exact E|]. split; [exact S|]. split; [reflexivity|]. split; [vm_compute; reflexivity|].
  split; [repeat constructor; cbn; intuition discriminate|]. intros name value [H|[H|[]]]; injection H as <- <-; exact Logic.I.
Qed.

(** C39.  Whatever is drawn, sample returns [n] dicts and raises nothing; each
    dict has a legal value for each feature that is observed in the table and
    nothing for the other features. *)
Theorem C39_sample_returns_full_legal_rows : forall sc data ms d n evidence,
  served sc data ms d -> (forall e, evidence = Some e -> tame_row e) ->
  always (fun rows => length rows = n /\ forall row, In row rows -> full_row sc data row) (data_sample d n evidence).
Proof. exact L_DataServer3.C39_proof. Qed.
Print Assumptions C39_sample_returns_full_legal_rows.

(** C40.  For any table of counts and for any imported dataset. *)
Theorem C40_feature_density_is_the_fraction_of_observing_rows : forall d ws,
  sc_ri (dv_schema d) = make_ragged_index ws -> (forall w, In w ws -> (1 <= w)%nat) -> ds_data (dv_table d) <> [] ->
  (forall row, In row (ds_data (dv_table d)) -> length row = list_sum ws /\ forall z, In z row -> (0 <= z)%Z) ->
  exists dens, feature_density d = Ok (map Some dens) /\ length dens = length ws /\
    forall v, (v < length ws)%nat ->
      nth v dens 0 = INR (length (filter (fun row => observed_cell ws row v) (ds_data (dv_table d)))) / INR (length (ds_data (dv_table d))) /\
      0 <= nth v dens 0 <= 1.
Proof. exact L_DataServer3.density. Qed.
Print Assumptions C40_feature_density_is_the_fraction_of_observing_rows.

Theorem C40_feature_density_of_an_imported_dataset : forall sc data ms d, served sc data ms d ->
  exists dens, feature_density d = Ok (map Some dens) /\ length dens = length (sc_names sc) /\
    forall v, (v < length (sc_names sc))%nat ->
      nth v dens 0 = INR (length (filter (fun row => observed_cell (widths sc) row v) data)) / INR (length data) /\
      0 <= nth v dens 0 <= 1.
Proof. exact L_DataServer3.C40_served. Qed.
Print Assumptions C40_feature_density_of_an_imported_dataset.

(** Counts above 127 wrap around to negative ones, and the largest value of an
    ordinal feature with a wider range is then taken for unobserved. *)
Theorem C40_feature_density_of_wide_ordinals_refuted : exists sc data,
  import_data (fun _ => None) [L_DataServer3.wide_csv] L_DataServer3.wide_types L_DataServer3.wide_values None = Ok (sc, data) /\
  (exists row, data = [row] /\ observed_cell (widths sc) row 0 = true) /\
  forall counts srv, feature_density (DSrv sc (imported_dataset (sc, data)) counts srv) = Ok [Some 0].
Proof. exact L_DataServer3.C40_wide. Qed.
Print Assumptions C40_feature_density_of_wide_ordinals_refuted.

(** C37, in full, would be: with evidence, logprob is the log probability of the
    rows given the evidence.  It raises, for every dataset, row and evidence. *)
Theorem C37_logprob_given_evidence_refuted : forall sc data ms d rows evidence,
  served sc data ms d -> (forall e, In e rows -> tame_row e) -> tame_row evidence ->
  data_logprob d (Rows rows) (Some evidence) = Raise (match rows with [] => AssertionError | _ => TypeError end).
Proof. exact L_DataServer3.C37_refutation. Qed.
Print Assumptions C37_logprob_given_evidence_refuted.

(** With the evidence's log probability as the second term, as was meant, it is:
    for evidence on features that the rows do not mention. *)
Theorem C37_repaired_logprob_given_evidence : forall sc data ms d rows evidence,
  served sc data ms d -> (forall e, In e rows -> tame_row e) -> tame_row evidence ->
  (forall e n, In e rows -> In n (map fst e) -> ~ In n (map fst evidence)) ->
  exists given table lps, import_rows sc (Rows [evidence]) = Ok [given] /\ import_rows sc (Rows (map (fun e => e ++ evidence) rows)) = Ok table /\
    repaired_data_logprob d (Rows rows) evidence = Ok lps /\ length lps = length rows /\
    forall i, (i < length rows)%nat ->
      exp (nth i lps 0) = sumf ms (fun m => row_prob (widths sc) m (nth i table [])) / sumf ms (fun m => row_prob (widths sc) m given).
Proof. exact L_DataServer5.C37_repaired. Qed.
Print Assumptions C37_repaired_logprob_given_evidence.

Example C37_evidence_case : tame_row [("genre", JStr "noir")]%string /\ tame_row [("rating", JInt 3)]%string /\
  forall n, In n (map fst [("genre", JStr "noir")]%string) -> ~ In n (map fst [("rating", JInt 3)]%string).
Proof.
  split; [|split].
  - split; [repeat constructor; cbn; intuition discriminate|]. intros name value [H|[]]; injection H as <- <-; exact Logic.I.
  - split; [repeat constructor; cbn; intuition discriminate|]. intros name value [H|[]]; injection H as <- <-; exact Logic.I.
  - intros n [<-|[]] [H|[]]; discriminate.
Qed.

(** Without evidence it is the log of the mean of the models' probabilities. *)
Theorem C37_logprob_without_evidence_partial : forall sc data ms d rows,
  served sc data ms d -> (forall e, In e rows -> tame_row e) ->
  exists table lps, import_rows sc (Rows rows) = Ok table /\ data_logprob d (Rows rows) None = Ok lps /\ length lps = length rows /\
    forall i, (i < length rows)%nat ->
      exp (nth i lps 0) = sumf ms (fun m => row_prob (widths sc) m (nth i table [])) / INR (length ms).
Proof. exact L_DataServer3.C37_works. Qed.
Print Assumptions C37_logprob_without_evidence_partial.

(** C38, in full, would be: median, given a dict, returns a full row.  Given a
    dict it raises; for ensembles it raises whatever it is given. *)
Theorem C38_median_of_one_row_refuted : forall sc data ms d junk evidence rows, served sc data ms d ->
  data_median d junk (OneRow evidence) = Raise AssertionError /\
  (length ms <> 1%nat -> (forall e, In e rows -> tame_row e) -> data_median d junk (Rows rows) = Raise NotImplementedError).
Proof. exact L_DataServer3.C38_refutation. Qed.
Print Assumptions C38_median_of_one_row_refuted.

(** The mode is not implemented: whatever it is given, an exception is raised, and
    it is NotImplementedError for rows that can be imported. *)
Theorem C38_mode_is_not_implemented : forall sc data ms d rows, served sc data ms d ->
  (exists e, data_mode d rows = Raise e) /\
  forall table, import_rows sc rows = Ok table -> data_mode d rows = Raise NotImplementedError.
Proof. exact L_DataServer3.mode_raises. Qed.
Print Assumptions C38_mode_is_not_implemented.

(** For a single model and a list of dicts it returns full rows. *)
Theorem C38_median_of_a_list_partial : forall sc data m d junk rows,
  served sc data [m] d -> (forall e, In e rows -> tame_row e) ->
  exists out, data_median d junk (Rows rows) = Ok out /\ length out = length rows /\ forall row, In row out -> full_row sc data row.
Proof. exact L_DataServer3.C38_works. Qed.
Print Assumptions C38_median_of_a_list_partial.

(** What the rows are, for a single model: the best guesses given the evidence in
    line with each feature (C30 says why not given all of it). *)
Theorem C38_median_is_the_best_guess_partial : forall sc data m d junk rows,
  served sc data [m] d -> (forall e, In e rows -> tame_row e) ->
  exists root out table, find_center_of_tree (ts_grid (d_tree m)) = Ok root /\
    import_rows sc (Rows rows) = Ok table /\ data_median d junk (Rows rows) = Ok out /\ length out = length rows /\
    forall i P, (i < length rows)%nat ->
      (forall v given q, (v < length (sc_names sc))%nat -> restricted (widths sc) (fun u => in_line (ts_get_edges (d_tree m)) root u v) (nth i table []) given ->
         In q (block (widths sc) v) -> P v q = predictive (widths sc) m given v q) ->
      best_row sc data P (nth i out []).
Proof. exact L_DataServer6.C38_values. Qed.
Print Assumptions C38_median_is_the_best_guess_partial.

(** With three things repaired (one dict in, one dict out; the marginals of C30;
    marginals of ensembles, the members being weighed by the evidence) the claim
    holds for every number of models: the row is the best guess given all the
    evidence. *)
Theorem C38_repaired_median_is_the_best_guess : forall sc data ms d junk evidence, served sc data ms d -> tame_row evidence ->
  exists given out, import_rows sc (Rows [evidence]) = Ok [given] /\ repaired_data_median d junk evidence = Ok out /\
    best_row sc data (fun v q => sumf ms (fun m => row_prob (widths sc) m (bump given q)) / sumf ms (fun m => row_prob (widths sc) m given)) out.
Proof. exact L_DataServer6.C38_repaired. Qed.
Print Assumptions C38_repaired_median_is_the_best_guess.

(** C54.  The rows of a sample are independent, and each is drawn from the mean
    over the models of their distributions given the evidence: [n] full rows are
    returned with the product of their probabilities.  (For ensembles this is
    not the conditional distribution of the mixture, see C36.) *)
Theorem C54_samples_have_the_models_distribution : forall sc data ms d evidence rows,
  served sc data ms d -> values_once sc -> (forall e, evidence = Some e -> tame_row e) -> (forall row, In row rows -> full_row sc data row) ->
  exists given table,
    import_rows sc (Rows [match evidence with None => [] | Some e => e end]) = Ok [given] /\ import_rows sc (Rows rows) = Ok table /\
    prob (data_sample d (length rows) evidence) (fun out => agree (sc_names sc) out rows) =
    prodf table (fun x => row_orders (widths sc) x *
      (sumf ms (fun m => row_prob (widths sc) m (merge given x) / row_prob (widths sc) m given) / INR (length ms))).
Proof. exact L_DataServer4.C54_proof. Qed.
Print Assumptions C54_samples_have_the_models_distribution.

(** C54, without evidence: the probabilities are those that logprob reports.  An
    ordinal feature is stored as several observations and logprob takes their
    order as known, hence the factor. *)
Theorem C54_samples_have_the_probabilities_logprob_reports : forall sc data ms d rows,
  served sc data ms d -> values_once sc -> (forall row, In row rows -> full_row sc data row) ->
  exists table lps, import_rows sc (Rows rows) = Ok table /\ data_logprob d (Rows rows) None = Ok lps /\
    prob (data_sample d (length rows) None) (fun out => agree (sc_names sc) out rows) =
    prodf (combine table lps) (fun '(x, l) => row_orders (widths sc) x * exp l).
Proof. exact L_DataServer4.C54_free. Qed.
Print Assumptions C54_samples_have_the_probabilities_logprob_reports.

Theorem C54_categorical_samples : forall sc data ms d rows,
  served sc data ms d -> values_once sc -> (forall n t, dget (sc_types sc) n = Some t -> t = Categorical) ->
  (forall row, In row rows -> full_row sc data row) ->
  exists lps, data_logprob d (Rows rows) None = Ok lps /\
    prob (data_sample d (length rows) None) (fun out => agree (sc_names sc) out rows) = prodf lps exp.
Proof. exact L_DataServer4.C54_categorical. Qed.
Print Assumptions C54_categorical_samples.

Example C54_case : values_once (fst L_DataServer3.ds_imported) /\
  full_row (fst L_DataServer3.ds_imported) (snd L_DataServer3.ds_imported) [("genre", JStr "family"); ("rating", JInt 3)]%string.
Proof. split; [exact L_DataServer4.ds_values_once|exact L_DataServer4.ds_full]. Qed.
Example C54_categorical_case : forall mst, mst_contract mst -> exists d,
  served (fst L_DataServer4.g_imported) (snd L_DataServer4.g_imported) [L_EnsServe2.lumped; L_EnsServe2.split_] d /\ values_once (fst L_DataServer4.g_imported) /\
  (forall n t, dget (sc_types (fst L_DataServer4.g_imported)) n = Some t -> t = Categorical) /\
  full_row (fst L_DataServer4.g_imported) (snd L_DataServer4.g_imported) [("genre", JStr "drama")]%string.
Proof. exact L_DataServer4.g_served. Qed.
