(** Property theorems about the commands put together: C68. *)
From Coq Require Import String.
From Coq Require Import List Arith ZArith Reals Permutation.
From Verif Require Import Base Spec_MST M_Rand M_Util M_Config M_Strings M_Training M_Ensemble M_Serving M_Format M_DataServer M_Main
  Spec_Schema Spec_Guess Spec_Ensemble Spec_Serving Spec_DataServer.
From Verif Require L_Main L_Ensemble L_Estimate.
Import ListNotations.
Open Scope list_scope.
Open Scope nat_scope.

(** C68.  Files with distinct columns and at least one row, some feature of which has
    two repeated values; no two repeated values of a feature are spellings of one
    integer; options that make an admissible config with seeds that the generators
    accept.  Then, for every number of threads and every order of the tasks, the
    four steps return a server of as many models as configured, for all the rows of
    all files and the features with two repeated values, and whatever it samples
    given evidence that import_rows accepts is a full row of legal values. *)
Theorem C68_the_workflow_serves_the_files : forall g lg mst threads workers events st float_ files options c s size,
  draws_legally g -> mst_contract mst ->
  files <> [] -> (forall f, In f files -> NoDup (header f) /\ tl (snd f) <> []) ->
  length (nodup string_dec (concat (map header files))) <= 2 ^ 15 ->
  (exists n, is_feature files n /\ 2 <= length (repeated files n)) ->
  (forall n u v z, In u (repeated files n) -> In v (repeated files n) -> int_of_str u = Some z -> int_of_str v = Some z -> u = v) ->
  make_config options = Ok c -> admissible c ->
  key c "seed" = Ok s -> key c "model_ensemble_size" = Ok (Z.of_nat size) -> 1 <= size ->
  (forall i, i < size -> (exists x, np_seed g (s + Z.of_nat i)%Z = Ok x) /\ (exists x, jit_seed g (s + Z.of_nat i)%Z = Ok x)) ->
  Permutation (map snd events) (seq 0 size) ->
  exists sc data ms d, workflow g lg mst threads workers events st float_ files options = Ok d /\ served sc data ms d /\
    length ms = size /\ length data = list_sum (map (fun f => length (tl (snd f))) files) /\
    (forall n, In n (sc_names sc) <-> is_feature files n /\ 2 <= length (repeated files n)) /\
    forall n evidence, (forall e, evidence = Some e -> tame_row e) ->
      always (fun rows => length rows = n /\ forall row, In row rows -> full_row sc data row) (data_sample d n evidence).
Proof. exact L_Main.workflow_serves. Qed.
Print Assumptions C68_the_workflow_serves_the_files.

(** C68.  Without a feature that has two repeated values, an exception is raised. *)
Theorem C68_without_features_it_raises : forall g lg mst threads workers events st float_ files options,
  (forall n, is_feature files n -> length (repeated files n) < 2) ->
  exists e, workflow g lg mst threads workers events st float_ files options = Raise e.
Proof. exact L_Main.workflow_untyped. Qed.
Print Assumptions C68_without_features_it_raises.

(** C68.  With a schema written by hand instead: if the import succeeds and the ranges
    of the ordinal features fit, the dataset is trained on and served. *)
Theorem C68_imported_datasets_are_trained_and_served : forall g lg mst float_ csvs types values sc data threads workers events st options c s size,
  draws_legally g -> mst_contract mst ->
  import_data float_ csvs types values None = Ok (sc, data) -> (forall csv, In csv csvs -> NoDup (hd [] csv)) -> ranges_fit sc ->
  length (sc_names sc) <= 2 ^ 15 -> make_config options = Ok c -> admissible c ->
  key c "seed" = Ok s -> key c "model_ensemble_size" = Ok (Z.of_nat size) -> 1 <= size ->
  (forall i, i < size -> (exists x, np_seed g (s + Z.of_nat i)%Z = Ok x) /\ (exists x, jit_seed g (s + Z.of_nat i)%Z = Ok x)) ->
  Permutation (map snd events) (seq 0 size) ->
  exists ensemble ms d, main_train g lg mst threads workers events st (sc, data) options = Ok ensemble /\
    mapM (server_model (imported_table (sc, data))) ensemble = Ok ms /\ length ms = size /\
    main_serve mst (sc, data) ensemble = Ok d /\ served sc data ms d.
Proof. exact (fun g lg mst float_ csvs types values sc data threads workers events st options c s size DL MST => L_Main.trained_and_served g lg mst DL MST float_ csvs types values sc data threads workers events st options c s size). Qed.
Print Assumptions C68_imported_datasets_are_trained_and_served.

(** Two files, one feature of small integers, one of words and one that is dropped; an
    ensemble of three models trained by two processes. *)
Example C68_case : exists c,
  make_config [("model_ensemble_size", PInt 3); ("model_num_clusters", PInt 4)]%string = Ok c /\ admissible c /\
  key c "seed" = Ok 0%Z /\ key c "model_ensemble_size" = Ok (Z.of_nat 3) /\
  draws_legally L_Ensemble.half_gen /\ mst_contract L_Estimate.naive_mst /\
  (forall f, In f L_Main.main_files -> NoDup (header f) /\ tl (snd f) <> []) /\
  repeated L_Main.main_files "size" = ["3"; "5"]%string /\ repeated L_Main.main_files "kind" = ["cat"; "dog"]%string /\ repeated L_Main.main_files "id" = [] /\
  exists sc data ms d, workflow L_Ensemble.half_gen (fun x => x) L_Estimate.naive_mst 2 (fun _ => (tt, tt)) [(0, 2); (1, 0); (0, 1)] (tt, tt) (fun _ => None) L_Main.main_files
      [("model_ensemble_size", PInt 3); ("model_num_clusters", PInt 4)]%string = Ok d /\ served sc data ms d /\
    length ms = 3 /\ length data = 5 /\ In "size"%string (sc_names sc) /\ In "kind"%string (sc_names sc) /\ ~ In "id"%string (sc_names sc).
Proof. exact L_Main.main_case. Qed.
