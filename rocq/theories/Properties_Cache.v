(** Property theorems about the file caches of treecat/generate.py: C51. *)
From Coq Require Import String List ZArith QArith.
From Verif Require Import Base M_Cache M_Repaired4 Spec_Cache.
From Verif Require L_Cache L_Repaired4.
Import ListNotations.
Open Scope string_scope.

(** C51 fails as stated.  The name of the file has only one digit of the rate, so
    that a dataset of another rate is returned. *)
Theorem C51_other_rates_are_returned_refuted : exists a b s, a <> b /\ ~ (a_rate a == a_rate b)%Q /\
  generate_dataset_file (run [GenData b NoCrash]) a NoCrash = (Returned (cache_name "dataset" a), s) /\
  fs_files s (cache_name "dataset" a) = Some (Dataset b).
Proof. exact L_Cache.collide. Qed.
Print Assumptions C51_other_rates_are_returned_refuted.

(** And if the process is killed while it writes the file, then every later call
    returns the truncated file, until the cache is cleaned; models can then not be
    generated. *)
Theorem C51_truncated_files_are_returned_forever_refuted : forall h a, never_cleaned h ->
  let s := run (GenData a Writing :: h) in
  (exists s', generate_dataset_file s a NoCrash = (Returned (cache_name "dataset" a), s') /\
              fs_files s' (cache_name "dataset" a) = Some Truncated) /\
  (fs_files s (cache_name "model" a) = None -> exists s', generate_model_file s a NoCrash NoCrash = (Raised EOFError, s')).
Proof. exact L_Cache.torn_data. Qed.
Print Assumptions C51_truncated_files_are_returned_forever_refuted.

(** What remains: if no process was killed while it wrote a file, then after every
    history the file returned is complete, and holds the dataset for the
    arguments except that its rate may differ by 1/10; it is exactly the one
    asked for if the rates of all calls are equal or further apart. *)
Theorem C51_datasets_partial : forall h a, writes_finish h ->
  exists s b, generate_dataset_file (run h) a NoCrash = (Returned (cache_name "dataset" a), s) /\
    fs_files s (cache_name "dataset" a) = Some (Dataset b) /\ near a b /\ (rates_apart h a -> b = a).
Proof. exact L_Cache.C51_data. Qed.
Print Assumptions C51_datasets_partial.

Theorem C51_models_partial : forall h a, writes_finish h ->
  exists s b, generate_model_file (run h) a NoCrash NoCrash = (Returned (cache_name "model" a), s) /\
    fs_files s (cache_name "model" a) = Some (Model b) /\ near a b /\ (rates_apart h a -> b = a).
Proof. exact L_Cache.C51_model. Qed.
Print Assumptions C51_models_partial.

(** C51 in full, with the exact rate in the names of the files, and each file
    written under another name and then renamed: after every history of calls,
    whatever was killed wherever, and of cleanings, complete or not. *)
Theorem C51_repaired_datasets : forall h a,
  exists s b, repaired_dataset_file (repaired_run h) a AtNone = (Returned (repaired_name "dataset" a), s) /\
    fs_files s (repaired_name "dataset" a) = Some (Dataset b) /\ same_args b a.
Proof. exact L_Repaired4.C51_repaired_data. Qed.
Print Assumptions C51_repaired_datasets.

Theorem C51_repaired_models : forall h a,
  exists s b, repaired_model_file (repaired_run h) a AtNone AtNone = (Returned (repaired_name "model" a), s) /\
    fs_files s (repaired_name "model" a) = Some (Model b) /\ same_args b a.
Proof. exact L_Repaired4.C51_repaired_model. Qed.
Print Assumptions C51_repaired_models.

(** Calls killed while writing and before renaming, and a rate close by. *)
Example C51_repaired_case :
  let a := Args 100 10 4 (3 # 2) in
  let h := [RGenData a AtWriting; RGenModel a AtNone AtRenaming; RGenData (Args 100 10 4 (152 # 100)) AtNone] in
  fs_files (repaired_run h) "100-10-4-3-2.dataset.pkz" = Some (Dataset a) /\ fs_files (repaired_run h) "100-10-4-3-2.model.pkz" = None /\
  fs_files (repaired_run h) "tmp-100-10-4-3-2.model.pkz" = Some (Model a) /\
  fs_files (repaired_run h) "100-10-4-38-25.dataset.pkz" = Some (Dataset (Args 100 10 4 (152 # 100))).
Proof. repeat split; reflexivity. Qed.

(** A call that was killed while generating, an interrupted cleaning, a model and
    a dataset of another rate. *)
Example C51_case :
  let a := Args 100 10 4 (3 # 2) in
  let h := [GenData a Generating; GenModel (Args 100 10 4 1) NoCrash Generating; Clean (String.eqb (cache_name "dataset" a)) false;
            GenModel a NoCrash NoCrash] in
  writes_finish h /\ rates_apart h a /\ never_cleaned [GenData a Writing] /\
  fs_files (run h) "100-10-4-1.5.model.pkz" = Some (Model a) /\ fs_files (run h) "100-10-4-1.0.dataset.pkz" = None /\
  format_of (cache_name "dataset" a) = Ok Pickle.
Proof.
  cbn zeta. split.
  { split.
    - intros a' H. repeat (destruct H as [H|H]; try discriminate H). exact H.
    - intros a' kd k H. repeat (destruct H as [H|H]; try discriminate H; try (injection H as <- <- <-; split; discriminate)). contradiction. }
  split.
  { intros c [[k H]|(kd & k & H)]; repeat (destruct H as [H|H]; try discriminate H; try (injection H as <- _; auto)); try contradiction.
    - right. reflexivity. }
  split. { intros keep done H. repeat (destruct H as [H|H]; try discriminate H). exact H. }
  repeat split; reflexivity.
Qed.

(** The name of a file decides how it is written and read; [pickle_dump] and
    [pickle_load] decide alike, and refuse all other names. *)
Theorem C51_the_name_decides_the_format : forall name,
  (format_of name = Ok Pickle <-> exists a, name = a ++ ".pkz") /\
  (format_of name = Ok Json <-> exists a, name = a ++ ".jz") /\
  (format_of name = Raise ValueError <-> ~ (exists a, name = a ++ ".pkz") /\ ~ (exists a, name = a ++ ".jz")).
Proof. exact L_Cache.format_iff. Qed.
Print Assumptions C51_the_name_decides_the_format.

Example C51_names : format_of "model.pkz" = Ok Pickle /\ format_of "model.jz" = Ok Json /\ format_of "model.json" = Raise ValueError.
Proof. repeat split. Qed.
