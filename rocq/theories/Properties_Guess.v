(** Properties of schema guessing (C45, C46) and of which schema files load (C53, C76). *)
From Coq Require Import String Ascii.
From Coq Require Import List Arith ZArith Reals Lia Sorted.
From Verif Require Import Base M_Util M_Strings M_Format M_Repaired3 Spec_Schema Spec_Guess Spec_Checks.
From Verif Require L_Guess L_Guess2 L_Schema2 L_Repaired3.
Import ListNotations.
Open Scope list_scope.
Open Scope nat_scope.

(** C45.  Guessing succeeds on files with a header, and stops with
    StopIteration if a file has none. *)
Theorem C45_guessing_succeeds_iff_every_file_has_a_header : forall files,
  ((forall f, In f files -> snd f <> []) -> exists types values, guess_schema files = Ok (types, values)) /\
  ((exists f, In f files /\ snd f = []) -> guess_schema files = Raise StopIteration).
Proof. exact (fun files => conj (L_Guess2.guess_runs files) (L_Guess2.guess_raises files)). Qed.
Print Assumptions C45_guessing_succeeds_iff_every_file_has_a_header.

(** C45.  The types file has one row per feature, in order; the values file
    lists the twenty most frequent values observed at least twice, the most
    frequent first; a feature is left untyped iff fewer than two values are
    observed twice, and is ordinal iff all its listed values are integers from 0
    to 20; the files load if some feature was typed. *)
Theorem C45_guessed_schemas_load : forall files types values, guess_schema files = Ok (types, values) ->
  (NoDup (map (cell 0) (tl types)) /\ StronglySorted (fun a b => String.leb a b = true) (map (cell 0) (tl types)) /\
   forall n, In n (map (cell 0) (tl types)) <-> is_feature files n) /\
  (forall row, In row (tl types) -> typed_row files values row) /\
  (forall n, is_feature files n -> let vs := listed_values values n in
     NoDup vs /\ length vs = Nat.min 20 (length (repeated files n)) /\
     (forall v, In v vs -> 2 <= occurrences files n v) /\
     (forall v, In v (repeated files n) -> ~ In v vs -> forall u, In u vs -> occurrences files n v <= occurrences files n u) /\
     StronglySorted (fun u v => occurrences files n v < occurrences files n u \/ (occurrences files n u = occurrences files n v /\ String.leb u v = true)) vs) /\
  (forall n, ~ is_feature files n -> listed_values values n = []) /\
  ((exists row, In row (tl types) /\ cell 1 row <> EmptyString) -> forall float_, exists sc, load_schema float_ types values None = Ok sc).
Proof. exact L_Guess2.guess_main. Qed.
Print Assumptions C45_guessed_schemas_load.

Definition example_files : list datafile :=
  [("a.csv", [["name"; "size"; "id"]; ["Ann"; "3"; "x1"]; ["ann "; "4"; "x2"]; ["Bob"; "4"; "x3"]; ["bob"; "3"; ""]]);
   ("b.csv", [["name"]; ["Cy"]; ["BOB"]])]%string.
Example C45_case :
  guess_schema example_files = Ok
    ([["name"; "type"; "total"; "unique"; "singletons"; "source"];
      ["id"; ""; "3"; "3"; "3"; "a.csv,b.csv"];
      ["name"; "categorical"; "6"; "3"; "1"; "a.csv,b.csv"];
      ["size"; "ordinal"; "4"; "2"; "0"; "a.csv,b.csv"]]%string,
     [["name"; "value"; "count"]; ["name"; "bob"; "3"]; ["name"; "ann"; "2"]; ["size"; "3"; "2"]; ["size"; "4"; "2"]]%string).
Proof. vm_compute. reflexivity. Qed.

(** C46 is false: the source column also lists files read after the first one
    with the feature, whether they have it or not. *)
Theorem C46_source_column_refuted : exists files types values row,
  guess_schema files = Ok (types, values) /\ In row (tl types) /\
  (forall f, In f files -> snd f <> []) /\ NoDup (map fst files) /\
  cell 5 row <> String.concat "," (map fst (sources (cell 0 row) files)).
Proof. exact L_Guess2.C46_refutation. Qed.
Print Assumptions C46_source_column_refuted.

(** C46, what holds: it lists the files from the first one with the feature on,
    hence the right ones if these all have it. *)
Theorem C46_source_column_partial : forall files types values, guess_schema files = Ok (types, values) ->
  forall row, In row (tl types) -> let n := cell 0 row in
  cell 5 row = String.concat "," (map fst (from_first n files)) /\
  ((forall f, In f (from_first n files) -> In n (header f)) -> cell 5 row = String.concat "," (map fst (sources n files))).
Proof. exact L_Guess2.C46_full. Qed.
Print Assumptions C46_source_column_partial.
Example C46_case : map fst (from_first "name" example_files) = ["a.csv"; "b.csv"]%string /\ map fst (sources "name" example_files) = ["a.csv"; "b.csv"]%string
  /\ map fst (from_first "size" example_files) = ["a.csv"; "b.csv"]%string /\ map fst (sources "size" example_files) = ["a.csv"]%string.
Proof. vm_compute. auto. Qed.

(** C46, with the loop that lists the source over the columns of the file being
    read: the claim in full, all other columns being the same. *)
Theorem C46_repaired_source_column : forall files types values, guess_schema files = Ok (types, values) ->
  exists types', repaired_guess_schema files = Ok (types', values) /\ map (firstn 5) types' = map (firstn 5) types /\
    forall row, In row (tl types') -> cell 5 row = String.concat "," (map fst (sources (cell 0 row) files)).
Proof. exact L_Repaired3.C46_repaired. Qed.
Print Assumptions C46_repaired_source_column.

(** C53.  Exactly which types and values files load (without a groups file). *)
Theorem C53_which_schema_files_load : forall float_ types_csv values_csv,
  (exists sc, load_schema float_ types_csv values_csv None = Ok sc) <->
  headed types_csv 0 "name" /\ headed types_csv 1 "type" /\ headed values_csv 0 "name" /\ headed values_csv 1 "value" /\
  listed types_csv <> [] /\ (forall row, In row (listed types_csv) -> exists t, cell 1 row = type_name t) /\
  (forall n, listed_type types_csv n Ordinal -> listed_values values_csv n <> [] /\ forall v, In v (listed_values values_csv n) -> int_of_str v <> None).
Proof. exact L_Guess2.C53_proof. Qed.
Print Assumptions C53_which_schema_files_load.
Example C53_case : headed [["Name"; "TYPE"]; ["size"; "ordinal"]]%string 1 "type"
  /\ listed_type [["Name"; "TYPE"]; ["size"; "ordinal"]]%string "size" Ordinal
  /\ listed_values [["name"; "value"]; ["size"; "3"]; ["size"; " 12 "]]%string "size" = ["3"; " 12 "]%string
  /\ int_of_str " 12 " = Some 12%Z
  /\ exists sc, load_schema (fun _ => None) [["Name"; "TYPE"]; ["size"; "ordinal"]]%string [["name"; "value"]; ["size"; "3"]; ["size"; " 12 "]]%string None = Ok sc
       /\ sc_ranges sc = [("size", (3, 12)%Z)]%string.
Proof.
  split; [exists "TYPE"%string; split; reflexivity|]. split; [exists [], ["size"; "ordinal"]%string, []; repeat split; intros ? []|].
  split; [reflexivity|]. split; [reflexivity|]. eexists. split; reflexivity.
Qed.

(** C76.  What is raised for files that do not load: the exception of the first of
    the [schema_checks] that fails.  Nothing is raised if none does. *)
Theorem C76_what_is_raised_for_schema_files : forall float_ types_csv values_csv,
  checked (schema_checks types_csv values_csv) (raised (load_schema float_ types_csv values_csv None)).
Proof. exact L_Schema2.schema_raises. Qed.
Print Assumptions C76_what_is_raised_for_schema_files.

(** The outcome is determined by the checks. *)
Theorem C76_checks_have_one_outcome : forall l o o', checked l o -> checked l o' -> o = o'.
Proof. exact L_Schema2.checked_fun. Qed.
Print Assumptions C76_checks_have_one_outcome.

(** An unknown type, a misnamed column, an ordinal value that is not a number, no
    features, and an ordinal feature without values. *)
Example C76_cases : 
  let types := [["name"; "type"]; ["size"; "ordinal"]]%string in
  let raises t v e := raised (load_schema (fun _ => None) t v None) = Some e in
  raises [["name"; "type"]; ["size"; "real"]]%string [["name"; "value"]]%string ValueError /\
  raises types [["feature"; "value"]]%string AssertionError /\ raises types [["name"]]%string IndexError /\
  raises types [["name"; "value"]; ["size"; "big"]]%string ValueError /\
  raises [["name"; "type"]; ["size"; ""]]%string [["name"; "value"]; ["size"; "big"]]%string ValueError /\
  raises types [["name"; "value"]]%string IndexError /\ raises [] [] StopIteration.
Proof. repeat split. Qed.
