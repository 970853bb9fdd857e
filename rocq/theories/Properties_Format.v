(** Properties of schemas and of the import and export of rows (C41 to C44, C47, C48). *)
From Coq Require Import String Ascii.
From Coq Require Import List Arith ZArith QArith Reals Lia.
From Verif Require Import Base M_Structure M_Util M_Strings M_Format M_Groups M_Repaired5 Spec_Strings Spec_Schema Spec_Groups.
From Verif Require L_Strings L_Strings2 L_Schema L_Import L_Import2 L_Groups L_Groups2 L_Repaired5.
Import ListNotations.
Open Scope list_scope.
Open Scope nat_scope.

(** C44.  Normalising twice is normalising once; the result is tidy and is
    neither of the two spellings of a missing value. *)
Theorem C44_normalize_string_is_idempotent_and_tidy : forall s,
  normalize_string (normalize_string s) = normalize_string s /\ tidy (normalize_string s) /\
  normalize_string s <> "null"%string /\ normalize_string s <> "none"%string.
Proof. exact L_Strings.C44_proof. Qed.
Print Assumptions C44_normalize_string_is_idempotent_and_tidy.

(** C44.  What it is: the words of the string in lower case, separated by
    single blanks; nothing if that is "null" or "none". *)
Theorem C44_normalize_string_joins_lower_case_words : forall s,
  let r := String.concat " " (map lowercase (words s)) in
  normalize_string s = if in_dec string_dec r ["null"; "none"]%string then EmptyString else r.
Proof. exact L_Strings.C44_words. Qed.
Print Assumptions C44_normalize_string_joins_lower_case_words.

Example C44_case : normalize_string "  Film   NOIR " = "film noir"%string /\ words "  Film   NOIR " = ["Film"; "NOIR"]%string /\ normalize_string " NULL" = EmptyString.
Proof. repeat split. Qed.

(** C48.  The schema that is loaded lists the features of the types file in
    order; the blocks tile the row, one after the other, with width 2 for an
    ordinal feature and the number of listed values for a categorical one; the
    index of a feature is its position (the last one if it is listed twice). *)
Theorem C48_schema_layout_matches_the_files : forall float_ types_csv values_csv groups_csv sc,
  load_schema float_ types_csv values_csv groups_csv = Ok sc ->
  let names := sc_names sc in let V := length names in
  names = map (cell 0) (listed types_csv) /\ names <> [] /\
  (forall n t, dget (sc_types sc) n = Some t <-> listed_type types_csv n t) /\
  (forall n, In n names <-> exists t, dget (sc_types sc) n = Some t) /\
  length (sc_ri sc) = S V /\ nth 0 (sc_ri sc) 0 = 0 /\
  (forall v, v < V -> exists t, dget (sc_types sc) (nth v names EmptyString) = Some t /\
     nth (S v) (sc_ri sc) 0 = nth v (sc_ri sc) 0 +
       match t with Ordinal => 2 | Categorical => length (listed_values values_csv (nth v names EmptyString)) end) /\
  (forall n p, dget (sc_index sc) n = Some p <-> nth_error names p = Some n /\ forall q, nth_error names q = Some n -> q <= p) /\
  (forall n, dget (sc_types sc) n = Some Categorical -> dget (sc_cat_values sc) n = Some (listed_values values_csv n)) /\
  (forall n, dget (sc_types sc) n = Some Ordinal -> exists zs lo hi,
     map int_of_str (listed_values values_csv n) = map Some zs /\ dget (sc_ranges sc) n = Some (lo, hi) /\
     In lo zs /\ In hi zs /\ forall z, In z zs -> (lo <= z <= hi)%Z).
Proof. exact L_Import2.C48_proof. Qed.
Print Assumptions C48_schema_layout_matches_the_files.

(** C48.  The numbers that are read (here and wherever a cell is turned into an
    integer) are those that are written there. *)
Theorem C48_integers_are_read_as_written : forall s z, int_of_str s = Some z <-> written_integer s z.
Proof. exact L_Strings2.int_reads. Qed.
Print Assumptions C48_integers_are_read_as_written.
Example C48_integer_case : int_of_str " -1_07 " = Some (-107)%Z /\ int_of_str "+20" = Some 20%Z /\ int_of_str "1__0" = None /\ int_of_str "- 1" = None.
Proof. repeat split. Qed.

(** C48.  Every schema that is loaded is coherent, which is all that the
    theorems below ask of a schema. *)
Theorem C48_loaded_schemas_are_coherent : forall float_ types_csv values_csv groups_csv sc,
  load_schema float_ types_csv values_csv groups_csv = Ok sc -> schema_ok sc.
Proof. exact L_Import2.C48_ok. Qed.
Print Assumptions C48_loaded_schemas_are_coherent.

Example C48_case : load_schema (fun _ => None) L_Import2.ex_types L_Import2.ex_values None = Ok L_Import2.ex_schema /\
  sc_names L_Import2.ex_schema = ["genre"; "rating"]%string /\ sc_ri L_Import2.ex_schema = [0; 3; 5] /\ ranges_fit L_Import2.ex_schema.
Proof. split; [exact L_Import2.ex_schema_loads|]. split; [reflexivity|]. split; [reflexivity|]. exact (proj2 L_Import2.ex_schema_ok). Qed.

(** C47, in full, would be: the prior of the edge between each source and each
    target of a group is the group's logit.  It is false: a groups file with a
    single complete row makes the loading fail, whatever the row says, because
    three cells are unpacked into four names. *)
Theorem C47_groups_are_loaded_refuted : forall float_ types_csv values_csv sc header rows,
  load_schema float_ types_csv values_csv None = Ok sc ->
  4 <= length header -> map lower (firstn 4 header) = ["group"; "logit"; "source"; "target"]%string ->
  (exists row, In row rows /\ 4 <= length row) ->
  load_schema float_ types_csv values_csv (Some (header :: rows)) = Raise ValueError.
Proof. exact (fun f t v sc h rows E L H => proj2 (proj2 (L_Import2.groups_none f t v sc E) h rows L H)). Qed.
Print Assumptions C47_groups_are_loaded_refuted.

(** What is left: without groups, or with a groups file without complete rows,
    the prior of every edge is 0. *)
Theorem C47_prior_without_groups_is_flat_partial : forall float_ types_csv values_csv sc,
  load_schema float_ types_csv values_csv None = Ok sc ->
  let V := length (sc_names sc) in sc_prior sc = repeat 0%R (V * (V - 1) / 2) /\
  forall header rows, 4 <= length header -> map lower (firstn 4 header) = ["group"; "logit"; "source"; "target"]%string ->
    (forall row, In row rows -> length row < 4) -> load_schema float_ types_csv values_csv (Some (header :: rows)) = Ok sc.
Proof. exact L_Import2.C47_flat. Qed.
Print Assumptions C47_prior_without_groups_is_flat_partial.

Example C47_case : load_schema (fun _ => Some 1%R) L_Import2.ex_types L_Import2.ex_values
  (Some [["group"; "logit"; "source"; "target"]; ["g"; "1.5"; "genre"; "rating"]]%string) = Raise ValueError.
Proof. reflexivity. Qed.

(** C47.  With four cells unpacked, and no feature that is both a source and a
    target of the same group, the claim holds: a pair of features has the logit
    of a group that links it (the last one given), or 0 if no group with a logit
    does.  Nothing else in the schema changes. *)
Theorem C47_repaired_groups_set_the_prior : forall float_ types_csv values_csv sc header rows,
  load_schema float_ types_csv values_csv None = Ok sc ->
  4 <= length header -> map lower (firstn 4 header) = ["group"; "logit"; "source"; "target"]%string ->
  (forall g s, says rows g 1 s -> float_ s <> None) ->
  (forall g x n, logit_of float_ rows g x -> source_of rows g n \/ target_of rows g n -> In n (sc_names sc)) ->
  (forall g x n, logit_of float_ rows g x -> ~ (source_of rows g n /\ target_of rows g n)) ->
  exists prior, repaired_load_schema float_ types_csv values_csv (Some (header :: rows)) =
      Ok (Schema (sc_names sc) (sc_index sc) (sc_types sc) (sc_cat_values sc) (sc_cat_index sc) (sc_ranges sc) (sc_ri sc) prior) /\
    (let V := length (sc_names sc) in length prior = V * (V - 1) / 2) /\
    forall a b i j, dget (sc_index sc) a = Some i -> dget (sc_index sc) b = Some j -> a <> b ->
      (exists g x, links rows g a b /\ logit_of float_ rows g x /\ nth (find_complete_edge i j) prior 0%R = x) \/
      ((forall g x, links rows g a b -> ~ logit_of float_ rows g x) /\ nth (find_complete_edge i j) prior 0%R = 0%R).
Proof. exact L_Groups.C47_repaired. Qed.
Print Assumptions C47_repaired_groups_set_the_prior.

(** The last condition is needed: a group that links features with themselves
    gives its logit to a pair that no group links. *)
Theorem C47_repaired_cliques_refuted : exists types_csv values_csv rows sc a c i j x,
  load_schema (fun _ => Some x) types_csv values_csv None = Ok sc /\
  dget (sc_index sc) a = Some i /\ dget (sc_index sc) c = Some j /\ a <> c /\ (forall g, ~ links rows g a c) /\ x <> 0%R /\
  exists sc', repaired_load_schema (fun _ => Some x) types_csv values_csv (Some (["group"; "logit"; "source"; "target"]%string :: rows)) = Ok sc' /\
    nth (find_complete_edge i j) (sc_prior sc') 0%R = x.
Proof. exact L_Groups.C47_clique. Qed.
Print Assumptions C47_repaired_cliques_refuted.

(** The hypotheses hold of a file with two groups, one of them without a logit. *)
Example C47_repaired_case : let rows := [["g"; "1.5"; "a"; "c"]; ["g"; ""; "b"; ""]; ["h"; ""; "a"; "a"]; ["h"]]%string in
  let f := fun s => if String.eqb s "1.5" then Some (3 / 2)%R else None in
  (forall g s, says rows g 1 s -> f s <> None) /\
  (forall g x n, logit_of f rows g x -> source_of rows g n \/ target_of rows g n -> In n ["a"; "b"; "c"]%string) /\
  (forall g x n, logit_of f rows g x -> ~ (source_of rows g n /\ target_of rows g n)) /\
  exists sc sc', load_schema f L_Groups.three_types L_Groups.three_values None = Ok sc /\ sc_names sc = ["a"; "b"; "c"]%string /\
    repaired_load_schema f L_Groups.three_types L_Groups.three_values (Some (["group"; "logit"; "source"; "target"]%string :: rows)) = Ok sc' /\
    sc_prior sc' = [0; 3 / 2; 3 / 2]%R.
Proof. exact L_Groups.C47_repaired_case_proof. Qed.

(** C47.  If pairs of a feature with itself are skipped, too, the claim holds of
    every groups file. *)
Theorem C47_repaired_cliques_set_the_prior : forall float_ types_csv values_csv sc header rows,
  load_schema float_ types_csv values_csv None = Ok sc ->
  4 <= length header -> map lower (firstn 4 header) = ["group"; "logit"; "source"; "target"]%string ->
  (forall g s, says rows g 1 s -> float_ s <> None) ->
  (forall g x n, logit_of float_ rows g x -> source_of rows g n \/ target_of rows g n -> In n (sc_names sc)) ->
  exists prior, cliques_load_schema float_ types_csv values_csv (Some (header :: rows)) =
      Ok (Schema (sc_names sc) (sc_index sc) (sc_types sc) (sc_cat_values sc) (sc_cat_index sc) (sc_ranges sc) (sc_ri sc) prior) /\
    (let V := length (sc_names sc) in length prior = V * (V - 1) / 2) /\
    forall a b i j, dget (sc_index sc) a = Some i -> dget (sc_index sc) b = Some j -> a <> b ->
      (exists g x, links rows g a b /\ logit_of float_ rows g x /\ nth (find_complete_edge i j) prior 0%R = x) \/
      ((forall g x, links rows g a b -> ~ logit_of float_ rows g x) /\ nth (find_complete_edge i j) prior 0%R = 0%R).
Proof. exact L_Groups2.C47_cliques. Qed.
Print Assumptions C47_repaired_cliques_set_the_prior.

(** The file of the refutation above: only the pair of a and b has the logit. *)
Example C47_cliques_case : let f := fun s => if String.eqb s "1.5" then Some (3 / 2)%R else None in
  (forall g s, says L_Groups.clique g 1 s -> f s <> None) /\
  (forall g x n, logit_of f L_Groups.clique g x -> source_of L_Groups.clique g n \/ target_of L_Groups.clique g n -> In n ["a"; "b"; "c"]%string) /\
  exists sc', cliques_load_schema f L_Groups.three_types L_Groups.three_values (Some (["group"; "logit"; "source"; "target"]%string :: L_Groups.clique)) = Ok sc' /\
    sc_prior sc' = [3 / 2; 0; 0]%R.
Proof. exact L_Groups2.C47_cliques_case_proof. Qed.

(** C41.  What is imported and then exported is, in every row, the legal entries
    and nothing else; importing that again gives the same data. *)
Theorem C41_export_inverts_import : forall sc rows data,
  schema_ok sc -> ranges_fit sc -> (forall r, In r rows -> keys_once r) -> import_rows sc (Rows rows) = Ok data ->
  exists out, export_rows sc (list_sum (widths sc)) data = Ok out /\ length out = length rows /\
    (forall i n, i < length rows -> keys_once (nth i out []) /\
       dget (nth i out []) n = match dget (nth i rows []) n with Some v => legal_value sc n v | None => None end) /\
    import_rows sc (Rows out) = Ok data.
Proof. exact (fun sc rows data SO => L_Import2.C41_proof sc SO rows data). Qed.
Print Assumptions C41_export_inverts_import.

Example C41_case : import_rows L_Import2.ex_schema (Rows [[("rating", JStr " 4"); ("genre", JStr "noir"); ("x", JNone)]; [("rating", JInt 9)]]%string)
    = Ok [[0; 0; 1; 2; 1]; [0; 0; 0; 0; 0]]%Z /\
  export_rows L_Import2.ex_schema 5 [[0; 0; 1; 2; 1]; [0; 0; 0; 0; 0]]%Z = Ok [[("genre", JStr "noir"); ("rating", JInt 4)]; []]%string.
Proof. split; reflexivity. Qed.

(** The condition on the ranges is needed: the only value of a constant ordinal
    feature is lost, and a wide range makes the export fail. *)
Theorem C41_constant_ordinals_refuted : exists types_csv values_csv sc data,
  load_schema (fun _ => None) types_csv values_csv None = Ok sc /\
  legal_value sc "r" (JInt 3) = Some (JInt 3) /\
  import_rows sc (Rows [[("r"%string, JInt 3)]]) = Ok data /\ export_rows sc 2 data = Ok [[]].
Proof. exact L_Import2.C41_constant. Qed.
Print Assumptions C41_constant_ordinals_refuted.

Theorem C41_wide_ordinals_refuted : exists types_csv values_csv sc data,
  load_schema (fun _ => None) types_csv values_csv None = Ok sc /\
  legal_value sc "r" (JInt 200) = Some (JInt 200) /\
  import_rows sc (Rows [[("r"%string, JInt 200)]]) = Ok data /\ export_rows sc 2 data = Raise AssertionError.
Proof. exact L_Import2.C41_wide. Qed.
Print Assumptions C41_wide_ordinals_refuted.

(** C42, in full: import_rows never raises and ignores invalid values.  None and
    infinities for an ordinal feature, and lists for a categorical one, raise. *)
Theorem C42_invalid_values_are_ignored_refuted : schema_ok L_Import2.ex_schema /\
  import_rows L_Import2.ex_schema (Rows [[("genre", JStr "noir"); ("rating", JNone)]]%string) = Raise TypeError /\
  import_rows L_Import2.ex_schema (Rows [[("rating", JInf false)]]%string) = Raise OverflowError /\
  import_rows L_Import2.ex_schema (Rows [[("genre", JList [])]]%string) = Raise TypeError.
Proof. exact L_Import2.C42_refutation. Qed.
Print Assumptions C42_invalid_values_are_ignored_refuted.

(** All other values, and every value of an unknown feature, are ignored unless
    legal: the import succeeds and is that of the legal entries. *)
Theorem C42_other_invalid_values_are_ignored_partial : forall sc rows, schema_ok sc ->
  (forall r n v, In r rows -> In (n, v) r -> tame v) -> (forall r, In r rows -> keys_once r) ->
  exists data, import_rows sc (Rows rows) = Ok data /\ length data = length rows /\
    import_rows sc (Rows (map (filter (fun '(n, v) => match legal_value sc n v with Some _ => true | None => false end)) rows)) = Ok data.
Proof. exact (fun sc rows SO => L_Import2.C42_partial sc SO rows). Qed.
Print Assumptions C42_other_invalid_values_are_ignored_partial.

Theorem C42_unknown_features_are_ignored_partial : forall sc row n v, schema_ok sc -> ~ In n (sc_names sc) ->
  import_rows sc (Rows [(n, v) :: row]) = import_rows sc (Rows [row]).
Proof. exact L_Import2.C42_unknown. Qed.
Print Assumptions C42_unknown_features_are_ignored_partial.

(** C42 in full, with TypeError and OverflowError caught as well: whatever the
    values, the import succeeds and is that of the legal entries. *)
Theorem C42_repaired_invalid_values_are_ignored : forall sc rows, schema_ok sc -> (forall r, In r rows -> keys_once r) ->
  exists data, repaired_import_rows sc (Rows rows) = Ok data /\ length data = length rows /\
    import_rows sc (Rows (map (filter (fun '(n, v) => match legal_value sc n v with Some _ => true | None => false end)) rows)) = Ok data.
Proof. exact (fun sc rows SO => L_Repaired5.C42_repaired sc SO rows). Qed.
Print Assumptions C42_repaired_invalid_values_are_ignored.
Example C42_repaired_case :
  repaired_import_rows L_Import2.ex_schema (Rows [[("genre", JList []); ("rating", JInt 3)]; [("rating", JInf true); ("genre", JStr "noir")]; [("rating", JNone)]]%string) =
  import_rows L_Import2.ex_schema (Rows [[("rating", JInt 3)]; [("genre", JStr "noir")]; []]%string).
Proof. reflexivity. Qed.

(** C42.  A number given for an ordinal feature, in whatever form and anywhere among the
    rows, counts as the integer it stands for: floats are cut off towards zero. *)
Theorem C42_numbers_count_as_their_integer : forall sc n v z, dget (sc_types sc) n = Some Ordinal -> stands_for v z ->
  legal_value sc n v = legal_value sc n (JInt z) /\
  forall before after pre post, import_rows sc (Rows (before ++ (pre ++ (n, v) :: post) :: after)) =
    import_rows sc (Rows (before ++ (pre ++ (n, JInt z) :: post) :: after)).
Proof. exact L_Import2.C42_numbers. Qed.
Print Assumptions C42_numbers_count_as_their_integer.

Example C42_numbers_case : stands_for (JFloat (-1 # 2)) 0 /\ stands_for (JFloat (-5 # 2)) (-2) /\ stands_for (JFloat (7 # 2)) 3 /\ stands_for (JStr " 4 ") 4 /\
  import_rows L_Import2.ex_schema (Rows [[("rating"%string, JFloat (7 # 2))]]) = Ok [[0; 0; 0; 1; 2]]%Z.
Proof. repeat split; vm_compute; congruence. Qed.

(** C43.  Loading csv rows is importing the dicts of their normalised non-empty
    cells; neither fails, also when rows are shorter or longer than the header. *)
Theorem C43_csv_loading_is_row_import : forall sc header rows, schema_ok sc -> sc_names sc <> [] -> NoDup header -> rows <> [] ->
  exists data, load_data sc (header :: rows) = Ok data /\ length data = length rows /\
    (forall r, In r rows -> keys_once (csv_entries header r)) /\
    import_rows sc (Rows (map (csv_entries header) rows)) = Ok data.
Proof. exact (fun sc header rows SO => L_Import2.C43_proof sc SO header rows). Qed.
Print Assumptions C43_csv_loading_is_row_import.

Example C43_case : load_data L_Import2.ex_schema [["title"; "rating"; "genre"]; ["up"; " 3 "; "Family"]; ["x"; "none"]]%string = Ok [[0; 1; 0; 1; 2]; [0; 0; 0; 0; 0]]%Z.
Proof. reflexivity. Qed.

(** With a repeated column the loaded rows may not be those of any dict: two
    values are recorded for one feature and the export fails. *)
Theorem C43_repeated_columns_refuted : exists sc header row data, schema_ok sc /\ ranges_fit sc /\
  load_data sc [header; row] = Ok data /\ export_rows sc (list_sum (widths sc)) data = Raise AssertionError.
Proof. exact L_Import2.C41_repeated. Qed.
Print Assumptions C43_repeated_columns_refuted.
