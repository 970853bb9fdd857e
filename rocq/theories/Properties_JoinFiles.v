(** Property C92: joining csv files. *)
From Coq Require Import String.
From Coq Require Import List Permutation.
From Verif Require Import Base M_Join Spec_Join M_JoinFiles Spec_JoinFiles L_JoinFiles.
Import ListNotations.
Open Scope list_scope.

(** C92.  join_csvs writes a file that reads back as the outer join of the files, with the column
    first, and changes no other file.  [na] are the strings that pandas reads as missing
    values, the empty string among them. *)
Theorem C92_join_csvs_writes_the_outer_join : forall na arrange fs names out column,
  na EmptyString = true -> (forall l, Permutation (arrange l) l) -> names <> [] -> Forall comma_free names ->
  (forall n, In n names -> exists df, read_csv na fs n = Ok df /\ joinable column df) ->
  exists fs' dfs f, join_csvs na arrange column (String.concat "," names) out fs = Ok fs' /\
    Forall2 (fun n df => read_csv na fs n = Ok df) names dfs /\ read_csv na fs' out = Ok f /\ is_join_of column dfs f /\
    forall n, n <> out -> fs' n = fs n.
Proof. exact C92_join_proof. Qed.
Print Assumptions C92_join_csvs_writes_the_outer_join.

(** Files may be joined in steps: first some of them, then the result with the others.  It makes the same table as
    joining all of them at once, whatever order pandas brings the rows into. *)
Theorem C92_joining_in_steps_is_joining_at_once : forall na a1 a2 a3 fs names1 names2 out1 out2 column, na EmptyString = true ->
  (forall l, Permutation (a1 l) l) -> (forall l, Permutation (a2 l) l) -> (forall l, Permutation (a3 l) l) ->
  names1 <> [] -> Forall comma_free (out1 :: names1 ++ names2) -> ~ In out1 names2 ->
  (forall n, In n (names1 ++ names2) -> exists df, read_csv na fs n = Ok df /\ joinable column df) ->
  exists fs1 fs2 fs3 f g,
    join_csvs na a1 column (String.concat "," names1) out1 fs = Ok fs1 /\
    join_csvs na a2 column (String.concat "," (out1 :: names2)) out2 fs1 = Ok fs2 /\ read_csv na fs2 out2 = Ok f /\
    join_csvs na a3 column (String.concat "," (names1 ++ names2)) out2 fs = Ok fs3 /\ read_csv na fs3 out2 = Ok g /\
    same_table f g.
Proof. exact C92_steps_proof. Qed.
Print Assumptions C92_joining_in_steps_is_joining_at_once.

(** A file whose name has a comma cannot be joined, though it can be read. *)
Theorem C92_names_with_commas_refuted : exists fs name, (exists df, read_csv na0 fs name = Ok df /\ joinable "id" df) /\
  forall arrange out, join_csvs na0 arrange "id" (String.concat "," [name]) out fs = Raise OSError.
Proof. exact C92_commas_proof. Qed.
Print Assumptions C92_names_with_commas_refuted.

(** Three files, with a missing value that the second has and a key that the third has twice. *)
Example C92_case : na0 EmptyString = true /\ (forall l : list (cell * list cell), Permutation (rev l) l) /\
  Forall comma_free ["ab.csv"; "a.csv"; "b.csv"; "c.csv"]%string /\
  (forall n, In n ["a.csv"; "b.csv"; "c.csv"]%string -> exists df, read_csv na0 fs0 n = Ok df /\ joinable "id" df) /\
  exists fs' f, join_csvs na0 (@rev _) "id" "a.csv,b.csv,c.csv" "abc.csv" fs0 = Ok fs' /\ read_csv na0 fs' "abc.csv" = Ok f /\
    f_cols f = ["id"; "a"; "b"; "c"]%string /\ length (f_rows f) = 4 /\ In [Some "0"; Some "foo"; Some "mouse"; None]%string (f_rows f).
Proof. exact C92_case_proof. Qed.

(** A join that was stopped while it wrote can be run again, if it does not write to one of its
    own files: they are untouched, and the second run makes the files that one full run makes. *)
Theorem C92_a_stopped_join_can_be_run_again : forall k na a arrange fs names out column stopped done,
  Forall comma_free names -> names <> [] -> ~ In out names ->
  join_csvs_stopped k na a column (String.concat "," names) out fs = Ok stopped ->
  join_csvs na arrange column (String.concat "," names) out fs = Ok done ->
  (forall n, In n names -> stopped n = fs n) /\
  exists again, join_csvs na arrange column (String.concat "," names) out stopped = Ok again /\ forall n, again n = done n.
Proof. exact C92_again_proof. Qed.
Print Assumptions C92_a_stopped_join_can_be_run_again.

Example C92_again_case : Forall comma_free ["a.csv"; "b.csv"]%string /\ ~ In "ab.csv"%string ["a.csv"; "b.csv"]%string /\
  exists stopped done, join_csvs_stopped 1 na0 (@rev _) "id" "a.csv,b.csv" "ab.csv" fs0 = Ok stopped /\
    join_csvs na0 (@rev _) "id" "a.csv,b.csv" "ab.csv" fs0 = Ok done /\ stopped "ab.csv"%string <> done "ab.csv"%string.
Proof. exact C92_again_case_proof. Qed.

(** Joining into the first file is not safe: when it is stopped and run again, rows of that file are lost without notice. *)
Theorem C92_joining_in_place_refuted : exists k names stopped again f g, names = ["a.csv"; "b.csv"]%string /\
  join_csvs_stopped k na0 (@rev _) "id" (String.concat "," names) "a.csv" fs0 = Ok stopped /\
  join_csvs na0 (@rev _) "id" (String.concat "," names) "a.csv" stopped = Ok again /\
  read_csv na0 fs0 "a.csv" = Ok f /\ In [Some "1"; Some "bar"; Some "zebra"]%string (f_rows f) /\
  read_csv na0 again "a.csv" = Ok g /\ f_cols g = f_cols f /\ ~ exists row, In row (f_rows g) /\ In (Some "bar"%string) row.
Proof. exact C92_in_place_proof. Qed.
Print Assumptions C92_joining_in_place_refuted.
