(** Joining tables. *)
From Coq Require Import String.
From Coq Require Import List Permutation.
From Verif Require Import Base M_Join Spec_Join.
From Verif Require L_Join3.
Import ListNotations.
Open Scope list_scope.

(** C72.  In whatever order pandas arranges rows, pd_outer_join returns a table
    whose columns are the union of those of the tables, sorted, and whose rows for
    a key are all combinations of the tables' rows with that key; in each column of
    a combination stands the first value that one of them has there. *)
Theorem C72_pd_outer_join_is_the_outer_join : forall arrange dfs on,
  (forall l, Permutation (arrange l) l) -> dfs <> [] -> (forall df, In df dfs -> joinable on df) ->
  exists t, pd_outer_join arrange dfs on = Ok t /\ joined_columns on dfs t /\ joined_rows on dfs t.
Proof. exact (L_Join3.C72_join "_JOIN_"). Qed.
Print Assumptions C72_pd_outer_join_is_the_outer_join.

(** Keys that are distinct in each table: there is one row for each key that
    occurs, and each of its values is the one of the first table that has one. *)
Theorem C72_distinct_keys_are_joined_in_one_row : forall arrange dfs on t,
  (forall l, Permutation (arrange l) l) -> (forall df, In df dfs -> joinable on df) ->
  (forall df, In df dfs -> NoDup (map (fun row => field df row on) (f_rows df))) ->
  pd_outer_join arrange dfs on = Ok t ->
  forall k, (~ (exists df row, In df dfs /\ In row (f_rows df) /\ field df row on = k) -> under k t = []) /\
   ((exists df row, In df dfs /\ In row (f_rows df) /\ field df row on = k) -> exists row, under k t = [row] /\
     length row = length (i_cols t) /\ forall i v, i < length row -> nth i row None = Some v <->
       exists before df after r, dfs = before ++ df :: after /\ In r (f_rows df) /\ field df r on = k /\ field df r (nth i (i_cols t) EmptyString) = Some v /\
         forall d r', In d before -> In r' (f_rows d) -> field d r' on = k -> field d r' (nth i (i_cols t) EmptyString) = None).
Proof. exact (L_Join3.C72_unique "_JOIN_"). Qed.
Print Assumptions C72_distinct_keys_are_joined_in_one_row.

(** A table without the column raises KeyError. *)
Theorem C72_missing_column_raises_KeyError : forall arrange before df after on,
  (forall l, Permutation (arrange l) l) -> (forall d, In d before -> joinable on d) -> ~ In on (f_cols df) ->
  pd_outer_join arrange (before ++ df :: after) on = Raise KeyError.
Proof. exact (L_Join3.C72_missing "_JOIN_"). Qed.
Print Assumptions C72_missing_column_raises_KeyError.

(** Names that end in _JOIN_ are not joined as other names: the call raises, or a
    column is lost. *)
Theorem C72_all_names_are_joined_refuted : forall arrange, (forall l, Permutation (arrange l) l) -> exists on dfs dfs',
  (forall df, In df (dfs ++ dfs') -> table on df) /\
  pd_outer_join arrange dfs on = Raise AssertionError /\
  exists t df c, pd_outer_join arrange dfs' on = Ok t /\ In df dfs' /\ In c (f_cols df) /\ c <> on /\ ~ In c (i_cols t).
Proof. exact L_Join3.C72_suffix. Qed.
Print Assumptions C72_all_names_are_joined_refuted.

(** With a suffix longer than any name the join is right for all tables. *)
Theorem C72_repaired_join_is_the_outer_join : forall arrange dfs on,
  (forall l, Permutation (arrange l) l) -> dfs <> [] -> (forall df, In df dfs -> table on df) ->
  exists t, repaired_outer_join arrange dfs on = Ok t /\ joined_columns on dfs t /\ joined_rows on dfs t.
Proof. exact L_Join3.C72_repaired. Qed.
Print Assumptions C72_repaired_join_is_the_outer_join.
Example C72_repaired_case : (forall df, In df [L_Join3.df_d; L_Join3.df_c] -> table "id" df) /\
  exists t, repaired_outer_join (@rev _) [L_Join3.df_d; L_Join3.df_c] "id" = Ok t /\ i_cols t = ["x"; "x_JOIN_"]%string /\
    under (Some "7"%string) t = [[None; Some "a"]]%string.
Proof. split; [exact L_Join3.df_table|]. eexists. split; [reflexivity|]. split; reflexivity. Qed.

Example C72_case : (forall df, In df [L_Join3.df_a; L_Join3.df_b] -> joinable "id" df /\ NoDup (map (fun row => field df row "id") (f_rows df))) /\
  (forall l : list (cell * list cell), Permutation (rev l) l) /\
  exists t, pd_outer_join (@rev _) [L_Join3.df_a; L_Join3.df_b] "id" = Ok t /\ i_cols t = ["a"; "b"; "c"]%string /\
    under (Some "3"%string) t = [[None; Some "tiger"; Some "nose"]]%string.
Proof. split; [exact L_Join3.df_joinable|]. split; [intros l; symmetry; apply Permutation_rev|]. eexists. split; [reflexivity|]. split; reflexivity. Qed.
