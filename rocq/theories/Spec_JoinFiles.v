(** Vocabulary for joined csv files. *)
From Coq Require Import String Ascii.
From Coq Require Import List Permutation.
From Verif Require Import M_Join Spec_Join.
Import ListNotations.
Open Scope list_scope.

Definition comma_free (s : string) : Prop := ~ In ","%char (list_ascii_of_string s).

(** The column [on] and the columns of the join, with the rows of the join. *)
Definition is_join_of (on : string) (dfs : list frame) (f : frame) : Prop :=
  exists t, joined_columns on dfs t /\ joined_rows on dfs t /\
    f_cols f = on :: i_cols t /\ f_rows f = map (fun '(k, row) => k :: row) (i_rows t).

(** The same columns and the same rows in some order. *)
Definition same_table (f g : frame) : Prop := f_cols f = f_cols g /\ Permutation (f_rows f) (f_rows g).
