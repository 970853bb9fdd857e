(** What an outer join of tables is. *)
From Coq Require Import String.
From Coq Require Import List Permutation Sorted.
From Verif Require Import M_Join.
Import ListNotations.
Open Scope list_scope.

(** A table: distinct columns, among them [on], one cell for each in every row. *)
Definition table (on : string) (df : frame) : Prop :=
  NoDup (f_cols df) /\ In on (f_cols df) /\ forall row, In row (f_rows df) -> length row = length (f_cols df).

(** A table without a name that ends in the suffix reserved for the join. *)
Definition joinable (on : string) (df : frame) : Prop :=
  table on df /\ forall c s, In c (f_cols df) -> c <> (s ++ "_JOIN_")%string.

(** What the row has in column [c]; missing if there is no such column. *)
Definition field (df : frame) (row : list cell) (c : string) : cell :=
  match find (fun p => String.eqb c (fst p)) (combine (f_cols df) row) with Some (_, v) => v | None => None end.

(** The rows of a table with key [k]. *)
Definition keyed (on : string) (k : cell) (df : frame) : list (list cell) :=
  filter (fun row => cell_eqb (field df row on) k) (f_rows df).

(** All ways to take a row with key [k] from each table that has one. *)
Fixpoint picks (on : string) (k : cell) (dfs : list frame) : list (list (frame * list cell)) :=
  match dfs with
  | [] => [[]]
  | df :: rest =>
      match keyed on k df with
      | [] => picks on k rest
      | rows => flat_map (fun row => map (cons (df, row)) (picks on k rest)) rows
      end
  end.

(** The first value that is there. *)
Fixpoint first_value (pick : list (frame * list cell)) (c : string) : cell :=
  match pick with
  | [] => None
  | (df, row) :: rest => match field df row c with Some v => Some v | None => first_value rest c end
  end.

(** The rows of an indexed table with key [k]. *)
Definition under (k : cell) (t : indexed) : list (list cell) :=
  map snd (filter (fun '(k', _) => cell_eqb k' k) (i_rows t)).

(** The columns of [t] are those of the tables except [on], each once, sorted. *)
Definition joined_columns (on : string) (dfs : list frame) (t : indexed) : Prop :=
  NoDup (i_cols t) /\ (forall c, In c (i_cols t) <-> c <> on /\ exists df, In df dfs /\ In c (f_cols df)) /\
  StronglySorted (fun a b => String.leb a b = true) (i_cols t).

(** The rows of [t] are the combinations of rows with equal keys. *)
Definition joined_rows (on : string) (dfs : list frame) (t : indexed) : Prop :=
  forall k, Permutation (under k t)
    (map (fun pick => map (first_value pick) (i_cols t))
       (filter (fun pick => match pick with [] => false | _ => true end) (picks on k dfs))).
