(** Model of treecat/format.py: read_csv and join_csvs. *)
From Coq Require Import String Ascii.
From Coq Require Import List.
From Verif Require Import Base M_Join.
Import ListNotations.
Open Scope list_scope.

(** A csv file: its header and the cells of its rows.  Encodings and quoting are left out. *)
Record csv := { c_header : list string; c_body : list (list string) }.

(** The files, by name. *)
Definition files := string -> option csv.

Definition put (fs : files) (name : string) (f : csv) : files := fun n => if String.eqb n name then Some f else fs n.

(** format.py:106-107 [read_csv]: pandas reads the strings for which [na] holds (its
    na_values) as NaN and all others as strings.  What pandas does with two columns of the
    same name or with rows of other lengths is left out. *)
Definition read_csv (na : string -> bool) (fs : files) (name : string) : result frame :=
  match fs name with
  | None => Raise OSError
  | Some f => Ok {| f_cols := c_header f; f_rows := map (map (fun s => if na s then None else Some s)) (c_body f) |}
  end.

(** pandas: [df.to_csv], where the index has the name [on]: it comes first, and NaN is written as
    the empty string. *)
Definition to_csv (on : string) (t : indexed) : csv :=
  let text (c : cell) := match c with None => EmptyString | Some s => s end in
  {| c_header := on :: i_cols t; c_body := map (fun '(k, row) => map text (k :: row)) (i_rows t) |}.

(** [s.split(',')]. *)
Fixpoint split_commas (s : string) : list string :=
  match s with
  | EmptyString => [EmptyString]
  | String c s => if Ascii.eqb c "," then EmptyString :: split_commas s
                  else match split_commas s with
                       | [] => [String c EmptyString]
                       | l :: t => String c l :: t
                       end
  end.

(** format.py:138-150 [join_csvs]; [arrange] as in [pd_outer_join]. *)
Definition join_csvs (na : string -> bool) (arrange : list (cell * list cell) -> list (cell * list cell))
    (column csvs_in csv_out : string) (fs : files) : result files :=
  dfs <- mapM (read_csv na fs) (split_commas csvs_in) ;;
  df <- pd_outer_join arrange dfs column ;;
  Ok (put fs csv_out (to_csv column df)).

(** format.py:138-150 stopped while to_csv writes: [csv_out] was emptied first and has the header and the
    first [k] rows.  (Stops within a row or the header are left out.) *)
Definition join_csvs_stopped (k : nat) (na : string -> bool) (arrange : list (cell * list cell) -> list (cell * list cell))
    (column csvs_in csv_out : string) (fs : files) : result files :=
  dfs <- mapM (read_csv na fs) (split_commas csvs_in) ;;
  df <- pd_outer_join arrange dfs column ;;
  let f := to_csv column df in
  Ok (put fs csv_out {| c_header := c_header f; c_body := firstn k (c_body f) |}).
