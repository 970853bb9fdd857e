(** What the data files say about a feature. *)
From Coq Require Import String Ascii.
From Coq Require Import List Arith ZArith Bool.
From Verif Require Import Base M_Strings M_Format Spec_Schema.
Import ListNotations.
Open Scope list_scope.
Open Scope nat_scope.

(** A data file: its base name and its csv rows, the first being the header. *)
Definition datafile := (string * list (list string))%type.
Definition header (f : datafile) : list string := match snd f with [] => [] | h :: _ => h end.
(** The cells below the header, with the name of their column. *)
Definition cells (f : datafile) : list (string * string) := concat (map (combine (header f)) (tl (snd f))).

(** The observations of a feature: its non-empty normalised cells. *)
Definition observations (files : list datafile) (name : string) : list string :=
  filter (fun v => negb (String.eqb v EmptyString))
    (map (fun c => normalize_string (snd c)) (filter (fun c => String.eqb (fst c) name) (concat (map cells files)))).

(** How often a value is observed, and the values observed at least twice. *)
Definition occurrences files name v : nat := count_occ string_dec (observations files name) v.
Definition repeated files name : list string :=
  filter (fun v => 2 <=? occurrences files name v) (nodup string_dec (observations files name)).

(** The features: the names in the headers. *)
Definition is_feature (files : list datafile) (name : string) : Prop := exists f, In f files /\ In name (header f).

(** Is the string an integer from 0 to 20? *)
Definition small_int (v : string) : Prop := exists z, int_of_str v = Some z /\ (0 <= z <= 20)%Z.

(** What the row of feature [n] in the types file says.  Its first five cells:
    name; type; number of observations; number of distinct values; number of
    values observed once. *)
Definition typed_row (files : list datafile) (values : list (list string)) (row : list string) : Prop :=
  let n := cell 0 row in
  (cell 1 row = EmptyString <-> length (repeated files n) < 2) /\
  (cell 1 row = "ordinal"%string <-> 2 <= length (repeated files n) /\ forall v, In v (listed_values values n) -> small_int v) /\
  (cell 1 row = "categorical"%string <-> 2 <= length (repeated files n) /\ exists v, In v (listed_values values n) /\ ~ small_int v) /\
  cell 2 row = str_nat (length (observations files n)) /\
  cell 3 row = str_nat (length (nodup string_dec (observations files n))) /\
  cell 4 row = str_nat (length (filter (fun v => occurrences files n v =? 1) (nodup string_dec (observations files n)))).


(** The files from the first one whose header has [n] on. *)
Fixpoint from_first (n : string) (files : list datafile) : list datafile :=
  match files with [] => [] | f :: r => if in_dec string_dec n (header f) then files else from_first n r end.


(** The files whose header has [n]. *)
Definition sources (n : string) (files : list datafile) : list datafile :=
  filter (fun f => if in_dec string_dec n (header f) then true else false) files.

(** Cell [i] of the first row is [name], up to case. *)
Definition headed (csv : list (list string)) (i : nat) (name : string) : Prop :=
  exists c, nth_error (hd [] csv) i = Some c /\ lower c = name.
