(** Schemas: what the files say, and what makes a schema coherent. *)
From Coq Require Import String Ascii.
From Coq Require Import List Arith ZArith QArith Bool.
From Verif Require Import Base M_Util M_Strings M_Format.
Import ListNotations.
Open Scope list_scope.
Open Scope nat_scope.

(** Cell [i] of a csv row. *)
Definition cell (i : nat) (row : list string) : string := nth i row EmptyString.

(** The rows of a types file that list a feature: below the header, with a
    non-empty type. *)
Definition listed (types_csv : list (list string)) : list (list string) :=
  filter (fun row => (2 <=? length row) && negb (String.eqb (cell 1 row) EmptyString)) (tl types_csv).

(** The type given to [name]: that of its last listing. *)
Definition listed_type (types_csv : list (list string)) (name : string) (t : ftype) : Prop :=
  exists before row after, listed types_csv = before ++ row :: after /\
    cell 0 row = name /\ cell 1 row = type_name t /\ forall r, In r after -> cell 0 r <> name.

(** The values given to [name] in the values file, in order. *)
Definition listed_values (values_csv : list (list string)) (name : string) : list string :=
  map (cell 1) (filter (fun row => (2 <=? length row) && String.eqb (cell 0 row) name) (tl values_csv)).

(** The width of the block of a feature. *)
Definition feature_width (sc : schema) (name : string) : nat :=
  match dget (sc_types sc) name with
  | Some Ordinal => 2
  | Some Categorical => match dget (sc_cat_values sc) name with Some vs => length vs | None => 0 end
  | None => 0
  end.
Definition widths (sc : schema) : list nat := map (feature_width sc) (sc_names sc).

(** A coherent schema: the blocks of the features tile the row; every feature
    has a type and its position; a categorical feature has values, indexed by
    their positions; an ordinal feature has a range. *)
Record schema_ok (sc : schema) : Prop := {
  so_ri : sc_ri sc = make_ragged_index (widths sc);
  so_typed : forall n, In n (sc_names sc) <-> exists t, dget (sc_types sc) n = Some t;
  so_index : forall n, In n (sc_names sc) <-> exists p, dget (sc_index sc) n = Some p;
  so_pos : forall n p, dget (sc_index sc) n = Some p -> nth_error (sc_names sc) p = Some n;
  so_cat : forall n, dget (sc_types sc) n = Some Categorical ->
    exists vs ix, dget (sc_cat_values sc) n = Some vs /\ dget (sc_cat_index sc) n = Some ix /\
      (forall v, In v vs <-> exists i, dget ix v = Some i) /\
      forall v i, dget ix v = Some i -> nth_error vs i = Some v;
  so_ord : forall n, dget (sc_types sc) n = Some Ordinal ->
    exists lo hi, dget (sc_ranges sc) n = Some (lo, hi) /\ (lo <= hi)%Z
}.

(** The ordinal features take at least two and at most 128 values. *)
Definition ranges_fit (sc : schema) : Prop := forall n lo hi, dget (sc_ranges sc) n = Some (lo, hi) -> (lo < hi <= lo + 127)%Z.

(** The value that an entry [name: value] of a row stands for, if it is legal:
    a string among the values of a categorical feature, or whatever [int] turns
    into an integer in the range of an ordinal feature. *)
Definition legal_value (sc : schema) (name : string) (value : jval) : option jval :=
  match dget (sc_types sc) name with
  | None => None
  | Some Categorical =>
    match value, dget (sc_cat_values sc) name with
    | JStr s, Some vs => if in_dec string_dec s vs then Some (JStr s) else None
    | _, _ => None
    end
  | Some Ordinal =>
    match py_int value, dget (sc_ranges sc) name with
    | Ok z, Some (lo, hi) => if (lo <=? z)%Z && (z <=? hi)%Z then Some (JInt z) else None
    | _, _ => None
    end
  end.

(** The integer that a number stands for: a float stands for its integer part towards
    zero, a truth value for 0 or 1, a string for the integer it spells. *)
Definition stands_for (value : jval) (z : Z) : Prop :=
  match value with
  | JInt y => y = z
  | JBool b => z = if b then 1%Z else 0%Z
  | JFloat q => if Qle_bool 0 q then (inject_Z z <= q /\ q < inject_Z (z + 1))%Q else (inject_Z (z - 1) < q /\ q <= inject_Z z)%Q
  | JStr s => int_of_str s = Some z
  | _ => False
  end.

(** The values [int] and dict lookup accept or refuse without a fuss: not None,
    not infinite, not a list or dict. *)
Definition tame (value : jval) : Prop :=
  match value with JNone | JInf _ | JList _ | JDict => False | _ => True end.

(** The dict of the non-empty normalised cells of a csv row. *)
Definition csv_entries (header row : list string) : jrow :=
  filter (fun '(_, v) => match v with JStr s => negb (String.eqb s EmptyString) | _ => true end)
    (map (fun '(name, value) => (name, JStr (normalize_string value))) (combine header row)).

(** A Python dict has each key once. *)
Definition keys_once {A} (d : sdict A) : Prop := NoDup (map fst d).
