(** Rows of dicts and rows of the table. *)
From Coq Require Import String Ascii.
From Coq Require Import List Arith ZArith Bool Reals.
From Verif Require Import Base Spec_MST M_Rand M_Util M_Training M_Serving M_EnsembleServer M_Format M_DataServer Spec_Ragged Spec_Schema Spec_Serving.
Import ListNotations.
Open Scope list_scope.
Open Scope nat_scope.

(** A row of the table observes position [v]: not all of its block is zero. *)
Definition observes (ws : list nat) (row : list Z) (v : nat) : Prop :=
  exists q, owns ws v q /\ nth q row 0%Z <> 0%Z.
(** Some row of the table observes the feature called [name]. *)
Definition ever_observed (sc : schema) (data : list (list Z)) (name : string) : Prop :=
  exists v row, dget (sc_index sc) name = Some v /\ In row data /\ observes (widths sc) row v.

(** A dict with a legal value for each feature that is observed in the table and
    nothing else. *)
Definition full_row (sc : schema) (data : list (list Z)) (row : jrow) : Prop :=
  keys_once row /\ forall name,
    (ever_observed sc data name -> exists x, dget row name = Some x /\ legal_value sc name x = Some x) /\
    (~ ever_observed sc data name -> dget row name = None).

(** Evidence that import_rows accepts. *)
Definition tame_row (row : jrow) : Prop := keys_once row /\ forall name value, In (name, value) row -> tame value.

(** [d] serves the models [ms] and the dataset imported from csv files none of
    which has two columns of the same name.  The ordinal features have at least
    two and at most 128 values; the models are valid models of the table. *)
Record served (sc : schema) (data : list (list Z)) (ms : list smodel) (d : dserver) : Prop := {
  sd_import : exists float_ csvs types values groups, import_data float_ csvs types values groups = Ok (sc, data) /\
                forall csv, In csv csvs -> NoDup (hd [] csv);
  sd_fit : ranges_fit sc;
  sd_models : ms <> [] /\ exists M N, forall m, In m ms -> consistent (widths sc) (length (sc_names sc)) M N m;
  sd_server : exists mst, mst_contract mst /\ data_server mst (imported_dataset (sc, data)) ms = Ok d
}.

(** The cells of feature [v] of a row are not all zero. *)
Definition observed_cell (ws : list nat) (row : list Z) (v : nat) : bool :=
  existsb (fun q => negb (Z.eqb (nth q row 0%Z) 0%Z)) (seq (list_sum (firstn v ws)) (nth v ws 0)).

(** Every categorical feature lists each of its values once. *)
Definition values_once (sc : schema) : Prop := forall name vs, dget (sc_cat_values sc) name = Some vs -> NoDup vs.

(** Lists of dicts that agree on the features called [names]. *)
Definition same_value (a b : option jval) : bool :=
  match a, b with
  | None, None => true
  | Some (JStr s), Some (JStr t) => String.eqb s t
  | Some (JInt x), Some (JInt y) => Z.eqb x y
  | _, _ => false
  end.
Definition agree (names : list string) (outs rows : list jrow) : bool :=
  (length outs =? length rows) &&
  forallb (fun '(out, row) => forallb (fun n => same_value (dget out n) (dget row n)) names) (combine outs rows).

(** In how many orders the observations of a row can be made: 1 if each feature
    has at most one observation. *)
Definition row_orders (ws : list nat) (x : list Z) : R :=
  arrangements ws (map (block_sum ws x) (seq 0 (length ws))) x.
