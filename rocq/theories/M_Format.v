(** treecat/format.py: schemas, csv loading, import and export of rows.

    A csv file is modelled by what [csv.reader] yields for it, a list of rows of
    strings, and by what is given to [csv.writer]; the csv module, the encoding
    and the file system are trusted.  Printing is left out. *)
From Coq Require Import String Ascii.
From Coq Require Import List Arith ZArith QArith Reals Bool.
From Verif Require Import Base M_Structure M_Util M_Config M_Strings.
Import ListNotations.
Open Scope list_scope.
Open Scope nat_scope.

(** Dicts with string keys: association lists in insertion order. *)
Definition sdict (A : Type) := list (string * A).
Fixpoint dget {A} (d : sdict A) (k : string) : option A :=
  match d with [] => None | (k', v) :: t => if String.eqb k k' then Some v else dget t k end.
Fixpoint dset {A} (d : sdict A) (k : string) (v : A) : sdict A :=
  match d with
  | [] => [(k, v)]
  | (k', v') :: t => if String.eqb k k' then (k', v) :: t else (k', v') :: dset t k v
  end.
(** [d[k]]: KeyError when absent. *)
Definition dget_ {A} (d : sdict A) (k : string) : result A :=
  match dget d k with Some v => Ok v | None => Raise KeyError end.
(** [d[k]] of a defaultdict. *)
Definition dget_default {A} (d : sdict A) (k : string) (default : A) : A :=
  match dget d k with Some v => v | None => default end.
Definition str_in (k : string) (l : list string) : bool := existsb (String.eqb k) l.
Definition str_add (l : list string) (k : string) : list string := if str_in k l then l else l ++ [k].

(** format.py:34-36 [VALID_TYPES]; type names are parsed when a schema is loaded. *)
Inductive ftype := Categorical | Ordinal.
Definition parse_type (s : string) : option ftype :=
  if String.eqb s "categorical"%string then Some Categorical
  else if String.eqb s "ordinal"%string then Some Ordinal else None.
Definition type_name (t : ftype) : string :=
  match t with Categorical => "categorical"%string | Ordinal => "ordinal"%string end.
(** format.py:37 [MAX_CATEGORIES]. *)
Definition MAX_CATEGORIES : nat := 20.

(** The dict returned by load_schema (format.py:380-389). *)
Record schema := Schema {
  sc_names : list string;                 (* feature_names *)
  sc_index : sdict nat;                   (* feature_index *)
  sc_types : sdict ftype;                 (* feature_types *)
  sc_cat_values : sdict (list string);    (* categorical_values *)
  sc_cat_index : sdict (sdict nat);       (* categorical_index *)
  sc_ranges : sdict (Z * Z);              (* ordinal_ranges *)
  sc_ri : list nat;                       (* ragged_index *)
  sc_prior : list R                       (* tree_prior *)
}.

(** [assert header[i].lower() == name]. *)
Definition check_header (header : list string) (i : nat) (name : string) : result unit :=
  h <- get IndexError header i ;; assert_ (String.eqb (lower h) name).
(** [header = next(reader)]. *)
Definition next_row (rows : list (list string)) : result (list string * list (list string)) :=
  match rows with [] => Raise StopIteration | r :: t => Ok (r, t) end.

(** format.py:271-288, the types file. *)
Definition load_types (types_csv : list (list string)) : result (list string * sdict ftype) :=
  '(header, rows) <- next_row types_csv ;;
  _ <- check_header header 0 "name" ;;
  _ <- check_header header 1 "type" ;;
  foldM (fun '(names, types) row =>
    if length row <? 2 then Ok (names, types)
    else
      let name := nth 0 row EmptyString in
      let typename := nth 1 row EmptyString in
      if String.eqb typename EmptyString then Ok (names, types)
      else match parse_type typename with
           | None => Raise ValueError
           | Some t => Ok (names ++ [name], dset types name t)
           end) rows ([], []).

(** format.py:290-311, the values file. *)
Definition load_values (types : sdict ftype) (values_csv : list (list string)) : result (sdict (list string) * sdict (list Z)) :=
  '(header, rows) <- next_row values_csv ;;
  _ <- check_header header 0 "name" ;;
  _ <- check_header header 1 "value" ;;
  foldM (fun '(cats, ords) row =>
    if length row <? 2 then Ok (cats, ords)
    else
      let name := nth 0 row EmptyString in
      let value := nth 1 row EmptyString in
      match dget types name with
      | None => Ok (cats, ords)
      | Some Categorical => Ok (dset cats name (dget_default cats name [] ++ [value]), ords)
      | Some Ordinal =>
        match int_of_str value with
        | None => Raise ValueError
        | Some z => Ok (cats, dset ords name (dget_default ords name [] ++ [z]))
        end
      end) rows ([], []).

(** format.py:317-340, the optional groups file; [float_] is Python's [float] of
    a string, [None] for ValueError. *)
Definition groups := (sdict R * sdict (list string) * sdict (list string))%type.
Definition load_groups (float_ : string -> option R) (groups_csv : option (list (list string))) : result groups :=
  match groups_csv with
  | None => Ok ([], [], [])
  | Some csv =>
    '(header, rows) <- next_row csv ;;
    _ <- check_header header 0 "group" ;;
    _ <- check_header header 1 "logit" ;;
    _ <- check_header header 2 "source" ;;
    _ <- check_header header 3 "target" ;;
    foldM (fun '(logits, sources, targets) row =>
      if length row <? 4 then Ok (logits, sources, targets)
      else
        (* group, logit, source, target = row[:3] *)
        match firstn 3 row with
        | [group; logit; source; target] =>
          logits <- (if String.eqb logit EmptyString then Ok logits
                     else match float_ logit with None => Raise ValueError | Some x => Ok (dset logits group x) end) ;;
          let sources := if String.eqb source EmptyString then sources
                         else dset sources group (str_add (dget_default sources group []) source) in
          let targets := if String.eqb target EmptyString then targets
                         else dset targets group (str_add (dget_default targets group []) target) in
          Ok (logits, sources, targets)
        | _ => Raise ValueError
        end) rows ([], [], [])
  end.

(** The smallest and the largest element: [sorted(values)[0]] and [[-1]]. *)
Definition zrange (l : list Z) : result (Z * Z) :=
  match l with
  | [] => Raise IndexError
  | x :: t => Ok (fold_left Z.min t x, fold_left Z.max t x)
  end.

(** [{v: i for i, v in enumerate(values)}]. *)
Definition enumerate_dict (values : list string) : sdict nat :=
  fold_left (fun d '(i, v) => dset d v i) (combine (seq 0 (length values)) values) [].

(** format.py:342-353. *)
Definition value_indices (types : sdict ftype) (cats : sdict (list string)) (ords : sdict (list Z))
  : result (sdict (list string) * sdict (sdict nat) * sdict (Z * Z)) :=
  foldM (fun '(cv, ci, ranges) '(name, t) =>
    match t with
    | Categorical =>
      let values := dget_default cv name [] in
      Ok (dset cv name values, dset ci name (enumerate_dict values), ranges)
    | Ordinal =>
      r <- zrange (dget_default ords name []) ;;
      Ok (cv, ci, dset ranges name r)
    end) types (cats, [], []).

(** format.py:359-366, the width of a feature. *)
Definition feature_dim (types : sdict ftype) (cv : sdict (list string)) (name : string) : result nat :=
  t <- dget_ types name ;;
  match t with Categorical => Ok (length (dget_default cv name [])) | Ordinal => Ok 2 end.

(** format.py:355-367, the ragged index and the feature index. *)
Definition ragged_layout (names : list string) (types : sdict ftype) (cv : sdict (list string)) : result (list nat * sdict nat) :=
  foldM (fun '(ri, index) '(pos, name) =>
    let index := dset index name pos in
    dim <- feature_dim types cv name ;;
    prev <- get IndexError ri pos ;;
    Ok (ri ++ [prev + dim], index))
    (combine (seq 0 (length names)) names) ([0], []).

(** format.py:369-379, the tree prior. *)
Definition load_prior (V : nat) (index : sdict nat) (g : groups) : result (list R) :=
  let '(logits, sources, targets) := g in
  let K := V * (V - 1) / 2 in
  foldM (fun prior '(group, logit) =>
    foldM (fun prior source =>
      v1 <- dget_ index source ;;
      foldM (fun prior target =>
        v2 <- dget_ index target ;;
        put IndexError prior (find_complete_edge v1 v2) logit)
        (dget_default targets group []) prior)
      (dget_default sources group []) prior)
    logits (repeat 0%R K).

(** format.py:267-389 [load_schema]. *)
Definition load_schema (float_ : string -> option R) (types_csv values_csv : list (list string))
    (groups_csv : option (list (list string))) : result schema :=
  '(names, types) <- load_types types_csv ;;
  '(cats, ords) <- load_values types values_csv ;;
  match names with
  | [] => Raise ValueError
  | _ =>
    g <- load_groups float_ groups_csv ;;
    '(cv, ci, ranges) <- value_indices types cats ords ;;
    '(ri, index) <- ragged_layout names types cv ;;
    prior <- load_prior (length names) index g ;;
    Ok (Schema names index types cv ci ranges ri prior)
  end.

(** JSON-like Python values.  A finite float is an exact rational. *)
Inductive jval :=
| JStr (s : string) | JInt (z : Z) | JBool (b : bool)
| JFloat (q : Q) | JNan | JInf (negative : bool)
| JNone | JList (l : list jval) | JDict.

(** [int(value)]. *)
Definition py_int (v : jval) : result Z :=
  match v with
  | JStr s => match int_of_str s with Some z => Ok z | None => Raise ValueError end
  | JInt z => Ok z
  | JBool b => Ok (if b then 1 else 0)%Z
  | JFloat q => Ok (Z.quot (Qnum q) (Zpos (Qden q)))
  | JNan => Raise ValueError
  | JInf _ => Raise OverflowError
  | JNone | JList _ | JDict => Raise TypeError
  end.

(** [index[value]] for a dict with string keys: KeyError for another hashable
    value, TypeError for an unhashable one. *)
Definition py_index (index : sdict nat) (v : jval) : result nat :=
  match v with
  | JStr s => dget_ index s
  | JList _ | JDict => Raise TypeError
  | _ => Raise KeyError
  end.

(** The body of the loops at format.py:423-438 and 484-500: writing one cell.
    [None] means that the cell is skipped ([continue]).  Storing into the int8
    row wraps around; ranges beyond 64 bits are not modelled. *)
Definition write_categorical (row : list Z) (pos : nat) (index : sdict nat) (value : jval) : result (option (list Z)) :=
  match py_index index value with
  | Raise KeyError => Ok None
  | Raise e => Raise e
  | Ok i => r <- put IndexError row (pos + i) 1%Z ;; Ok (Some r)
  end.
Definition write_ordinal (row : list Z) (pos : nat) (min_max : Z * Z) (value : jval) : result (option (list Z)) :=
  match py_int value with
  | Raise ValueError => Ok None
  | Raise e => Raise e
  | Ok z =>
    if (z <? fst min_max)%Z || (snd min_max <? z)%Z then Ok None
    else
      r <- put IndexError row (pos + 0) (int8 (z - fst min_max)) ;;
      r <- put IndexError r (pos + 1) (int8 (snd min_max - z)) ;;
      Ok (Some r)
  end.

(** format.py:404-413: what is kept of a header cell. *)
Definition meta := (string * ftype * nat * option (sdict nat) * option (Z * Z))%type.
Definition header_meta (sc : schema) (name : string) : result (option meta) :=
  match dget (sc_types sc) name with
  | None => Ok None
  | Some t =>
    v <- dget_ (sc_index sc) name ;;
    pos <- get IndexError (sc_ri sc) v ;;
    Ok (Some (name, t, pos, dget (sc_cat_index sc) name, dget (sc_ranges sc) name))
  end.

(** format.py:415-439, one cell of a csv row; the second component counts cells.
    [index[value]] and [min_max[0]] of None raise TypeError. *)
Definition load_cell (st : list Z * nat) (cell : string * option meta) : result (list Z * nat) :=
  let '(row, cells) := st in
  match snd cell with
  | None => Ok (row, cells)
  | Some (name, t, pos, index, min_max) =>
    let value := normalize_string (fst cell) in
    if String.eqb value EmptyString then Ok (row, cells)
    else
      out <- match t with
             | Categorical => match index with Some index => write_categorical row pos index (JStr value) | None => Raise TypeError end
             | Ordinal => match min_max with
                          | Some min_max => write_ordinal row pos min_max (JStr value)
                          | None => match int_of_str value with None => Ok None | Some _ => Raise TypeError end
                          end
             end ;;
      Ok (match out with None => (row, cells) | Some row => (row, S cells) end)
  end.
Definition load_csv_row (R : nat) (metas : list (option meta)) (external_row : list string) : result (list Z * nat) :=
  foldM load_cell (combine external_row metas) (repeat 0%Z R, 0).

(** format.py:392-447 [load_data].  The message printed at the end divides by
    the number of rows and by the number of features. *)
Definition load_data (sc : schema) (data_csv : list (list string)) : result (list (list Z)) :=
  R <- last_index (sc_ri sc) ;;
  '(header, rows) <- next_row data_csv ;;
  metas <- mapM (header_meta sc) header ;;
  out <- mapM (load_csv_row R metas) rows ;;
  match out, sc_types sc with
  | [], _ | _, [] => Raise ZeroDivisionError
  | _, _ => Ok (map fst out)
  end.

(** A row of JSON data. *)
Definition jrow := sdict jval.
(** What a caller may pass where rows are expected. *)
Inductive rows_arg := Rows (l : list jrow) | OneRow (r : jrow).

(** format.py:478-500, one entry of a row. *)
Definition import_cell (sc : schema) (row : list Z) (entry : string * jval) : result (list Z) :=
  let '(name, value) := entry in
  match dget (sc_index sc) name with
  | None => Ok row
  | Some v =>
    pos <- get IndexError (sc_ri sc) v ;;
    t <- dget_ (sc_types sc) name ;;
    out <- match t with
           | Categorical => index <- dget_ (sc_cat_index sc) name ;; write_categorical row pos index value
           | Ordinal => min_max <- dget_ (sc_ranges sc) name ;; write_ordinal row pos min_max value
           end ;;
    Ok (match out with None => row | Some row => row end)
  end.

(** format.py:450-501 [import_rows]. *)
Definition import_rows (sc : schema) (rows : rows_arg) : result (list (list Z)) :=
  match rows with
  | OneRow _ => Raise AssertionError
  | Rows rows =>
    R <- last_index (sc_ri sc) ;;
    mapM (fun external_row => foldM (import_cell sc) external_row (repeat 0%Z R)) rows
  end.

(** [x.argmax()] of an integer vector: the first index of a maximal entry. *)
Fixpoint zargmax_from (best : Z) (ibest i : nat) (l : list Z) : nat :=
  match l with
  | [] => ibest
  | x :: t => if (best <? x)%Z then zargmax_from x i (S i) t else zargmax_from best ibest (S i) t
  end.
Definition zargmax (l : list Z) : result nat :=
  match l with [] => Raise ValueError | x :: t => Ok (zargmax_from x 0 1 t) end.

(** format.py:525-543, one feature of one row. *)
Definition export_cell (sc : schema) (internal_row : list Z) (row : jrow) (vn : nat * string) : result jrow :=
  let '(v, name) := vn in
  beg <- get IndexError (sc_ri sc) v ;; fin <- get IndexError (sc_ri sc) (v + 1) ;;
  let cell := slice internal_row beg fin in
  if forallb (Z.eqb 0) cell then Ok row
  else
    t <- dget_ (sc_types sc) name ;;
    value <- match t with
             | Categorical =>
               _ <- assert_ (Z.eqb (zsum cell) 1) ;;
               values <- dget_ (sc_cat_values sc) name ;;
               i <- zargmax cell ;;
               s <- get IndexError values i ;; Ok (JStr s)
             | Ordinal =>
               min_max <- dget_ (sc_ranges sc) name ;;
               _ <- assert_ (Z.eqb (zsum cell) (snd min_max - fst min_max)) ;;
               c <- get IndexError cell 0 ;; Ok (JInt (c + fst min_max))
             end ;;
    Ok (dset row name value).

(** format.py:504-544 [export_rows]; [ncols] is [data.shape[1]]. *)
Definition export_rows (sc : schema) (ncols : nat) (data : list (list Z)) : result (list jrow) :=
  R <- last_index (sc_ri sc) ;;
  _ <- assert_ (ncols =? R) ;;
  mapM (fun internal_row => foldM (export_cell sc internal_row) (combine (seq 0 (length (sc_names sc))) (sc_names sc)) []) data.

(** format.py:548-577 [import_data]: the schema and the table's data, of the
    concatenated files.  The warnings and the file written are left out;
    [data[:, beg:end].max(1)] fails for a feature without values. *)
Definition row_max (l : list Z) : result Z :=
  match l with [] => Raise ValueError | x :: t => Ok (fold_left Z.max t x) end.
Definition import_data (float_ : string -> option R) (data_csvs : list (list (list string)))
    (types_csv values_csv : list (list string)) (groups_csv : option (list (list string))) : result (schema * list (list Z)) :=
  sc <- load_schema float_ types_csv values_csv groups_csv ;;
  parts <- mapM (load_data sc) data_csvs ;;
  match parts with
  | [] => Raise ValueError
  | _ =>
    let data := concat parts in
    _ <- mapM (fun v =>
      beg <- get IndexError (sc_ri sc) v ;; fin <- get IndexError (sc_ri sc) (v + 1) ;;
      mapM (fun row => row_max (slice row beg fin)) data) (seq 0 (length (sc_names sc))) ;;
    Ok (sc, data)
  end.

(** format.py:157-162 [is_small_int]. *)
Definition is_small_int (value : string) : bool :=
  match int_of_str value with
  | Some z => (0 <=? z)%Z && (z <=? Z.of_nat MAX_CATEGORIES)%Z
  | None => false
  end.

(** format.py:165-182 [guess_feature_type]; [None] is the type ''.  [values] pairs
    values with counts.  [count / 2] is true division. *)
Definition guess_feature_type (count : nat) (values : list (string * nat)) : option ftype :=
  let n := length values in
  if n <=? 1 then None
  else if (n <=? MAX_CATEGORIES) && forallb (fun '(v, _) => is_small_int v) values then Some Ordinal
  else if (2 * n <=? count) && (n <=? MAX_CATEGORIES) then Some Categorical
  else None.

(** Statistics of format.py:197-214. *)
Record gstats := GStats {
  gs_totals : sdict nat;
  gs_values : sdict (sdict nat);
  gs_names : list string;          (* the set feature_names, in order of insertion *)
  gs_sources : sdict (list string)
}.

(** [counter[k] += 1]. *)
Definition incr (d : sdict nat) (k : string) : sdict nat := dset d k (S (dget_default d k 0)).

(** format.py:210-215, one cell. *)
Definition guess_cell (st : gstats) (cell : string * string) : gstats :=
  let '(name, value) := cell in
  let value := normalize_string value in
  if String.eqb value EmptyString then st
  else GStats (incr (gs_totals st) name)
              (dset (gs_values st) name (incr (dget_default (gs_values st) name []) value))
              (gs_names st) (gs_sources st).

(** format.py:201-215, one file: its base name and its rows. *)
Definition guess_file (st : gstats) (file : string * list (list string)) : result gstats :=
  '(header, rows) <- next_row (snd file) ;;
  let names := fold_left str_add header (gs_names st) in
  let sources := fold_left (fun s name => dset s name (dget_default s name [] ++ [fst file])) names (gs_sources st) in
  let st := GStats (gs_totals st) (gs_values st) names sources in
  Ok (fold_left (fun st row => fold_left guess_cell (combine header row) st) rows st).

(** Sorting by a strict order, stably. *)
Section Sort.
Context {A : Type} (lt : A -> A -> bool).
(* x is put before the first y that is not smaller *)
Fixpoint ins (x : A) (l : list A) : list A :=
  match l with [] => [x] | y :: t => if lt y x then y :: ins x t else x :: l end.
Fixpoint isort (l : list A) : list A := match l with [] => [] | x :: t => ins x (isort t) end.
End Sort.

(** [counts.most_common(n)]: by decreasing count, ties in order of insertion. *)
Definition most_common (n : nat) (counts : sdict nat) : sdict nat :=
  firstn n (isort (fun a b => snd b <? snd a) counts).
(** The key [(-vc[1], vc[0])]. *)
Definition vc_lt (a b : string * nat) : bool :=
  (snd b <? snd a) || ((snd a =? snd b) && negb (String.leb (fst b) (fst a))).

(** format.py:221-232: the values kept of a feature. *)
Definition frequent_values (counts : sdict nat) : sdict nat :=
  isort vc_lt (most_common MAX_CATEGORIES (filter (fun '(_, c) => negb (c =? 1)) counts)).

Definition str_nat (n : nat) : string := str_int (Z.of_nat n).

(** format.py:186-264 [guess_schema], from the data files (base name and rows) to
    the rows written to the types file and to the values file. *)
Definition guess_schema (files : list (string * list (list string))) : result (list (list string) * list (list string)) :=
  st <- foldM guess_file files (GStats [] [] [] []) ;;
  let counts name := dget_default (gs_values st) name [] in
  let names := str_sort (gs_names st) in
  let total name := dget_default (gs_totals st) name 0 in
  let typename name := match guess_feature_type (total name) (frequent_values (counts name)) with
                       | Some t => type_name t | None => EmptyString end in
  Ok (["name"; "type"; "total"; "unique"; "singletons"; "source"]%string ::
      map (fun name => [name; typename name; str_nat (total name); str_nat (length (counts name));
                        str_nat (length (filter (fun '(_, c) => c =? 1) (counts name)));
                        String.concat "," (dget_default (gs_sources st) name [])]) names,
      ["name"; "value"; "count"]%string ::
      concat (map (fun name => map (fun '(v, c) => [name; v; str_nat c]) (frequent_values (counts name))) names)).
