(** import_rows and add_panning_to_svg, with one thing repaired in each. *)
From Coq Require Import String Ascii.
From Coq Require Import List Arith ZArith Reals Bool.
From Verif Require Import Base M_Util M_Strings M_Format M_Plot2.
Import ListNotations.
Open Scope list_scope.
Open Scope nat_scope.

(** format.py:484-500 with line 486 changed to
      except (KeyError, TypeError):
    and line 493 to
      except (ValueError, TypeError, OverflowError):  *)
Definition repaired_categorical (row : list Z) (pos : nat) (index : sdict nat) (value : jval) : result (option (list Z)) :=
  match py_index index value with
  | Raise KeyError | Raise TypeError => Ok None
  | Raise e => Raise e
  | Ok i => r <- put IndexError row (pos + i) 1%Z ;; Ok (Some r)
  end.
Definition repaired_ordinal (row : list Z) (pos : nat) (min_max : Z * Z) (value : jval) : result (option (list Z)) :=
  match py_int value with
  | Raise ValueError | Raise TypeError | Raise OverflowError => Ok None
  | Raise e => Raise e
  | Ok z =>
    if (z <? fst min_max)%Z || (snd min_max <? z)%Z then Ok None
    else
      r <- put IndexError row (pos + 0) (int8 (z - fst min_max)) ;;
      r <- put IndexError r (pos + 1) (int8 (snd min_max - z)) ;;
      Ok (Some r)
  end.

(** format.py:478-500 with these. *)
Definition repaired_import_cell (sc : schema) (row : list Z) (entry : string * jval) : result (list Z) :=
  let '(name, value) := entry in
  match dget (sc_index sc) name with
  | None => Ok row
  | Some v =>
    pos <- get IndexError (sc_ri sc) v ;;
    t <- dget_ (sc_types sc) name ;;
    out <- match t with
           | Categorical => index <- dget_ (sc_cat_index sc) name ;; repaired_categorical row pos index value
           | Ordinal => min_max <- dget_ (sc_ranges sc) name ;; repaired_ordinal row pos min_max value
           end ;;
    Ok (match out with None => row | Some row => row end)
  end.

(** format.py:450-501 [import_rows] with these. *)
Definition repaired_import_rows (sc : schema) (rows : rows_arg) : result (list (list Z)) :=
  match rows with
  | OneRow _ => Raise AssertionError
  | Rows rows =>
    R <- last_index (sc_ri sc) ;;
    mapM (fun external_row => foldM (repaired_import_cell sc) external_row (repeat 0%Z R)) rows
  end.

(** os.replace: the file [a] is moved to [b]. *)
Definition replace_file (fs : files) (a b : string) : files :=
  fun p => if String.eqb p b then fs a else if String.eqb p a then None else fs p.

(** plotting.py:257-288 [add_panning_to_svg] with lines 286-288 changed to
      with open(destin + '.tmp', 'w') as f:
          for line in destin_lines:
              f.write(line)
      os.replace(destin + '.tmp', destin)  *)
Definition repaired_add_panning (svgpan : string) (fs : files) (source : string) (destin : option string) : result unit * list files :=
  let destin := match destin with None => source | Some d => d end in
  match fs source with
  | None => (Raise OSError, [fs])
  | Some content =>
    match panned svgpan (file_lines content) with
    | Raise e => (Raise e, [fs])
    | Ok destin_lines =>
      let tmp := (destin ++ ".tmp")%string in
      let opened := set_file fs tmp EmptyString in
      let written := write_lines opened tmp destin_lines in
      (Ok tt, fs :: opened :: written ++ [replace_file (last written opened) tmp destin])
    end
  end.
