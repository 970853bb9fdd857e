(** [load_schema] of format.py with the groups file read as it was meant. *)
From Coq Require Import String Ascii.
From Coq Require Import List Arith ZArith Reals Bool.
From Verif Require Import Base M_Structure M_Util M_Strings M_Format.
Import ListNotations.
Open Scope list_scope.
Open Scope nat_scope.

(** format.py:317-340 with line 334 changed to
      group, logit, source, target = row[:4]  *)
Definition repaired_load_groups (float_ : string -> option R) (groups_csv : option (list (list string))) : result groups :=
  match groups_csv with
  | None => Ok ([], [], [])
  | Some csv =>
    '(header, rows) <- next_row csv ;;
    _ <- check_header header 0 "group" ;;
    _ <- check_header header 1 "logit" ;;
    _ <- check_header header 2 "source" ;;
    _ <- check_header header 3 "target" ;;
    foldM (fun '(logits, sources, targets) row =>
      if length row <? 4 then Ok (logits, sources, targets)
      else
        match firstn 4 row with
        | [group; logit; source; target] =>
          logits <- (if String.eqb logit EmptyString then Ok logits
                     else match float_ logit with None => Raise ValueError | Some x => Ok (dset logits group x) end) ;;
          let sources := if String.eqb source EmptyString then sources
                         else dset sources group (str_add (dget_default sources group []) source) in
          let targets := if String.eqb target EmptyString then targets
                         else dset targets group (str_add (dget_default targets group []) target) in
          Ok (logits, sources, targets)
        | _ => Raise ValueError
        end) rows ([], [], [])
  end.

(** format.py:267-389 [load_schema] with it. *)
Definition repaired_load_schema (float_ : string -> option R) (types_csv values_csv : list (list string))
    (groups_csv : option (list (list string))) : result schema :=
  '(names, types) <- load_types types_csv ;;
  '(cats, ords) <- load_values types values_csv ;;
  match names with
  | [] => Raise ValueError
  | _ =>
    g <- repaired_load_groups float_ groups_csv ;;
    '(cv, ci, ranges) <- value_indices types cats ords ;;
    '(ri, index) <- ragged_layout names types cv ;;
    prior <- load_prior (length names) index g ;;
    Ok (Schema names index types cv ci ranges ri prior)
  end.

(** format.py:369-379, the tree prior, with lines 377-378 changed to
      if v1 != v2:
          tree_prior[find_complete_edge(v1, v2)] = logit  *)
Definition repaired_load_prior (V : nat) (index : sdict nat) (g : groups) : result (list R) :=
  let '(logits, sources, targets) := g in
  let K := V * (V - 1) / 2 in
  foldM (fun prior '(group, logit) =>
    foldM (fun prior source =>
      v1 <- dget_ index source ;;
      foldM (fun prior target =>
        v2 <- dget_ index target ;;
        if v1 =? v2 then Ok prior else put IndexError prior (find_complete_edge v1 v2) logit)
        (dget_default targets group []) prior)
      (dget_default sources group []) prior)
    logits (repeat 0%R K).

(** format.py:267-389 [load_schema] with both. *)
Definition cliques_load_schema (float_ : string -> option R) (types_csv values_csv : list (list string))
    (groups_csv : option (list (list string))) : result schema :=
  '(names, types) <- load_types types_csv ;;
  '(cats, ords) <- load_values types values_csv ;;
  match names with
  | [] => Raise ValueError
  | _ =>
    g <- repaired_load_groups float_ groups_csv ;;
    '(cv, ci, ranges) <- value_indices types cats ords ;;
    '(ri, index) <- ragged_layout names types cv ;;
    prior <- repaired_load_prior (length names) index g ;;
    Ok (Schema names index types cv ci ranges ri prior)
  end.
