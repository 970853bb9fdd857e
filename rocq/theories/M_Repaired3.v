(** Training, guessing of schemas and parameter files with one thing repaired
    in each. *)
From Coq Require Import String Ascii.
From Coq Require Import List Arith ZArith Reals Bool.
From Verif Require Import Base Spec_Sum M_Array M_Structure M_Rand M_Util M_Training M_Strings M_Format M_Config M_Validate.
Import ListNotations.
Open Scope list_scope.
Open Scope nat_scope.

(** training.py:577-594 [compute_edge_logits] with line 584 changed to
      if len(self._added_rows) == self._num_rows:  *)
Definition repaired_compute_edge_logits (lg : R -> R) (tb : table) (tree_prior : list R) (M : nat) (s : tstate)
  : result (list R) :=
  (let V := num_cols tb in
   let N := num_rows tb in
   let vert_logits := fun v => logprob_dc lg (vec M (s_vert s v)) vert_prior in
   let rows := if length (s_added s) =? N then map (s_asg s) (seq 0 N) else map (s_asg s) (s_added s) in
   grid <- make_complete_graph V ;;
   logits <- compute_edge_logits_seq lg N M V grid rows vert_logits ;;
   Ok (map (fun '(x, p) => x + p)%R (combine logits tree_prior)))%res.

(** format.py:201-215 with line 204 changed to
      for name in set(header):  *)
Definition repaired_guess_file (st : gstats) (file : string * list (list string)) : result gstats :=
  '(header, rows) <- next_row (snd file) ;;
  let names := fold_left str_add header (gs_names st) in
  let sources := fold_left (fun s name => dset s name (dget_default s name [] ++ [fst file])) (fold_left str_add header []) (gs_sources st) in
  let st := GStats (gs_totals st) (gs_values st) names sources in
  Ok (fold_left (fun st row => fold_left guess_cell (combine header row) st) rows st).

(** format.py:186-264 [guess_schema] with it. *)
Definition repaired_guess_schema (files : list (string * list (list string))) : result (list (list string) * list (list string)) :=
  st <- foldM repaired_guess_file files (GStats [] [] [] []) ;;
  let counts name := dget_default (gs_values st) name [] in
  let names := str_sort (gs_names st) in
  let total name := dget_default (gs_totals st) name 0 in
  let typename name := match guess_feature_type (total name) (frequent_values (counts name)) with
                       | Some t => type_name t | None => EmptyString end in
  Ok (["name"; "type"; "total"; "unique"; "singletons"; "source"]%string ::
      map (fun name => [name; typename name; str_nat (total name); str_nat (length (counts name));
                        str_nat (length (filter (fun '(_, c) => c =? 1) (counts name)));
                        String.concat "," (dget_default (gs_sources st) name [])]) names,
      ["name"; "value"; "count"]%string ::
      concat (map (fun name => map (fun '(v, c) => [name; v; str_nat c]) (frequent_values (counts name))) names)).

(** validate.py:64-93 [read_param_csv] with line 79 changed to
      num_parts = options.setdefault('model_ensemble_size', 4)  *)
Definition repaired_read_param_csv (lines : list (list string)) (options : dict) : result (list string * list dict) :=
  read_param_csv lines
    (match lookup options "model_ensemble_size" with
     | Some _ => options
     | None => options ++ [("model_ensemble_size"%string, PInt 4)]
     end).
