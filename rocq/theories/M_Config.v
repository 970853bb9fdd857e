(** treecat/config.py. *)
From Coq Require Import String Ascii.
From Coq Require Import List ZArith Decimal DecimalString.
From Verif Require Import Base.
Import ListNotations.
Open Scope string_scope.

(** Python values that occur in a config: ints and bools. *)
Inductive pyval := PInt (z : Z) | PBool (b : bool).

(** [int(value)]. *)
Definition to_int (v : pyval) : Z := match v with PInt z => z | PBool true => 1%Z | PBool false => 0%Z end.

(** Dicts: association lists in insertion order, without repeated keys. *)
Definition dict := list (string * pyval).

Fixpoint lookup (d : dict) (k : string) : option pyval :=
  match d with [] => None | (k', v) :: t => if String.eqb k k' then Some v else lookup t k end.

Definition keys (d : dict) : list string := map fst d.

(** [d[k] = v]. *)
Fixpoint dict_set (d : dict) (k : string) (v : pyval) : dict :=
  match d with
  | [] => [(k, v)]
  | (k', v') :: t => if String.eqb k k' then (k', v) :: t else (k', v') :: dict_set t k v
  end.

(** [sorted(list of strings)]. *)
Fixpoint str_insert (s : string) (l : list string) : list string :=
  match l with [] => [s] | x :: t => if String.leb s x then s :: x :: t else x :: str_insert s t end.
Fixpoint str_sort (l : list string) : list string :=
  match l with [] => [] | x :: t => str_insert x (str_sort t) end.

(** config.py:6-16. *)
Definition DEFAULT_CONFIG : dict :=
  [ ("seed", PInt 0);
    ("model_num_clusters", PInt 32);
    ("model_latent_dim", PInt 0);
    ("model_ensemble_size", PInt 8);
    ("learning_init_epochs", PInt 100);
    ("learning_full_epochs", PInt 1);
    ("learning_estimate_tree", PBool true);
    ("learning_sample_tree_rate", PInt 3);
    ("learning_parallel", PBool false) ].

(** config.py:19-27 [make_config]; the keyword arguments are a dict. *)
Definition make_config (options : dict) : result dict :=
  foldM (fun config '(key, value) =>
           match lookup config key with
           | None => Raise ValueError
           | Some _ => Ok (dict_set config key (PInt (to_int value)))
           end)
    options DEFAULT_CONFIG.

(** [str(z)] for an int. *)
Definition str_int (z : Z) : string := NilZero.string_of_int (Z.to_int z).

Fixpoint keys_eqb (a b : list string) : bool :=
  match a, b with
  | [], [] => true
  | x :: a, y :: b => String.eqb x y && keys_eqb a b
  | _, _ => false
  end.

(** config.py:30-34 [serialize_config]. *)
Definition serialize_config (config : dict) : result string :=
  default <- make_config [] ;;
  let ks := str_sort (keys config) in
  _ <- assert_ (keys_eqb ks (str_sort (keys default))) ;;
  vs <- mapM (fun k => match lookup config k with
                       | Some v => Ok (str_int (to_int v))
                       | None => Raise KeyError end) ks ;;
  Ok (String.concat "-" vs).

(** [s.split('-')]. *)
Fixpoint split_dash (s : string) : list string :=
  match s with
  | EmptyString => [EmptyString]
  | String c s => if Ascii.eqb c "-" then EmptyString :: split_dash s
                  else match split_dash s with
                       | [] => [String c EmptyString]
                       | l :: t => String c l :: t
                       end
  end.

(** [int(s)]: an optional minus sign and decimal digits; the other spellings
    Python accepts (blanks, underscores, a plus sign) are treated as errors. *)
Definition parse_int (s : string) : result Z :=
  match NilZero.int_of_string s with Some d => Ok (Z.of_int d) | None => Raise ValueError end.

(** config.py:37-45 [deserialize_config]. *)
Definition deserialize_config (config_str : string) : result dict :=
  config <- make_config [] ;;
  let ks := str_sort (keys config) in
  let values := split_dash config_str in
  _ <- assert_ (length ks =? length values)%nat ;;
  foldM (fun config '(key, value_str) => z <- parse_int value_str ;; Ok (dict_set config key (PInt z)))
    (combine ks values) config.
