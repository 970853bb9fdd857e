(** treecat/validate.py: crossvalidation. *)
From Coq Require Import String Ascii.
From Coq Require Import List Arith ZArith Bool Reals.
From Verif Require Import Base M_Structure M_Util M_Config M_Strings M_Serving.
Import ListNotations.
Open Scope list_scope.
Open Scope nat_scope.

(** The pseudo random numbers: [randint seed parts N V] is the [N, V] array that
    [np.random.randint(parts, size=(N, V))] returns right after
    [set_random_seed(seed)]. *)
Definition rng := Z -> Z -> nat -> nat -> list (list Z).

(** [m.T] of an array [m] with [n] columns. *)
Definition transpose {A} (d : A) (n : nat) (m : list (list A)) : list (list A) :=
  map (fun i => map (fun row => nth i row d) m) (seq 0 n).

(** A boolean [N, R] array; [None] marks uninitialised cells. *)
Definition mask := list (list (option bool)).

(** [make_ragged_mask(ragged_index, dense.T).T] for a [N, V] array [dense]. *)
Definition ragged_mask_T (ri : list nat) (N : nat) (dense : list (list bool)) : result mask :=
  ragged <- make_ragged_mask ri (transpose false (length ri - 1) dense) ;;
  Ok (map (fun n => map (option_map (fun column => nth n column false)) ragged) (seq 0 N)).

(** validate.py:34-61 [split_data]. *)
Definition split_data (randint : rng) (ri : list nat) (N : nat) (num_parts partid : Z) : result mask :=
  _ <- assert_ ((0 <=? partid)%Z && (partid <? num_parts)%Z) ;;
  let V := length ri - 1 in
  R <- last_index ri ;;
  let dense_mask := map (map (Z.eqb partid)) (randint 0%Z num_parts N V) in
  ragged_mask <- ragged_mask_T ri N dense_mask ;;
  _ <- assert_ (forallb (fun row => length row =? R) ragged_mask) ;;
  Ok ragged_mask.

(** [config[k]]. *)
Definition config_int (config : dict) (k : string) : result Z :=
  match lookup config k with Some v => Ok (to_int v) | None => Raise KeyError end.

(** [~mask] and [a & b]. *)
Definition mask_not (m : mask) : mask := map (map (option_map negb)) m.
Definition and_cell (a b : option bool) : option bool :=
  match a, b with Some a, Some b => Some (a && b) | _, _ => None end.
Definition mask_and (a b : mask) : mask := map (fun '(r, s) => map (fun '(x, y) => and_cell x y) (combine r s)) (combine a b).

(** [data[mask] = 0]; IndexError if the shapes differ. *)
Definition zero_where (data : list (list Z)) (m : mask) : result (list (list Z)) :=
  if (length data =? length m) && forallb (fun '(r, s) => length r =? length s) (combine data m)
  then Ok (map (fun '(r, s) => map (fun '(x, b) => match b with Some true => 0%Z | _ => x end) (combine r s)) (combine data m))
  else Raise IndexError.

(** validate.py:96-112 [train_task], up to the call of train_model: the data the
    model is trained on.  process_train_task (121-138) runs it in a process of
    its own with [-O], where failed assertions go unnoticed; here they raise. *)
Definition train_task_data (randint : rng) (ri : list nat) (data : list (list Z)) (config_str : string) : result (list (list Z)) :=
  config <- deserialize_config config_str ;;
  num_parts <- config_int config "model_ensemble_size" ;;
  partid <- config_int config "seed" ;;
  _ <- assert_ ((0 <=? partid)%Z && (partid <? num_parts)%Z) ;;
  m <- split_data randint ri (length data) num_parts partid ;;
  zero_where data m.

(** validate.py:121-124 and 158-159: the file of the model. *)
Definition model_file (config : dict) : result string :=
  config_str <- serialize_config config ;;
  Ok ("model." ++ config_str ++ ".pkz")%string.

(** validate.py:168-181 of [process_eval_task]: the mask, the training data and
    the validation data. *)
Definition eval_split (randint : rng) (ri : list nat) (data : list (list Z)) (config : dict)
  : result (mask * list (list Z) * list (list Z)) :=
  num_parts <- config_int config "model_ensemble_size" ;;
  partid <- config_int config "seed" ;;
  _ <- assert_ ((0 <=? partid)%Z && (partid <? num_parts)%Z) ;;
  m <- split_data randint ri (length data) num_parts partid ;;
  training_data <- zero_where data m ;;
  validation_data <- zero_where data (mask_not m) ;;
  Ok (m, training_data, validation_data).

(** Elementwise int8 [np.abs(a - b)], summed in a wide integer. *)
Definition abs_diff_sum (a b : list (list Z)) : Z :=
  zsum (map (fun '(r, s) => zsum (map (fun '(x, y) => int8 (Z.abs (int8 (x - y)))) (combine r s))) (combine a b)).

(** [mask.sum()]. *)
Definition mask_sum (m : mask) : Z :=
  zsum (map (fun r => zsum (map (fun b => match b with Some true => 1%Z | _ => 0%Z end) r)) m).

Definition rmean (l : list R) : R := (fold_right Rplus 0 l / INR (length l))%R.

(** validate.py:153-204 [process_eval_task] with the loaded model's server, for a
    dataset with at least one row (with none, numpy's maximum raises ValueError).
    The result is (logprob, l1_loss). *)
Definition eval_scores (randint : rng) (junk : nat -> nat -> nat -> R) (s : server) (ri : list nat) (data : list (list Z)) (config : dict)
  : result (R * R) :=
  '(m, training_data, validation_data) <- eval_split randint ri data config ;;
  full <- logprob s data ;;
  train <- logprob s training_data ;;
  let lp := rmean (map (fun '(a, b) => a - b)%R (combine full train)) in
  R <- last_index ri ;;
  obs_counts <- count_observations ri R data ;;
  max_counts <- col_max obs_counts ;;
  med <- median s junk max_counts training_data ;;
  let observed := map (fun row => map (fun '(c, mx) => Z.eqb c mx) (combine row max_counts)) obs_counts in
  observed <- ragged_mask_T ri (length data) observed ;;
  let relevant := mask_and observed m in
  validation_data <- zero_where validation_data (mask_not relevant) ;;
  med <- zero_where med (mask_not relevant) ;;
  let l1_loss := (1 / 2 * IZR (abs_diff_sum med validation_data))%R in
  Ok (lp, (l1_loss / (IZR (mask_sum relevant) + 1 / 10))%R).

(** [row[0].startswith('#')]. *)
Definition starts_hash (s : string) : bool :=
  match s with String c _ => Ascii.eqb c "#" | EmptyString => false end.

(** validate.py:64-93 [read_param_csv].  [lines] are the rows of the csv file,
    [options] the keyword arguments. *)
Definition read_param_row (num_parts : Z) (header : list string) (st : dict * list dict) (row : list string) : result (dict * list dict) :=
  let '(options, configs) := st in
  if negb (length row =? length header) then Ok st
  else
    first <- get IndexError row 0 ;;
    if starts_hash first then Ok st
    else
      options <- foldM (fun options '(key, value) =>
                   match int_of_str value with
                   | Some z => Ok (dict_set options key (PInt z))
                   | None => Raise ValueError
                   end) (combine header row) options ;;
      new <- mapM (fun partid => make_config (("seed"%string, PInt (Z.of_nat partid)) :: options)) (seq 0 (Z.to_nat num_parts)) ;;
      Ok (options, configs ++ new).

Definition read_param_csv (lines : list (list string)) (options : dict) : result (list string * list dict) :=
  let num_parts := match lookup options "model_ensemble_size" with Some v => to_int v | None => 4%Z end in
  _ <- assert_ (match lookup options "seed" with None => true | Some _ => false end) ;;
  match lines with
  | [] => Raise StopIteration
  | header :: rows =>
    _ <- assert_ (negb (existsb (String.eqb "seed") header)) ;;
    _ <- assert_ (negb (existsb (String.eqb "model_ensemble_size") header)) ;;
    '(_, configs) <- foldM (read_param_row num_parts header) rows (options, []) ;;
    Ok (header, configs)
  end.

(** validate.py:141-151 [train]: the configs that are trained, in order
    ([list.sort] is stable). *)
Fixpoint insert_by {A} (key : A -> Z) (x : A) (l : list A) : list A :=
  match l with [] => [x] | y :: t => if (key x <=? key y)%Z then x :: y :: t else y :: insert_by key x t end.
Fixpoint sort_by {A} (key : A -> Z) (l : list A) : list A :=
  match l with [] => [] | x :: t => insert_by key x (sort_by key t) end.
Definition train_configs (lines : list (list string)) (options : dict) : result (list dict) :=
  '(_, configs) <- read_param_csv lines options ;;
  _ <- mapM (fun c => config_int c "learning_init_epochs") configs ;;
  Ok (sort_by (fun c => match lookup c "learning_init_epochs" with Some v => to_int v | None => 0%Z end) configs).
