(** Crossvalidation. *)
From Coq Require Import String.
From Coq Require Import List Arith ZArith Permutation Reals.
From Verif Require Import Base Spec_Ragged Spec_Sum M_Config M_Strings M_Validate.
Import ListNotations.
Open Scope list_scope.
Open Scope nat_scope.

(** What numpy guarantees of [randint]: the requested shape and range. *)
Definition rng_contract (randint : rng) : Prop := forall seed parts N V, (0 < parts)%Z ->
  length (randint seed parts N V) = N /\
  forall row, In row (randint seed parts N V) -> length row = V /\ forall x, In x row -> (0 <= x < parts)%Z.

(** Entry [p] of row [n] is held out. *)
Definition held_out (m : mask) (n p : nat) : Prop := nth p (nth n m []) None = Some true.

(** A table whose rows all have length [R]. *)
Definition shaped {A} (N R : nat) (t : list (list A)) : Prop :=
  length t = N /\ forall row, In row t -> length row = R.

Definition entry (t : list (list Z)) (n p : nat) : Z := nth p (nth n t []) 0%Z.

(** The integer stored under a key. *)
Definition setting (c : dict) (k : string) : option Z := option_map to_int (lookup c k).

(** The known parameters. *)
Definition params : list string := map fst DEFAULT_CONFIG.

(** The rows of a parameter file that count: as many cells as the header, and not
    commented out. *)
Definition used (header row : list string) : bool :=
  (length row =? length header) && negb (starts_hash (hd EmptyString row)).

(** [c] is the config of part [part] for a row: the part number as seed, the
    values of the row under the names in the header, the given options and
    otherwise the defaults. *)
Definition describes (options : dict) (header row : list string) (part : nat) (c : dict) : Prop :=
  map fst c = params /\
  setting c "seed" = Some (Z.of_nat part) /\
  (forall j k, nth_error header j = Some k -> (forall i, j < i -> nth_error header i <> Some k) ->
     setting c k = int_of_str (nth j row EmptyString)) /\
  (forall k, k <> "seed"%string -> ~ In k header ->
     setting c k = match setting options k with Some z => Some z | None => setting DEFAULT_CONFIG k end).

(** The number of parts asked for. *)
Definition parts_of (options : dict) : nat :=
  match setting options "model_ensemble_size" with Some z => Z.to_nat z | None => 4 end.

(** The mask that training and evaluation use for a config. *)
Definition fold_mask (randint : rng) (ws : list nat) (N : nat) (c : dict) (m : mask) : Prop :=
  exists parts part, setting c "model_ensemble_size" = Some parts /\ setting c "seed" = Some part /\
    split_data randint (M_Util.make_ragged_index ws) N parts part = Ok m.

(** [x] is the mean of [f] over the rows [0 .. N-1]. *)
Definition mean_over (N : nat) (f : nat -> R) : R := (sumf (seq 0 N) f / INR N)%R.

(** Entry [p] of row [n] takes part in the comparison of medians: it is held out
    and its feature was fully observed, that is, with the largest number of
    observations [mx]. *)
Definition compared (ws : list nat) (data : list (list Z)) (m : mask) (mx : list Z) (n p : nat) : Prop :=
  held_out m n p /\ exists v, owns ws v p /\ block_sum ws (nth n data []) v = nth v mx 0%Z.
