(** Histories of training runs. *)
From Coq Require Import String.
From Coq Require Import List Arith ZArith Bool Reals Sorted.
From Verif Require Import Base M_Config M_Strings M_Serving M_Validate M_Workflow Spec_Validate.
Import ListNotations.
Open Scope list_scope.
Open Scope nat_scope.

(** The number of epochs that training is sorted by. *)
Definition init_epochs (c : dict) : Z := match setting c "learning_init_epochs" with Some z => z | None => 0%Z end.

(** One call of train: the dataset, the parameter file, the options and what happened
    to the tasks. *)
Record call := Call { cl_ds : dataset; cl_lines : list (list string); cl_options : dict; cl_events : list (nat * fate) }.

(** The files after some calls of train (one that raises before its tasks start
    changes nothing). *)
Definition after_calls {Mdl} (trainer : list nat -> list (list Z) -> dict -> result Mdl) (randint : rng) (h : list call) (fs : files Mdl) : files Mdl :=
  fold_left (fun fs c => match train trainer randint (cl_ds c) (cl_lines c) (cl_options c) (cl_events c) fs with
                         | Ok (_, fs) => fs | Raise _ => fs end) h fs.

(** [m] is the model of config [c] for the dataset [ds]: what the trainer returns for
    the settings of [c] and the data that evaluation takes as training data. *)
Definition model_for {Mdl} (trainer : list nat -> list (list Z) -> dict -> result Mdl) (randint : rng) (ds : dataset) (c : dict) (m : Mdl) : Prop :=
  exists mask training validation d,
    eval_split randint (ds_ri ds) (ds_rows ds) c = Ok (mask, training, validation) /\
    (forall k, setting d k = setting c k) /\ trainer (ds_ri ds) training d = Ok m.

(** Python's order of lists of numbers: a shorter list that agrees comes first. *)
Inductive line_le : list R -> list R -> Prop :=
| line_nil : forall b, line_le [] b
| line_lt : forall x y a b, (x < y)%R -> line_le (x :: a) (y :: b)
| line_eq : forall x a b, line_le a b -> line_le (x :: a) (x :: b).

(** The line printed for an evaluated config. *)
Definition line_of (header : list string) (c : dict) (scores : R * R) : list R :=
  map (fun k => match setting c k with Some z => IZR z | None => 0%R end) header ++ [fst scores; snd scores].
