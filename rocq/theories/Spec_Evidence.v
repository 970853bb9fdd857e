(** Datasets with a given pattern of observed cells. *)
From Coq Require Import List Arith Bool ZArith.
From Verif Require Import Base M_Structure M_Util M_Training Spec_Serving.
Import ListNotations.
Open Scope nat_scope.

(** The rows in which feature [v], of [nth v ws] categories, has one observation
    if [nth v obs] is true, and none if not. *)
Fixpoint pattern_rows (ws : list nat) (obs : list bool) : list (list Z) :=
  match ws, obs with
  | w :: ws, true :: obs => flat_map (fun c => map (app (one_hot w c)) (pattern_rows ws obs)) (seq 0 w)
  | w :: ws, _ :: obs => map (app (repeat 0%Z w)) (pattern_rows ws obs)
  | _, _ => [[]]
  end.

(** The data whose [n]-th row has the [n]-th pattern. *)
Fixpoint pattern_data (ws : list nat) (pats : list (list bool)) : list (list (list Z)) :=
  match pats with
  | [] => [[]]
  | p :: pats => flat_map (fun x => map (cons x) (pattern_data ws pats)) (pattern_rows ws p)
  end.

(** The table of categorical features with this data. *)
Definition table_of (ws : list nat) (data : list (list Z)) : table :=
  Tab (repeat TY_MULTINOMIAL (length ws)) (make_ragged_index ws) data.
