(** Independent vocabulary for schedules: replaying a list of actions against
    the set of assigned rows. *)
From Coq Require Import List ZArith QArith.
From Verif Require Import M_Schedule.
Import ListNotations.

Definition is_add (a : action) : bool := match a with AddRow _ => true | _ => false end.
Definition is_remove (a : action) : bool := match a with RemoveRow _ => true | _ => false end.

(** How many rows are added (removed) by a list of actions. *)
Definition adds (l : list action) : nat := length (filter is_add l).
Definition removes (l : list action) : nat := length (filter is_remove l).

(** [replays N S l S']: starting with the rows [S] assigned, the actions [l]
    are all legal and leave the rows [S'] assigned.  A row may be added only if
    it is a row of the dataset that is not assigned, removed only if it is
    assigned, and the subsample is never empty after an action; in particular
    the tree is never sampled with an empty subsample. *)
Inductive replays (N : nat) : list nat -> list action -> list nat -> Prop :=
| rp_nil R : replays N R [] R
| rp_add R r l R' : (r < N)%nat -> ~ In r R -> replays N (R ++ [r]) l R' ->
    replays N R (AddRow r :: l) R'
| rp_remove R1 r R2 l R' : ~ In r (R1 ++ R2) -> R1 ++ R2 <> [] -> replays N (R1 ++ R2) l R' ->
    replays N (R1 ++ r :: R2) (RemoveRow r :: l) R'
| rp_sample R l R' : R <> [] -> replays N R l R' ->
    replays N R (SampleTree :: l) R'.
