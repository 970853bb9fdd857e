(** All assignment matrices, and one Gibbs update of a row. *)
From Coq Require Import List Arith Reals.
From Verif Require Import Base M_Structure M_Rand M_Training Spec_Joint Spec_Stats Spec_Conditional.
Import ListNotations.
Open Scope nat_scope.
Open Scope rprog_scope.

(** All matrices of N rows of V classes out of M. *)
Fixpoint matrices (N V M : nat) : list (list (list nat)) :=
  match N with
  | 0 => [[]]
  | S N => flat_map (fun z => map (cons z) (matrices N V M)) (vectors V M)
  end.

(** The classes of all rows of the table in state [s]. *)
Definition class_matrix (tb : table) (s : tstate) : list (list nat) := map (classes_of tb s) (seq 0 (num_rows tb)).

(** remove_row(n); add_row(n). *)
Definition gibbs (tb : table) (M : nat) (s : tstate) (n : nat) : rprog tstate :=
  s <~ unless_raised (lift (remove_row tb M s n)) ;; unless_raised (add_row tb M s n).

Definition matrix_eqb (A B : list (list nat)) : bool :=
  if list_eq_dec (list_eq_dec Nat.eq_dec) A B then true else false.

(** A state of the trainer with tree [T], all rows added, and classes [A]. *)
Definition full_state (tb : table) (prior : list R) (M : nat) (T : tree_structure) (A : list (list nat)) (s : tstate) : Prop :=
  reachable tb prior M s /\ s_tree s = T /\ length (s_added s) = num_rows tb /\ class_matrix tb s = A.
