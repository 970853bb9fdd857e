(** Vocabulary for distributions over spanning trees. *)
From Coq Require Import List Arith Reals Sorted.
From Verif Require Import Spec_Graph Spec_Sum.
Import ListNotations.
Open Scope nat_scope.

(** A spanning tree written canonically: each edge as (smaller, larger), edges
    in increasing order. *)
Definition canonical_tree (V : nat) (T : list edge) : Prop :=
  spanning_tree V T /\ (forall x y, In (x, y) T -> x < y) /\ StronglySorted pair_le T.

(** [TT] lists every spanning tree on [V] vertices exactly once. *)
Definition enumerates_trees (V : nat) (TT : list (list edge)) : Prop :=
  NoDup TT /\ forall T, In T TT <-> canonical_tree V T.

(** Unnormalised posterior mass of a tree, exp(sum of its edge logits), where
    [logit x y] is the logit of the pair (x, y); [None] is minus infinity. *)
Definition exp_logit (x : option R) : R := match x with None => 0%R | Some x => exp x end.
Definition tree_mass (logit : nat -> nat -> option R) (T : list edge) : R :=
  prodf T (fun '(x, y) => exp_logit (logit x y)).

Definition edge_list_eq_dec (S T : list edge) : {S = T} + {S <> T}.
Proof. repeat decide equality. Defined.
