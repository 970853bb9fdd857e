(** Arrays whose shape never changes are modelled by total functions from
    indices; each model function that indexes one checks the index against the
    shape where the program could go wrong ([check] below). *)
From Coq Require Import List Arith Bool Reals ZArith.
From Verif Require Import Base Spec_Sum M_Rand.
Import ListNotations.
Open Scope nat_scope.

(** [a[i] = x]. *)
Definition set1 {A} (f : nat -> A) (i : nat) (x : A) : nat -> A :=
  fun i' => if i' =? i then x else f i'.

(** [a[i, j] = x]. *)
Definition set2 {A} (f : nat -> nat -> A) (i j : nat) (x : A) : nat -> nat -> A :=
  fun i' j' => if (i' =? i) && (j' =? j) then x else f i' j'.

(** [a[i, j, k] = x]. *)
Definition set3 {A} (f : nat -> nat -> nat -> A) (i j k : nat) (x : A) : nat -> nat -> nat -> A :=
  fun i' j' k' => if (i' =? i) && (j' =? j) && (k' =? k) then x else f i' j' k'.

(** An array access with index in bounds iff [b]; numba does not check, so a
    bad index is undefined behaviour. *)
Definition check (b : bool) : result unit := if b then Ok tt else Raise OutOfBounds.

(** [a.T] of a matrix. *)
Definition transpose {A} (f : nat -> nat -> A) : nat -> nat -> A := fun i j => f j i.

(** The first [M] entries of a vector, as the list numpy reduces over. *)
Definition vec {A} (M : nat) (f : nat -> A) : list A := map f (seq 0 M).
