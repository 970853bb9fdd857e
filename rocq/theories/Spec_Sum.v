(** Finite sums, products and maxima of real numbers; distributions. *)
From Coq Require Import List Reals.
Import ListNotations.
Open Scope R_scope.

(** sum of [f x] over the elements of a list *)
Definition sumf {A} (l : list A) (f : A -> R) : R := fold_right (fun a s => f a + s) 0 l.

Definition prodf {A} (l : list A) (f : A -> R) : R := fold_right (fun a s => f a * s) 1 l.

(** sum of a list of reals *)
Definition rsum (w : list R) : R := sumf w (fun x => x).

(** maximum of a nonempty list (0 for the empty list) *)
Fixpoint rmax (w : list R) : R :=
  match w with [] => 0 | [x] => x | x :: t => Rmax x (rmax t) end.
