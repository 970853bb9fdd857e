(** What is claimed of float32 marginals, and what is used about [np.dot]. *)
From Coq Require Import List Arith ZArith Reals.
From Flocq Require Import IEEE754.BinarySingleNaN.
From Verif Require Import Spec_Graph Spec_Sum Spec_Conditional M_Float32.
Import ListNotations.
Open Scope nat_scope.

(** Some vertex is joined to every vertex by at most [D] edges. *)
Definition within (V : nat) (es : list edge) (D : nat) : Prop :=
  exists c, c < V /\ forall u, u < V -> exists d, d <= D /\ walk es c u d.

(** [np.dot] of finite numbers with zeros is zero. *)
Definition dot_zero (dot : list f32 -> list f32 -> f32) : Prop :=
  forall x y, length x = length y -> Forall (fun z => is_finite z = true) x ->
    Forall (fun z => is_finite z = true /\ B2R z = 0%R) y -> is_finite (dot x y) = true /\ B2R (dot x y) = 0%R.

(** One number for each column; those of a feature are finite, positive, at most
    one, and add up to one within 1/64. *)
Definition marginals_good (ws : list nat) (V : nat) (x : list f32) : Prop :=
  length x = list_sum ws /\ forall v, v < V ->
    (forall q, In q (block ws v) -> is_finite (nth q x fzero) = true /\ (0 < B2R (nth q x fzero) <= 1)%R) /\
    (1 <= nth v ws 0 -> (63 / 64 <= sumf (block ws v) (fun q => B2R (nth q x fzero)) <= 65 / 64)%R).
