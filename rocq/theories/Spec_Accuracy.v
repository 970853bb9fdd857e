(** What is used about the accuracy of the numerical libraries under the server. *)
From Coq Require Import List Arith Bool ZArith Reals.
From Flocq Require Import Core.Zaux Core.Raux IEEE754.BinarySingleNaN.
From Verif Require Import Base Spec_Graph Spec_Sum Spec_Stats M_Structure M_Training M_Float32 Spec_Float32 M_Serving M_Serving32.
Import ListNotations.
Open Scope nat_scope.

(** [x] is the nonnegative number [y] up to a factor between exp(-e) and exp(e). *)
Definition agree (e x y : R) : Prop := (0 <= y /\ y * exp (- e) <= x <= y * exp e)%R.

(** [lib] has relative error [eta] for sums of at most [W] nonnegative numbers, for
    dot products of at most [W] pairs of nonnegative numbers whose products do not
    underflow, and for powers that do not underflow; and absolute error [lambda] for
    logarithms. *)
Definition accurate (W : Z) (eta lambda : R) (lib : numlib) : Prop :=
  (forall l, (Z.of_nat (length l) <= W)%Z -> Forall (fun x => is_finite x = true /\ (0 <= B2R x)%R) l ->
    (rsum (map B2R l) <= bpow radix2 120)%R -> agree eta (B2R (l_sum lib l)) (rsum (map B2R l))) /\
  (forall x y, length x = length y -> (Z.of_nat (length x) <= W)%Z ->
    Forall (fun z => is_finite z = true /\ (0 <= B2R z)%R) x -> Forall (fun z => is_finite z = true /\ (0 <= B2R z)%R) y ->
    Forall (fun p => (bpow radix2 (-126) <= B2R (fst p) * B2R (snd p))%R) (combine x y) ->
    (sumf (combine x y) (fun p => B2R (fst p) * B2R (snd p)) <= bpow radix2 120)%R ->
    agree eta (B2R (l_dot lib x y)) (sumf (combine x y) (fun p => B2R (fst p) * B2R (snd p))%R)) /\
  (forall x n, is_finite x = true -> (0 < B2R x <= 1)%R -> (0 <= n)%Z -> (bpow radix2 (-126) <= B2R x ^ Z.to_nat n)%R ->
    agree eta (B2R (l_pow lib x n)) (B2R x ^ Z.to_nat n)) /\
  (forall x, is_finite x = true -> (0 < B2R x)%R -> (Rabs (B2R (l_log lib x) - ln (B2R x)) <= lambda)%R).

(** No feature has more than [d] neighbours in the tree. *)
Definition degree_at_most (d : nat) (m : smodel) : Prop :=
  forall v, v < ts_V (d_tree m) ->
    length (filter (fun f => (fst f =? v) || (snd f =? v)) (ts_get_edges (d_tree m))) <= d.
