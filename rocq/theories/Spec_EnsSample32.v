(** Vocabulary for ensemble samples in float32. *)
From Coq Require Import List Reals.
From Flocq Require Import Core.Zaux Core.Raux.
From Verif Require Import Spec_Sum.
Import ListNotations.

(** numpy's compensated float64 sum of numbers that are not negative. *)
Definition kahan_ok (kahan : list R -> R) : Prop :=
  forall l, Forall (fun x => 0 <= x)%R l -> (Rabs (kahan l - rsum l) <= bpow radix2 (-50) * rsum l)%R.
