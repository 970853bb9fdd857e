(** Vocabulary for the edge logits in float32. *)
From Coq Require Import List Arith ZArith Reals.
From Flocq Require Import Core.Zaux Core.Raux IEEE754.BinarySingleNaN.
From Verif Require Import Base Spec_Sum M_Structure M_Rand M_Training Spec_Stats Spec_EdgeLogits M_Float32 M_Train32 Spec_Law M_SampleTree32 Spec_Tree32 M_Logits32.
Import ListNotations.
Open Scope nat_scope.

(** What is used about gammaln on float32: at the counts 0 .. N plus a prior it is within
    [delta] of the function [lg] at the exact number. *)
Definition gammaln_ok (delta : R) (N M : nat) (lg : R -> R) (gammaln32 : f32 -> f32) : Prop :=
  forall c prior p, (0 <= c <= Z.of_nat N)%Z ->
    (prior = prior64 M /\ p = (1 / 2 / INR M)%R) \/ (prior = vert_prior64 /\ p = (1 / 2)%R) ->
    let y := gammaln32 (fadd (f32_of c 0) (to32 prior)) in
    is_finite y = true /\ (Rabs (B2R y - lg (IZR c + p)) <= delta)%R.

(** What is used about sums of float32 numbers of any sign: an error of 2^-23 per entry,
    relative to the sum of the sizes. *)
Definition sum_near (sum : list f32 -> f32) : Prop :=
  forall l, (Z.of_nat (length l) <= 2 ^ 16)%Z -> Forall (fun x => is_finite x = true) l ->
    (sumf l (fun x => Rabs (B2R x)) <= bpow radix2 100)%R ->
    is_finite (sum l) = true /\
    (Rabs (B2R (sum l) - sumf l (fun x => B2R x)) <= INR (length l) * bpow radix2 (-23) * sumf l (fun x => Rabs (B2R x)))%R.

(** The sizes of all numbers that are added up for the score of the pair (a, b). *)
Definition score_size (lg : R -> R) (M : nat) (s : tstate) (a b : nat) : R :=
  (sumf (seq 0 M) (fun m1 => sumf (seq 0 M) (fun m2 => Rabs (lg (IZR (pair_count s a b m1 m2) + 1 / 2 / INR M))))
   + sumf (seq 0 M) (fun m => Rabs (lg (IZR (class_count s a m) + 1 / 2)))
   + sumf (seq 0 M) (fun m => Rabs (lg (IZR (class_count s b m) + 1 / 2))))%R.

(** The error of a float32 logit made of numbers of total size [W]: [delta] for each
    value of gammaln and 2^-23 of the total for each addition. *)
Definition logit_error (M : nat) (delta W : R) : R :=
  (INR (M * M + 2 * M) * delta + INR (M * M + 3) * bpow radix2 (-23) * (W + INR (M * M + 2 * M) * delta))%R.

(** The probability that resampling the tree gives a tree satisfying [b], over all orders
    of the edges and all outputs of the generator. *)
Definition resample_prob32 (gammaln32 : f32 -> f32) (sum : list f32 -> f32) (exp32 : f32 -> f32) (tb : table) (prior : list f32) (M : nat) (s : tstate)
  (b : list (nat * nat) -> bool) : R :=
  let E := num_cols tb - 1 in
  let orders := perms (seq 0 E) in
  (sumf orders (fun order => run_prob E (trainer_sample_tree32 gammaln32 sum exp32 tb prior M s order) b) / INR (length orders))%R.

(** The exact logit of a pair: its score plus the tree prior; [None] where the prior
    is minus infinity. *)
Definition exact_logit (lg : R -> R) (M : nat) (s : tstate) (prior : list f32) (a b : nat) : option R :=
  let p := nth (find_complete_edge a b) prior fzero in
  if is_finite p then Some (edge_score lg M s a b + B2R p)%R else None.
