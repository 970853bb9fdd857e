(** Vocabulary for [sample_tree] with float32 weights. *)
From Coq Require Import List Arith ZArith Reals.
From Flocq Require Import Core.Zaux Core.Raux IEEE754.BinarySingleNaN.
From Verif Require Import Base Spec_Sum M_Structure M_Rand M_Float32 M_Train32 Spec_Law M_SampleTree32.
Import ListNotations.

(** A logit the trainer may compute: a number of ordinary size, or minus infinity. *)
Definition good_logit (x : f32) : Prop :=
  (is_finite x = true /\ (Rabs (B2R x) <= bpow radix2 126)%R) \/ x = B754_infinity true.
(** The number a float32 logit stands for; [None] is minus infinity. *)
Definition logit_of (x : f32) : option R := if is_finite x then Some (B2R x) else None.

(** What is used about [np.exp] of float32 numbers: at 0 and below the result is a
    nonnegative number, with an error of at most [eta]; it is 1 at 0, 0 at minus
    infinity and NaN at NaN. *)
Definition exp_ok (eta : R) (exp32 : f32 -> f32) : Prop :=
  (forall x, is_finite x = true -> (B2R x <= 0)%R ->
     is_finite (exp32 x) = true /\ (0 <= B2R (exp32 x))%R /\ (Rabs (B2R (exp32 x) - exp (B2R x)) <= eta)%R) /\
  (forall x, is_finite x = true -> B2R x = 0%R -> B2R (exp32 x) = 1%R) /\
  exp32 (B754_infinity true) = fzero /\ exp32 B754_nan = B754_nan.

(** The probability that [sample_tree] returns a tree satisfying [b], over all orders
    of the edges and all outputs of the generator. *)
Definition tree_prob32 (exp32 : f32 -> f32) (sum : list f32 -> f32) (grid : list triple) (logits : list f32) (edges : list (nat * nat)) (b : list (nat * nat) -> bool) : R :=
  let orders := perms (seq 0 (length edges)) in
  (sumf orders (fun order => run_prob (length edges) (sample_tree32 exp32 sum grid logits edges order) b) / INR (length orders))%R.
