(** Vocabulary for ensembles in float32. *)
From Coq Require Import List Arith ZArith Reals.
From Flocq Require Import Core.Zaux Core.Raux IEEE754.BinarySingleNaN.
From Verif Require Import Base Spec_Sum Spec_Graph M_Structure M_Float32.
Import ListNotations.
Open Scope nat_scope.

(** [np.log] of a small positive integer, as a float32 number. *)
Definition log_size_ok (lambda : R) (log_size : nat -> f32) : Prop :=
  forall n, 1 <= n -> (Z.of_nat n <= 2 ^ 16)%Z ->
    is_finite (log_size n) = true /\ (Rabs (B2R (log_size n)) <= 128)%R /\ (Rabs (B2R (log_size n) - ln (INR n)) <= lambda)%R.

(** What combining [n] log probabilities of size up to [B] adds to their errors. *)
Definition mixture_error (n : nat) (eta lambda eta_exp B : R) : R :=
  (INR n * (eta_exp + bpow radix2 (-23) * B) + eta + 2 * lambda + bpow radix2 (-22) * (B + 128))%R.

(** The mean of the entries [k] of the arrays. *)
Definition mean_entry (arrays : list (list f32)) (k : nat) : R :=
  (sumf arrays (fun a => B2R (nth k a fzero)) / INR (length arrays))%R.

(** The rounding error of the mean of [n] numbers of size up to [B]. *)
Definition mean_error (n : nat) (B : R) : R := (bpow radix2 (-23) * ((INR n + 2) * B) + bpow radix2 (-150))%R.

(** The mean over the arrays of the total logit of a tree. *)
Definition mean_score (arrays : list (list f32)) (T : list edge) : R :=
  sumf T (fun '(x, y) => mean_entry arrays (find_complete_edge x y)).
