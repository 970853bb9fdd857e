(** What is used about the numerical libraries under the server. *)
From Coq Require Import List Arith Bool ZArith Reals.
From Flocq Require Import Core.Zaux Core.Raux IEEE754.BinarySingleNaN.
From Verif Require Import Base Spec_Sum Spec_Stats Spec_Conditional M_Float32 Spec_Float32 M_Serving M_Serving32.
Import ListNotations.
Open Scope nat_scope.

(** [a.sum()] of at most 2^16 finite nonnegative numbers, in any order: no smaller
    than any of them and within 1/128 of the exact sum.  A NaN makes it NaN. *)
Definition sum_ok (sum : list f32 -> f32) : Prop :=
  (forall l, (Z.of_nat (length l) <= 2 ^ 16)%Z -> Forall (fun x => is_finite x = true /\ (0 <= B2R x)%R) l ->
    (rsum (map B2R l) <= bpow radix2 120)%R ->
    is_finite (sum l) = true /\ (127 / 128 * rsum (map B2R l) <= B2R (sum l) <= 129 / 128 * rsum (map B2R l))%R /\ forall x, In x l -> (B2R x <= B2R (sum l))%R) /\
  (forall l, In B754_nan l -> sum l = B754_nan).

(** [x ** n] for 0 < x <= 1 and n a nonnegative integer: within a factor of two
    unless it underflows; exact for n = 0. *)
Definition pow_ok (pow : f32 -> Z -> f32) : Prop :=
  forall x n, is_finite x = true -> (0 < B2R x <= 1)%R -> (0 <= n)%Z ->
    is_finite (pow x n) = true /\ (0 <= B2R (pow x n) <= 1)%R /\
    (n = 0%Z -> B2R (pow x n) = 1%R) /\
    (B2R (pow x n) <= 2 * B2R x ^ Z.to_nat n + bpow radix2 (-149))%R /\
    (bpow radix2 (-126) <= B2R x ^ Z.to_nat n -> B2R x ^ Z.to_nat n / 2 <= B2R (pow x n))%R.

(** [np.log]: finite for positive numbers, and of the size of a logarithm; minus
    infinity at zero; NaN at NaN. *)
Definition log_ok (log : f32 -> f32) : Prop :=
  (forall x, is_finite x = true -> (0 < B2R x)%R -> is_finite (log x) = true /\ (Rabs (B2R (log x)) <= 128)%R) /\
  (forall x, is_finite x = true -> B2R x = 0%R -> log x = B754_infinity true) /\
  log B754_nan = B754_nan.

Definition lib_ok (lib : numlib) : Prop :=
  dot_ok (l_dot lib) /\ sum_ok (l_sum lib) /\ pow_ok (l_pow lib) /\ log_ok (l_log lib).

(** No count of the model, and no feature, reaches [2 ^ A]. *)
Definition counts_below (A : Z) (ws : list nat) (N : nat) (m : smodel) : Prop :=
  (Z.of_nat N < 2 ^ A)%Z /\
  forall v c, v < length ws -> c < d_M m ->
    (Z.of_nat (nth v ws 0%nat) < 2 ^ A)%Z /\ (total (block ws v) (fun q => d_feat m q c) < 2 ^ A)%Z.

(** A NaN in the second vector makes [np.dot] NaN. *)
Definition dot_nan (dot : list f32 -> list f32 -> f32) : Prop :=
  forall x y, length x = length y -> In B754_nan y -> dot x y = B754_nan.
