(** Specification vocabulary for the law of training in float32. *)
From Coq Require Import List Arith Bool ZArith Reals.
From Flocq Require Import Core IEEE754.BinarySingleNaN.
From Verif Require Import Base Spec_Graph Spec_Sum M_Structure M_Training Spec_Conditional M_Float32 M_Train32 Spec_Accuracy.
Import ListNotations.
Open Scope nat_scope.

(** [np.dot] has relative error [eta] for at most [W] pairs of nonnegative numbers
    whose products do not underflow. *)
Definition dot_accurate (W : Z) (eta : R) (dot : list f32 -> list f32 -> f32) : Prop :=
  forall x y, length x = length y -> (Z.of_nat (length x) <= W)%Z ->
    Forall (fun z => is_finite z = true /\ (0 <= B2R z)%R) x -> Forall (fun z => is_finite z = true /\ (0 <= B2R z)%R) y ->
    Forall (fun p => (bpow radix2 (-126) <= B2R (fst p) * B2R (snd p))%R) (combine x y) ->
    (sumf (combine x y) (fun p => B2R (fst p) * B2R (snd p)) <= bpow radix2 120)%R ->
    agree eta (B2R (dot x y)) (sumf (combine x y) (fun p => B2R (fst p) * B2R (snd p))%R).

(** No feature has more than [d] neighbours in the trainer's tree. *)
Definition neighbours_at_most (d : nat) (s : tstate) : Prop :=
  forall v, length (filter (fun f => (fst f =? v) || (snd f =? v)) (ts_get_edges (s_tree s))) <= d.

(** A bound [delta] on the relative drift of the table of edge probabilities that
    the trainer keeps in float32: none when the number of classes is a power of two. *)
Definition drift_bound (M : nat) (A : Z) (delta : R) : Prop :=
  (exists a, M = 2 ^ a /\ delta = 0%R) \/ (delta = INR M * bpow radix2 (A - 21) /\ delta <= 1)%R.

(** The event that row [n] is given the classes [z], and that it is given one of the
    vectors of classes in a list. *)
Definition drawn (tb : table) (n : nat) (z : list nat) (p : trainer32 * option exn) : bool :=
  if list_eq_dec Nat.eq_dec (classes_of tb (t_state (fst p)) n) z then true else false.
Definition drawn_in (tb : table) (n : nat) (Zs : list (list nat)) (p : trainer32 * option exn) : bool :=
  if in_dec (list_eq_dec Nat.eq_dec) (classes_of tb (t_state (fst p)) n) Zs then true else false.

(** The relative error of the law of one call of [add_row]: [c] observations per
    feature, error [eta] per operation, drift [delta] of the table. *)
Definition row_error (tb : table) (c : nat) (eta delta : R) : R :=
  (INR (num_cols tb) * (IZR (2 * Z.of_nat c * (12 + 2 * Z.of_nat c) + 14) * eta + 4 * delta))%R.
