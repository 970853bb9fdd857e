(** The score of a candidate edge, counted from the added rows. *)
From Coq Require Import List Arith Bool ZArith Reals.
From Verif Require Import Spec_Sum M_Training Spec_Stats.
Import ListNotations.
Open Scope nat_scope.

(** Number of added rows of class [m] at [v]; of classes [m1], [m2] at [a], [b]. *)
Definition class_count (s : tstate) (v m : nat) : Z := total (s_added s) (fun n => one_if (s_asg s n v =? m)).
Definition pair_count (s : tstate) (a b m1 m2 : nat) : Z :=
  total (s_added s) (fun n => one_if ((s_asg s n a =? m1) && (s_asg s n b =? m2))).

(** Log marginal likelihood ratio of the edge (a, b), for [lg] = log-gamma and
    M classes, under Jeffreys priors. *)
Definition edge_score (lg : R -> R) (M : nat) (s : tstate) (a b : nat) : R :=
  (sumf (seq 0 M) (fun m1 => sumf (seq 0 M) (fun m2 => lg (IZR (pair_count s a b m1 m2) + 1 / 2 / INR M)))
   - sumf (seq 0 M) (fun m => lg (IZR (class_count s a m) + 1 / 2))
   - sumf (seq 0 M) (fun m => lg (IZR (class_count s b m) + 1 / 2)))%R.
