(** The best guess at a row. *)
From Coq Require Import String.
From Coq Require Import List Arith ZArith Reals.
From Verif Require Import Base Spec_MST M_Util M_Format Spec_Ragged Spec_Schema Spec_Stats Spec_Conditional Spec_Serving Spec_DataServer.
Import ListNotations.
Open Scope list_scope.
Open Scope R_scope.

(** [P v q] is the probability that an observation of the feature at position
    [v] falls into column [q].  A best row has, for each feature observed in the
    table, the most probable value if it is categorical (no column of the
    feature is more probable than that of the value), and the integer nearest
    to the expected value if it is ordinal.  (A value [x] of an ordinal feature
    between [lo] and [hi] is [hi - lo] observations, [x - lo] of which fall into
    the first column of the feature, so its expectation is [hi - lo] times the
    probability of that column above [lo].) *)
Definition best_row (sc : schema) (data : list (list Z)) (P : nat -> nat -> R) (out : jrow) : Prop :=
  full_row sc data out /\
  forall name v, dget (sc_index sc) name = Some v -> ever_observed sc data name ->
    let first := list_sum (firstn v (widths sc)) in
    (forall vs, dget (sc_types sc) name = Some Categorical -> dget (sc_cat_values sc) name = Some vs ->
       exists k s, nth_error vs k = Some s /\ dget out name = Some (JStr s) /\
         forall q, In q (block (widths sc) v) -> P v q <= P v (first + k)%nat) /\
    (forall lo hi, dget (sc_types sc) name = Some Ordinal -> dget (sc_ranges sc) name = Some (lo, hi) ->
       exists x, dget out name = Some (JInt x) /\ Rabs (IZR x - (IZR lo + IZR (hi - lo) * P v first)) <= 1 / 2).
