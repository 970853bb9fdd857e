(** What the profiling commands rely on. *)
From Coq Require Import String.
From Coq Require Import List Arith ZArith.
From Verif Require Import Base.
From Verif Require M_Cache.
Import ListNotations.
Open Scope list_scope.

(** The draws of a generated dataset: for every cell as many counts as there are
    categories, not negative, at most 127 together. *)
Definition counts_fit (draws : M_Cache.args -> nat -> nat -> list Z) : Prop :=
  forall a v n, length (draws a v n) = Z.to_nat (M_Cache.a_cats a) /\
    (forall x, In x (draws a v n) -> (0 <= x)%Z) /\ (fold_right Z.add 0 (draws a v n) <= 127)%Z.

(** The tools that the commands list. *)
Definition tools : list string := ["timers"; "time"; "snakeviz"; "line_profiler"; "pdb"]%string.
