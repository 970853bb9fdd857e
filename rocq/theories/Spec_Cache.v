(** Histories of calls of the generators of cached files. *)
From Coq Require Import String List QArith Qabs.
From Verif Require Import M_Cache.
Import ListNotations.

(** No process was killed while it wrote a file. *)
Definition writes_finish (h : list event) : Prop :=
  (forall a, ~ In (GenData a Writing) h) /\ (forall a kd k, In (GenModel a kd k) h -> kd <> Writing /\ k <> Writing).

(** The files of [c] were asked for. *)
Definition asked (h : list event) (c : args) : Prop :=
  (exists k, In (GenData c k) h) \/ (exists kd k, In (GenModel c kd k) h).

(** The same arguments, but for a difference of at most 1/10 in the rate. *)
Definition near (a b : args) : Prop :=
  a_rows b = a_rows a /\ a_cols b = a_cols a /\ a_cats b = a_cats a /\ (Qabs (a_rate b - a_rate a) <= 1 # 10)%Q.

(** All rates asked for before are equal to that of [a], or differ by more than
    1/10. *)
Definition rates_apart (h : list event) (a : args) : Prop :=
  forall c, asked h c -> a_rate c = a_rate a \/ (1 # 10 < Qabs (a_rate c - a_rate a))%Q.

(** Nobody has cleaned the cache. *)
Definition never_cleaned (h : list event) : Prop := forall keep done, ~ In (Clean keep done) h.

(** The same arguments. *)
Definition same_args (b a : args) : Prop :=
  a_rows b = a_rows a /\ a_cols b = a_cols a /\ a_cats b = a_cats a /\ (a_rate b == a_rate a)%Q.
