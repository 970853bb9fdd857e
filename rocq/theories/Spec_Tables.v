(** Vocabulary for tables that cannot be written to. *)
From Coq Require Import List ZArith.
From Verif Require Import M_Tables.
Import ListNotations.

(** Arrays refer to memory that is there. *)
Definition heap_ok (h : heap) : Prop := forall r a, nth_error (h_arrays h) r = Some a -> a_mem a < length (h_mem h).

(** The array will be copied, because it has another dtype than [dt], or no other array that shares its memory
    can be written to. *)
Definition copied_or_alone (h : heap) (dt : dtype) (r : nat) : Prop :=
  exists a, nth_error (h_arrays h) r = Some a /\
    (a_dtype a = dt -> forall r' a', nth_error (h_arrays h) r' = Some a' -> a_mem a' = a_mem a -> r' <> r -> a_write a' = false).

(** Whether the array can be written to. *)
Definition writeable (h : heap) (r : nat) : Prop := exists a, nth_error (h_arrays h) r = Some a /\ a_write a = true.
