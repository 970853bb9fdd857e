(** What is assumed of the libraries that encode files. *)
From Coq Require Import String.
From Coq Require Import List.
From Verif Require Import Base M_Pickle.
Import ListNotations.

Definition codecs_ok {V} (lib : codecs V) : Prop :=
  (forall v s, lib_pickle lib v = Ok s -> lib_unpickle lib s = Ok v) /\
  (forall v s, lib_encode lib v = Ok s -> lib_decode lib s = Ok v) /\
  (forall s, lib_gunzip lib (lib_gzip lib s) = Ok s).

(** The call writes to the file [name] when it dumps. *)
Definition dumps_to {V} (name : string) (c : call V) : Prop := exists v, c = Dump v name.
