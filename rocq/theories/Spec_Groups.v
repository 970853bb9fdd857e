(** What a groups file says. *)
From Coq Require Import String Ascii.
From Coq Require Import List Arith Reals.
From Verif Require Import Base M_Format Spec_Schema.
Import ListNotations.
Open Scope list_scope.
Open Scope nat_scope.

(** A complete row gives group [g] the entry [x] in column [i]. *)
Definition says (rows : list (list string)) (g : string) (i : nat) (x : string) : Prop :=
  exists row, In row rows /\ 4 <= length row /\ cell 0 row = g /\ cell i row = x /\ x <> EmptyString.
Definition source_of (rows : list (list string)) (g n : string) : Prop := says rows g 2 n.
Definition target_of (rows : list (list string)) (g n : string) : Prop := says rows g 3 n.

(** The last logit given to group [g] is [x]. *)
Definition logit_of (float_ : string -> option R) (rows : list (list string)) (g : string) (x : R) : Prop :=
  exists before row after, rows = before ++ row :: after /\ 4 <= length row /\ cell 0 row = g /\ cell 1 row <> EmptyString /\
    float_ (cell 1 row) = Some x /\ forall s, ~ says after g 1 s.

(** Group [g] links two features. *)
Definition links (rows : list (list string)) (g a b : string) : Prop :=
  (source_of rows g a /\ target_of rows g b) \/ (source_of rows g b /\ target_of rows g a).
