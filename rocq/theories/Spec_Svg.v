(** Text files. *)
From Coq Require Import String Ascii.
From Coq Require Import List Bool.
From Verif Require Import M_Plot2.
Import ListNotations.
Open Scope string_scope.

(** Text without a newline. *)
Fixpoint no_newline (s : string) : Prop :=
  match s with EmptyString => True | String c s => c <> LF /\ no_newline s end.
(** One line with its newline. *)
Definition one_line (s : string) : Prop := exists w, no_newline w /\ s = w ++ newline.
(** Some lines, each with its newline. *)
Inductive whole : string -> Prop :=
| whole_nil : whole ""
| whole_line l s : one_line l -> whole s -> whole (l ++ s).

(** The first list, with more put in between. *)
Inductive within {A} : list A -> list A -> Prop :=
| within_nil : within [] []
| within_skip x l m : within l m -> within l (x :: m)
| within_keep x l m : within l m -> within (x :: l) (x :: m).

(** No line starts with "<svg " or "</svg>". *)
Definition no_tags (s : string) : Prop :=
  forall l, In l (file_lines s) -> prefix "<svg " l = false /\ prefix "</svg>" l = false.

(** The last of the states. *)
Definition finally (states : list files) : files := last states (fun _ => None).
