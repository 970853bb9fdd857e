(** Reading an indented outline. *)
From Coq Require Import List Arith String Ascii.
Import ListNotations.

(** In the outline [ls] (indentation level, item), the parent of item [x] is [p]:
    [p] is the item on the nearest earlier line indented one level less. *)
Definition outline_parent {A} (ls : list (nat * A)) (x p : A) : Prop :=
  exists pre d mid post,
    ls = pre ++ (d, p) :: mid ++ (S d, x) :: post /\
    forall l, In l mid -> fst l <> d.

(** Reading the text of an outline: split at newlines, count leading pairs of
    blanks. *)
Fixpoint text_lines (s : string) : list string :=
  match s with
  | EmptyString => [EmptyString]
  | String c s => if Ascii.eqb c (ascii_of_nat 10) then EmptyString :: text_lines s
                  else match text_lines s with
                       | [] => [String c EmptyString]
                       | l :: t => String c l :: t
                       end
  end.

Fixpoint read_indent (s : string) : nat * string :=
  match s with
  | String " " (String " " t) => let '(d, n) := read_indent t in (S d, n)
  | _ => (0, s)
  end.

(** A name that can be told apart from indentation and line breaks. *)
Fixpoint no_newline (s : string) : Prop :=
  match s with EmptyString => True | String c s => c <> ascii_of_nat 10 /\ no_newline s end.
Definition plain_name (s : string) : Prop :=
  no_newline s /\ match s with String " " (String " " _) => False | _ => True end.
