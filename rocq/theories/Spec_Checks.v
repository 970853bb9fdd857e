(** Checks made one after the other, each with the exception raised when it fails. *)
From Coq Require Import String List Arith.
From Verif Require Import Base M_Strings M_Format Spec_Schema Spec_Guess.
Import ListNotations.
Open Scope list_scope.
Open Scope nat_scope.

Inductive checked : list (Prop * exn) -> option exn -> Prop :=
| all_passed : checked [] None
| passed : forall (P : Prop) e l o, P -> checked l o -> checked ((P, e) :: l) o
| failed : forall (P : Prop) e l, ~ P -> checked ((P, e) :: l) (Some e).

Definition raised {A} (r : result A) : option exn := match r with Ok _ => None | Raise e => Some e end.

(** What a types file and a values file must satisfy. *)
Definition header_checks (csv : list (list string)) (second : string) : list (Prop * exn) :=
  [(csv <> [], StopIteration);
   (1 <= length (hd [] csv), IndexError); (headed csv 0 "name", AssertionError);
   (2 <= length (hd [] csv), IndexError); (headed csv 1 second, AssertionError)].

Definition schema_checks (types_csv values_csv : list (list string)) : list (Prop * exn) :=
  header_checks types_csv "type" ++
  [((forall row, In row (listed types_csv) -> exists t, cell 1 row = type_name t), ValueError)] ++
  header_checks values_csv "value" ++
  [((forall n v, listed_type types_csv n Ordinal -> In v (listed_values values_csv n) -> int_of_str v <> None), ValueError);
   (listed types_csv <> [], ValueError);
   ((forall n, listed_type types_csv n Ordinal -> listed_values values_csv n <> []), IndexError)].
