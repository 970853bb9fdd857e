(** Property C94: print options. *)
From Coq Require Import String.
From Coq Require Import List ZArith.
From Verif Require Import Base M_Options L_Options.
Import ListNotations.
Open Scope list_scope.

(** C94.  A with statement with np_printoptions leaves numpy's print options as they were, whatever its body does with
    them, also in with statements inside, if the body ends normally or the arguments are rejected.
    Missing: a body that raises; there the claim is false (below). *)
Theorem C94_print_options_are_restored_partial : forall kwargs body o, NoDup (map fst o) ->
  (forall o', run (With kwargs body) o = (None, o') -> o' = o) /\
  (forall o1 o2, set_printoptions kwargs o = Ok o1 -> run body o1 = (None, o2) -> run (With kwargs body) o = (None, o)) /\
  (forall e, set_printoptions kwargs o = Raise e -> run (With kwargs body) o = (Some e, o)).
Proof. exact C94_proof. Qed.
Print Assumptions C94_print_options_are_restored_partial.

Example C94_case : NoDup (map fst options0) /\
  let nested := With [("precision", 2%Z); ("edgeitems", 5%Z)]%string (Then (Set_ [("threshold", 7%Z)]%string) (With [("precision", 4%Z)]%string Pass)) in
  exists o1 o2, set_printoptions [("precision", 2%Z); ("edgeitems", 5%Z)]%string options0 = Ok o1 /\ o1 <> options0 /\
    run (Then (Set_ [("threshold", 7%Z)]%string) (With [("precision", 4%Z)]%string Pass)) o1 = (None, o2) /\ o2 <> o1 /\ run nested options0 = (None, options0).
Proof. exact C94_case_proof. Qed.

(** After a body that raises, the options stay as they were when it raised. *)
Theorem C94_print_options_are_restored_refuted : exists kwargs body o e, NoDup (map fst o) /\
  run (With kwargs body) o = (Some e, snd (run (With kwargs body) o)) /\ snd (run (With kwargs body) o) <> o.
Proof. exact C94_refuted_proof. Qed.
Print Assumptions C94_print_options_are_restored_refuted.

Theorem C94_options_leak_from_a_body_that_raises : forall kwargs body o o1 o2 e,
  set_printoptions kwargs o = Ok o1 -> run body o1 = (Some e, o2) -> run (Try (With kwargs body)) o = (None, o2).
Proof. exact C94_leak_proof. Qed.
Print Assumptions C94_options_leak_from_a_body_that_raises.

(** With the last line in a finally clause the options are always restored, and exceptions pass. *)
Theorem C94_repaired_print_options_are_restored : forall kwargs body o, NoDup (map fst o) -> snd (repaired_run (With kwargs body) o) = o /\
  forall o1, set_printoptions kwargs o = Ok o1 -> fst (repaired_run (With kwargs body) o) = fst (repaired_run body o1).
Proof. exact C94_repaired_proof. Qed.
Print Assumptions C94_repaired_print_options_are_restored.
