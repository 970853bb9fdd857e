(** Property C95: saved files. *)
From Coq Require Import String.
From Coq Require Import List.
From Verif Require Import Base M_Cache M_Pickle Spec_Pickle L_Pickle.
Import ListNotations.
Open Scope list_scope.

(** C95.  What pickle_dump has saved under a name, pickle_load reads back, after any later calls of pickle_dump for other names
    and of fingerprint, also calls that raise. *)
Theorem C95_saved_data_are_read_back : forall V (lib : codecs V) d v name d' later, codecs_ok lib ->
  pickle_dump lib v name d = (Ok tt, d') -> (forall c, In c later -> ~ dumps_to name c) ->
  pickle_load lib name (fold_left (perform lib) later d') = Ok v.
Proof. exact C95_proof. Qed.
Print Assumptions C95_saved_data_are_read_back.

Example C95_case : codecs_ok lib0 /\ exists d, pickle_dump lib0 3 "model.pkz" (fun _ => None) = (Ok tt, d) /\
  (forall c, In c [Dump 2 "model.jz"; Fingerprint 4; Dump 0 "data.pkz"; Dump 1 "model.txt"]%string -> ~ dumps_to "model.pkz" c).
Proof. exact C95_case_proof. Qed.

(** Names with other endings are refused, and nothing is written. *)
Theorem C95_other_names_are_refused : forall V (lib : codecs V) v name d, ends_with ".pkz" name = false -> ends_with ".jz" name = false ->
  pickle_dump lib v name d = (Raise ValueError, d) /\ pickle_load lib name d = Raise ValueError.
Proof. exact C95_names_proof. Qed.
Print Assumptions C95_other_names_are_refused.
Example C95_other_name : ends_with ".pkz" "model.pkl" = false /\ ends_with ".jz" "model.pkl" = false.
Proof. split; reflexivity. Qed.

(** cat prints the contents of its files in order; at a name that does not end in .pkz it stops with an AssertionError. *)
Theorem C95_cat_prints_the_files_in_order : forall V (lib : codecs V) d paths,
  (forall vs, cat lib paths d = (vs, Ok tt) <-> Forall2 (fun p v => ends_with ".pkz" p = true /\ pickle_load lib p d = Ok v) paths vs) /\
  (forall before p after vs, paths = before ++ p :: after -> Forall2 (fun p v => ends_with ".pkz" p = true /\ pickle_load lib p d = Ok v) before vs ->
    ends_with ".pkz" p = false -> cat lib paths d = (vs, Raise AssertionError)).
Proof. exact C95_cat_proof. Qed.
Print Assumptions C95_cat_prints_the_files_in_order.

(** Fingerprints tell objects apart, on any disks, if sha1 tells their encodings apart. *)
Theorem C95_fingerprints_identify_objects : forall V (lib : codecs V) d d2 v w a b, codecs_ok lib ->
  fst (fingerprint lib v d) = Ok a -> fst (fingerprint lib w d2) = Ok b ->
  (forall s t, lib_encode lib v = Ok s -> lib_encode lib w = Ok t -> lib_sha1 lib s = lib_sha1 lib t -> s = t) -> (a = b <-> v = w).
Proof. exact C95_fingerprint_proof. Qed.
Print Assumptions C95_fingerprints_identify_objects.
Example C95_fingerprint_case : fst (fingerprint lib0 2 (fun _ => None)) = Ok "__"%string /\ fst (fingerprint lib0 3 (fun _ => None)) = Ok "___"%string.
Proof. split; reflexivity. Qed.

(** A call of pickle_dump that raises destroys what was saved under the name before. *)
Theorem C95_failed_calls_change_nothing_refuted : exists d, pickle_load lib0 "a.pkz" d = Ok 3 /\ fst (pickle_dump lib0 0 "a.pkz" d) = Raise TypeError /\
  pickle_load lib0 "a.pkz" (snd (pickle_dump lib0 0 "a.pkz" d)) <> Ok 3 /\ pickle_load lib0 "a.jz" d = Ok 2 /\
  pickle_load lib0 "a.jz" (snd (pickle_dump lib0 0 "a.jz" d)) <> Ok 2.
Proof. exact C95_failed_proof. Qed.
Print Assumptions C95_failed_calls_change_nothing_refuted.

(** If the data were encoded before the file is opened, calls that raise would change nothing, and the others would do the same. *)
Theorem C95_repaired_failed_calls_change_nothing : forall V (lib : codecs V) v name d e d',
  repaired_pickle_dump lib v name d = (Raise e, d') -> d' = d /\ fst (pickle_dump lib v name d) = Raise e.
Proof. exact C95_repaired_proof. Qed.
Print Assumptions C95_repaired_failed_calls_change_nothing.
Theorem C95_repaired_calls_save_the_same : forall V (lib : codecs V) v name d d',
  pickle_dump lib v name d = (Ok tt, d') -> repaired_pickle_dump lib v name d = (Ok tt, d').
Proof. exact C95_repaired_same_proof. Qed.
Print Assumptions C95_repaired_calls_save_the_same.
