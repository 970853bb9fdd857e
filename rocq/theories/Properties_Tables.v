(** Property C93: tables are read-only. *)
From Coq Require Import List Arith ZArith.
From Verif Require Import Base M_Tables Spec_Tables L_Tables.
Import ListNotations.
Open Scope nat_scope.

(** C93.  A table keeps its contents whatever is done afterwards with it, with the arrays it was made from and with their
    views, and its arrays cannot be written to.
    Missing: arrays of the right dtype that share memory with another array that is writeable,
    and the categorical data; there the claim is false (below). *)
Theorem C93_tables_are_read_only_partial : forall h feature_types ragged_index data categorical_data h' t later, heap_ok h ->
  copied_or_alone h 8 feature_types -> copied_or_alone h 32 ragged_index -> copied_or_alone h 8 data ->
  (forall z, In z (content h feature_types) -> cast 8 z = z) -> (forall z, In z (content h ragged_index) -> cast 32 z = z) ->
  (forall z, In z (content h data) -> cast 8 z = z) ->
  new_table h feature_types ragged_index data categorical_data = (h', t) ->
  let now := acts h' later in
  (content now (t_types t) = content h feature_types /\ ~ writeable now (t_types t)) /\
  (content now (t_ri t) = content h ragged_index /\ ~ writeable now (t_ri t)) /\
  (content now (t_data t) = content h data /\ ~ writeable now (t_data t)).
Proof. exact C93_proof. Qed.
Print Assumptions C93_tables_are_read_only_partial.

(** Data of 64 bits, which are copied, and feature types of 8 bits, which are not. *)
Example C93_case : heap_ok heap0 /\ copied_or_alone heap0 8 0 /\ copied_or_alone heap0 32 1 /\ copied_or_alone heap0 8 5 /\
  (forall z, In z (content heap0 0) -> cast 8 z = z) /\ (forall z, In z (content heap0 1) -> cast 32 z = z) /\ (forall z, In z (content heap0 5) -> cast 8 z = z) /\
  content heap0 5 = [1; 0; 2; 5]%Z.
Proof. exact C93_case_proof. Qed.

(** A row of an int8 matrix, taken before the table was made from the matrix, still
    writes to the table. *)
Theorem C93_views_refuted : exists h feature_types ragged_index data row i z h' t h'', heap_ok h /\ (forall x, In x (content h data) -> cast 8 x = x) /\
  new_table h feature_types ragged_index data None = (h', t) /\
  write h' row i z = Ok h'' /\ content h' (t_data t) = content h data /\ content h'' (t_data t) <> content h data.
Proof. exact C93_views_proof. Qed.
Print Assumptions C93_views_refuted.

(** The categorical data of a table can be written to. *)
Theorem C93_categorical_data_refuted : exists h feature_types ragged_index data categorical_data h' t h'', heap_ok h /\
  new_table h feature_types ragged_index data (Some categorical_data) = (h', t) /\
  write h' (t_cat t) 0 1 = Ok h'' /\ content h'' (t_cat t) <> content h' (t_cat t).
Proof. exact C93_categorical_proof. Qed.
Print Assumptions C93_categorical_data_refuted.

(** An int8 array from which a table is made is not copied: afterwards its owner cannot write to it. *)
Theorem C93_int8_data_become_read_only : forall h feature_types ragged_index data categorical_data h' t a,
  nth_error (h_arrays h) data = Some a -> a_dtype a = 8 ->
  new_table h feature_types ragged_index data categorical_data = (h', t) ->
  t_data t = data /\ forall i z, write h' data i z = Raise ValueError.
Proof. exact C93_caller_proof. Qed.
Print Assumptions C93_int8_data_become_read_only.

(** With np.array in place of np.asarray, and the categorical data made read-only too, the claim holds
    for all arrays, and making a table changes nothing for their owners. *)
Theorem C93_repaired_tables_are_read_only : forall h feature_types ragged_index data categorical_data h' t later, heap_ok h ->
  (forall r, In r [feature_types; ragged_index; data; categorical_data] -> r < length (h_arrays h)) ->
  (forall z, In z (content h feature_types) -> cast 8 z = z) -> (forall z, In z (content h ragged_index) -> cast 32 z = z) ->
  (forall z, In z (content h data) -> cast 8 z = z) -> (forall z, In z (content h categorical_data) -> cast 16 z = z) ->
  repaired_new_table h feature_types ragged_index data (Some categorical_data) = (h', t) ->
  (forall r, r < length (h_arrays h) -> content h' r = content h r /\ (writeable h' r <-> writeable h r)) /\
  let now := acts h' later in
  content now (t_types t) = content h feature_types /\ content now (t_ri t) = content h ragged_index /\
  content now (t_data t) = content h data /\ content now (t_cat t) = content h categorical_data.
Proof. exact C93_repaired_proof. Qed.
Print Assumptions C93_repaired_tables_are_read_only.
