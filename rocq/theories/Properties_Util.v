(** Property theorems about treecat/util.py and treecat/config.py: C12 - C15. *)
From Coq Require Import String Ascii.
From Coq Require Import ZArith List Arith Reals Lra.
From Verif Require Import Base Spec_Sum Spec_Ragged M_Rand M_Util M_Config.
From Verif Require L_Sampler L_Quantize L_Ragged L_Config L_Config2.
Import ListNotations.
Open Scope nat_scope.

(** C12.  For nonnegative weights with a positive total and a uniform [u] in
    [0, 1), the index returned is in range and has positive weight; index [j] is
    returned exactly for [u] in an interval of length [w_j / sum w], namely the
    one starting at the sum of the earlier weights over [sum w]. *)
Theorem C12_sample_from_probs_is_exact : forall w u,
  (forall x, In x w -> (0 <= x)%R) -> (0 < rsum w)%R -> (0 <= u < 1)%R ->
  exists i, sample_from_probs u w = Ok i /\ i < length w /\ (0 < nth i w 0)%R /\
  forall j, j < length w ->
    (j = i <-> (rsum (firstn j w) / rsum w <= u < rsum (firstn j w) / rsum w + nth j w 0 / rsum w)%R).
Proof. exact L_Sampler.sample_spec. Qed.
Print Assumptions C12_sample_from_probs_is_exact.

(** C12.  For all weights whatsoever and every [u], sample_from_probs returns one
    of the outcomes that the model of the callers considers: an index in range,
    of positive weight unless the weights are degenerate. *)
Theorem C12_every_outcome_is_modelled : forall w u, w <> [] -> (0 <= u < 1)%R ->
  exists i, sample_from_probs u w = Ok i /\ cat_outcome w i.
Proof. exact L_Sampler.sample_outcome. Qed.
Print Assumptions C12_every_outcome_is_modelled.

(** Row n of the result of sample_from_probs2 is the result of sample_from_probs
    on row n with the n-th uniform. *)
Theorem C12_sample_from_probs2_per_row : forall rows us, length us = length rows ->
  (forall w, In w rows -> (forall x, In x w -> (0 <= x)%R) /\ (0 < rsum w)%R) ->
  (forall u, In u us -> (0 <= u < 1)%R) ->
  exists out, sample_from_probs2 us rows = Ok out /\ length out = length rows /\
    forall n u w i, nth_error us n = Some u -> nth_error rows n = Some w -> nth_error out n = Some i ->
      sample_from_probs u w = Ok i.
Proof. exact L_Sampler.sample2_spec. Qed.
Print Assumptions C12_sample_from_probs2_per_row.

Example C12_case : (forall x, In x [0; 2; 0; 1]%R -> (0 <= x)%R) /\ (0 < rsum [0; 2; 0; 1])%R.
Proof. split; [simpl; intuition lra|unfold rsum, sumf; simpl; lra]. Qed.

(** C13.  Every row: nonnegative integers summing to the resolution, each within
    less than 1 of its real-valued target, and at minimal L1 distance from the
    target among all integer vectors with that sum.  The counts are stored in
    int8, hence the bound on the resolution. *)
Theorem C13_quantize_is_exact_and_optimal : forall resolution rows,
  resolution <= 127 ->
  (forall row, In row rows -> (forall x, In x row -> (0 <= x)%R) /\ (0 < rsum row)%R) ->
  exists out, quantize_from_probs2 rows resolution = Ok out /\
  Forall2 (fun row c =>
    length c = length row /\
    (forall x, In x c -> (0 <= x)%Z) /\ zsum c = Z.of_nat resolution /\
    let target i := (nth i row 0 * INR resolution / rsum row)%R in
    (forall i, i < length row -> (Rabs (IZR (nth i c 0%Z) - target i) < 1)%R) /\
    forall z, length z = length row -> zsum z = Z.of_nat resolution ->
      (sumf (seq 0 (length row)) (fun i => Rabs (IZR (nth i c 0%Z) - target i)) <=
       sumf (seq 0 (length row)) (fun i => Rabs (IZR (nth i z 0%Z) - target i)))%R) rows out.
Proof. exact L_Quantize.quantize_Ok. Qed.
Print Assumptions C13_quantize_is_exact_and_optimal.

Example C13_case : 3 <= 127 /\ (forall x, In x [1; 2; 0]%R -> (0 <= x)%R) /\ (0 < rsum [1; 2; 0])%R.
Proof. split; [repeat constructor|]. split; [simpl; intuition lra|unfold rsum, sumf; simpl; lra]. Qed.

(** C14.  make_ragged_index has one more entry than there are columns; entries
    [v] and [v+1] delimit exactly the positions owned by column [v]; every
    position of a row has exactly one owner. *)
Theorem C14_ragged_index_tiles : forall ws,
  length (make_ragged_index ws) = S (length ws) /\
  (forall v p beg fin, v < length ws -> nth_error (make_ragged_index ws) v = Some beg ->
     nth_error (make_ragged_index ws) (S v) = Some fin -> (owns ws v p <-> beg <= p < fin)) /\
  (forall u v p, owns ws u p -> owns ws v p -> u = v) /\
  (forall p, p < list_sum ws <-> exists v, owns ws v p) /\
  last_index (make_ragged_index ws) = Ok (list_sum ws).
Proof.
  exact (fun ws => conj (L_Ragged.mri_length ws) (conj (L_Ragged.mri_owns ws)
    (conj (L_Ragged.owns_unique ws) (conj (L_Ragged.owns_exists ws) (L_Ragged.mri_last ws))))).
Qed.
Print Assumptions C14_ragged_index_tiles.

(** The ragged mask at a position is the dense mask of the owning column. *)
Theorem C14_ragged_mask_follows_owner : forall A ws (mask : list A), length mask = length ws ->
  exists out, make_ragged_mask (make_ragged_index ws) mask = Ok out /\ length out = list_sum ws /\
    forall v p, owns ws v p -> nth_error out p = option_map Some (nth_error mask v).
Proof. exact L_Ragged.ragged_mask_Ok. Qed.
Print Assumptions C14_ragged_mask_follows_owner.

(** count_observations gives the sum over each column's own positions, as stored
    in an int8. *)
Theorem C14_counts_are_block_sums : forall ws data, (forall row, In row data -> length row = list_sum ws) ->
  exists counts, count_observations (make_ragged_index ws) (list_sum ws) data = Ok counts /\
    length counts = length data /\
    forall n v row, nth_error data n = Some row -> v < length ws ->
      exists c, nth_error (nth n counts []) v = Some c /\
        ((-128 <= block_sum ws row v < 128)%Z -> c = block_sum ws row v) /\
        (c mod 256 = block_sum ws row v mod 256)%Z.
Proof. exact L_Ragged.counts_Ok. Qed.
Print Assumptions C14_counts_are_block_sums.

(** guess_counts is the column-wise maximum of those sums. *)
Theorem C14_guess_counts_is_the_maximum : forall ws r data,
  (forall row, In row (r :: data) -> length row = list_sum ws) ->
  (forall row v, In row (r :: data) -> v < length ws -> (-128 <= block_sum ws row v < 128)%Z) ->
  exists m, guess_counts (make_ragged_index ws) (list_sum ws) (r :: data) = Ok m /\ length m = length ws /\
    forall v, v < length ws -> (forall row, In row (r :: data) -> (block_sum ws row v <= nth v m 0)%Z) /\
      exists row, In row (r :: data) /\ nth v m 0%Z = block_sum ws row v.
Proof. exact L_Ragged.guess_counts_Ok. Qed.
Print Assumptions C14_guess_counts_is_the_maximum.

(** The int8 bound is needed: a cell with 128 observations is counted as -128. *)
Theorem C14_counts_wrap_refuted : exists ws data,
  (forall row, In row data -> length row = list_sum ws /\ forall x, In x row -> (0 <= x < 128)%Z) /\
  count_observations (make_ragged_index ws) (list_sum ws) data = Ok [[-128]]%Z.
Proof.
  exists [2], [[64; 64]%Z]. split; [|reflexivity].
  intros row [<-|[]]. split; [reflexivity|]. simpl. intros x [<-|[<-|[]]]; split; reflexivity || discriminate.
Qed.
Print Assumptions C14_counts_wrap_refuted.

Example C14_case : owns [2; 0; 3] 2 4 /\
  guess_counts (make_ragged_index [2; 3]) 5 [[1; 0; 0; 0; 0]; [0; 0; 3; 0; 1]]%Z = Ok [1; 4]%Z /\
  make_ragged_mask (make_ragged_index [2; 1]) [true; false] = Ok [Some true; Some true; Some false].
Proof. split; [|split; reflexivity]. split; simpl; auto with arith. Qed.

(** C15.  Configs are compared through the integer stored under each key.
    Two configs with the same serialization agree on every key, whatever the
    integers. *)
Theorem C15_serialize_is_injective : forall c d s,
  serialize_config c = Ok s -> serialize_config d = Ok s ->
  forall k, option_map to_int (lookup c k) = option_map to_int (lookup d k).
Proof. exact L_Config.serialize_injective. Qed.
Print Assumptions C15_serialize_is_injective.

(** serialize_config accepts exactly the dicts with the documented keys. *)
Theorem C15_serialize_domain : forall c,
  (Permutation.Permutation (map fst c) (map fst DEFAULT_CONFIG) -> exists s, serialize_config c = Ok s) /\
  (~ Permutation.Permutation (map fst c) (map fst DEFAULT_CONFIG) -> serialize_config c = Raise AssertionError).
Proof. exact (fun c => conj (fun H => ex_intro _ _ (L_Config.serialize_Ok c H)) (L_Config.serialize_not c)). Qed.
Print Assumptions C15_serialize_domain.

(** deserialize_config inverts it when no value is negative... *)
Theorem C15_roundtrip : forall c s, serialize_config c = Ok s ->
  (forall k z, option_map to_int (lookup c k) = Some z -> (0 <= z)%Z) ->
  exists d, deserialize_config s = Ok d /\
    forall k, option_map to_int (lookup d k) = option_map to_int (lookup c k).
Proof. exact L_Config.roundtrip. Qed.
Print Assumptions C15_roundtrip.

(** ... and raises AssertionError as soon as some value is negative. *)
Theorem C15_negative_values_do_not_roundtrip : forall c s, serialize_config c = Ok s ->
  (exists k z, option_map to_int (lookup c k) = Some z /\ (z < 0)%Z) ->
  deserialize_config s = Raise AssertionError.
Proof. exact L_Config.roundtrip_negative. Qed.
Print Assumptions C15_negative_values_do_not_roundtrip.

(** Other strings are rejected: those without nine values between dashes, and those
    with an empty value or a letter in one. *)
Theorem C15_malformed_strings_are_rejected : forall parts, parts <> [] -> (forall p, In p parts -> ~ In "-"%char (list_ascii_of_string p)) ->
  (length parts <> 9 -> deserialize_config (String.concat "-" parts) = Raise AssertionError) /\
  (length parts = 9 ->
   (exists p, In p parts /\ (p = ""%string \/ exists c, In c (list_ascii_of_string p) /\
      (65 <= nat_of_ascii c <= 90 \/ 97 <= nat_of_ascii c <= 122))) ->
   deserialize_config (String.concat "-" parts) = Raise ValueError).
Proof. exact L_Config2.malformed. Qed.
Print Assumptions C15_malformed_strings_are_rejected.
Example C15_malformed_case : (forall p, In p ["1"; "x2"]%string -> ~ In "-"%char (list_ascii_of_string p)) /\
  In "x"%char (list_ascii_of_string "x2") /\ 97 <= nat_of_ascii "x"%char <= 122 /\
  deserialize_config "1-1-100-0-3-8-0-x2-12"%string = Raise ValueError.
Proof.
  split; [intros p [<-|[<-|[]]]; cbn; intros H; repeat destruct H as [H|H]; try discriminate; destruct H|].
  split; [now left|]. split; [cbn; Lia.lia|reflexivity].
Qed.

(** make_config rejects unknown options and otherwise overrides exactly the
    given ones. *)
Theorem C15_make_config : forall options, NoDup (map fst options) ->
  ((exists k, In k (map fst options) /\ ~ In k (map fst DEFAULT_CONFIG)) -> make_config options = Raise ValueError) /\
  (incl (map fst options) (map fst DEFAULT_CONFIG) ->
   exists c, make_config options = Ok c /\ map fst c = map fst DEFAULT_CONFIG /\
     forall k, option_map to_int (lookup c k) =
               match option_map to_int (lookup options k) with
               | Some z => Some z
               | None => option_map to_int (lookup DEFAULT_CONFIG k)
               end).
Proof. exact L_Config.make_config_spec. Qed.
Print Assumptions C15_make_config.

Example C15_case : exists c, make_config [("seed", PInt 12); ("model_num_clusters", PInt 7)]%string = Ok c /\
  serialize_config c = Ok "1-1-100-0-3-8-0-7-12"%string.
Proof. eexists. split; reflexivity. Qed.
Example C15_negative_case : exists c, make_config [("seed", PInt (-1))]%string = Ok c /\
  serialize_config c = Ok "1-1-100-0-3-8-0-32--1"%string.
Proof. eexists. split; reflexivity. Qed.
