(** Properties C66, C67, C74, C75 and C77: training and serving in the float32 arithmetic
    they run in. *)
From Coq Require Import List Arith ZArith Reals Lia.
From Flocq Require Import Core.Zaux Core.Raux IEEE754.BinarySingleNaN.
From Verif Require Import Base Spec_Graph Spec_Ragged M_Structure M_Rand M_Training Spec_MST Spec_Stats Spec_Conditional M_Float32 M_Train32 Spec_Float32
  M_Repaired7 L_Sample32 L_Train32f L_Train32g L_Train32h L_Train32i L_Train32j L_Repair7 L_EdgeLogits
  M_Serving Spec_Serving M_Serving32 Spec_Serving32 L_Serving32a L_Serve1 L_Serving32f
  M_Repaired8 L_Serving32g L_Repair8 M_Sample32 M_Repaired9 L_ServeSample2 L_ServeSample3 L_Repair9
  M_Marg32 M_Repaired10 Spec_Marg32 L_Marg32b L_Marg32c L_Repair10
  Spec_Accuracy L_Acc1 L_Acc6 L_Acc7.
Import ListNotations.
Open Scope nat_scope.

(** C66: a draw from usable float32 weights, whatever [np.random.rand()] returns,
    takes a class of positive weight. *)
Theorem C66_draws_take_positive_weights : forall u w, uniform01 u -> usable w ->
  exists i, sample_from_probs32 u w = Ok i /\ i < length w /\ (0 < B2R (nth i w fzero))%R.
Proof. exact sample_usable. Qed.
Print Assumptions C66_draws_take_positive_weights.

(** C66: when no row has more than [c] observations of one feature and the table
    is small enough, every draw of [add_row] after every history of calls is from
    usable weights: no overflow, no NaN and no total underflow happens, nothing is
    raised, and the statistics are again the counts over the added rows.
    Missing: larger [c] and larger tables; see the refutation. *)
Theorem C66_training_draws_are_usable_partial : forall dot ws tb prior M A c t n,
  dot_ok dot -> table_ok ws tb -> nonneg_data tb -> 1 <= M <= 128 ->
  1 <= c -> at_most c ws tb ->
  (1 <= A <= 16)%Z -> ((A + 9) * Z.of_nat c + A <= 69)%Z ->
  ((Z.of_nat (num_rows tb) + 1) * Z.of_nat c < 2 ^ A)%Z -> Forall (fun w => (Z.of_nat w <= 2 ^ A)%Z) ws ->
  reachable32 dot tb prior M t -> n < num_rows tb -> ~ In n (s_added (t_state t)) ->
  draws_usable (fun '(t', x) => x = None /\ from_scratch ws tb M (t_state t') /\
                                s_added (t_state t') = set_add n (s_added (t_state t)))
    (add_row32 dot tb M t n).
Proof.
  exact (fun dot ws tb prior M A c t n D TK ND HM Hc AM HA HAc HN HW RT Hn NI =>
    reachable_draws dot ws tb prior M A (Z.of_nat c) D TK ND HM HA (inj_le 1 c Hc) HAc HN HW AM t n RT Hn NI).
Qed.
Print Assumptions C66_training_draws_are_usable_partial.

(** In particular for categorical features and ordinal features of up to three
    levels (at most two observations each) in tables of fewer than 32767 rows. *)
Theorem C66_categorical_tables_partial : forall dot ws tb prior M t n,
  dot_ok dot -> table_ok ws tb -> nonneg_data tb -> 1 <= M <= 128 -> at_most 2 ws tb ->
  (Z.of_nat (num_rows tb) < 32767)%Z -> Forall (fun w => (Z.of_nat w <= 65536)%Z) ws ->
  reachable32 dot tb prior M t -> n < num_rows tb -> ~ In n (s_added (t_state t)) ->
  draws_usable (fun '(t', x) => x = None /\ from_scratch ws tb M (t_state t') /\
                                s_added (t_state t') = set_add n (s_added (t_state t)))
    (add_row32 dot tb M t n).
Proof. exact reachable_draws2. Qed.
Print Assumptions C66_categorical_tables_partial.

Example C66_case : dot_ok seq_dot /\ table_ok [2; 3] tb4 /\ nonneg_data tb4 /\ at_most 1 [2; 3] tb4 /\
  (1 <= 16 <= 16)%Z /\ ((16 + 9) * Z.of_nat 1 + 16 <= 69)%Z /\ ((Z.of_nat (num_rows tb4) + 1) * Z.of_nat 1 < 2 ^ 16)%Z /\
  Forall (fun w => (Z.of_nat w <= 2 ^ 16)%Z) [2; 3] /\
  reachable32 seq_dot tb4 [0%R] 2 q1 /\ 1 < num_rows tb4 /\ ~ In 1 (s_added (t_state q1)).
Proof. exact C66_case_proof. Qed.

(** C66 fails for ordinal features with many levels: for one feature with levels
    0 .. 127, after adding two rows there is a third one whose two classes are
    equally likely, yet [add_row] puts it in class 0 whatever is drawn, because
    both float32 weights have underflowed to zero. *)
Theorem C66_long_ordinals_refuted : forall dot, exists t,
  table_ok [2] tb3 /\ nonneg_data tb3 /\ at_most 127 [2] tb3 /\
  reachable32 dot tb3 [] 2 t /\ ~ In 2 (s_added (t_state t)) /\
  prob (add_row tb3 2 (t_state t) 2) (fun '(s, _) => s_asg s 2 0 =? 1) = (1 / 2)%R /\
  forall u, exists t', frun [u] (add_row32 dot tb3 2 t 2) = Ok (t', None) /\ s_asg (t_state t') 2 0 = 0.
Proof. exact C66_refuted_proof. Qed.
Print Assumptions C66_long_ordinals_refuted.

(** C66 once repaired: if treecat_add_cell divided the message by its largest entry
    after every observation, every draw would be from usable weights whatever the
    number of levels: only the table sizes are bounded, by what float32 counters
    can hold. *)
Theorem C66_repaired_training_draws_are_usable : forall dot ws tb prior M c t n,
  dot_ok dot -> table_ok ws tb -> nonneg_data tb -> 1 <= M <= 128 -> at_most c ws tb ->
  (Z.of_nat (num_rows tb) < 65535)%Z -> ((Z.of_nat (num_rows tb) + 1) * Z.of_nat c < 2 ^ 22)%Z ->
  Forall (fun w => (Z.of_nat w <= 2 ^ 22)%Z) ws ->
  reachable32_with (repaired_add_cell32 M) dot tb prior M t -> n < num_rows tb -> ~ In n (s_added (t_state t)) ->
  draws_usable (fun '(t', x) => x = None /\ from_scratch ws tb M (t_state t') /\
                                s_added (t_state t') = set_add n (s_added (t_state t)))
    (repaired_add_row32 dot tb M t n).
Proof. exact repaired_draws. Qed.
Print Assumptions C66_repaired_training_draws_are_usable.

(** The table of the refutation is such a case, and both classes are now taken. *)
Example C66_repaired_case : exists t,
  dot_ok seq_dot /\ table_ok [2] tb3 /\ nonneg_data tb3 /\ at_most 127 [2] tb3 /\
  (Z.of_nat (num_rows tb3) < 65535)%Z /\ ((Z.of_nat (num_rows tb3) + 1) * Z.of_nat 127 < 2 ^ 22)%Z /\
  Forall (fun w => (Z.of_nat w <= 2 ^ 22)%Z) [2] /\
  reachable32_with (repaired_add_cell32 2) seq_dot tb3 [] 2 t /\ ~ In 2 (s_added (t_state t)) /\
  forall m, m < 2 -> exists u t', uniform01 u /\ frun [u] (repaired_add_row32 seq_dot tb3 2 t 2) = Ok (t', None) /\ s_asg (t_state t') 2 0 = m.
Proof. exact C66_repaired_case_proof. Qed.

(** The repair changes nothing in exact arithmetic: whatever is computed from the
    outcome of add_row has the same expectation. *)
Theorem C66_the_repair_keeps_the_distribution : forall ws tb prior M s n f,
  table_ok ws tb -> nonneg_data tb -> 1 <= M -> reachable tb prior M s -> n < num_rows tb ->
  expect (repaired_add_row tb M s n) f = expect (add_row tb M s n) f.
Proof. exact repair_keeps. Qed.
Print Assumptions C66_the_repair_keeps_the_distribution.

(** A trainer with one of three rows added. *)
Example C66_keeps_case : exists s, table_ok [2; 2] L_EdgeLogits.cx_tb /\ nonneg_data L_EdgeLogits.cx_tb /\
  reachable L_EdgeLogits.cx_tb [0%R] 2 s /\ s_added s = [1] /\ 2 < num_rows L_EdgeLogits.cx_tb.
Proof.
  destruct L_EdgeLogits.cx_case22 as (s & R & A & _ & N & _). exists s.
  split; [exact L_EdgeLogits.cx_ok|]. split; [exact L_EdgeLogits.cx_nonneg|]. auto.
Qed.

(** C67: [logprob] in float32 is a finite number, not NaN and not minus infinity,
    for every model and row such that no count reaches 2^A, no feature is observed
    more than [c] times in the row, and no observed category is less likely than
    2^-b in some class.  There is no bound on the number of features.
    Missing: larger counts; see the refutation. *)
Theorem C67_logprob_is_finite_partial : forall lib ws V M N m A b c row,
  lib_ok lib -> consistent ws V M N m -> counts_below A ws N m ->
  (6 <= A <= 16)%Z -> (0 <= b <= 140)%Z -> (0 <= c)%Z -> (2 * (A + 3 + (b + 4) * c) + A + 11 <= 149)%Z ->
  length row = list_sum ws -> Forall (fun x => (0 <= x)%Z) row ->
  (forall v, v < V -> (block_sum ws row v <= c)%Z) ->
  (forall v q k, v < V -> In q (block ws v) -> k < M -> nth q row 0%Z <> 0%Z ->
    (bpow radix2 (- b) <= feat_prob ws m v q k)%R) ->
  exists s x, tree_server32 lib m = Ok s /\ logprob_row32 lib s row = Ok x /\ is_finite x = true.
Proof. exact logprob_finite. Qed.
Print Assumptions C67_logprob_is_finite_partial.

(** Without a condition on the categories: up to [c] observations of a feature. *)
Theorem C67_few_observations_partial : forall lib ws V M N m A c row,
  lib_ok lib -> consistent ws V M N m -> counts_below A ws N m ->
  (6 <= A <= 16)%Z -> (0 <= c)%Z -> (2 * (A + 3 + (A + 13) * c) + A + 11 <= 149)%Z ->
  length row = list_sum ws -> Forall (fun x => (0 <= x)%Z) row ->
  (forall v, v < V -> (block_sum ws row v <= c)%Z) ->
  exists s x, tree_server32 lib m = Ok s /\ logprob_row32 lib s row = Ok x /\ is_finite x = true.
Proof. exact logprob_finite_any. Qed.
Print Assumptions C67_few_observations_partial.

(** In particular always for categorical features and fewer than 65536 rows. *)
Theorem C67_categorical_rows_partial : forall lib ws V M N m row,
  lib_ok lib -> consistent ws V M N m -> counts_below 16 ws N m ->
  length row = list_sum ws -> Forall (fun x => (0 <= x)%Z) row ->
  (forall v, v < V -> (block_sum ws row v <= 1)%Z) ->
  exists s x, tree_server32 lib m = Ok s /\ logprob_row32 lib s row = Ok x /\ is_finite x = true.
Proof. exact logprob_finite_one. Qed.
Print Assumptions C67_categorical_rows_partial.

Example C67_case : lib_ok lib0 /\ consistent [2; 1; 3] 3 2 2 ex_model /\ counts_below 6 [2; 1; 3] 2 ex_model /\
  (2 * (6 + 3 + (6 + 13) * 2) + 6 + 11 <= 149)%Z /\
  length [1; 0; 0; 1; 1; 0]%Z = list_sum [2; 1; 3] /\ Forall (fun x => (0 <= x)%Z) [1; 0; 0; 1; 1; 0]%Z /\
  (forall v, v < 3 -> (block_sum [2; 1; 3]%nat [1; 0; 0; 1; 1; 0] v <= 2)%Z).
Proof. exact ex_case_finite. Qed.

(** C67 fails for ordinal features with levels 0 .. 127: for every model of two or
    more of them, [logprob] of the row in which every feature is at level 64 is
    minus infinity or NaN.  (The exact value is a finite number: C26.) *)
Theorem C67_long_ordinals_refuted : forall lib V M N m,
  lib_ok lib -> 2 <= V -> consistent (repeat 2 V) V M N m -> counts_below 16 (repeat 2 V) N m ->
  exists s x, tree_server32 lib m = Ok s /\ logprob_row32 lib s (concat (repeat [64; 63]%Z V)) = Ok x /\ is_finite x = false.
Proof. exact logprob_underflows. Qed.
Print Assumptions C67_long_ordinals_refuted.

Example C67_refuting_model : lib_ok lib0 /\ consistent (repeat 2 2) 2 2 2 mid_model /\ counts_below 16 (repeat 2 2) 2 mid_model.
Proof. exact (conj lib0_ok (conj mid_consistent mid_below)). Qed.

(** If [logprob] normalised the message after every observation, as it does after
    OP_IN, it would be a finite number for any number of levels. *)
Theorem C67_repaired_logprob_is_finite : forall lib ws V M N m A row,
  lib_ok lib -> consistent ws V M N m -> counts_below A ws N m -> (6 <= A <= 16)%Z -> length row = list_sum ws ->
  exists s x, tree_server32 lib m = Ok s /\ repaired_logprob_row32 lib s row = Ok x /\ is_finite x = true.
Proof. exact repaired_logprob_finite. Qed.
Print Assumptions C67_repaired_logprob_is_finite.

(** In particular for the row on which it fails now. *)
Example C67_repaired_case : lib_ok lib0 /\ consistent (repeat 2 2) 2 2 2 mid_model /\ counts_below 16 (repeat 2 2) 2 mid_model /\
  length (concat (repeat [64; 63]%Z 2)) = list_sum (repeat 2 2) /\
  (exists s x, tree_server32 lib0 mid_model = Ok s /\ logprob_row32 lib0 s (concat (repeat [64; 63]%Z 2)) = Ok x /\ is_finite x = false).
Proof.
  split; [exact lib0_ok|]. split; [exact mid_consistent|]. split; [exact mid_below|]. split; [reflexivity|].
  exact (logprob_underflows lib0 2 2 2 mid_model lib0_ok (le_n 2) mid_consistent mid_below).
Qed.

(** In exact arithmetic that repair computes the same number: the logarithm of the
    probability of the row. *)
Theorem C67_the_repair_keeps_the_value : forall ws V M N m mst s row,
  consistent ws V M N m -> mst_contract mst -> tree_server mst m = Ok s ->
  length row = list_sum ws -> Forall (fun x => (0 <= x)%Z) row ->
  repaired_logprob_row s row = Ok (ln (row_prob ws m row)) /\ (0 < row_prob ws m row)%R.
Proof. exact repaired_logprob_value. Qed.
Print Assumptions C67_the_repair_keeps_the_value.

Example C67_keeps_case : consistent [2; 1; 3] 3 2 2 ex_model /\ length [1; 0; 0; 1; 1; 0]%Z = list_sum [2; 1; 3] /\
  Forall (fun x => (0 <= x)%Z) [1; 0; 0; 1; 1; 0]%Z.
Proof. split; [exact ex_consistent|]. split; [reflexivity|]. repeat constructor; discriminate. Qed.

(** C74: when no count of the model reaches 2^A, no feature is observed more than
    [c] times in the given row, and no observed category is less likely than 2^-b
    in some class, every draw [sample] makes in float32 is from usable weights,
    nothing is raised, and every row drawn has the requested number of
    observations of each feature.  There is no bound on the number of features.
    Missing: larger counts; see the refutation. *)
Theorem C74_sample_draws_are_usable_partial : forall lib ws V M N m A b c n counts row,
  lib_ok lib -> consistent ws V M N m -> counts_below A ws N m ->
  (6 <= A <= 16)%Z -> (0 <= b <= 140)%Z -> (0 <= c)%Z -> (2 * (A + 3 + (b + 4) * c) + A + 11 <= 149)%Z ->
  length counts = V -> (forall v, v < V -> (0 <= nth v counts 0 <= 127)%Z) ->
  (forall v, v < V -> (0 < nth v counts 0%Z)%Z -> 1 <= nth v ws 0) ->
  length row = list_sum ws -> Forall (fun x => (0 <= x)%Z) row ->
  (forall v, v < V -> (block_sum ws row v <= c)%Z) ->
  (forall v q k, v < V -> In q (block ws v) -> k < M -> nth q row 0%Z <> 0%Z ->
    (bpow radix2 (- b) <= feat_prob ws m v q k)%R) ->
  exists s, tree_server32 lib m = Ok s /\
    draws_usable (fun rows => length rows = n /\ forall x, In x rows -> legal_row ws counts x) (sample32 lib s n counts (Some row)).
Proof. exact sample_usable32. Qed.
Print Assumptions C74_sample_draws_are_usable_partial.

(** Without a condition on the categories: up to [c] observations of a feature. *)
Theorem C74_few_observations_partial : forall lib ws V M N m A c n counts row,
  lib_ok lib -> consistent ws V M N m -> counts_below A ws N m ->
  (6 <= A <= 16)%Z -> (0 <= c)%Z -> (2 * (A + 3 + (A + 13) * c) + A + 11 <= 149)%Z ->
  length counts = V -> (forall v, v < V -> (0 <= nth v counts 0 <= 127)%Z) ->
  (forall v, v < V -> (0 < nth v counts 0%Z)%Z -> 1 <= nth v ws 0) ->
  length row = list_sum ws -> Forall (fun x => (0 <= x)%Z) row ->
  (forall v, v < V -> (block_sum ws row v <= c)%Z) ->
  exists s, tree_server32 lib m = Ok s /\
    draws_usable (fun rows => length rows = n /\ forall x, In x rows -> legal_row ws counts x) (sample32 lib s n counts (Some row)).
Proof. exact sample_usable32_any. Qed.
Print Assumptions C74_few_observations_partial.

Example C74_case : lib_ok lib0 /\ consistent [2; 1; 3] 3 2 2 ex_model /\ counts_below 6 [2; 1; 3] 2 ex_model /\
  (2 * (6 + 3 + (6 + 13) * 2) + 6 + 11 <= 149)%Z /\
  length [2; 0; 1]%Z = 3 /\ (forall v, v < 3 -> (0 <= nth v [2; 0; 1]%Z 0 <= 127)%Z) /\
  (forall v, v < 3 -> (0 < nth v [2; 0; 1] 0)%Z -> 1 <= nth v [2; 1; 3] 0) /\
  length [1; 0; 0; 1; 1; 0]%Z = list_sum [2; 1; 3] /\ Forall (fun x => (0 <= x)%Z) [1; 0; 0; 1; 1; 0]%Z /\
  (forall v, v < 3 -> (block_sum [2; 1; 3]%nat [1; 0; 0; 1; 1; 0] v <= 2)%Z).
Proof. exact ex_case_sample. Qed.

(** In particular always when nothing is given. *)
Theorem C74_samples_given_nothing_are_usable : forall lib ws V M N m n counts,
  lib_ok lib -> consistent ws V M N m -> counts_below 16 ws N m ->
  length counts = V -> (forall v, v < V -> (0 <= nth v counts 0 <= 127)%Z) ->
  (forall v, v < V -> (0 < nth v counts 0%Z)%Z -> 1 <= nth v ws 0) ->
  exists s, tree_server32 lib m = Ok s /\
    draws_usable (fun rows => length rows = n /\ forall x, In x rows -> legal_row ws counts x) (sample32 lib s n counts None).
Proof. exact sample_usable32_none. Qed.
Print Assumptions C74_samples_given_nothing_are_usable.

(** And for categorical evidence; so [sample] run on any numbers [np.random.rand]
    may return, if there are enough of them, returns [n] rows of the right shape. *)
Theorem C74_categorical_evidence_gives_rows_partial : forall lib ws V M N m n counts row,
  lib_ok lib -> consistent ws V M N m -> counts_below 16 ws N m ->
  length counts = V -> (forall v, v < V -> (0 <= nth v counts 0 <= 127)%Z) ->
  (forall v, v < V -> (0 < nth v counts 0%Z)%Z -> 1 <= nth v ws 0) ->
  length row = list_sum ws -> Forall (fun x => (0 <= x)%Z) row ->
  (forall v, v < V -> (block_sum ws row v <= 1)%Z) ->
  exists s K, tree_server32 lib m = Ok s /\ forall us, Forall uniform01 us -> K <= length us ->
    exists rows, frun us (sample32 lib s n counts (Some row)) = Ok rows /\ length rows = n /\ forall x, In x rows -> legal_row ws counts x.
Proof. exact sample_rows32. Qed.
Print Assumptions C74_categorical_evidence_gives_rows_partial.

Example C74_categorical_case : lib_ok lib0 /\ consistent [2; 1; 3] 3 2 2 ex_model /\ counts_below 16 [2; 1; 3] 2 ex_model /\
  length [2; 0; 1]%Z = 3 /\ (forall v, v < 3 -> (0 <= nth v [2; 0; 1]%Z 0 <= 127)%Z) /\
  (forall v, v < 3 -> (0 < nth v [2; 0; 1] 0)%Z -> 1 <= nth v [2; 1; 3] 0) /\
  length [1; 0; 0; 0; 1; 0]%Z = list_sum [2; 1; 3] /\ Forall (fun x => (0 <= x)%Z) [1; 0; 0; 0; 1; 0]%Z /\
  (forall v, v < 3 -> (block_sum [2; 1; 3]%nat [1; 0; 0; 0; 1; 0] v <= 1)%Z).
Proof. exact ex_case_sample_one. Qed.

(** C74 fails for ordinal features with levels 0 .. 127: for every model of two or
    more of them, given the row in which every feature is at level 64, the first
    draw of [sample] is from weights that are all NaN, and always takes class 0. *)
Theorem C74_long_ordinals_refuted : forall lib V M N m n counts,
  lib_ok lib -> dot_nan (l_dot lib) -> 2 <= V -> consistent (repeat 2 V) V M N m -> counts_below 16 (repeat 2 V) N m ->
  1 <= n -> length counts = V ->
  exists s w k, tree_server32 lib m = Ok s /\ sample32 lib s n counts (Some (concat (repeat [64; 63]%Z V))) = FCat w k /\
    length w = M /\ Forall (eq B754_nan) w /\ forall u, sample_from_probs32 u w = Ok 0.
Proof. exact sample_from_nan. Qed.
Print Assumptions C74_long_ordinals_refuted.

Example C74_refuting_model : lib_ok lib0 /\ dot_nan (l_dot lib0) /\ consistent (repeat 2 2) 2 2 2 mid_model /\ counts_below 16 (repeat 2 2) 2 mid_model.
Proof. exact (conj lib0_ok (conj seq_dot_nan (conj mid_consistent mid_below))). Qed.

(** If [sample] rescaled the message after every observation, as it does after
    OP_IN, its draws would be from usable weights for any number of levels. *)
Theorem C74_repaired_sample_draws_are_usable : forall lib ws V M N m A n counts row,
  lib_ok lib -> consistent ws V M N m -> counts_below A ws N m -> (6 <= A <= 16)%Z ->
  length counts = V -> (forall v, v < V -> (0 <= nth v counts 0 <= 127)%Z) ->
  (forall v, v < V -> (0 < nth v counts 0%Z)%Z -> 1 <= nth v ws 0) ->
  length row = list_sum ws ->
  exists s, tree_server32 lib m = Ok s /\
    draws_usable (fun rows => length rows = n /\ forall x, In x rows -> legal_row ws counts x) (repaired_sample32 lib s n counts (Some row)).
Proof. exact repaired_sample_usable32. Qed.
Print Assumptions C74_repaired_sample_draws_are_usable.

(** In particular where it fails now. *)
Example C74_repaired_case : lib_ok lib0 /\ consistent (repeat 2 2) 2 2 2 mid_model /\ counts_below 16 (repeat 2 2) 2 mid_model /\
  length [1; 1]%Z = 2 /\ (forall v, v < 2 -> (0 <= nth v [1; 1]%Z 0 <= 127)%Z) /\
  (forall v, v < 2 -> (0 < nth v [1; 1] 0)%Z -> 1 <= nth v (repeat 2 2) 0) /\
  length (concat (repeat [64; 63]%Z 2)) = list_sum (repeat 2 2).
Proof.
  split; [exact lib0_ok|]. split; [exact mid_consistent|]. split; [exact mid_below|]. split; [reflexivity|].
  split; [|split; [|reflexivity]]; intros [|[|v]] Hv; cbn; lia.
Qed.

(** In exact arithmetic that repair leaves the distribution of the drawn rows as
    it is. *)
Theorem C74_the_repair_keeps_the_distribution : forall ws V M N m mst s n counts data f,
  consistent ws V M N m -> mst_contract mst -> tree_server mst m = Ok s ->
  (forall d, data = Some d -> length d = list_sum ws /\ Forall (fun x => (0 <= x)%Z) d) ->
  expect (repaired_sample s n counts data) f = expect (sample s n counts data) f.
Proof. exact repaired_sample_keeps. Qed.
Print Assumptions C74_the_repair_keeps_the_distribution.

Example C74_keeps_case : consistent [2; 1; 3] 3 2 2 ex_model /\
  (forall d, Some [1; 0; 0; 1; 1; 0]%Z = Some d -> length d = list_sum [2; 1; 3] /\ Forall (fun x => (0 <= x)%Z) d).
Proof. split; [exact ex_consistent|]. intros d E. inversion E; subst. split; [reflexivity|]. repeat constructor; discriminate. Qed.

(** C75: [marginals] computed in float32 are probabilities: finite, positive, at most
    one, adding up to one within 1/64 for each feature.  Holds when the tree is not
    deep, no feature has more than [c] observations, and those observed have
    probability at least 2^-b; counts are below 2^A, and the bounds that relate
    [A], [b], [c] and the depth [D] are the ones shown. *)
Theorem C75_marginals_are_probabilities_partial : forall lib ws V M N m A b c D row,
  lib_ok lib -> consistent ws V M N m -> counts_below A ws N m -> (6 <= A <= 16)%Z -> (0 <= b <= 140)%Z -> (0 <= c)%Z ->
  within V (ts_get_edges (d_tree m)) D ->
  (2 * (A + 3 + (b + 4) * c) + A + 11 <= 149)%Z ->
  ((A + 3 + (b + 4) * c) + Z.of_nat D * (A + 3 + (b + 4) * c + A + 11) + A + 12 <= 149)%Z -> (Z.of_nat D * (2 * A + 13) <= 90)%Z ->
  length row = list_sum ws -> Forall (fun x => (0 <= x)%Z) row ->
  (forall v, v < V -> (block_sum ws row v <= c)%Z) ->
  (forall v q k, v < V -> In q (block ws v) -> k < M -> nth q row 0%Z <> 0%Z -> (bpow radix2 (- b) <= feat_prob ws m v q k)%R) ->
  exists s, tree_server32 lib m = Ok s /\ forall junk, exists x, marginals_row32 lib s junk row = Ok x /\ marginals_good ws V x.
Proof. exact marginals_finite. Qed.
Print Assumptions C75_marginals_are_probabilities_partial.

(** With any probabilities, for few observations of each feature. *)
Theorem C75_few_observations_partial : forall lib ws V M N m A c D row,
  lib_ok lib -> consistent ws V M N m -> counts_below A ws N m -> (6 <= A <= 16)%Z -> (0 <= c)%Z ->
  within V (ts_get_edges (d_tree m)) D ->
  (2 * (A + 3 + (A + 13) * c) + A + 11 <= 149)%Z ->
  ((A + 3 + (A + 13) * c) + Z.of_nat D * (A + 3 + (A + 13) * c + A + 11) + A + 12 <= 149)%Z -> (Z.of_nat D * (2 * A + 13) <= 90)%Z ->
  length row = list_sum ws -> Forall (fun x => (0 <= x)%Z) row ->
  (forall v, v < V -> (block_sum ws row v <= c)%Z) ->
  exists s, tree_server32 lib m = Ok s /\ forall junk, exists x, marginals_row32 lib s junk row = Ok x /\ marginals_good ws V x.
Proof. exact marginals_finite_any. Qed.
Print Assumptions C75_few_observations_partial.

Example C75_case : lib_ok lib0 /\ consistent [2; 1; 3] 3 2 2 ex_model /\ counts_below 6 [2; 1; 3] 2 ex_model /\
  within 3 (ts_get_edges (d_tree ex_model)) 1 /\
  (2 * (6 + 3 + (6 + 13) * 2) + 6 + 11 <= 149)%Z /\
  ((6 + 3 + (6 + 13) * 2) + 1 * (6 + 3 + (6 + 13) * 2 + 6 + 11) + 6 + 12 <= 149)%Z /\ (1 * (2 * 6 + 13) <= 90)%Z /\
  length [1; 0; 0; 1; 1; 0]%Z = list_sum [2; 1; 3] /\ Forall (fun x => (0 <= x)%Z) [1; 0; 0; 1; 1; 0]%Z /\
  (forall v, v < 3 -> (block_sum [2; 1; 3]%nat [1; 0; 0; 1; 1; 0]%Z v <= 2)%Z).
Proof. exact ex_case_marginals. Qed.

(** C75 fails on deep trees: for every model of ordinal features with levels 0 .. 63
    whose tree has no vertex within 8 edges of all others, [marginals] of the row in
    which every feature is at level 32 contain a NaN. *)
Theorem C75_deep_trees_refuted : forall lib V M N m,
  lib_ok lib -> dot_zero (l_dot lib) -> dot_nan (l_dot lib) ->
  consistent (repeat 2 V) V M N m -> counts_below 16 (repeat 2 V) N m ->
  ~ within V (ts_get_edges (d_tree m)) 8 ->
  exists s, tree_server32 lib m = Ok s /\ forall junk, exists x,
    marginals_row32 lib s junk (concat (repeat [32; 31]%Z V)) = Ok x /\ In B754_nan x.
Proof. exact marginals_underflow. Qed.
Print Assumptions C75_deep_trees_refuted.

(** For example any path of at least 18 features. *)
Example C75_refuting_models : lib_ok lib0 /\ dot_zero (l_dot lib0) /\ dot_nan (l_dot lib0) /\ forall V, 18 <= V ->
  consistent (repeat 2 V) V 2 2 (path_model V) /\ counts_below 16 (repeat 2 V) 2 (path_model V) /\
  ~ within V (ts_get_edges (d_tree (path_model V))) 8.
Proof.
  split; [exact lib0_ok|]. split; [exact seq_dot_zero|]. split; [exact seq_dot_nan|]. intros V HV.
  split; [apply path_consistent; lia|]. split; [apply path_below|now apply path_far].
Qed.

(** If [marginals] rescaled messages after every observation and on the outward pass
    too, they would be probabilities for any row and any tree. *)
Theorem C75_repaired_marginals_are_probabilities : forall lib ws V M N m A row,
  lib_ok lib -> consistent ws V M N m -> counts_below A ws N m -> (6 <= A <= 16)%Z ->
  length row = list_sum ws ->
  exists s, tree_server32 lib m = Ok s /\ forall junk, exists x, repaired_marginals_row32 lib s junk row = Ok x /\ marginals_good ws V x.
Proof. exact repaired_marginals_finite. Qed.
Print Assumptions C75_repaired_marginals_are_probabilities.

(** In particular where it fails now. *)
Example C75_repaired_case : forall V, 18 <= V -> lib_ok lib0 /\ consistent (repeat 2 V) V 2 2 (path_model V) /\
  counts_below 16 (repeat 2 V) 2 (path_model V) /\ length (concat (repeat [32; 31]%Z V)) = list_sum (repeat 2 V).
Proof.
  intros V HV. split; [exact lib0_ok|]. split; [apply path_consistent; lia|]. split; [apply path_below|].
  clear HV. induction V as [|V IH]; [reflexivity|]. cbn [repeat concat app length]. rewrite IH. reflexivity.
Qed.

(** In exact arithmetic that repair leaves the marginals as they are. *)
Theorem C75_the_repair_keeps_the_marginals : forall ws V M N m mst s junk row,
  consistent ws V M N m -> mst_contract mst -> tree_server mst m = Ok s ->
  length row = list_sum ws -> Forall (fun x => (0 <= x)%Z) row ->
  repaired_marginals_row s junk row = marginals_row s junk row.
Proof. exact repaired_marginals_keep. Qed.
Print Assumptions C75_the_repair_keeps_the_marginals.

Example C75_keeps_case : consistent [2; 1; 3] 3 2 2 ex_model /\ length [1; 0; 0; 1; 1; 0]%Z = list_sum [2; 1; 3] /\
  Forall (fun x => (0 <= x)%Z) [1; 0; 0; 1; 1; 0]%Z.
Proof. split; [exact ex_consistent|]. split; [reflexivity|]. repeat constructor; discriminate. Qed.

(** C77: the number [logprob] returns is the logarithm of the probability of the row,
    up to an error that grows with the number of features and observations only.
    [eta] is the relative error of sums, products and powers and [lambda] the
    absolute error of a logarithm.  Proved when all counts are below 2^A, no feature
    has more than [d] neighbours in the tree or is observed more than [c] times, and
    no observed category is less likely than 2^-b in some class.
    Missing: larger counts, and features with more neighbours; see the refutation. *)
Theorem C77_logprob_is_accurate_partial : forall lib ws V M N m A W b c d eta lambda row,
  lib_ok lib -> accurate W eta lambda lib -> consistent ws V M N m -> counts_below A ws N m -> degree_at_most d m ->
  (6 <= A <= 16)%Z -> (0 <= b <= 140)%Z -> (0 <= c)%Z -> (2 * (A + 3 + (b + 4) * c) + (A + 8) * Z.of_nat d + 20 <= 126)%Z ->
  (bpow radix2 (-23) <= eta)%R -> (Z.of_nat (M * M) <= W)%Z -> (forall v, v < V -> (Z.of_nat (nth v ws 0%nat) <= W)%Z) -> (Z.of_nat V <= 2 ^ 16)%Z ->
  length row = list_sum ws -> Forall (fun x => (0 <= x)%Z) row ->
  (forall v, v < V -> (block_sum ws row v <= c)%Z) ->
  (forall v q k, v < V -> In q (block ws v) -> k < M -> nth q row 0%Z <> 0%Z ->
    (bpow radix2 (- b) <= feat_prob ws m v q k)%R) ->
  let total := (IZR (37 * Z.of_nat V + 2 * Z.of_nat (list_sum ws) + 8 * fold_right Z.add 0%Z row) * eta)%R in
  (total <= 1 / 4)%R ->
  exists s x, tree_server32 lib m = Ok s /\ logprob_row32 lib s row = Ok x /\ is_finite x = true /\
    (Rabs (B2R x - ln (row_prob ws m row)) <= total + INR V * (lambda + bpow radix2 (-16) * INR (V + 1)))%R.
Proof. exact logprob_accurate. Qed.
Print Assumptions C77_logprob_is_accurate_partial.

(** Without a condition on the categories. *)
Theorem C77_few_observations_partial : forall lib ws V M N m A W c d eta lambda row,
  lib_ok lib -> accurate W eta lambda lib -> consistent ws V M N m -> counts_below A ws N m -> degree_at_most d m ->
  (6 <= A <= 16)%Z -> (0 <= c)%Z -> (2 * (A + 3 + (A + 13) * c) + (A + 8) * Z.of_nat d + 20 <= 126)%Z ->
  (bpow radix2 (-23) <= eta)%R -> (Z.of_nat (M * M) <= W)%Z -> (forall v, v < V -> (Z.of_nat (nth v ws 0%nat) <= W)%Z) -> (Z.of_nat V <= 2 ^ 16)%Z ->
  length row = list_sum ws -> Forall (fun x => (0 <= x)%Z) row ->
  (forall v, v < V -> (block_sum ws row v <= c)%Z) ->
  let total := (IZR (37 * Z.of_nat V + 2 * Z.of_nat (list_sum ws) + 8 * fold_right Z.add 0%Z row) * eta)%R in
  (total <= 1 / 4)%R ->
  exists s x, tree_server32 lib m = Ok s /\ logprob_row32 lib s row = Ok x /\ is_finite x = true /\
    (Rabs (B2R x - ln (row_prob ws m row)) <= total + INR V * (lambda + bpow radix2 (-16) * INR (V + 1)))%R.
Proof. exact logprob_accurate_any. Qed.
Print Assumptions C77_few_observations_partial.

Example C77_case : lib_ok lib0 /\ accurate 4 (5 * bpow radix2 (-23)) (bpow radix2 (-10)) lib0 /\ consistent [2; 1; 3] 3 2 2 ex_model /\ counts_below 6 [2; 1; 3] 2 ex_model /\
  degree_at_most 2 ex_model /\ (2 * (6 + 3 + (6 + 13) * 1) + (6 + 8) * Z.of_nat 2 + 20 <= 126)%Z /\ (bpow radix2 (-23) <= 5 * bpow radix2 (-23))%R /\
  length [1; 0; 1; 0; 1; 0]%Z = list_sum [2; 1; 3] /\ Forall (fun x => (0 <= x)%Z) [1; 0; 1; 0; 1; 0]%Z /\
  (forall v, v < 3 -> (block_sum [2; 1; 3]%nat [1; 0; 1; 0; 1; 0] v <= 1)%Z) /\
  (IZR (37 * Z.of_nat 3 + 2 * Z.of_nat (list_sum [2; 1; 3]%nat) + 8 * fold_right Z.add 0%Z [1; 0; 1; 0; 1; 0]%Z) * (5 * bpow radix2 (-23)) <= 1 / 4)%R.
Proof. exact ex_case_accurate. Qed.

(** C77 fails for a feature with 34 neighbours, each observed once: [logprob] returns
    a finite number, but the row is more than exp 60 times as likely as it says.  Ten
    neighbours make the message of one class underflow to zero, which it stays when
    the other twenty-four favour that class. *)
Theorem C77_wide_trees_refuted : exists lib ws V M N m row,
  lib_ok lib /\ accurate 4 (5 * bpow radix2 (-23)) (bpow radix2 (-10)) lib /\ consistent ws V M N m /\ counts_below 16 ws N m /\
  length row = list_sum ws /\ Forall (fun x => (0 <= x)%Z) row /\ (forall v, v < V -> (block_sum ws row v <= 1)%Z) /\
  (Z.of_nat (M * M) <= 4)%Z /\ (forall v, v < V -> (Z.of_nat (nth v ws 0%nat) <= 4)%Z) /\
  exists s x, tree_server32 lib m = Ok s /\ logprob_row32 lib s row = Ok x /\ is_finite x = true /\
    (B2R x < ln (row_prob ws m row) - 60)%R.
Proof. exact wide_trees_wrong. Qed.
Print Assumptions C77_wide_trees_refuted.
