(** Properties C80 and C81: the distribution of the rows [sample] draws, with the weights it
    computes in float32. *)
From Coq Require Import List Arith ZArith Reals Lia.
From Flocq Require Import Core.Zaux Core.Raux IEEE754.BinarySingleNaN.
From Verif Require Import Base Spec_Graph Spec_Ragged M_Structure M_Rand M_Training Spec_MST Spec_Sum Spec_Stats Spec_Conditional M_Float32 M_Train32 Spec_Float32
  M_Serving Spec_Serving M_Serving32 Spec_Serving32 L_Serving32a L_Serve1 M_Sample32 Spec_Accuracy Spec_Law L_Law6 L_Grid L_Grid2 L_Grid3.
Import ListNotations.
Open Scope nat_scope.

(** C80: [sample] with float32 tables and messages draws any rows [X] with the
    probability the model gives them, up to a factor exp(n * total), where [total]
    grows with the number of features, cells and observations only.  Every draw is
    taken to be exactly proportional to the float32 weights it is made from.
    Proved when all counts are below 2^A, no feature has more than [d] neighbours in
    the tree or is observed more than [c] times, and no observed category is less
    likely than 2^-b in some class.
    Missing: larger counts, and features with more neighbours or observations, where
    C74 is refuted. *)
Theorem C80_samples_follow_the_model_partial : forall lib ws V M N m A W b c d eta lambda row n counts data,
  lib_ok lib -> accurate W eta lambda lib -> consistent ws V M N m -> counts_below A ws N m -> degree_at_most d m ->
  (6 <= A <= 16)%Z -> (0 <= b <= 140)%Z -> (0 <= c)%Z -> (2 * (A + 3 + (b + 4) * c) + (A + 8) * Z.of_nat d + 24 <= 126)%Z ->
  (bpow radix2 (-23) <= eta)%R -> (Z.of_nat (M * M) <= W)%Z -> (forall v, v < V -> (Z.of_nat (nth v ws 0%nat) <= W)%Z) ->
  data = Some row \/ data = None /\ row = repeat 0%Z (list_sum ws) ->
  length row = list_sum ws -> Forall (fun x => (0 <= x)%Z) row ->
  (forall v, v < V -> (block_sum ws row v <= c)%Z) ->
  (forall v q k, v < V -> In q (block ws v) -> k < M -> nth q row 0%Z <> 0%Z ->
    (bpow radix2 (- b) <= feat_prob ws m v q k)%R) ->
  length counts = V -> (forall v, v < V -> (0 <= nth v counts 0 <= 127)%Z) ->
  (forall v, v < V -> (0 < nth v counts 0)%Z -> 1 <= nth v ws 0) ->
  let total := (IZR (130 * Z.of_nat V + 4 * Z.of_nat (list_sum ws) + 16 * fold_right Z.add 0%Z row + 16 * fold_right Z.add 0%Z counts) * eta)%R in
  (total <= 1 / 4)%R ->
  exists s, tree_server32 lib m = Ok s /\ forall X, length X = n -> (forall x, In x X -> legal_row ws counts x) ->
    agree (INR n * total) (prob_of (ideal (sample32 lib s n counts data)) X)
      (prodf X (fun x => arrangements ws counts x * (row_prob ws m (merge row x) / row_prob ws m row))%R).
Proof. exact sample_follows_law. Qed.
Print Assumptions C80_samples_follow_the_model_partial.

Example C80_case : lib_ok lib0 /\ accurate 4 (5 * bpow radix2 (-23)) (bpow radix2 (-10)) lib0 /\ consistent [2; 1; 3] 3 2 2 ex_model /\ counts_below 6 [2; 1; 3] 2 ex_model /\
  degree_at_most 2 ex_model /\ (2 * (6 + 3 + (6 + 13) * 1) + (6 + 8) * Z.of_nat 2 + 24 <= 126)%Z /\ (bpow radix2 (-23) <= 5 * bpow radix2 (-23))%R /\
  length [1; 0; 1; 0; 1; 0]%Z = list_sum [2; 1; 3] /\ Forall (fun x => (0 <= x)%Z) [1; 0; 1; 0; 1; 0]%Z /\
  (forall v, v < 3 -> (block_sum [2; 1; 3]%nat [1; 0; 1; 0; 1; 0] v <= 1)%Z) /\
  (forall v q k, v < 3 -> In q (block [2; 1; 3] v) -> k < 2 -> (bpow radix2 (- 15) <= feat_prob [2; 1; 3]%nat ex_model v q k)%R) /\
  (forall x, In x [[1; 1; 0; 3; 0; 0]; [0; 2; 0; 1; 1; 1]]%Z -> legal_row [2; 1; 3] [2; 0; 3]%Z x) /\
  (IZR (130 * Z.of_nat 3 + 4 * Z.of_nat (list_sum [2; 1; 3]%nat) + 16 * fold_right Z.add 0%Z [1; 0; 1; 0; 1; 0]%Z + 16 * fold_right Z.add 0%Z [2; 0; 3]%Z) * (5 * bpow radix2 (-23)) <= 1 / 4)%R.
Proof. exact ex_case_law. Qed.

(** C81: one draw from float32 weights with [np.random.rand()], a multiple of 2^-53:
    the probabilities of the entries add up to 1, and differ from the shares of the
    weights by at most 2^-21 per weight in all. *)
Theorem C81_one_draw : forall w, usable w ->
  sumf (seq 0 (length w)) (draw_prob w) = 1%R /\
  (sumf (seq 0 (length w)) (fun i => Rabs (draw_prob w i - B2R (nth i w fzero) / rsum (map (fun x : f32 => B2R x) w))) <= INR (length w) * bpow radix2 (-21))%R.
Proof. exact (fun w U => conj (draw_prob_sum w U) (draw_prob_near w U)). Qed.
Print Assumptions C81_one_draw.

Example C81_weights : usable [f32_of 1 0; f32_of 0 0; f32_of 3 0].
Proof. exact ex_weights. Qed.

(** C81: a program that makes at most [D] draws, each from at most [B] usable weights,
    returns a value in any set with the probability it has under ideal draws, up to
    D * B * 2^-21. *)
Theorem C81_programs : forall A (Q : A -> Prop) B D (p : fprog A) b, draws_usable Q p -> shape B D p ->
  (Rabs (run_prob D p b - prob (ideal p) b) <= INR D * (INR B * bpow radix2 (-21)))%R.
Proof. exact (fun A Q B D p b U => run_near Q B b p U D). Qed.
Print Assumptions C81_programs.

(** C81: the rows [sample] returns when [np.random.rand()] gives every multiple of
    2^-53 equally often are in a set [Xs] with the probability the model gives that
    set, up to the float32 error of C80 and 2^-21 for every draw and weight.
    Missing: as in C80. *)
Theorem C81_samples_of_the_generator_partial : forall lib ws V M N m A W b c d eta lambda row n counts data,
  lib_ok lib -> accurate W eta lambda lib -> consistent ws V M N m -> counts_below A ws N m -> degree_at_most d m ->
  (6 <= A <= 16)%Z -> (0 <= b <= 140)%Z -> (0 <= c)%Z -> (2 * (A + 3 + (b + 4) * c) + (A + 8) * Z.of_nat d + 24 <= 126)%Z ->
  (bpow radix2 (-23) <= eta)%R -> (Z.of_nat (M * M) <= W)%Z -> (forall v, v < V -> (Z.of_nat (nth v ws 0%nat) <= W)%Z) ->
  data = Some row \/ data = None /\ row = repeat 0%Z (list_sum ws) ->
  length row = list_sum ws -> Forall (fun x => (0 <= x)%Z) row ->
  (forall v, v < V -> (block_sum ws row v <= c)%Z) ->
  (forall v q k, v < V -> In q (block ws v) -> k < M -> nth q row 0%Z <> 0%Z ->
    (bpow radix2 (- b) <= feat_prob ws m v q k)%R) ->
  length counts = V -> (forall v, v < V -> (0 <= nth v counts 0 <= 127)%Z) ->
  (forall v, v < V -> (0 < nth v counts 0)%Z -> 1 <= nth v ws 0) ->
  let total := (IZR (130 * Z.of_nat V + 4 * Z.of_nat (list_sum ws) + 16 * fold_right Z.add 0%Z row + 16 * fold_right Z.add 0%Z counts) * eta)%R in
  let draws := n * (V + Z.to_nat (fold_right Z.add 0%Z counts)) in
  (total <= 1 / 4)%R ->
  exists s, tree_server32 lib m = Ok s /\ forall B Xs, M <= B -> (forall v, v < V -> nth v ws 0 <= B) -> NoDup Xs ->
    (forall X, In X Xs -> length X = n /\ forall x, In x X -> legal_row ws counts x) ->
    (Rabs (run_prob draws (sample32 lib s n counts data) (one_of Xs)
           - sumf Xs (fun X => prodf X (fun x => arrangements ws counts x * (row_prob ws m (merge row x) / row_prob ws m row))))
     <= (exp (INR n * total) - 1) + INR draws * (INR B * bpow radix2 (-21)))%R.
Proof. exact samples_of_generator. Qed.
Print Assumptions C81_samples_of_the_generator_partial.

(** The other hypotheses are met as in [C80_case]. *)
Example C81_case : NoDup [[[1; 1; 0; 3; 0; 0]; [0; 2; 0; 1; 1; 1]]; [[1; 1; 0; 3; 0; 0]; [1; 1; 0; 0; 0; 3]]]%Z /\
  (forall X, In X [[[1; 1; 0; 3; 0; 0]; [0; 2; 0; 1; 1; 1]]; [[1; 1; 0; 3; 0; 0]; [1; 1; 0; 0; 0; 3]]]%Z -> length X = 2 /\ forall x, In x X -> legal_row [2; 1; 3] [2; 0; 3]%Z x) /\
  (forall v, v < 3 -> nth v [2; 1; 3] 0 <= 3).
Proof. exact ex_case_grid. Qed.
