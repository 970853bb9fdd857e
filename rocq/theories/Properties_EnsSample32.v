(** Property C91: samples of ensembles with float32 weights. *)
From Coq Require Import List Arith ZArith Reals.
From Flocq Require Import Core.Zaux Core.Raux IEEE754.BinarySingleNaN.
From Verif Require Import Base Spec_Sum Spec_Graph Spec_MST Spec_Ragged M_Structure M_Rand M_Serving Spec_Serving M_EnsembleServer M_Float32 M_EnsSample32 Spec_EnsSample32
  L_EnsServe2 L_EnsSample32.
Import ListNotations.
Open Scope R_scope.

(** C91.  An ensemble splits its samples evenly among its members up to rounding.  The weights are
    float32 numbers, so that they are not exactly equal and may sum to more than 1.
    Still numpy never rejects them, and whatever is observed about the numbers of samples of
    the members has the probability that it has with equal weights, up to
    [2 ^ -24] for each sample. *)
Theorem C91_members_share_the_samples_equally : forall kahan es k f, kahan_ok kahan ->
  (1 <= length (es_members es))%nat -> (Z.of_nat (length (es_members es)) <= 2 ^ 23)%Z ->
  (forall r, 0 <= f r <= 1) ->
  Rabs (expect (split_samples32 kahan es k) f - expect (split_samples es k) f) <= INR k * bpow radix2 (-24).
Proof. exact C91_split_proof. Qed.
Print Assumptions C91_members_share_the_samples_equally.

(** Every table of sampled rows has the probability of C36, with or without evidence, up to a factor that
    is close to 1 for each row. *)
Theorem C91_sampled_rows : forall kahan ws V M N mst ms es counts data X, kahan_ok kahan -> (Z.of_nat (length ms) <= 2 ^ 23)%Z ->
  ms <> [] -> (forall m, In m ms -> consistent ws V M N m) -> mst_contract mst -> ensemble_server mst ms = Ok es ->
  length counts = V -> (forall v, (v < V)%nat -> (0 <= nth v counts 0 <= 127)%Z) ->
  (forall v, (v < V)%nat -> (0 < nth v counts 0)%Z -> (1 <= nth v ws 0)%nat) ->
  (forall d, data = Some d -> length d = list_sum ws) -> (forall x, In x X -> legal_row ws counts x) ->
  let e := INR (length ms) * bpow radix2 (-24) in
  (1 - e) ^ length X * prob_of (ens_sample es (length X) counts data) X <= prob_of (ens_sample32 kahan es (length X) counts data) X /\
  prob_of (ens_sample32 kahan es (length X) counts data) X <= (1 + e) ^ length X * prob_of (ens_sample es (length X) counts data) X.
Proof. exact C91_rows_proof. Qed.
Print Assumptions C91_sampled_rows.

(** [sample_tree n] returns [n] spanning trees, whatever is drawn. *)
Theorem C91_sampled_trees : forall kahan ws V M N mst ms es n, kahan_ok kahan -> (Z.of_nat (length ms) <= 2 ^ 23)%Z ->
  ms <> [] -> (forall m, In m ms -> consistent ws V M N m) -> mst_contract mst -> ensemble_server mst ms = Ok es ->
  always (fun l => length l = n /\ forall T, In T l -> spanning_tree V T) (ens_sample_tree32 kahan es n).
Proof. exact C91_trees_proof. Qed.
Print Assumptions C91_sampled_trees.

(** Three members, whose weights are not 1/3. *)
Example C91_case : kahan_ok rsum /\ [lumped; split_; lumped] <> [] /\ (forall m, In m [lumped; split_; lumped] -> consistent [2]%nat 1 2 2 m) /\
  legal_row [2]%nat [3]%Z [1; 2]%Z /\ B2R (nth 0 (weights32 3) fzero) = 11184811 / 33554432 /\
  (forall mst, mst_contract mst -> exists es, ensemble_server mst [lumped; split_; lumped] = Ok es).
Proof. exact C91_case_proof. Qed.
