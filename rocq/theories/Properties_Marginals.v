(** Properties C30 to C34: the summaries computed by a single-model server. *)
From Coq Require Import List Arith ZArith Reals Lra Lia.
From Verif Require Import Base Spec_Graph Spec_Sum Spec_MST Spec_Joint Spec_Stats Spec_Conditional M_Structure M_Rand M_Util M_Training M_Serving Spec_Serving M_Repaired M_Repaired4.
From Verif Require Import Spec_Summary.
From Verif Require L_Serve1 L_Serve3 L_Median L_Summary L_Observed L_Draw2 L_Repaired L_Observed2.
Import ListNotations.
Open Scope R_scope.

(** C30, in full, would be: the entry of category [q] of feature [v] is
    [predictive ws m row v q], the posterior predictive probability given the
    whole row.  This is false: the evidence on a feature that lies neither on
    the path from the root (the centre of the tree) to [v] nor below [v] is
    ignored. *)
Theorem C30_marginals_ignore_evidence_refuted : exists ws V M N m row v q,
  consistent ws V M N m /\ length row = list_sum ws /\ Forall (fun c => (0 <= c)%Z) row /\ (v < V)%nat /\ In q (block ws v) /\
  forall mst, mst_contract mst -> exists s, tree_server mst m = Ok s /\
  forall junk, exists marg, marginals_row s junk row = Ok marg /\ nth q marg 0 <> predictive ws m row v q.
Proof. exact L_Serve3.C30_refutation. Qed.
Print Assumptions C30_marginals_ignore_evidence_refuted.

(** What marginals does compute, for any rows: the posterior predictive
    probabilities given the evidence in line with the feature.  [junk] is the
    content of uninitialised memory. *)
Theorem C30_marginals_are_posteriors_given_evidence_in_line_partial : forall ws V M N m mst s junk data,
  consistent ws V M N m -> mst_contract mst -> tree_server mst m = Ok s ->
  (forall row, In row data -> length row = list_sum ws) ->
  exists root, find_center_of_tree (ts_grid (d_tree m)) = Ok root /\ (root < V)%nat /\
  exists margs, marginals s junk data = Ok margs /\ length margs = length data /\
    forall n, (n < length data)%nat -> length (nth n margs []) = list_sum ws /\
      forall v row', (v < V)%nat -> restricted ws (fun u => in_line (ts_get_edges (d_tree m)) root u v) (nth n data []) row' ->
        forall q, In q (block ws v) -> nth q (nth n margs []) 0 = predictive ws m row' v q.
Proof. exact L_Serve3.C30_data. Qed.
Print Assumptions C30_marginals_are_posteriors_given_evidence_in_line_partial.

(** Hence the claim holds for the features with which all the evidence is in
    line, *)
Theorem C30_exact_when_all_evidence_is_in_line_partial : forall ws V M N m mst s junk row,
  consistent ws V M N m -> mst_contract mst -> tree_server mst m = Ok s -> length row = list_sum ws ->
  exists root, find_center_of_tree (ts_grid (d_tree m)) = Ok root /\ (root < V)%nat /\
  exists marg, marginals_row s junk row = Ok marg /\
    forall v, (v < V)%nat ->
      (forall u q, (u < V)%nat -> In q (block ws u) -> nth q row 0%Z <> 0%Z -> in_line (ts_get_edges (d_tree m)) root u v) ->
      forall q, In q (block ws v) -> nth q marg 0 = predictive ws m row v q.
Proof. exact L_Serve3.C30_exact. Qed.
Print Assumptions C30_exact_when_all_evidence_is_in_line_partial.

(** and always for the feature at the root. *)
Theorem C30_exact_at_the_root_partial : forall ws V M N m mst s junk row,
  consistent ws V M N m -> mst_contract mst -> tree_server mst m = Ok s -> length row = list_sum ws ->
  exists root, find_center_of_tree (ts_grid (d_tree m)) = Ok root /\ (root < V)%nat /\
  exists marg, marginals_row s junk row = Ok marg /\
    forall q, In q (block ws root) -> nth q marg 0 = predictive ws m row root q.
Proof. exact L_Serve3.C30_root. Qed.
Print Assumptions C30_exact_at_the_root_partial.

(** With a different OP_OUT, which takes the parent's own final message and
    divides out what [v] told it (M_Repaired), the claim holds in full: for
    every row and every feature. *)
Theorem C30_repaired_marginals_are_posteriors : forall ws V M N m mst s junk row,
  consistent ws V M N m -> mst_contract mst -> tree_server mst m = Ok s -> length row = list_sum ws ->
  exists marg, repaired_marginals_row s junk row = Ok marg /\ length marg = list_sum ws /\
    forall v q, (v < V)%nat -> In q (block ws v) -> nth q marg 0 = predictive ws m row v q.
Proof. exact L_Repaired.C30_repaired. Qed.
Print Assumptions C30_repaired_marginals_are_posteriors.

Example C30_case : consistent [2; 2; 2]%nat 3 2 2 L_Serve3.chain_model /\
  restricted [2; 2; 2]%nat (fun u => u <> 2%nat) [1; 0; 0; 0; 0; 2]%Z [1; 0; 0; 0; 0; 0]%Z.
Proof.
  split; [exact L_Serve3.chain_consistent|]. split; [reflexivity|]. intros u q Hu Hq.
  destruct u as [|[|[|]]]; cbn in Hu, Hq; try lia; destruct Hq as [<-|[<-|[]]]; split; intros K; try reflexivity; now elim K.
Qed.

(** C31.  Every row of the median has [counts[v]] observations of feature [v],
    and no assignment [z] of that many observations to the categories of [v] is
    nearer, in L1 distance, to [counts[v]] times the marginals. *)
Theorem C31_median_is_legal_and_optimal : forall ws V M N m mst s junk counts data,
  consistent ws V M N m -> mst_contract mst -> tree_server mst m = Ok s ->
  (forall w, In w ws -> (1 <= w)%nat) -> length counts = V -> (forall v, (v < V)%nat -> (0 <= nth v counts 0 <= 127)%Z) ->
  (forall row, In row data -> length row = list_sum ws) ->
  exists margs out, marginals s junk data = Ok margs /\ median s junk counts data = Ok out /\ length out = length data /\
    forall n, (n < length data)%nat -> legal_row ws counts (nth n out []) /\
      forall v, (v < V)%nat -> forall z, total (block ws v) z = nth v counts 0%Z ->
        sumf (block ws v) (fun q => Rabs (IZR (nth q (nth n out []) 0%Z) - IZR (nth v counts 0%Z) * nth q (nth n margs []) 0)) <=
        sumf (block ws v) (fun q => Rabs (IZR (z q) - IZR (nth v counts 0%Z) * nth q (nth n margs []) 0)).
Proof. exact L_Median.C31_proof. Qed.
Print Assumptions C31_median_is_legal_and_optimal.

Example C31_case : consistent [2; 1; 3]%nat 3 2 2 L_Serve1.ex_model /\ (forall w, In w [2; 1; 3]%nat -> (1 <= w)%nat) /\
  (forall v, (v < 3)%nat -> (0 <= nth v [2; 0; 127] 0 <= 127)%Z) /\ legal_row [2; 1; 3]%nat [2; 0; 1]%Z [1; 1; 0; 0; 1; 0]%Z.
Proof.
  split; [exact L_Serve1.ex_consistent|]. split; [cbn; intuition lia|]. split; [intros [|[|[|]]] H; cbn; lia|].
  split; [reflexivity|]. split; [cbn; intuition lia|]. intros [|[|[|]]] H; cbn in H |- *; lia.
Qed.

(** C32, in full, would be: [observed_perplexity counts] is exp of the entropy
    of [counts[v]] draws of feature [v], and None means one draw each.  Both
    halves are false, the test on [counts] being inverted: *)
Theorem C32_counts_are_ignored_refuted : exists ws V M N m counts v, consistent ws V M N m /\ (forall w, In w ws -> (1 <= w)%nat) /\
  length counts = V /\ (forall c, In c counts -> (0 < c)%Z) /\ (v < V)%nat /\
  forall mst, mst_contract mst -> exists s out, tree_server mst m = Ok s /\ observed_perplexity s (Some counts) = Ok out /\
    nth v out 0 <> exp (draws_entropy (feature_probs ws m v) (Z.to_nat (nth v counts 0%Z))).
Proof. exact L_Observed.C32_refutation. Qed.
Print Assumptions C32_counts_are_ignored_refuted.

Theorem C32_default_counts_refuted : forall s, observed_perplexity s None = Raise AttributeError.
Proof. exact L_Observed.C32_default. Qed.
Print Assumptions C32_default_counts_refuted.

(** What it computes, whatever the counts: exp of the entropy of one draw, a
    number between 1 and the number of categories. *)
Theorem C32_observed_perplexity_of_one_draw_partial : forall ws V M N m mst s counts,
  consistent ws V M N m -> mst_contract mst -> tree_server mst m = Ok s -> (forall w, In w ws -> (1 <= w)%nat) ->
  exists out, observed_perplexity s (Some counts) = Ok out /\ length out = V /\
    forall v, (v < V)%nat -> nth v out 0 = exp (draws_entropy (feature_probs ws m v) 1) /\ 1 <= nth v out 0 <= INR (nth v ws 0%nat).
Proof. exact L_Observed.C32_value. Qed.
Print Assumptions C32_observed_perplexity_of_one_draw_partial.

(** Its helper is right for any number of draws of at most two categories, and
    for one draw of any number of them; *)
Theorem C32_multinomial_entropy_is_exact : forall probs count, (forall x, In x probs -> 0 <= x) -> rsum probs = 1 -> (0 < count)%Z ->
  (length probs <= 2)%nat \/ count = 1%Z ->
  multinomial_entropy probs count = Ok (draws_entropy probs (Z.to_nat count)).
Proof. exact L_Draw2.multinomial_exact. Qed.
Print Assumptions C32_multinomial_entropy_is_exact.

(** in all other cases it raises. *)
Theorem C32_multinomial_entropy_unsupported : forall probs count, (2 < length probs)%nat -> (1 < count)%Z ->
  multinomial_entropy probs count = Raise NotImplementedError.
Proof. exact L_Draw2.multinomial_fails. Qed.
Print Assumptions C32_multinomial_entropy_unsupported.

(** The bounds on an entropy of draws, and the multinomial theorem: the
    probabilities in the specification sum to one. *)
Theorem C32_draws_entropy_bounds : forall probs n, (forall x, In x probs -> 0 <= x) -> rsum probs = 1 ->
  sumf (draws_of (length probs) n) (draws_prob probs n) = 1 /\
  0 <= draws_entropy probs n <= ln (INR (length (draws_of (length probs) n))).
Proof.
  exact (fun probs n NN ONE => conj (eq_trans (L_Draw2.draws_total probs n) (eq_trans (f_equal (fun x => x ^ n) ONE) (pow1 n)))
    (L_Draw2.draws_entropy_bounds probs n NN ONE)).
Qed.
Print Assumptions C32_draws_entropy_bounds.

(** C32, with the test on [counts] the right way round: exp of the entropy of the
    given number of draws of each feature, one if no counts are given, between 1
    and the number of results of the draws; NotImplementedError for several draws
    of more than two categories. *)
Theorem C32_repaired_observed_perplexity : forall ws V M N m mst s counts,
  consistent ws V M N m -> mst_contract mst -> tree_server mst m = Ok s -> (forall w, In w ws -> (1 <= w)%nat) ->
  (forall c, counts = Some c -> length c = V /\ forall x, In x c -> (0 < x)%Z) ->
  let count v := match counts with Some c => nth v c 0%Z | None => 1%Z end in
  ((forall v, (v < V)%nat -> (nth v ws 0 <= 2)%nat \/ count v = 1%Z) ->
   exists out, repaired_observed_perplexity s counts = Ok out /\ length out = V /\
     forall v, (v < V)%nat -> let n := Z.to_nat (count v) in
       nth v out 0 = exp (draws_entropy (feature_probs ws m v) n) /\
       1 <= nth v out 0 <= INR (length (draws_of (nth v ws 0%nat) n))) /\
  ((exists v, (v < V)%nat /\ (2 < nth v ws 0)%nat /\ (1 < count v)%Z) ->
   repaired_observed_perplexity s counts = Raise NotImplementedError).
Proof. exact L_Observed2.C32_repaired. Qed.
Print Assumptions C32_repaired_observed_perplexity.

Example C32_case : (forall x, In x [1 / 3; 2 / 3] -> 0 <= x) /\ rsum [1 / 3; 2 / 3] = 1 /\ draws_of 2 2 = [[0; 2]; [1; 1]; [2; 0]]%nat.
Proof. split; [cbn; intros x [<-|[<-|[]]]; lra|]. split; [unfold rsum, sumf; cbn; lra|reflexivity]. Qed.

(** C33, for a single model. *)
Theorem C33_latent_perplexity_between_1_and_M : forall ws V M N m mst s, consistent ws V M N m -> mst_contract mst -> tree_server mst m = Ok s ->
  length (latent_perplexity s) = V /\
  forall v, (v < V)%nat -> nth v (latent_perplexity s) 0 = exp (shannon (seq 0 M) (vert_prob m v)) /\
    1 <= nth v (latent_perplexity s) 0 <= INR M.
Proof. exact L_Summary.C33_proof. Qed.
Print Assumptions C33_latent_perplexity_between_1_and_M.

(** C34.  The entry for features [u] and [v] is sqrt (1 - exp (-2 I)), I the
    mutual information of their classes in the model ([pair_prob] sums over all
    class vectors); the matrix is symmetric, its entries are in [0, 1), and no
    entry of a row exceeds the one on the diagonal. *)
Theorem C34_latent_correlation_is_exact : forall ws V M N m mst s junk, consistent ws V M N m -> mst_contract mst -> tree_server mst m = Ok s ->
  exists rows, latent_correlation s junk = Ok rows /\ length rows = V /\
    forall u v, (u < V)%nat -> (v < V)%nat ->
      let entry u v := nth v (nth u rows []) 0 in
      length (nth u rows []) = V /\
      entry u v = sqrt (1 - exp (-2 * mutual_information M (pair_prob m u v))) /\
      0 <= mutual_information M (pair_prob m u v) /\
      entry u v = entry v u /\ 0 <= entry u v < 1 /\ entry u v <= entry u u.
Proof. exact L_Summary.C34_proof. Qed.
Print Assumptions C34_latent_correlation_is_exact.

Example C34_case : consistent [2; 1; 3]%nat 3 2 2 L_Serve1.ex_model.
Proof. exact L_Serve1.ex_consistent. Qed.
