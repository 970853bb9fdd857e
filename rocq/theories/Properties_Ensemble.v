(** Properties of the server of an ensemble (C28, C32 to C36, C52). *)
From Coq Require Import List Arith ZArith Reals Lra Lia.
From Verif Require Import Base Spec_Graph Spec_Sum Spec_Trees Spec_MST Spec_Joint Spec_Stats Spec_Conditional M_Structure M_Rand M_Util M_Training M_Serving M_EnsembleServer Spec_Serving Spec_Summary M_Repaired.
From Verif Require L_Serve1 L_Serve3 L_EnsServe L_EnsServe2 L_Repaired2.
Import ListNotations.
Open Scope R_scope.

(** C28, ensembles: exactly [n] rows with the requested counts. *)
Theorem C28_ensemble_samples_have_the_requested_counts : forall ws V M N mst ms es n counts data,
  ms <> [] -> (forall m, In m ms -> consistent ws V M N m) -> mst_contract mst -> ensemble_server mst ms = Ok es ->
  length counts = V -> (forall v, (v < V)%nat -> (0 <= nth v counts 0 <= 127)%Z) ->
  (forall v, (v < V)%nat -> (0 < nth v counts 0)%Z -> (1 <= nth v ws 0)%nat) ->
  (forall d, data = Some d -> length d = list_sum ws) ->
  always (fun rows => length rows = n /\ forall x, In x rows -> legal_row ws counts x) (ens_sample es n counts data).
Proof. exact (fun ws V M N mst ms es n counts data NE C => L_EnsServe.C28_ens ws V M N mst ms es n counts data (conj NE C)). Qed.
Print Assumptions C28_ensemble_samples_have_the_requested_counts.

(** Two models of the rows [1; 0] and [0; 1] of one feature; a server of two
    copies of a model with three features can be built too. *)
Example C28_ensemble_case : (forall m, In m [L_EnsServe2.lumped; L_EnsServe2.split_] -> consistent [2]%nat 1 2 2 m) /\
  forall mst, mst_contract mst -> exists es, ensemble_server mst [L_Serve1.ex_model; L_Serve1.ex_model] = Ok es.
Proof.
  split; [exact L_EnsServe2.pair_consistent|]. intros mst MC.
  destruct (L_EnsServe.ens_build [2; 1; 3]%nat 3 2 2 mst [L_Serve1.ex_model; L_Serve1.ex_model]) as (es & E & _).
  - split; [discriminate|]. intros m [<-|[<-|[]]]; exact L_Serve1.ex_consistent.
  - exact MC.
  - exists es. exact E.
Qed.

(** C32, ensembles: the average of the members' one-draw perplexities. *)
Theorem C32_ensemble_observed_perplexity_partial : forall ws V M N mst ms es counts,
  ms <> [] -> (forall m, In m ms -> consistent ws V M N m) -> mst_contract mst -> ensemble_server mst ms = Ok es ->
  (forall w, In w ws -> (1 <= w)%nat) ->
  exists out, ens_observed_perplexity es (Some counts) = Ok out /\ length out = V /\
    forall v, (v < V)%nat -> nth v out 0 = sumf ms (fun m => exp (draws_entropy (feature_probs ws m v) 1)) / INR (length ms) /\
      1 <= nth v out 0 <= INR (nth v ws 0%nat).
Proof. exact L_EnsServe2.C32_ens. Qed.
Print Assumptions C32_ensemble_observed_perplexity_partial.

(** C33, ensembles. *)
Theorem C33_ensemble_latent_perplexity_between_1_and_M : forall ws V M N mst ms es,
  ms <> [] -> (forall m, In m ms -> consistent ws V M N m) -> mst_contract mst -> ensemble_server mst ms = Ok es ->
  exists out, ens_latent_perplexity es = Ok out /\ length out = V /\
    forall v, (v < V)%nat -> nth v out 0 = sumf ms (fun m => exp (shannon (seq 0 M) (vert_prob m v))) / INR (length ms) /\
      1 <= nth v out 0 <= INR M.
Proof. exact L_EnsServe2.C33_ens. Qed.
Print Assumptions C33_ensemble_latent_perplexity_between_1_and_M.

(** C34, ensembles. *)
Theorem C34_ensemble_latent_correlation : forall ws V M N mst ms es junk,
  ms <> [] -> (forall m, In m ms -> consistent ws V M N m) -> mst_contract mst -> ensemble_server mst ms = Ok es ->
  exists rows, ens_latent_correlation es junk = Ok rows /\ length rows = V /\
    forall u v, (u < V)%nat -> (v < V)%nat ->
      let entry u v := nth v (nth u rows []) 0 in
      length (nth u rows []) = V /\
      entry u v = sumf ms (fun m => sqrt (1 - exp (-2 * mutual_information M (pair_prob m u v)))) / INR (length ms) /\
      entry u v = entry v u /\ 0 <= entry u v < 1 /\ entry u v <= entry u u.
Proof. exact L_EnsServe2.C34_ens. Qed.
Print Assumptions C34_ensemble_latent_correlation.

(** C35.  The ensemble's probability of a row is the mean of the members'
    probabilities, first as the members' servers report them, then as the sum
    over all latent classes. *)
Theorem C35_ensemble_logprob_is_the_uniform_mixture : forall ws V M N mst ms es data,
  ms <> [] -> (forall m, In m ms -> consistent ws V M N m) -> mst_contract mst -> ensemble_server mst ms = Ok es ->
  (forall row, In row data -> length row = list_sum ws) ->
  exists servers table lps, mapM (tree_server mst) ms = Ok servers /\ mapM (fun s => logprob s data) servers = Ok table /\
    ens_logprob es data = Ok lps /\ length lps = length data /\
    forall n, (n < length data)%nat ->
      exp (nth n lps 0) = sumf table (fun lp => exp (nth n lp 0)) / INR (length ms) /\
      exp (nth n lps 0) = sumf ms (fun m => row_prob ws m (nth n data [])) / INR (length ms).
Proof. exact L_EnsServe2.C35_proof. Qed.
Print Assumptions C35_ensemble_logprob_is_the_uniform_mixture.

Theorem C35_ensemble_logprob_is_normalised : forall ws V M N mst ms es,
  ms <> [] -> (forall m, In m ms -> consistent ws V M N m) -> mst_contract mst -> ensemble_server mst ms = Ok es ->
  (forall w, In w ws -> (1 <= w)%nat) ->
  exists lps, ens_logprob es (complete_rows ws) = Ok lps /\ sumf lps exp = 1.
Proof. exact L_EnsServe2.C35_total. Qed.
Print Assumptions C35_ensemble_logprob_is_normalised.

(** C36, in full, would be: the probability that [sample 1 ones data] returns
    [x] is exp (logprob (data + x) - logprob data).  With evidence this is
    false: the samples are split evenly among the members, however improbable
    the evidence is under them. *)
Theorem C36_ensemble_samples_given_evidence_refuted : exists ws V M N ms data x,
  ms <> [] /\ (forall m, In m ms -> consistent ws V M N m) /\ (forall w, In w ws -> (1 <= w)%nat) /\
  length data = list_sum ws /\ Forall (fun c => (0 <= c)%Z) data /\ legal_row ws (repeat 1%Z V) x /\
  forall mst, mst_contract mst -> exists es lp le, ensemble_server mst ms = Ok es /\
    ens_logprob es [merge data x; data] = Ok [lp; le] /\
    prob_of (ens_sample es 1 (repeat 1%Z V) (Some data)) [x] <> exp (lp - le).
Proof. exact L_EnsServe2.C36_refutation. Qed.
Print Assumptions C36_ensemble_samples_given_evidence_refuted.

(** Without evidence it is true, for any number of rows and any counts: the rows
    are independent with the probabilities that logprob reports. *)
Theorem C36_ensemble_samples_without_evidence_partial : forall ws V M N mst ms es counts X,
  ms <> [] -> (forall m, In m ms -> consistent ws V M N m) -> mst_contract mst -> ensemble_server mst ms = Ok es ->
  length counts = V -> (forall v, (v < V)%nat -> (0 <= nth v counts 0 <= 127)%Z) ->
  (forall v, (v < V)%nat -> (0 < nth v counts 0)%Z -> (1 <= nth v ws 0)%nat) ->
  (forall x, In x X -> legal_row ws counts x) ->
  exists lps, ens_logprob es X = Ok lps /\
    prob_of (ens_sample es (length X) counts None) X = prodf (combine X lps) (fun '(x, l) => arrangements ws counts x * exp l).
Proof. exact L_EnsServe2.C36_free. Qed.
Print Assumptions C36_ensemble_samples_without_evidence_partial.

(** With evidence the rows are independent, each drawn from the uniform mixture
    of the members' conditional distributions. *)
Theorem C36_ensemble_samples_mix_the_members_conditionals_partial : forall ws V M N mst ms es counts data X,
  ms <> [] -> (forall m, In m ms -> consistent ws V M N m) -> mst_contract mst -> ensemble_server mst ms = Ok es ->
  length counts = V -> (forall v, (v < V)%nat -> (0 <= nth v counts 0 <= 127)%Z) ->
  (forall v, (v < V)%nat -> (0 < nth v counts 0)%Z -> (1 <= nth v ws 0)%nat) ->
  length data = list_sum ws -> (forall x, In x X -> legal_row ws counts x) ->
  prob_of (ens_sample es (length X) counts (Some data)) X =
  prodf X (fun x => arrangements ws counts x *
    (sumf ms (fun m => row_prob ws m (merge data x) / row_prob ws m data) / INR (length ms))).
Proof. exact L_EnsServe2.C36_given. Qed.
Print Assumptions C36_ensemble_samples_mix_the_members_conditionals_partial.

(** With the members weighed by how well they predict the evidence (M_Repaired)
    the claim holds in full: rows are independent, each with the conditional
    probability that logprob reports. *)
Theorem C36_repaired_ensemble_samples_given_evidence : forall ws V M N mst ms es counts data X,
  ms <> [] -> (forall m, In m ms -> consistent ws V M N m) -> mst_contract mst -> ensemble_server mst ms = Ok es ->
  length counts = V -> (forall v, (v < V)%nat -> (0 <= nth v counts 0 <= 127)%Z) ->
  (forall v, (v < V)%nat -> (0 < nth v counts 0)%Z -> (1 <= nth v ws 0)%nat) ->
  length data = list_sum ws -> (forall x, In x X -> legal_row ws counts x) ->
  exists le lps, ens_logprob es [data] = Ok [le] /\ ens_logprob es (map (merge data) X) = Ok lps /\
    prob_of (repaired_ens_sample es (length X) counts data) X =
    prodf (combine X lps) (fun '(x, l) => arrangements ws counts x * exp (l - le)).
Proof. exact L_Repaired2.C36_repaired. Qed.
Print Assumptions C36_repaired_ensemble_samples_given_evidence.

Example C36_case : legal_row [2]%nat [3]%Z [1; 2]%Z /\ merge [2; 0]%Z [1; 2]%Z = [3; 2]%Z /\
  row_prob [2]%nat L_EnsServe2.lumped [2; 0]%Z = 1 / 4 /\ row_prob [2]%nat L_EnsServe2.split_ [2; 0]%Z = 13 / 36.
Proof.
  split; [split; [reflexivity|]; split; [cbn; intuition lia|intros [|v] Hv; [reflexivity|cbn in Hv; lia]]|]. split; [reflexivity|].
  rewrite L_EnsServe2.lumped_row, L_EnsServe2.split_row. cbn [powerRZ]. change (Pos.to_nat 2) with 2%nat. cbn [pow]. lra.
Qed.

(** C52.  An ensemble server can always be built; its edge logits are the means
    of the members' and its estimated tree is a spanning tree of maximal total
    mean logit. *)
Theorem C52_ensemble_tree_maximises_the_mean_logits : forall ws V M N mst ms,
  ms <> [] -> (forall m, In m ms -> consistent ws V M N m) -> mst_contract mst ->
  exists es, ensemble_server mst ms = Ok es /\ length (es_logits es) = (V * (V - 1) / 2)%nat /\
    (forall k, (k < V * (V - 1) / 2)%nat -> nth k (es_logits es) 0 = sumf ms (fun m => nth k (d_logits m) 0) / INR (length ms)) /\
    canonical_tree V (es_est es) /\
    forall T', spanning_tree V T' ->
      sumf T' (fun '(x, y) => nth (find_complete_edge x y) (es_logits es) 0) <=
      sumf (es_est es) (fun '(x, y) => nth (find_complete_edge x y) (es_logits es) 0).
Proof. exact (fun ws V M N mst ms NE C => L_EnsServe.ens_build ws V M N mst ms (conj NE C)). Qed.
Print Assumptions C52_ensemble_tree_maximises_the_mean_logits.

(** C52.  [sample_tree n] returns [n] spanning trees, whatever is drawn. *)
Theorem C52_sampled_trees_span : forall ws V M N m mst s n,
  consistent ws V M N m -> mst_contract mst -> tree_server mst m = Ok s ->
  always (fun l => length l = n /\ forall T, In T l -> spanning_tree V T) (server_sample_tree s n).
Proof. exact L_EnsServe2.server_trees. Qed.
Print Assumptions C52_sampled_trees_span.

Theorem C52_ensemble_sampled_trees_span : forall ws V M N mst ms es n,
  ms <> [] -> (forall m, In m ms -> consistent ws V M N m) -> mst_contract mst -> ensemble_server mst ms = Ok es ->
  always (fun l => length l = n /\ forall T, In T l -> spanning_tree V T) (ens_sample_tree es n).
Proof. exact L_EnsServe2.ens_trees. Qed.
Print Assumptions C52_ensemble_sampled_trees_span.

(** The median of an ensemble is not implemented. *)
Theorem C31_ensemble_median_is_not_implemented : forall ws V M N mst ms es counts data,
  ms <> [] -> (forall m, In m ms -> consistent ws V M N m) -> mst_contract mst -> ensemble_server mst ms = Ok es ->
  (forall row, In row data -> length row = list_sum ws) ->
  ens_median es counts data = Raise NotImplementedError.
Proof. exact L_EnsServe2.C31_ens. Qed.
Print Assumptions C31_ensemble_median_is_not_implemented.
