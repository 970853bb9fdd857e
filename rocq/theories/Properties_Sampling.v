(** Properties C28 and C29: the rows drawn by a single-model server. *)
From Coq Require Import List Arith ZArith Reals.
From Verif Require Import Base Spec_Graph Spec_Sum Spec_Joint Spec_Stats Spec_Conditional Spec_MST Spec_Model M_Structure M_Rand M_Util M_Training M_Serving Spec_Serving.
From Verif Require L_Serve1 L_Serve2.
Import ListNotations.
Open Scope R_scope.

(** C28.  Whatever the random choices, [sample n counts data] returns [n] rows of
    nonnegative numbers in which the block of feature [v] sums to [counts[v]];
    the evidence is not part of them. *)
Theorem C28_samples_have_the_requested_counts : forall ws V M N m mst s n counts data,
  consistent ws V M N m -> mst_contract mst -> tree_server mst m = Ok s ->
  length counts = V -> (forall v, (v < V)%nat -> (0 <= nth v counts 0 <= 127)%Z) ->
  (forall v, (v < V)%nat -> (0 < nth v counts 0)%Z -> (1 <= nth v ws 0)%nat) ->
  (forall d, data = Some d -> length d = list_sum ws) ->
  always (fun rows => length rows = n /\ forall x, In x rows -> legal_row ws counts x) (sample s n counts data).
Proof. exact L_Serve2.C28_proof. Qed.
Print Assumptions C28_samples_have_the_requested_counts.

Example C28_case : consistent [2; 1; 3]%nat 3 2 2 L_Serve1.ex_model /\
  legal_row [2; 1; 3]%nat [2; 0; 1]%Z [1; 1; 0; 0; 1; 0]%Z /\ ~ legal_row [2; 1; 3]%nat [2; 0; 1]%Z [1; 0; 0; 0; 1; 0]%Z.
Proof.
  split; [exact L_Serve1.ex_consistent|]. split.
  - split; [reflexivity|]. split.
    + cbn [In]. intros n H. repeat (destruct H as [<-|H]; [discriminate|]). destruct H.
    + intros [|[|[|v]]] H; try reflexivity. exfalso. cbn in H. do 3 apply Nat.succ_lt_mono in H. inversion H.
  - intros (_ & _ & H). specialize (H 0%nat (le_n_S _ _ (Nat.le_0_l 2))). discriminate H.
Qed.

(** C29.  The probability that [sample 1 ones data] returns the row [x] is
    exp (logprob (data + x) - logprob data). *)
Theorem C29_one_sample_is_distributed_as_logprob_says : forall ws V M N m mst s data x,
  consistent ws V M N m -> mst_contract mst -> tree_server mst m = Ok s ->
  (forall w, In w ws -> (1 <= w)%nat) -> length data = list_sum ws -> legal_row ws (repeat 1%Z V) x ->
  exists lp le, logprob s [merge data x; data] = Ok [lp; le] /\
    prob_of (sample s 1 (repeat 1%Z V) (Some data)) [x] = exp (lp - le).
Proof. exact L_Serve2.C29_one. Qed.
Print Assumptions C29_one_sample_is_distributed_as_logprob_says.

(** C29, without evidence. *)
Theorem C29_without_evidence : forall ws V M N m mst s x,
  consistent ws V M N m -> mst_contract mst -> tree_server mst m = Ok s ->
  (forall w, In w ws -> (1 <= w)%nat) -> legal_row ws (repeat 1%Z V) x ->
  exists lp, logprob_row s x = Ok lp /\ prob_of (sample s 1 (repeat 1%Z V) None) [x] = exp lp.
Proof. exact L_Serve2.C29_free. Qed.
Print Assumptions C29_without_evidence.

(** C29 for any counts and any number of rows: the rows are independent, and
    each has its probability by logprob, times the number of orders in which
    its observations can be made (logprob takes the order as known). *)
Theorem C29_samples_are_independent_and_distributed_as_logprob_says : forall ws V M N m mst s n counts data X,
  consistent ws V M N m -> mst_contract mst -> tree_server mst m = Ok s ->
  length counts = V -> (forall v, (v < V)%nat -> (0 <= nth v counts 0 <= 127)%Z) ->
  (forall v, (v < V)%nat -> (0 < nth v counts 0)%Z -> (1 <= nth v ws 0)%nat) ->
  length data = list_sum ws -> length X = n -> (forall x, In x X -> legal_row ws counts x) ->
  exists lps lp, logprob s (map (merge data) X) = Ok lps /\ logprob_row s data = Ok lp /\
    prob_of (sample s n counts (Some data)) X =
    prodf (combine X lps) (fun '(x, l) => arrangements ws counts x * exp (l - lp)).
Proof. exact L_Serve2.C29_any. Qed.
Print Assumptions C29_samples_are_independent_and_distributed_as_logprob_says.

Example C29_case : consistent [2; 1; 3]%nat 3 2 2 L_Serve1.ex_model /\
  legal_row [2; 1; 3]%nat (repeat 1%Z 3) [0; 1; 1; 0; 1; 0]%Z /\
  merge [1; 0; 0; 0; 2; 1]%Z [0; 1; 1; 0; 1; 0]%Z = [1; 1; 1; 0; 3; 1]%Z.
Proof.
  split; [exact L_Serve1.ex_consistent|]. split; [|reflexivity].
  split; [reflexivity|]. split.
  - cbn [In]. intros n H. repeat (destruct H as [<-|H]; [discriminate|]). destruct H.
  - intros [|[|[|v]]] H; try reflexivity. exfalso. cbn in H. do 3 apply Nat.succ_lt_mono in H. inversion H.
Qed.
