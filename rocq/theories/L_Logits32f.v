(** C85 for the trainers that histories of calls reach. *)
From Coq Require Import List Arith Bool ZArith Reals Lra Lia Permutation.
From Flocq Require Import Core IEEE754.BinarySingleNaN.
From Verif Require Import Base L_Base Spec_Graph Spec_Sum L_Sum Spec_Ragged M_Structure L_Pairing L_MakeTree M_Util M_Rand L_Rand M_SampleTree M_Array M_Training
  Spec_Joint Spec_Stats Spec_Trees L_Stats L_Trainer Spec_Conditional Spec_EdgeLogits L_EdgeLogits L_Train
  M_Float32 Spec_Float32 L_Float32 M_Train32 Spec_Law Spec_Serving32 M_SampleTree32 Spec_Tree32 L_Train32e L_Train32f L_Train32h M_Logits32 Spec_Logits32 L_Logits32c L_Logits32d.
Import ListNotations.
Open Scope R_scope.

Lemma reach_prior cell dot tb P M t : reachable32_with cell dot tb P M t -> length P = tri (num_cols tb).
Proof.
  induction 1 as [t E|t n us t' x _ IH OK HU E|t n t' x _ IH OK E|t es t' x _ IH OK E]; auto.
  unfold init_trainer32 in E. destruct (init_trainer tb P M) as [s0|] eqn:EI; [|discriminate]. unfold init_trainer in EI.
  destruct (num_cols tb <=? 2 ^ 15)%nat; cbn [assert_ bind] in EI; [|discriminate].
  destruct (Nat.eqb_spec (length P) (num_cols tb * (num_cols tb - 1) / 2)) as [EL|]; cbn [assert_ bind] in EI; [|discriminate]. exact EL.
Qed.

Section C85.
Variables (dot : list f32 -> list f32 -> f32) (ws : list nat) (tb : table) (prior : list f32) (M : nat) (A : Z) (c : nat) (t : trainer32)
  (gammaln32 : f32 -> f32) (sum : list f32 -> f32) (lg : R -> R) (delta : R).
Hypothesis D : dot_ok dot.
Hypothesis TK : table_ok ws tb.
Hypothesis ND : nonneg_data tb.
Hypothesis HM : (1 <= M <= 128)%nat.
Hypothesis Hc : (1 <= c)%nat.
Hypothesis AM : at_most c ws tb.
Hypothesis HA : (1 <= A <= 16)%Z.
Hypothesis HAc : ((A + 9) * Z.of_nat c + A <= 69)%Z.
Hypothesis HN : ((Z.of_nat (num_rows tb) + 1) * Z.of_nat c < 2 ^ A)%Z.
Hypothesis HW : Forall (fun w => (Z.of_nat w <= 2 ^ A)%Z) ws.
Hypothesis RT : reachable32 dot tb (map (fun p => B2R p) prior) M t.
Hypothesis GO : gammaln_ok delta (num_rows tb) M lg gammaln32.
Hypothesis SN : sum_near sum.
Hypothesis HD : 0 <= delta <= 1.
Notation s := (t_state t).
Notation V := (num_cols tb).
Hypothesis RD : length (s_added s) <> V \/ length (s_added s) = num_rows tb.
Hypothesis GP : Forall (fun p => is_finite p = true \/ p = B754_infinity true) prior.
Hypothesis SZ : forall a b, (a < b)%nat -> (b < V)%nat ->
  score_size lg M s a b + Rabs (B2R (nth (find_complete_edge a b) prior fzero)) <= bpow radix2 60.

Lemma rt_tinv : tinv ws tb M s.
Proof.
  destruct (reachable_inv treecat_add_cell32 dot ws tb (map (fun p => B2R p) prior) M A (-1 - (A + 9) * Z.of_nat c) (A + 7 * Z.of_nat c) D TK HM HA) with (t := t) as (TI & _); auto.
  - nia.
  - exact (lo_ok ws tb M A (Z.of_nat c) HM HA (inj_le 1 c Hc) HAc HN AM).
  - exact (cell_good_old ws tb M A (Z.of_nat c) TK ND HM HA (inj_le 1 c Hc) HAc HN HW AM).
Qed.

Lemma rt_prior : length prior = tri V.
Proof. rewrite <- (map_length (fun p => B2R p)). exact (reach_prior _ _ _ _ _ _ RT). Qed.

Lemma C85_logits : exists l, compute_edge_logits32 gammaln32 sum tb prior M s = Ok l /\ length l = (V * (V - 1) / 2)%nat /\ Forall good_logit l /\
  forall a b, (a < b)%nat -> (b < V)%nat -> exists x p,
    nth_error l (find_complete_edge a b) = Some x /\ nth_error prior (find_complete_edge a b) = Some p /\
    ((is_finite p = true /\ is_finite x = true /\
      Rabs (B2R x - (edge_score lg M s a b + B2R p)) <= logit_error M delta (score_size lg M s a b + Rabs (B2R p))) \/
     (p = B754_infinity true /\ x = B754_infinity true)).
Proof. exact (logits_near ws tb prior M HM gammaln32 sum lg delta GO SN HD s rt_tinv RD rt_prior GP SZ). Qed.

Variables (exp32 : f32 -> f32) (eta : R) (l : list f32) (grid : list triple).
Hypothesis EX : exp_ok eta exp32.
Hypothesis SO : sum_ok sum.
Hypothesis ET : 0 <= eta <= 1.
Hypothesis KB : (Z.of_nat (V * (V - 1) / 2) <= 2 ^ 16)%Z.
Hypothesis EL : compute_edge_logits32 gammaln32 sum tb prior M s = Ok l.
Hypothesis EG : make_complete_graph V = Ok grid.

Lemma C85_resample bset :
  (forall order, Permutation order (seq 0 (V - 1)) -> draws_usable (spanning_tree V) (trainer_sample_tree32 gammaln32 sum exp32 tb prior M s order)) /\
  Rabs (resample_prob32 gammaln32 sum exp32 tb prior M s bset - prob (sample_tree grid (map logit_of l) (ts_get_edges (s_tree s))) bset)
    <= INR (V - 1) * INR (V * (V - 1) / 2) * (2 * eta + bpow radix2 (-20)).
Proof.
  rewrite make_complete_graph_Ok in EG. inversion EG.
  exact (resample_law ws tb prior M HM gammaln32 sum lg delta GO SN HD s rt_tinv RD rt_prior GP SZ exp32 eta bset l EX SO ET KB EL).
Qed.

Lemma C85_posterior eps TT : 0 <= eps ->
  (forall a b, (a < b)%nat -> (b < V)%nat ->
     logit_error M delta (score_size lg M s a b + Rabs (B2R (nth (find_complete_edge a b) prior fzero))) <= eps) ->
  enumerates_trees V TT ->
  let mass := tree_mass (exact_logit lg M s prior) in
  0 < sumf TT mass -> forall T', In T' TT ->
  Rabs (sumf TT (fun T => mass T / sumf TT mass *
          tree_prob32 exp32 sum grid l T (fun T1 => if edge_list_eq_dec T1 T' then true else false))
        - mass T' / sumf TT mass)
    <= 2 * (exp (2 * INR (V - 1) * eps) - 1) + INR (V - 1) * INR (V * (V - 1) / 2) * (2 * eta + bpow radix2 (-20)).
Proof.
  intros E0 HE EN. rewrite make_complete_graph_Ok in EG. inversion EG.
  exact (posterior_near ws tb prior M HM gammaln32 sum lg delta GO SN HD s rt_tinv RD rt_prior GP SZ eps E0 HE exp32 eta l TT EX SO ET KB EL EN).
Qed.
End C85.
