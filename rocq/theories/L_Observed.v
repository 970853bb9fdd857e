(** Proofs of C32. *)
From Coq Require Import List Arith Lia Bool ZArith Reals Lra.
From Verif Require Import Base L_Base Spec_Graph L_Graph Spec_Sum L_Sum M_Structure L_MakeTree L_Program Spec_Program L_Center M_Rand L_Rand M_Util Spec_Ragged L_Ragged M_Array M_SampleTree M_EstimateTree Spec_Trees Spec_MST M_Training Spec_Stats L_Stats Spec_Joint Spec_Conditional L_Asg L_BP L_BPVec L_AddRow L_EdgeLogits L_Train M_Serving Spec_Serving L_Server L_Inward L_Logprob L_Path L_Marginals L_MargPost L_Serve1 L_Serve3 L_Entropy L_Corr Spec_Summary L_Summary L_Draw2 L_Median.
Import ListNotations.
Open Scope R_scope.

Section Obs.
Variables (ws : list nat) (V M : nat) (m : smodel) (edges : list (nat * nat)) (s : server).
Hypothesis SF : sfacts ws V M edges s.
Hypothesis ST : sv_tree s = d_tree m.
Hypothesis SM : d_M m = M.
Hypothesis SV : forall v c, sv_vert s v c = vert_prob m v c.
Hypothesis SE : forall e c1 c2, sv_edge s e c1 c2 = edge_prob m e c1 c2.
Hypothesis SFe : forall v q c, (v < V)%nat -> In q (block ws v) -> sv_feat s q c = feat_prob ws m v q c.

Lemma class_vert v a : (v < V)%nat -> (a < M)%nat -> class_total V M m v a = vert_prob m v a.
Proof.
  intros Hv Ha.
  destruct (sf_tree _ _ _ _ _ SF) as (ET & T).
  destruct (tree_rooted V _ v (make_tree_spanning _ _ T) Hv) as (par & dep & RT).
  destruct (make_program_rooted_Ok _ _ _ _ _ RT) as (np & _ & BL).
  assert (E1 : pair_prob m v v a a = class_total V M m v a).
  { erewrite pair_diag; eauto. now rewrite Nat.eqb_refl. }
  rewrite <- E1. erewrite pair_PW; eauto. rewrite (PW_ind ws V M edges s SF v par dep RT np BL m SM v a a) by auto.
  rewrite (rt_dep _ _ _ _ _ RT). cbn [Mn]. rewrite Nat.eqb_refl. apply SV.
Qed.

Lemma first_prob v q : (v < V)%nat -> In q (block ws v) ->
  row_prob ws m (bump (repeat 0%Z (list_sum ws)) q) = sumf (seq 0 M) (fun a => feat_prob ws m v q a * vert_prob m v a).
Proof.
  intros Hv Hq. unfold row_prob. assert (DT : d_tree m = TS V (make_tree edges)) by (rewrite <- ST; apply (sf_tree _ _ _ _ _ SF)). rewrite DT, SM. cbn [ts_V].
  rewrite (sumf_ext _ _ (fun z => latent_prob m z * feat_prob ws m v q (nth v z 0%nat))).
  - rewrite <- (sum_if (vectors V M) (fun z => nth v z 0%nat) M) by (intros; eapply nth_bound; eauto).
    apply sumf_ext. intros a Ia. apply in_seq in Ia. rewrite <- class_vert by (auto; lia). unfold class_total. rewrite <- sumf_scal. apply sumf_ext. intros z _.
    destruct (Nat.eqb_spec (nth v z 0%nat) a) as [-> |]; ring.
  - intros z I. rewrite (row_given_bump ws V M m edges s SF ST SM SFe (repeat 0%Z (list_sum ws)) v q z) by (auto; apply repeat_length).
    f_equal. unfold row_given. rewrite prodf_one; [ring|]. intros u _. apply prodf_one. intros p _. rewrite nth_repeat. reflexivity.
Qed.

Lemma feature_probs_eq v : (v < V)%nat -> (1 <= nth v ws 0)%nat ->
  map (fun q => dot M (fun q a => sv_feat s q a) (sv_vert s v) q) (block ws v) = feature_probs ws m v.
Proof.
  intros Hv Hw. unfold feature_probs. apply map_ext_in. intros q Hq.
  assert (ONE : sumf (block ws v) (fun q => row_prob ws m (bump (repeat 0%Z (list_sum ws)) q)) = 1).
  { erewrite sum_bump; eauto; [|apply repeat_length|]. eapply empty_row; eauto. unfold block. destruct (nth v ws 0%nat); [lia|discriminate]. }
  unfold predictive. rewrite ONE, (first_prob v q) by auto. unfold dot. rewrite rsum_vec. unfold Rdiv. rewrite Rinv_1, Rmult_1_r.
  apply sumf_ext. intros a _. now rewrite SV, (SFe v).
Qed.
End Obs.

Lemma exp_mono x y : x <= y -> exp x <= exp y.
Proof. intros [H | ->]; [left; now apply exp_increasing|right; reflexivity]. Qed.

Lemma draws_of_1 w : length (draws_of w 1) = w.
Proof. induction w; [reflexivity|]. cbn [draws_of seq flat_map Nat.sub]. rewrite app_nil_r, app_length, !map_length, draws_of_0, IHw. simpl. lia. Qed.

Lemma C32_value : forall ws V M N m mst s counts, consistent ws V M N m -> mst_contract mst -> tree_server mst m = Ok s ->
  (forall w, In w ws -> (1 <= w)%nat) ->
  exists out, observed_perplexity s (Some counts) = Ok out /\ length out = V /\
    forall v, (v < V)%nat -> nth v out 0 = exp (draws_entropy (feature_probs ws m v) 1) /\ 1 <= nth v out 0 <= INR (nth v ws 0%nat).
Proof.
  intros ws V M N m mst s counts C MC E W1. pose proof (cm_width _ _ _ _ _ C) as LW.
  destruct (build_server ws V M N m C mst MC) as (s' & edges & E' & SF & ST & SV & SE & SFe & _). rewrite E in E'. inversion E'; subst s'.
  pose proof (proj1 (cm_M _ _ _ _ _ C)) as SM.
  unfold observed_perplexity. cbn [bind]. rewrite repeat_length, Nat.eqb_refl. cbn [assert_ bind].
  replace (forallb _ (repeat 1%Z (sv_V s))) with true.
  2:{ symmetry. apply forallb_forall. intros x I. apply repeat_spec in I. subst x. reflexivity. }
  cbn [assert_ bind]. rewrite (sv_V_eq ws V M edges s SF), (sv_M_eq ws V M edges s SF).
  set (P := fun v x => x = exp (draws_entropy (feature_probs ws m v) 1) /\ 1 <= x <= INR (nth v ws 0%nat)).
  match goal with |- context[mapM ?f _] => destruct (mapM_nth f (seq 0 V) P 0%nat 0) as (out & E1 & L1 & H1) end.
  - intros v I. apply in_seq in I. assert (Hv : (v < V)%nat) by lia.
    assert (Hw : (1 <= nth v ws 0)%nat) by (apply W1, nth_In; lia).
    rewrite !(sri_get ws V M edges s SF) by lia. cbn [bind]. rewrite (block_width ws V M edges s SF) by auto.
    rewrite (get_Ok _ IndexError (repeat 1%Z V) v 0%Z) by (now rewrite repeat_length). cbn [bind].
    assert (N1 : nth v (repeat 1%Z V) 0%Z = 1%Z). { rewrite (nth_indep _ 0%Z 1%Z) by (now rewrite repeat_length). apply nth_repeat. }
    rewrite N1, (feature_probs_eq ws V M m edges s SF ST SM SV SE SFe v Hv Hw).
    destruct (predictive_good ws V M N m mst s (repeat 0%Z (list_sum ws)) v C MC E Hv Hw) as (PP & PO).
    assert (NN : forall x, In x (feature_probs ws m v) -> 0 <= x).
    { intros x I'. unfold feature_probs in I'. apply in_map_iff in I'. destruct I' as (q & <- & _). apply Rlt_le, PP. }
    assert (ONE : rsum (feature_probs ws m v) = 1) by (unfold rsum, feature_probs; rewrite sumf_map; exact PO).
    rewrite (multinomial_exact (feature_probs ws m v) 1 NN ONE) by (auto; lia). cbn [bind]. change (Z.to_nat 1) with 1%nat.
    eexists. split; [reflexivity|]. split; [reflexivity|].
    destruct (draws_entropy_bounds (feature_probs ws m v) 1 NN ONE) as (B1 & B2). rewrite draws_of_1 in B2.
    assert (LF : length (feature_probs ws m v) = nth v ws 0%nat) by (unfold feature_probs, block; now rewrite map_length, seq_length). rewrite LF in B2.
    split; [rewrite <- exp_0; now apply exp_mono|]. rewrite <- (exp_ln (INR (nth v ws 0%nat))) by (apply lt_0_INR; lia). now apply exp_mono.
  - rewrite seq_length in *. exists out. split; [exact E1|]. split; [exact L1|]. intros v Hv. specialize (H1 v Hv). now rewrite seq_nth in H1 by auto.
Qed.

Lemma chain_first : feature_probs [2; 2; 2]%nat chain_model 0 = [1 / 2; 1 / 2].
Proof.
  unfold feature_probs, predictive. change (block [2; 2; 2]%nat 0) with [0; 1]%nat. cbn [map]. unfold sumf. cbn [fold_right list_sum Nat.add repeat].
  rewrite !chain_free by lia. f_equal; [field|f_equal; field].
Qed.

Lemma C32_refutation : exists ws V M N m counts v, consistent ws V M N m /\ (forall w, In w ws -> (1 <= w)%nat) /\
  length counts = V /\ (forall c, In c counts -> (0 < c)%Z) /\ (v < V)%nat /\
  forall mst, mst_contract mst -> exists s out, tree_server mst m = Ok s /\ observed_perplexity s (Some counts) = Ok out /\
    nth v out 0 <> exp (draws_entropy (feature_probs ws m v) (Z.to_nat (nth v counts 0%Z))).
Proof.
  exists [2; 2; 2]%nat, 3%nat, 2%nat, 2%nat, chain_model, [2; 1; 1]%Z, 0%nat.
  assert (W1 : forall w, In w [2; 2; 2]%nat -> (1 <= w)%nat) by (cbn; intuition lia).
  split; [exact chain_consistent|]. split; [exact W1|]. split; [reflexivity|]. split; [cbn; intuition lia|]. split; [lia|].
  intros mst MC. destruct (build_server _ _ _ _ _ chain_consistent mst MC) as (s & edges & E & _).
  destruct (C32_value _ _ _ _ _ _ _ [2; 1; 1]%Z chain_consistent MC E W1) as (out & E1 & _ & H1).
  exists s, out. split; [exact E|]. split; [exact E1|]. destruct (H1 0%nat) as (-> & _); [lia|]. rewrite chain_first.
  change (Z.to_nat (nth 0 [2; 1; 1]%Z 0%Z)) with 2%nat. intros X. apply exp_inv in X.
  rewrite !binom_entropy in X. unfold binom, C, plp in X. unfold sumf in X. cbn [seq map fold_right Nat.sub pow fact Nat.mul Nat.add INR] in X.
  assert (L2 : 0 < ln 2) by (rewrite <- ln_1; apply ln_increasing; lra).
  assert (HL : ln (1 / 2) = - ln 2) by (replace (1 / 2) with (/ 2) by field; apply ln_Rinv; lra).
  assert (QL : ln (1 / 4) = - (2 * ln 2)).
  { replace (1 / 4) with (/ (2 * 2)) by field. rewrite ln_Rinv by lra. rewrite ln_mult by lra. ring. }
  replace (1 / (1 * 1) * (1 / 2 * 1) * 1) with (1 / 2) in X by field.
  replace (1 / (1 * 1) * 1 * (1 / 2 * 1)) with (1 / 2) in X by field.
  replace ((1 + 1) / (1 * (1 + 1)) * (1 / 2 * (1 / 2 * 1)) * 1) with (1 / 4) in X by field.
  replace ((1 + 1) / (1 * 1) * (1 / 2 * 1) * (1 / 2 * 1)) with (1 / 2) in X by field.
  replace ((1 + 1) / ((1 + 1) * 1) * 1 * (1 / 2 * (1 / 2 * 1))) with (1 / 4) in X by field.
  rewrite HL, QL in X. lra.
Qed.

Lemma C32_default : forall s, observed_perplexity s None = Raise AttributeError.
Proof. reflexivity. Qed.
