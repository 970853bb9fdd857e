(** Proofs about the repaired observed_perplexity (C32). *)
From Coq Require Import List Arith Lia Bool ZArith Reals Lra.
From Verif Require Import Base L_Base Spec_Graph L_Graph Spec_Sum L_Sum M_Structure L_MakeTree L_Program Spec_Program L_Center M_Rand L_Rand M_Util Spec_Ragged L_Ragged M_Array M_SampleTree M_EstimateTree Spec_Trees Spec_MST M_Training Spec_Stats L_Stats Spec_Joint Spec_Conditional L_Asg L_BP L_BPVec L_AddRow L_EdgeLogits L_Train M_Serving Spec_Serving L_Server L_Inward L_Logprob L_Path L_Marginals L_MargPost L_Serve1 L_Serve3 L_Entropy L_Corr Spec_Summary L_Summary L_Draw2 L_Median L_Observed M_Repaired4.
Import ListNotations.
Open Scope R_scope.

Definition count_of (counts : option (list Z)) (v : nat) : Z :=
  match counts with Some counts => nth v counts 0%Z | None => 1%Z end.


Lemma C32_repaired : forall ws V M N m mst s counts, consistent ws V M N m -> mst_contract mst -> tree_server mst m = Ok s ->
  (forall w, In w ws -> (1 <= w)%nat) ->
  (forall c, counts = Some c -> length c = V /\ forall x, In x c -> (0 < x)%Z) ->
  ((forall v, (v < V)%nat -> (nth v ws 0 <= 2)%nat \/ count_of counts v = 1%Z) ->
   exists out, repaired_observed_perplexity s counts = Ok out /\ length out = V /\
     forall v, (v < V)%nat -> let n := Z.to_nat (count_of counts v) in
       nth v out 0 = exp (draws_entropy (feature_probs ws m v) n) /\
       1 <= nth v out 0 <= INR (length (draws_of (nth v ws 0%nat) n))) /\
  ((exists v, (v < V)%nat /\ (2 < nth v ws 0)%nat /\ (1 < count_of counts v)%Z) ->
   repaired_observed_perplexity s counts = Raise NotImplementedError).
Proof.
  intros ws V M N m mst s counts C MC E W1 HC. pose proof (cm_width _ _ _ _ _ C) as LW.
  destruct (build_server ws V M N m C mst MC) as (s' & edges & E' & SF & ST & SV & SE & SFe & _). rewrite E in E'. inversion E'; subst s'.
  pose proof (proj1 (cm_M _ _ _ _ _ C)) as SM.
  pose proof (sv_V_eq ws V M edges s SF) as EV. pose proof (sv_M_eq ws V M edges s SF) as EM.
  set (cs := match counts with Some counts => counts | None => repeat 1%Z V end).
  assert (LC : length cs = V). { unfold cs. destruct counts as [c|]; [apply (HC c eq_refl)|apply repeat_length]. }
  assert (PC : forall x, In x cs -> (0 < x)%Z).
  { unfold cs. destruct counts as [c|]; [apply (HC c eq_refl)|]. intros x I. apply repeat_spec in I. subst x. reflexivity. }
  assert (NC : forall v, (v < V)%nat -> nth v cs 0%Z = count_of counts v).
  { intros v Hv. unfold cs, count_of. destruct counts as [c|]; [reflexivity|]. rewrite (nth_indep _ 0%Z 1%Z) by (now rewrite repeat_length). apply nth_repeat. }
  assert (NP : forall v, (v < V)%nat -> (0 < count_of counts v)%Z). { intros v Hv. rewrite <- NC by auto. apply PC, nth_In. lia. }
  set (one := fun v =>
          beg <- get IndexError (sv_ri s) v ;; fin <- get IndexError (sv_ri s) (v + 1)%nat ;;
          let probs := map (fun r => dot M (fun r m => sv_feat s r m) (sv_vert s v) r) (seq beg (fin - beg)) in
          count <- get IndexError cs v ;;
          h <- multinomial_entropy probs count ;;
          Ok (exp h)).
  assert (EO : repaired_observed_perplexity s counts = mapM one (seq 0 V)).
  { unfold repaired_observed_perplexity. rewrite EV, EM. fold cs. rewrite LC, Nat.eqb_refl. cbn [assert_ bind].
    replace (forallb _ cs) with true. 2:{ symmetry. apply forallb_forall. intros x I. apply Z.ltb_lt. auto. }
    reflexivity. }
  assert (ONE : forall v, (v < V)%nat -> one v = (h <- multinomial_entropy (feature_probs ws m v) (count_of counts v) ;; Ok (exp h)) /\
     (forall x, In x (feature_probs ws m v) -> 0 <= x) /\ rsum (feature_probs ws m v) = 1 /\ length (feature_probs ws m v) = nth v ws 0%nat).
  { intros v Hv. assert (Hw : (1 <= nth v ws 0)%nat) by (apply W1, nth_In; lia). split; [|split; [|split]].
    - unfold one. rewrite !(sri_get ws V M edges s SF) by lia. cbn [bind]. rewrite (block_width ws V M edges s SF) by auto.
      rewrite (get_Ok _ IndexError cs v 0%Z) by lia. cbn [bind].
      rewrite (NC v Hv), (feature_probs_eq ws V M m edges s SF ST SM SV SE SFe v Hv Hw). reflexivity.
    - destruct (predictive_good ws V M N m mst s (repeat 0%Z (list_sum ws)) v C MC E Hv Hw) as (PP & PO).
      intros x I'. unfold feature_probs in I'. apply in_map_iff in I'. destruct I' as (q & <- & _). apply Rlt_le, PP.
    - destruct (predictive_good ws V M N m mst s (repeat 0%Z (list_sum ws)) v C MC E Hv Hw) as (PP & PO).
      unfold rsum, feature_probs; rewrite sumf_map; exact PO.
    - unfold feature_probs, block; now rewrite map_length, seq_length. }
  rewrite EO. split.
  - intros SUP.
    set (P := fun v x => let n := Z.to_nat (count_of counts v) in x = exp (draws_entropy (feature_probs ws m v) n) /\ 1 <= x <= INR (length (draws_of (nth v ws 0%nat) n))).
    destruct (mapM_nth one (seq 0 V) P 0%nat 0) as (out & E1 & L1 & H1).
    + intros v I. apply in_seq in I. assert (Hv : (v < V)%nat) by lia. destruct (ONE v Hv) as (-> & NN & RS & LF).
      rewrite (multinomial_exact (feature_probs ws m v) (count_of counts v) NN RS).
      2: now apply NP. 2: { rewrite LF. now apply SUP. }
      cbn [bind]. eexists. split; [reflexivity|]. unfold P. cbn zeta. split; [reflexivity|].
      destruct (draws_entropy_bounds (feature_probs ws m v) (Z.to_nat (count_of counts v)) NN RS) as (B1 & B2). rewrite LF in B2.
      assert (DP : (0 < length (draws_of (nth v ws 0%nat) (Z.to_nat (count_of counts v))))%nat).
      { destruct (draws_of (nth v ws 0%nat) (Z.to_nat (count_of counts v))) eqn:D; [|simpl; lia]. exfalso.
        pose proof (draws_total (feature_probs ws m v) (Z.to_nat (count_of counts v))) as DT. rewrite RS, pow1, LF, D in DT.
        unfold sumf in DT. simpl in DT. lra. }
      split; [rewrite <- exp_0; now apply exp_mono|].
      rewrite <- (exp_ln (INR (length _))) by (now apply lt_0_INR). now apply exp_mono.
    + rewrite seq_length in *. exists out. split; [exact E1|]. split; [exact L1|]. intros v Hv. specialize (H1 v Hv). now rewrite seq_nth in H1 by auto.
  - intros (v0 & Hv0 & W0 & C0).
    assert (G : forall l, In v0 l -> (forall v, In v l -> (v < V)%nat) -> mapM one l = Raise NotImplementedError).
    { induction l as [|v l IH]; intros I HL; [contradiction|]. cbn [mapM].
      destruct (ONE v (HL v (or_introl eq_refl))) as (EV1 & NN & RS & LF). rewrite EV1.
      destruct (le_lt_dec (nth v ws 0%nat) 2) as [W2|W2]; [|destruct (Z.eq_dec (count_of counts v) 1) as [C1|C1]].
      - rewrite multinomial_exact; auto; [|apply NP, HL; now left|rewrite LF; auto]. cbn [bind]. destruct I as [-> | I]; [lia|].
        rewrite IH; auto. intros; apply HL; now right.
      - rewrite multinomial_exact; auto; [|lia]. cbn [bind]. destruct I as [-> | I]; [lia|].
        rewrite IH; auto. intros; apply HL; now right.
      - rewrite multinomial_fails; [reflexivity|lia|]. pose proof (NP v (HL v (or_introl eq_refl))). lia. }
    apply G; [apply in_seq; lia|]. intros v I. apply in_seq in I. lia.
Qed.
