(** Sampling outward with messages that are nearly right. *)
From Coq Require Import List Arith Lia Bool ZArith Reals Lra Permutation FunctionalExtensionality.
From Verif Require Import Base L_Base Spec_Graph L_Graph Spec_Sum L_Sum M_Structure L_Pairing L_MakeTree L_Program L_ProgramValid Spec_Program L_Center L_Prop1 M_Rand L_Rand M_Util L_Quantize Spec_Ragged L_Ragged M_Array Spec_Trees Spec_MST M_Training Spec_Stats L_Stats L_Trainer Spec_Joint Spec_Conditional L_Asg L_BP L_BPVec L_AddRow M_Serving Spec_Serving L_Server L_Inward L_Logprob L_Draws L_Sample Spec_Accuracy L_Acc1.
Import ListNotations.
Open Scope R_scope.

Lemma agree_prodf {A} (E f g : A -> R) l : (forall x, In x l -> agree (E x) (f x) (g x)) -> agree (sumf l E) (prodf l f) (prodf l g).
Proof.
  induction l as [|x l IH]; intros H.
  - change (sumf [] E) with 0. change (prodf [] f) with 1. change (prodf [] g) with 1. apply agree_refl; lra.
  - rewrite sumf_cons, !prodf_cons. apply agree_mul; [apply H; now left|]. apply IH. intros y I. apply H. now right.
Qed.

Lemma agree_scale e c x y : 0 <= c -> agree e x y -> agree e (c * x) (c * y).
Proof. intros Hc A. replace e with (0 + e) by ring. apply agree_mul; [apply agree_refl; lra|exact A]. Qed.

Lemma agree_sumall M e F G l : forall z, NoDup l -> (forall z', fills M l z z' -> agree e (F z') (G z')) -> agree e (sumall M l F z) (sumall M l G z).
Proof.
  induction l as [|v t IH]; intros z ND H.
  - cbn [sumall]. apply H. split; [intros u []|auto].
  - inversion ND; subst. cbn [sumall]. apply agree_sum. intros k I. apply in_seq in I. apply IH; auto. intros z' F'. apply H. apply (fills_cons M v t z k z'); auto. lia.
Qed.

(** Shares of nearly proportional weights. *)
Lemma share_agree {A} e kap (f g : A -> R) l k : 0 < kap -> In k l -> (forall x, In x l -> 0 < g x) -> (forall x, In x l -> agree e (f x) (kap * g x)) ->
  agree (2 * e) (f k / sumf l f) (g k / sumf l g).
Proof.
  intros Pk I P AG. assert (PS : 0 < sumf l g). { apply sumf_pos'; [|exact P]. intros E. rewrite E in I. destruct I. }
  replace (g k / sumf l g) with (kap * g k / (kap * sumf l g)) by (field; lra).
  replace (2 * e) with (e + e) by ring. apply agree_div; [now apply AG| |now apply Rmult_lt_0_compat].
  rewrite <- sumf_scal. now apply agree_sum.
Qed.

Section Near.
Variables (ws : list nat) (V M : nat) (edges : list (nat * nat)) (s : server).
Hypothesis SF : sfacts ws V M edges s.
Notation es := (grid_edges (make_tree edges)).
Variables (r : nat) (par dep : nat -> nat).
Hypothesis RT : rooted V es r par dep.
Variable np : list (nat * option nat * list nat).
Hypothesis BL : bfs_list V r par np.
Notation PSI := (opair edges par (sv_trans s)).
Variables (counts data : list Z).
Hypothesis CL : length counts = V.
Hypothesis DL : length data = list_sum ws.
Notation cnt v := (Z.to_nat (nth v counts 0%Z)).
Hypothesis CW : forall v, (v < V)%nat -> (0 < nth v counts 0%Z)%Z -> block ws v <> [].
Notation off v := (list_sum (firstn v ws)).
Variable msg : nat -> nat -> R.
Hypothesis MP : mpos V M msg.
Variables (E kap : nat -> R).
Hypothesis KP : forall v, (v < V)%nat -> 0 < kap v.
Hypothesis AG : forall v k, (v < V)%nat -> (k < M)%nat ->
  agree (E v) (msg v k) (kap v * (node ws s data v k * prodf (kids V r par v) (fun u => up M PSI msg u k))).

Definition phi' (v k : nat) : R := msg v k / prodf (kids V r par v) (fun u => up M PSI msg u k).

Lemma prod_up_pos v k : (v < V)%nat -> (k < M)%nat -> 0 < prodf (kids V r par v) (fun u => up M PSI msg u k).
Proof.
  intros Hv Hk. pose proof (HM ws V M edges s SF) as HM. apply prodf_pos. intros u I. apply in_kids in I. destruct I as (Hu & NR & _). unfold up. apply sumf_pos'; [destruct M; [lia|discriminate]|].
  intros j J. apply in_seq in J. apply Rmult_lt_0_compat; [eapply psi_pos; eauto; lia|apply MP; auto; lia].
Qed.
Lemma phi_pos v k : (v < V)%nat -> (k < M)%nat -> 0 < phi' v k.
Proof. intros Hv Hk. apply Rdiv_lt_0_compat; [now apply MP|now apply prod_up_pos]. Qed.
Lemma phi_up : upward V r par M phi' PSI msg.
Proof. intros v k Hv Hk. unfold phi'. field. apply Rgt_not_eq. now apply prod_up_pos. Qed.
Lemma phi_agree v k : (v < V)%nat -> (k < M)%nat -> agree (E v) (phi' v k) (kap v * node ws s data v k).
Proof.
  intros Hv Hk. pose proof (prod_up_pos v k Hv Hk) as P. unfold phi'.
  replace (kap v * node ws s data v k) with (kap v * (node ws s data v k * prodf (kids V r par v) (fun u => up M PSI msg u k)) / prodf (kids V r par v) (fun u => up M PSI msg u k)) by (field; lra).
  replace (E v) with (E v + 0) by ring. apply agree_div; [now apply AG|apply agree_refl; lra|exact P].
Qed.

Lemma joint_agree z : (forall v, (v < V)%nat -> (z v < M)%nat) ->
  agree (sumf (seq 0 V) E) (jointw V r par phi' PSI z) (prodf (seq 0 V) kap * jointw V r par (node ws s data) PSI z).
Proof.
  intros Hz. unfold jointw. rewrite <- Rmult_assoc, <- prodf_mult. replace (sumf (seq 0 V) E) with (sumf (seq 0 V) E + 0) by ring. apply agree_mul.
  - apply agree_prodf. intros v I. apply in_seq in I. apply phi_agree; [lia|apply Hz; lia].
  - apply agree_refl; [lra|]. left. apply prodf_pos. intros u I. apply in_nonroot in I. destruct I as (Hu & NR).
    eapply psi_pos; eauto. apply Hz. eapply par_lt; eauto.
Qed.

Lemma val_near x : legal_row ws counts x ->
  agree (2 * sumf (seq 0 V) E) (L_Sample.val ws M edges s r par counts msg (fun q => nth q x 0%Z) (order np) (fun _ => 0%nat))
    (arrangements ws counts x * (total_weight ws V M edges s (merge data x) / total_weight ws V M edges s data)).
Proof.
  intros (LX & NX & SX). pose proof (HM ws V M edges s SF) as HM. pose proof (sf_ws _ _ _ _ _ SF) as LW.
  pose proof (order_perm V r par np BL) as OP. pose proof (order_nodup V r par np BL) as ON.
  assert (OIN : forall v, In v (order np) -> (v < V)%nat).
  { intros v I. eapply Permutation_in in I; [|exact OP]. apply in_seq in I. lia. }
  assert (PP : forall u m m', (u < V)%nat -> u <> r -> (m < M)%nat -> (m' < M)%nat -> 0 < PSI u m m') by (intros; eapply psi_pos; eauto).
  rewrite (val_sumall ws V M edges s SF r par dep RT np BL counts data CL DL CW msg MP (fun q => nth q x 0%Z) (order np) ON (outw_looks_back V edges s r par np BL msg) OIN (fun _ => 0%nat)) by (intros; lia).
  set (G := fun z' : nat -> nat => prodf (order np) (fun v => cellw ws s counts (fun q => nth q x 0%Z) v (z' v))).
  assert (FC : forall z', fills M (order np) (fun _ => 0%nat) z' -> forall v, (v < V)%nat -> (z' v < M)%nat).
  { intros z' F. exact (fills_classes V M HM (order np) OP _ z' F). }
  assert (ZT : Ztot r M msg = sumall M (order np) (jointw V r par phi' PSI) (fun _ => 0%nat)).
  { symmetry. apply (jointw_total V es r par dep M RT HM phi' PSI msg phi_pos PP phi_up (order np) OP (order_first V r par np BL)). }
  assert (NP : forall v k, (v < V)%nat -> (k < M)%nat -> 0 < node ws s data v k) by (intros; eapply node_pos; eauto).
  assert (TW : forall d, sumall M (order np) (jointw V r par (node ws s d) PSI) (fun _ => 0%nat) = total_weight ws V M edges s d).
  { intros d. unfold total_weight. rewrite <- (sumall_vectors V r par np BL M _ (fun _ => 0%nat)). apply sumall_ext; [exact ON|]. intros z' _.
    now apply (jointw_tree V edges r par dep RT M HM). }
  assert (GE : forall z', fills M (order np) (fun _ => 0%nat) z' -> jointw V r par (node ws s data) PSI z' * G z' = arrangements ws counts x * jointw V r par (node ws s (merge data x)) PSI z').
  { intros z' F. unfold G, jointw. rewrite (prodf_perm _ _ _ OP).
    rewrite (prodf_ext (seq 0 V) (fun v => node ws s (merge data x) v (z' v)) (fun v => node ws s data v (z' v) * likeli ws s x v (z' v))).
    2:{ intros v Hv. apply in_seq in Hv. unfold node. rewrite (likeli_merge ws V M edges s SF counts data CL DL); auto; [ring|lia|]. apply FC; auto; lia. }
    rewrite (prodf_ext (seq 0 V) (fun v => cellw ws s counts _ v (z' v))
      (fun v => INR (fact (cnt v)) / prodf (block ws v) (fun q => INR (fact (Z.to_nat (nth q x 0%Z)))) * likeli ws s x v (z' v))).
    2:{ intros v Hv. apply in_seq in Hv. apply (cellw_eq ws V M edges s SF counts data CL DL); [lia|apply FC; auto; lia|].
        intros q Hq. apply NX, nth_In. rewrite LX. eapply in_block_lt; eauto. lia. }
    rewrite !prodf_mult. unfold arrangements. rewrite LW. ring. }
  assert (G0 : forall z', fills M (order np) (fun _ => 0%nat) z' -> 0 <= G z').
  { intros z' F. left. unfold G. apply prodf_pos. intros v I. apply OIN in I. rewrite (cellw_eq ws V M edges s SF counts data CL DL) by
      (auto; intros q Hq; apply NX, nth_In; rewrite LX; eapply in_block_lt; eauto).
    apply Rmult_lt_0_compat; [|eapply likeli_pos; eauto]. apply Rdiv_lt_0_compat; [apply INR_fact_lt_0|]. apply prodf_pos. intros. apply INR_fact_lt_0. }
  rewrite (sumall_ext M (order np) _ (fun z' => / Ztot r M msg * (jointw V r par phi' PSI z' * G z'))); [|exact ON|].
  2:{ intros z' F. fold (G z').
      change (prodf (order np) (fun v => outw edges s r par msg z' v (z' v) / wtot M (outw edges s r par msg) z' v))
        with (prodf (order np) (fun v => ffw r par PSI msg z' v (z' v) / wtot M (ffw r par PSI msg) z' v)).
      rewrite (ffw_prod V es r par dep M RT HM phi' PSI msg phi_pos PP phi_up (order np) OP z' (FC z' F)). unfold Rdiv. ring. }
  rewrite sumall_scal. set (K := prodf (seq 0 V) kap).
  assert (PK : 0 < K) by (apply prodf_pos; intros v I; apply in_seq in I; apply KP; lia).
  pose proof (total_weight_pos ws V M edges s SF r par dep RT data) as TP.
  replace (/ Ztot r M msg * _) with (sumall M (order np) (fun z' => jointw V r par phi' PSI z' * G z') (fun _ => 0%nat) / Ztot r M msg) by (unfold Rdiv; ring).
  replace (arrangements ws counts x * (total_weight ws V M edges s (merge data x) / total_weight ws V M edges s data))
    with (K * (arrangements ws counts x * total_weight ws V M edges s (merge data x)) / (K * total_weight ws V M edges s data)) by (field; lra).
  replace (2 * sumf (seq 0 V) E) with (sumf (seq 0 V) E + sumf (seq 0 V) E) by ring. apply agree_div.
  - rewrite <- TW, <- !sumall_scal. apply agree_sumall; [exact ON|]. intros z' F. rewrite <- GE by auto. rewrite <- Rmult_assoc.
    replace (sumf (seq 0 V) E) with (sumf (seq 0 V) E + 0) by ring. apply agree_mul; [now apply joint_agree, FC|]. apply agree_refl; [lra|now apply G0].
  - rewrite ZT, <- TW, <- sumall_scal. apply agree_sumall; [exact ON|]. intros z' F. now apply joint_agree, FC.
  - now apply Rmult_lt_0_compat.
Qed.
End Near.

(** ** Draws of cells from nearly right weights *)
Lemma cellstep_agree beg width p p' e eh k : 0 <= e -> (forall q, In q (seq beg width) -> 0 < p' q) ->
  (forall q, In q (seq beg width) -> agree e (p q) (p' q)) -> forall h h' x, (forall y, agree eh (h y) (h' y)) ->
  agree (eh + INR k * (2 * e)) (cellstep beg width p k h x) (cellstep beg width p' k h' x).
Proof.
  intros He P AG h h'. induction k as [|k IH]; intros x H.
  - cbn [cellstep INR]. eapply agree_weak; [|apply H]. lra.
  - cbn [cellstep]. rewrite S_INR. apply agree_sum. intros q I.
    eapply agree_weak; [|apply agree_mul; [apply (share_agree e 1 p p' (seq beg width) q); auto; [lra|]|now apply IH]]; [lra|].
    intros y J. rewrite Rmult_1_l. now apply AG.
Qed.
