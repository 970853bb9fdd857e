(** Log probabilities of ensembles in float32. *)
From Coq Require Import List Arith Bool ZArith Reals Lra Lia.
From Flocq Require Import Core IEEE754.BinarySingleNaN.
From Verif Require Import Base L_Base Spec_Graph Spec_Sum L_Sum M_Structure M_Util Spec_Ragged M_Training Spec_MST Spec_Stats Spec_Joint Spec_Conditional L_Asg
  M_Float32 M_Train32 Spec_Float32 L_Float32 M_Serving Spec_Serving L_Server L_Logprob L_Summary L_Serve1 M_Serving32 Spec_Serving32 L_Serving32a L_Serving32d M_SampleTree32 Spec_Tree32 L_Tree32d
  Spec_Accuracy L_Acc1 L_Acc3 L_Acc6 L_Acc7 L_Logits32a M_EstimateTree32 M_Ensemble32 Spec_Ensemble32 L_Ensemble32a L_EnsServe L_EnsServe2.
From Verif Require L_Estimate L_Serving32c.
Import ListNotations.
Open Scope R_scope.

Lemma zfold_scale {A} (l : list A) (h : A -> Z) k : (fold_right Z.add 0 (map (fun x => k * h x) l) = k * fold_right Z.add 0 (map h l))%Z.
Proof. induction l as [|x l IH]; cbn [map fold_right]; [lia|]. rewrite IH. lia. Qed.

Lemma powerRZ_above b x n : (0 <= n)%Z -> 0 < x -> (n <> 0%Z -> bp (- b) <= x) -> bp (- b * n) <= powerRZ x n.
Proof.
  intros Hn Px H. destruct (Z.eq_dec n 0) as [->|N]; [rewrite Z.mul_0_r; cbn; lra|]. specialize (H N).
  rewrite <- (Z2Nat.id n Hn). rewrite <- pow_powerRZ. generalize (Z.to_nat n). clear - H Px. induction n as [|n IH]; [rewrite Z.mul_0_r; cbn; lra|].
  replace (- b * Z.of_nat (S n))%Z with (- b + - b * Z.of_nat n)%Z by lia. rewrite bpow_plus. cbn [pow]. apply Rmult_le_compat; try apply bpow_ge_0; auto.
Qed.

(** A row is not very unlikely. *)
Lemma row_prob_range ws V M N m A b c row : consistent ws V M N m -> counts_below A ws N m -> (6 <= A <= 16)%Z -> (0 <= b)%Z ->
  length row = list_sum ws -> Forall (fun x => (0 <= x)%Z) row -> (forall v, (v < V)%nat -> (block_sum ws row v <= c)%Z) ->
  (forall v q k, (v < V)%nat -> In q (block ws v) -> (k < M)%nat -> nth q row 0%Z <> 0%Z -> bp (- b) <= feat_prob ws m v q k) ->
  bp (- (b * c * Z.of_nat V)) <= row_prob ws m row <= 1.
Proof.
  intros C CB HA Hb RL RN RC RF. set (mst := L_Estimate.naive_mst). assert (MC : mst_contract mst) by exact L_Estimate.naive_mst_contract.
  destruct (build_server ws V M N m C mst MC) as (sx & edges & EX & SF & ST & SV & SE & SFe & _ & _ & EP).
  assert (SM : d_M m = M) by apply C.
  pose proof (latent_total ws V M m edges sx SF ST SM SV SE SFe) as LT.
  pose proof (latent_pos ws V M m edges sx SF ST SM SV SE SFe) as LP.
  assert (EV : ts_V (d_tree m) = V). { rewrite <- ST. destruct (sf_tree _ _ _ _ _ SF) as (-> & _). reflexivity. }
  assert (NN : forall q, (0 <= nth q row 0)%Z).
  { intros q. destruct (Nat.lt_ge_cases q (length row)) as [L|L]; [|rewrite nth_overflow by lia; lia]. rewrite Forall_forall in RN. apply RN, nth_In, L. }
  assert (G : forall z, In z (vectors V M) -> bp (- (b * c * Z.of_nat V)) <= row_given ws m row z <= 1).
  { intros z I. apply in_vectors in I. destruct I as (L & B). assert (NB : forall v, (v < V)%nat -> (nth v z 0 < M)%nat) by (intros v Hv; apply B, nth_In; lia).
    unfold row_given. rewrite EV. split.
    - apply Rle_trans with (bp (fold_right Z.add 0%Z (map (fun v => - (b * c))%Z (seq 0 V)))).
      + apply bpow_le. assert (E : forall (l : list nat), fold_right Z.add 0%Z (map (fun _ => - (b * c))%Z l) = (- (b * c) * Z.of_nat (length l))%Z)
          by (induction l as [|x l IH]; cbn [map fold_right length]; [lia|]; rewrite IH; lia). rewrite E, seq_length. lia.
      + apply prodf_above. intros v Iv. apply in_seq in Iv. apply Rle_trans with (bp (fold_right Z.add 0%Z (map (fun q => - b * nth q row 0)%Z (block ws v)))).
        * apply bpow_le. rewrite zfold_scale. specialize (RC v ltac:(lia)). rewrite block_sum_zsum in RC. unfold zsum in RC. nia.
        * apply prodf_above. intros q Iq. apply powerRZ_above; [apply NN| |].
          -- apply (feat_pos ws V M N m A C CB HA v q); [lia|exact Iq|apply NB; lia].
          -- intros NZ. apply (RF v q); auto; [lia|apply NB; lia].
    - assert (P1 : forall (l : list nat) f, (forall x, In x l -> 0 <= f x <= 1) -> 0 <= prodf l f <= 1).
      { induction l as [|x l IH]; intros f H; [cbn; lra|]. rewrite prodf_cons. specialize (IH f ltac:(intros; apply H; now right)). pose proof (H x (or_introl eq_refl)). nra. }
      apply P1. intros v Iv. apply in_seq in Iv. apply P1. intros q Iq.
      pose proof (feat_pos ws V M N m A C CB HA v q (nth v z 0%nat) ltac:(lia) Iq ltac:(apply NB; lia)) as F.
      specialize (NN q). rewrite <- (Z2Nat.id _ NN), <- pow_powerRZ. split; [apply pow_le; lra|]. rewrite <- (Rfunctions.pow1 (Z.to_nat (nth q row 0%Z))). apply pow_incr. lra. }
  unfold row_prob. rewrite EV, SM. split.
  - rewrite <- (Rmult_1_l (bp _)). rewrite <- LT, <- sumf_scal_r. apply sumf_le. intros z I. specialize (G z I). specialize (LP z I). nra.
  - rewrite <- LT. apply sumf_le. intros z I. specialize (G z I). specialize (LP z I). nra.
Qed.

Lemma ln_range p k : (0 <= k)%Z -> bp (- k) <= p <= 1 -> Rabs (ln p) <= IZR k.
Proof.
  intros Hk (L & U). assert (Pp : 0 < p) by (pose proof (bpow_gt_0 radix2 (- k)); lra).
  assert (U0 : ln p <= 0) by (rewrite <- ln_1; destruct U as [U| ->]; [left; now apply ln_increasing|lra]).
  rewrite Rabs_left1 by exact U0.
  assert (E : exp (- IZR k) <= bp (- k)).
  { assert (E2 : 2 <= exp 1) by (pose proof (exp_ineq1 1 ltac:(lra)); lra). rewrite bpow_opp, exp_Ropp. apply Rinv_le_contravar; [apply bpow_gt_0|].
    rewrite <- (Z2Nat.id k Hk). generalize (Z.to_nat k). clear - E2. induction n as [|n IH]; [cbn; rewrite exp_0; lra|].
    rewrite Nat2Z.inj_succ. unfold Z.succ. rewrite bpow_plus, plus_IZR, exp_plus. change (bp 1) with 2. pose proof (bpow_gt_0 radix2 (Z.of_nat n)). nra. }
  assert (- IZR k <= ln p); [|lra]. rewrite <- (ln_exp (- IZR k)). destruct (Req_dec (exp (- IZR k)) p) as [->|N]; [lra|]. left. apply ln_increasing; [apply exp_pos|lra].
Qed.

(** Shifting all terms shifts the result. *)
Lemma lse_shift (xs : list f32) (ps : list R) e : xs <> [] -> Forall2 (fun x p => 0 < p /\ Rabs (val x - ln p) <= e) xs ps ->
  Rabs (lse xs - ln (rsum ps)) <= e.
Proof.
  intros NE F. assert (K : exp (- e) * rsum ps <= sumf xs (fun x => exp (val x)) <= exp e * rsum ps /\ (xs <> [] -> 0 < rsum ps)).
  { clear NE. induction F as [|x p xs ps (P & H) F (I1 & I2)]; [unfold rsum; cbn; split; [lra|congruence]|].
    apply Rabs_le_inv in H. rewrite sumf_cons. change (rsum (p :: ps)) with (p + rsum ps).
    assert (EP : p = exp (ln p)) by (symmetry; now apply exp_ln).
    assert (Q1 : exp (- e) * p <= exp (val x)).
    { rewrite EP at 1. rewrite <- exp_plus. destruct (Req_dec (- e + ln p) (val x)) as [->|N]; [lra|left; apply exp_increasing; lra]. }
    assert (Q2 : exp (val x) <= exp e * p).
    { rewrite EP. rewrite <- exp_plus. destruct (Req_dec (e + ln p) (val x)) as [->|N]; [lra|left; apply exp_increasing; lra]. }
    split; [lra|]. intros _. assert (0 <= rsum ps) by (destruct xs; [inversion F; subst; unfold rsum; cbn; lra|left; apply I2; congruence]). lra. }
  destruct K as ((K1 & K2) & K3). specialize (K3 NE). unfold lse. pose proof (exp_pos (- e)). pose proof (exp_pos e).
  assert (M : forall a b, 0 < a -> a <= b -> ln a <= ln b) by (intros a b P [L| ->]; [left; now apply ln_increasing|lra]).
  assert (Pm : 0 < exp (- e) * rsum ps) by (now apply Rmult_lt_0_compat).
  apply M in K2; [|lra]. apply M in K1; [|exact Pm]. rewrite ln_mult, ln_exp in K1, K2 by auto. apply Rabs_le. lra.
Qed.

Lemma C89_proof : forall lib exp32 log_size ws V M ms A W b c d eta lambda eta_exp row,
  lib_ok lib -> accurate W eta lambda lib -> exp_ok eta_exp exp32 -> 0 <= eta_exp <= 1 -> log_size_ok lambda log_size -> lambda <= 1 ->
  ms <> [] -> (Z.of_nat (length ms) <= W)%Z -> (Z.of_nat (length ms) <= 2 ^ 16)%Z ->
  (forall m, In m ms -> exists N, consistent ws V M N m /\ counts_below A ws N m /\ degree_at_most d m) ->
  (6 <= A <= 16)%Z -> (0 <= b <= 140)%Z -> (0 <= c)%Z -> (2 * (A + 3 + (b + 4) * c) + (A + 8) * Z.of_nat d + 20 <= 126)%Z ->
  bp (-23) <= eta -> (Z.of_nat (M * M) <= W)%Z -> (forall v, (v < V)%nat -> (Z.of_nat (nth v ws 0%nat) <= W)%Z) -> (Z.of_nat V <= 2 ^ 16)%Z ->
  length row = list_sum ws -> Forall (fun x => (0 <= x)%Z) row ->
  (forall v, (v < V)%nat -> (block_sum ws row v <= c)%Z) ->
  (forall m v q k, In m ms -> (v < V)%nat -> In q (block ws v) -> (k < M)%nat -> nth q row 0%Z <> 0%Z -> bp (- b) <= feat_prob ws m v q k) ->
  let total := IZR (37 * Z.of_nat V + 2 * Z.of_nat (list_sum ws) + 8 * fold_right Z.add 0%Z row) * eta in
  total <= 1 / 4 ->
  let member := total + INR V * (lambda + bp (-16) * INR (V + 1)) in
  exists servers x, mapM (tree_server32 lib) ms = Ok servers /\ ens_logprob_row32 lib exp32 log_size servers row = Ok x /\ fin32 x = true /\
    Rabs (val x - ln (sumf ms (fun m => row_prob ws m row) / INR (length ms))) <=
    member + mixture_error (length ms) eta lambda eta_exp (IZR (b * c * Z.of_nat V) + member).
Proof.
  intros lib exp32 log_size ws V M ms A W b c d eta lambda ex row LIB ACC EXO HX LSO L1 NE LW L16 MS HA Hb Hc HL HE WM WW HV RL RN RC RF total TS member.
  set (B0 := IZR (b * c * Z.of_nat V)). set (B := B0 + member).
  assert (L0 : 0 <= lambda). { destruct (LSO 1%nat ltac:(lia) ltac:(lia)) as (_ & _ & G). pose proof (Rabs_pos (val (log_size 1%nat) - ln (INR 1))). lra. }
  assert (BB : B <= bp 24).
  { assert (V0 : 0 <= INR V <= 65536). { split; [apply pos_INR|]. rewrite INR_IZR_INZ. apply IZR_le in HV. exact HV. }
    assert (B1 : B0 <= 63 * 65536). { unfold B0. change (63 * 65536) with (IZR 63 * IZR 65536). rewrite <- mult_IZR. apply IZR_le. assert (0 <= b * c <= 63)%Z by nia. nia. }
    unfold B, member. rewrite plus_INR. change (INR 1) with 1. change (bp (-16)) with (/ 65536). change (bp 24) with 16777216.
    assert (lambda + / 65536 * (INR V + 1) <= 3) by lra. assert (0 <= lambda + / 65536 * (INR V + 1)) by lra. nra. }
  assert (SRV : exists servers xs, mapM (tree_server32 lib) ms = Ok servers /\ mapM (fun s => logprob_row32 lib s row) servers = Ok xs /\ length xs = length ms /\ length servers = length ms /\
     Forall (fun x => fin32 x = true /\ Rabs (val x) <= B) xs /\ Forall2 (fun x p => 0 < p /\ Rabs (val x - ln p) <= member) xs (map (fun m => row_prob ws m row) ms)).
  { clear NE LW L16. revert MS RF. induction ms as [|m ms IH]; intros MS RF.
    - exists [], []. repeat split; constructor.
    - destruct IH as (servers & xs & E1 & E2 & E3 & E4 & E5 & E6); [intros; apply MS; now right|intros m' v q k I; apply (RF m'); now right|].
      destruct (MS m (or_introl eq_refl)) as (N & C & CB & DG).
      assert (RFm : forall v q k, (v < V)%nat -> In q (block ws v) -> (k < M)%nat -> nth q row 0%Z <> 0%Z -> bp (- b) <= feat_prob ws m v q k) by (intros v q k; apply (RF m); now left).
      destruct (logprob_accurate lib ws V M N m A W b c d eta lambda row LIB ACC C CB DG HA Hb Hc HL HE WM WW HV RL RN RC RFm TS) as (s & x & G1 & G2 & G3 & G4).
      fold total in G4. fold member in G4.
      pose proof (row_prob_range ws V M N m A b c row C CB HA (proj1 Hb) RL RN RC RFm) as PR.
      assert (PP : 0 < row_prob ws m row) by (pose proof (bpow_gt_0 radix2 (- (b * c * Z.of_nat V))); lra).
      pose proof (ln_range _ (b * c * Z.of_nat V) ltac:(nia) PR) as LR. fold B0 in LR.
      exists (s :: servers), (x :: xs). cbn [mapM]. rewrite G1. cbn [bind]. rewrite E1. cbn [bind mapM]. rewrite G2. cbn [bind]. rewrite E2. cbn [bind map length].
      split; [reflexivity|]. split; [reflexivity|]. split; [now rewrite E3|]. split; [now rewrite E4|]. split.
      + constructor; [|exact E5]. split; [exact G3|]. unfold B. apply Rabs_le_inv in G4, LR. apply Rabs_le. lra.
      + constructor; [split; [exact PP|exact G4]|exact E6]. }
  destruct SRV as (servers & xs & E1 & E2 & E3 & E4 & E5 & E6).
  assert (NX : xs <> []) by (intros ->; destruct ms; [congruence|discriminate]).
  destruct (lse_near lib exp32 W eta lambda ex B LIB ACC EXO HX BB xs NX) as (r & R1 & R2 & R3 & R4); [now rewrite E3|now rewrite E3|exact E5|].
  pose proof (lse_shift xs _ member NX E6) as SH. rewrite rsum_sumf in SH.
  assert (N1 : (1 <= length ms)%nat) by (destruct ms; [congruence|cbn; lia]).
  destruct (LSO (length ms) N1 L16) as (Q1 & Q2 & Q3).
  assert (B00 : 0 <= B). { destruct xs as [|x xs]; [congruence|]. inversion E5; subst. pose proof (Rabs_pos (val x)). lra. }
  assert (QB : Rabs (val r - val (log_size (length ms))) <= 3 * (B + 128)).
  { apply Rabs_le_inv in R3, Q2. apply Rabs_le. lra. }
  destruct (fsub_near r (log_size (length ms)) R2 Q1) as (H1 & H2).
  { eapply Rle_trans; [exact QB|]. apply Rle_trans with (bp 27); [|apply bpow_le; lia]. change (bp 27) with 134217728. change (bp 24) with 16777216 in BB. lra. }
  exists servers, (fsub r (log_size (length ms))). split; [exact E1|]. split.
  { unfold ens_logprob_row32. rewrite E2. cbn [bind]. rewrite R1. cbn [bind]. now rewrite E4. }
  split; [exact H1|].
  set (P := sumf ms (fun m => row_prob ws m row)) in *.
  assert (PP : 0 < P).
  { unfold P. destruct ms as [|m ms']; [congruence|]. cbn [map] in E6. destruct xs as [|x xs]; [congruence|]. rewrite <- rsum_sumf.
    assert (G : forall xs ps, Forall2 (fun (x : f32) p => 0 < p /\ Rabs (val x - ln p) <= member) xs ps -> 0 <= rsum ps).
    { clear. induction 1 as [|x p xs ps (P & _) F IH]; [unfold rsum; cbn; lra|]. change (rsum (p :: ps)) with (p + rsum ps). lra. }
    cbn [map]. change (rsum (row_prob ws m row :: ?l)) with (row_prob ws m row + rsum l).
    inversion E6 as [|? ? ? ? (P1 & _) F]; subst. apply G in F.
    change (0 < row_prob ws m row + rsum (map (fun m => row_prob ws m row) ms')). lra. }
  assert (IN : 0 < INR (length ms)) by (apply lt_0_INR; lia).
  replace (ln (P / INR (length ms))) with (ln P - ln (INR (length ms))) by (unfold Rdiv; rewrite ln_mult, ln_Rinv by (auto using Rinv_0_lt_compat); ring).
  assert (H3 : bp (-24) * Rabs (val r - val (log_size (length ms))) <= bp (-24) * (3 * (B + 128))) by (apply Rmult_le_compat_l; [apply bpow_ge_0|exact QB]).
  unfold mixture_error. fold B. rewrite E3 in R4. replace (bp (-22)) with (4 * bp (-24)) by (change (-22)%Z with (2 + -24)%Z; rewrite bpow_plus; reflexivity).
  set (y := val (fsub r (log_size (length ms)))) in *. set (lg := val (log_size (length ms))) in *.
  apply Rabs_le_inv in H2, R4, SH, Q3. apply Rabs_le. lra.
Qed.

(** [np.log] of the number of members, from the logarithm of the library. *)
Definition log_size0 (n : nat) : f32 := l_log lib0 (f32_of (Z.of_nat n) 0).

Lemma log_size0_ok : log_size_ok (bp (-10)) log_size0.
Proof.
  intros n Hn Hm. destruct (f32_int (Z.of_nat n) ltac:(lia)) as (F & E). rewrite <- INR_IZR_INZ in E.
  assert (P : 0 < val (f32_of (Z.of_nat n) 0)) by (rewrite E; apply lt_0_INR; lia).
  destruct ex_case_accurate as ((_ & _ & _ & LG) & (_ & _ & _ & AL) & _). destruct (proj1 LG _ F P) as (G1 & G2). specialize (AL _ F P). rewrite E in AL.
  split; [exact G1|]. split; [exact G2|exact AL].
Qed.

(** The second model of the case: the first feature was seen differently. *)
Definition ex_model2 : smodel :=
  SModel (d_tree ex_model) (d_ri ex_model) (d_vert ex_model) (d_edge ex_model) (fun q c => d_feat ex_model (if (q =? 0)%nat then 1 else if (q =? 1)%nat then 0 else q) c) 2 (d_logits ex_model).

Lemma ex_case_members : forall m, In m [ex_model; ex_model2] ->
  exists N, consistent [2; 1; 3]%nat 3 2 N m /\ counts_below 6 [2; 1; 3]%nat N m /\ degree_at_most 2 m.
Proof.
  destruct ex_case_accurate as (_ & _ & C & CB & DG & _).
  intros m [<-|[<-|[]]]; exists 2%nat; (split; [|split]); auto.
  - destruct C. constructor; auto. intros q c Hq Hc. cbn [ex_model2 d_feat]. apply cm_feat_nonneg; [|exact Hc].
    destruct (Nat.eqb_spec q 0); [cbn; lia|]. destruct (Nat.eqb_spec q 1); [cbn; lia|exact Hq].
  - destruct CB as (H1 & H2). split; [exact H1|]. intros v c Hv Hc. split; [exact (proj1 (H2 v c Hv Hc))|].
    cbn [length] in Hv. change (d_M ex_model2) with 2%nat in Hc. destruct v as [|[|[|v]]]; [| | |lia]; (destruct c as [|[|c]]; [| |lia]); vm_compute; reflexivity.
Qed.

Lemma C89_case_proof : lib_ok lib0 /\ accurate 4 (5 * bp (-23)) (bp (-10)) lib0 /\ exp_ok (bp (-23)) exp0 /\ 0 <= bp (-23) <= 1 /\ log_size_ok (bp (-10)) log_size0 /\ bp (-10) <= 1 /\
  (forall m, In m [ex_model; ex_model2] -> exists N, consistent [2; 1; 3]%nat 3 2 N m /\ counts_below 6 [2; 1; 3]%nat N m /\ degree_at_most 2 m) /\
  (2 * (6 + 3 + (15 + 4) * 1) + (6 + 8) * Z.of_nat 2 + 20 <= 126)%Z /\ bp (-23) <= 5 * bp (-23) /\
  length [1; 0; 1; 0; 1; 0]%Z = list_sum [2; 1; 3]%nat /\ Forall (fun x => (0 <= x)%Z) [1; 0; 1; 0; 1; 0]%Z /\
  (forall v, (v < 3)%nat -> (block_sum [2; 1; 3]%nat [1; 0; 1; 0; 1; 0] v <= 1)%Z) /\
  (forall m v q k, In m [ex_model; ex_model2] -> (v < 3)%nat -> In q (block [2; 1; 3]%nat v) -> (k < 2)%nat -> nth q [1; 0; 1; 0; 1; 0]%Z 0%Z <> 0%Z -> bp (- (15)) <= feat_prob [2; 1; 3]%nat m v q k) /\
  IZR (37 * Z.of_nat 3 + 2 * Z.of_nat (list_sum [2; 1; 3]%nat) + 8 * fold_right Z.add 0%Z [1; 0; 1; 0; 1; 0]%Z) * (5 * bp (-23)) <= 1 / 4.
Proof.
  destruct ex_case_accurate as (H1 & H2 & C & CB & DG & H5 & H6 & H7 & H8 & H9 & H10).
  split; [exact H1|]. split; [exact H2|]. split; [exact exp0_ok|]. split. { split; [apply bpow_ge_0|]. change 1 with (bp 0). apply bpow_le. lia. }
  split; [exact log_size0_ok|]. split. { change 1 with (bp 0). apply bpow_le. lia. }
  split; [exact ex_case_members|]. split; [lia|]. do 4 (split; [assumption|]). split; [|exact H10].
  intros m v q k Im Hv Iq Hk _. destruct (ex_case_members m Im) as (N & Cm & CBm & _).
  exact (L_Serving32c.feat_prob_low [2; 1; 3]%nat 3 2 N m 6 Cm CBm ltac:(lia) v q k Hv Iq Hk).
Qed.
