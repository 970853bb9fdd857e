(** Accuracy of the float32 log probability: the result. *)
From Coq Require Import List Arith Bool ZArith Reals Lra Lia.
From Flocq Require Import Core Relative IEEE754.BinarySingleNaN.
From Verif Require Import Base L_Base Spec_Graph L_Graph Spec_Sum L_Sum M_Structure L_Pairing L_MakeTree L_Program L_ProgramValid Spec_Program L_Center L_Prop1 M_Util Spec_Ragged L_Ragged M_Array M_Training Spec_MST Spec_Stats L_Stats L_Estimate L_Trainer Spec_Conditional L_Asg L_BP L_BPVec L_AddRow
  M_Float32 M_Train32 Spec_Float32 L_Float32 L_Sample32 L_Train32 L_Train32c L_Train32d M_Serving Spec_Serving L_Server L_Inward L_Logprob L_Serve1 M_Serving32 Spec_Serving32 L_Serving32a L_Serving32b L_Serving32c L_Serving32d Spec_Accuracy L_Acc1 L_Acc2 L_Acc3 L_Acc4 L_Acc5.
From Verif Require L_Serving32f.
Import ListNotations.
Open Scope R_scope.

Lemma zsum_app l l' : zsum (l ++ l') = (zsum l + zsum l')%Z.
Proof. unfold zsum. induction l as [|x l IH]; [reflexivity|]. cbn [app fold_right]. rewrite IH. lia. Qed.

Lemma zsum_range (row : list Z) : zsum (map (fun q => nth q row 0%Z) (seq 0 (length row))) = fold_right Z.add 0%Z row.
Proof.
  unfold zsum. f_equal. apply (nth_ext _ _ 0%Z 0%Z); [now rewrite map_length, seq_length|].
  intros i Hi. rewrite map_length, seq_length in Hi. rewrite (nth_indep _ 0%Z (nth 0 row 0%Z)) by (now rewrite map_length, seq_length).
  rewrite (map_nth (fun q => nth q row 0%Z)), seq_nth by auto. reflexivity.
Qed.

Section TOTAL.
Variables (ws : list nat) (row : list Z) (eta : R).
Lemma charge_app l l' : charge eta row (l ++ l') = charge eta row l + charge eta row l'.
Proof. unfold charge. rewrite app_length, map_app, zsum_app. rewrite <- Rmult_plus_distr_r, <- plus_IZR. f_equal. f_equal. lia. Qed.

Lemma charges n : (n <= length ws)%nat -> sumf (seq 0 n) (fun v => charge eta row (block ws v)) = charge eta row (seq 0 (list_sum (firstn n ws))).
Proof.
  induction n as [|n IH]; intros Hn.
  - unfold charge. cbn. change (sumf [] _) with 0. ring.
  - rewrite seq_S, sumf_app, IH by lia. cbn [Nat.add]. rewrite sumf_cons. change (sumf [] _) with 0. rewrite Rplus_0_r, <- charge_app.
    rewrite sum_firstn_S by lia. unfold block. rewrite <- seq_app. reflexivity.
Qed.
End TOTAL.

Lemma total_charge ws V row eta : length ws = V -> length row = list_sum ws ->
  sumf (seq 0 V) (e0 ws eta row) = IZR (37 * Z.of_nat V + 2 * Z.of_nat (list_sum ws) + 8 * fold_right Z.add 0%Z row) * eta.
Proof.
  intros HV RL. unfold e0. rewrite sumf_plus, sumf_const, seq_length, charges by lia. rewrite <- HV, firstn_all. unfold charge. rewrite seq_length, <- RL, zsum_range.
  rewrite INR_IZR_INZ, !plus_IZR, !mult_IZR, HV. ring.
Qed.

Lemma logprob_accurate : forall lib ws V M N m A W b c d eta lambda row,
  lib_ok lib -> accurate W eta lambda lib -> consistent ws V M N m -> counts_below A ws N m -> degree_at_most d m ->
  (6 <= A <= 16)%Z -> (0 <= b <= 140)%Z -> (0 <= c)%Z -> (2 * (A + 3 + (b + 4) * c) + (A + 8) * Z.of_nat d + 20 <= 126)%Z ->
  bp (-23) <= eta -> (Z.of_nat (M * M) <= W)%Z -> (forall v, (v < V)%nat -> (Z.of_nat (nth v ws 0%nat) <= W)%Z) -> (Z.of_nat V <= 2 ^ 16)%Z ->
  length row = list_sum ws -> Forall (fun x => (0 <= x)%Z) row ->
  (forall v, (v < V)%nat -> (block_sum ws row v <= c)%Z) ->
  (forall v q k, (v < V)%nat -> In q (block ws v) -> (k < M)%nat -> nth q row 0%Z <> 0%Z -> bp (- b) <= feat_prob ws m v q k) ->
  let total := IZR (37 * Z.of_nat V + 2 * Z.of_nat (list_sum ws) + 8 * fold_right Z.add 0%Z row) * eta in
  total <= 1 / 4 ->
  exists s x, tree_server32 lib m = Ok s /\ logprob_row32 lib s row = Ok x /\ fin32 x = true /\
    Rabs (val x - ln (row_prob ws m row)) <= total + INR V * (lambda + bp (-16) * INR (V + 1)).
Proof.
  intros lib ws V M N m A W b c d eta lambda row LIB ACC C CB DG HA Hb Hc HL HE WM WW HV RL RN RC RF total TS.
  destruct (build32 lib ws V M N m A LIB C CB HA) as (s & ES & TB).
  pose proof (build_agree lib ws V M N m A W eta lambda LIB ACC C CB HA HE WM WW s ES) as TA.
  set (mst := L_Estimate.naive_mst). assert (MC : mst_contract mst) by exact L_Estimate.naive_mst_contract.
  destruct (build_server ws V M N m C mst MC) as (sx & edges & EX & SF & ST & SV & SE & SFe & _ & _ & EP).
  pose proof (C26_row ws V M N m mst sx row C MC EX RL) as (LX & _).
  destruct (sf_tree _ _ _ _ _ SF) as (ET & T). pose proof EP as EP'. rewrite ET in EP. cbn [ts_grid] in EP.
  pose proof (prog_bounds V edges _ T EP) as PB.
  destruct (find_center_Ok V edges T) as (ctr & EC & CC). destruct (make_program_valid V edges ctr T (proj1 CC)) as (prog & E1 & VP).
  assert (EQ : sv_prog sx = prog).
  { unfold make_propagation_program in EP, E1. rewrite EC in EP. cbn [bind] in EP, E1. rewrite EP in E1. now inversion E1. }
  assert (EQ3 : s3_prog s = prog).
  { pose proof (t3_prog _ _ _ _ _ _ TB) as E3. rewrite <- ST in E3. rewrite EP' in E3. inversion E3. congruence. }
  destruct (tree_rooted V _ ctr (make_tree_spanning _ _ T) (proj1 CC)) as (par & dep & RT).
  rewrite EQ in PB. exists s.
  unfold logprob_row in LX. rewrite (sf_R _ _ _ _ _ SF), RL, Nat.eqb_refl in LX. cbn [assert_ bind] in LX. rewrite EQ in LX.
  destruct (loops_near lib ws V M N d m A W b c eta lambda s sx row edges LIB ACC C CB HA HE WM Hb Hc HL HV DG TB TA RL RN RC RF SF ST SV SE SFe
    ctr par dep prog RT VP PB total TS prog [] (s3_vert s) fzero (sv_vert sx) 0) as (x & y & X1 & X2 & X3 & X4).
  - reflexivity.
  - apply (vp_root _ _ _ _ VP). auto.
  - exists (fun _ => 1), (e0 ws eta row). pose proof eps_pos.
    assert (NU : forall v, ~ used [] v) by (intros v (p & e & [])).
    split; [|split; [|split; [|split; [|split; [|split; [|split]]]]]].
    + intros v Hv. split; [lra|]. unfold e0. assert (CN : 0 <= charge eta row (block ws v)) by (eapply charge_nonneg; eauto). lra.
    + intros v Hv _. change (kids [] v) with 0%nat.
      eapply vert_vgood; eauto.
    + intros v _ U. now apply NU in U.
    + auto.
    + apply total_charge; [apply (cm_width _ _ _ _ _ C)|exact RL].
    + reflexivity.
    + cbn. rewrite Rabs_R0. lra.
    + unfold lnsum. rewrite (sumf_zero _ (fun _ => ln 1)) by (intros; apply ln_1). cbn. rewrite Rminus_0_r, Rminus_0_r, Rabs_R0. lra.
  - exists x. split; [exact ES|]. split.
    + unfold logprob_row32. rewrite (t3_R _ _ _ _ _ _ TB), RL, Nat.eqb_refl. cbn [assert_ bind]. rewrite EQ3. exact X1.
    + split; [exact X3|]. rewrite LX in X2. inversion X2; subst y. exact X4.
Qed.

(** Without a condition on the categories. *)
Lemma logprob_accurate_any : forall lib ws V M N m A W c d eta lambda row,
  lib_ok lib -> accurate W eta lambda lib -> consistent ws V M N m -> counts_below A ws N m -> degree_at_most d m ->
  (6 <= A <= 16)%Z -> (0 <= c)%Z -> (2 * (A + 3 + (A + 13) * c) + (A + 8) * Z.of_nat d + 20 <= 126)%Z ->
  bp (-23) <= eta -> (Z.of_nat (M * M) <= W)%Z -> (forall v, (v < V)%nat -> (Z.of_nat (nth v ws 0%nat) <= W)%Z) -> (Z.of_nat V <= 2 ^ 16)%Z ->
  length row = list_sum ws -> Forall (fun x => (0 <= x)%Z) row ->
  (forall v, (v < V)%nat -> (block_sum ws row v <= c)%Z) ->
  let total := IZR (37 * Z.of_nat V + 2 * Z.of_nat (list_sum ws) + 8 * fold_right Z.add 0%Z row) * eta in
  total <= 1 / 4 ->
  exists s x, tree_server32 lib m = Ok s /\ logprob_row32 lib s row = Ok x /\ fin32 x = true /\
    Rabs (val x - ln (row_prob ws m row)) <= total + INR V * (lambda + bp (-16) * INR (V + 1)).
Proof.
  intros lib ws V M N m A W c d eta lambda row LIB ACC C CB DG HA Hc HL HE WM WW HV RL RN RC total TS.
  apply (logprob_accurate lib ws V M N m A W (A + 9) c d eta lambda row); auto; try lia.
  intros v q k Hv Iq Hk _. exact (feat_prob_low ws V M N m A C CB HA v q k Hv Iq Hk).
Qed.

(** Three features in a path, two classes, one category of each feature observed. *)
Lemma ex_case_accurate : lib_ok lib0 /\ accurate 4 (5 * bp (-23)) (bp (-10)) lib0 /\ consistent [2; 1; 3]%nat 3 2 2 ex_model /\ counts_below 6 [2; 1; 3]%nat 2 ex_model /\
  degree_at_most 2 ex_model /\ (2 * (6 + 3 + (6 + 13) * 1) + (6 + 8) * Z.of_nat 2 + 20 <= 126)%Z /\ bp (-23) <= 5 * bp (-23) /\
  length [1; 0; 1; 0; 1; 0]%Z = list_sum [2; 1; 3]%nat /\ Forall (fun x => (0 <= x)%Z) [1; 0; 1; 0; 1; 0]%Z /\
  (forall v, (v < 3)%nat -> (block_sum [2; 1; 3]%nat [1; 0; 1; 0; 1; 0] v <= 1)%Z) /\
  IZR (37 * Z.of_nat 3 + 2 * Z.of_nat (list_sum [2; 1; 3]%nat) + 8 * fold_right Z.add 0%Z [1; 0; 1; 0; 1; 0]%Z) * (5 * bp (-23)) <= 1 / 4.
Proof.
  split; [exact lib0_ok|]. split; [exact (lib0_accurate 4 ltac:(lia))|]. split; [exact ex_consistent|].
  split; [exact (proj1 (proj2 (proj2 L_Serving32f.ex_case_finite)))|].
  split. { intros v Hv. change (ts_V (d_tree ex_model)) with 3%nat in Hv. destruct v as [|[|[|v]]]; [vm_compute; lia..|lia]. }
  split; [lia|]. pose proof eps_pos. split; [lra|]. split; [reflexivity|]. split; [repeat constructor; lia|].
  split. { intros v Hv. destruct v as [|[|[|v]]]; [vm_compute; discriminate..|lia]. }
  change (bp (-23)) with (/ IZR (2 ^ 23)). change (IZR _) with 147 at 1. change (2 ^ 23)%Z with 8388608%Z. lra.
Qed.
