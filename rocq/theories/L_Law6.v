(** The law of [TreeCatServer.sample] in float32: the result. *)
From Coq Require Import List Arith Bool ZArith Reals Lra Lia Permutation.
From Flocq Require Import Core Relative IEEE754.BinarySingleNaN.
From Verif Require Import Base L_Base Spec_Graph L_Graph Spec_Sum L_Sum M_Structure L_Pairing L_MakeTree L_Program L_ProgramValid Spec_Program L_Center L_Prop1 M_Rand L_Rand M_Util Spec_Ragged L_Ragged M_Array M_Training Spec_MST Spec_Stats L_Stats L_Estimate L_Trainer Spec_Conditional L_Asg L_BP L_BPVec L_AddRow
  M_Float32 M_Train32 Spec_Float32 L_Float32 L_Sample32 L_Train32 L_Train32c L_Train32d M_Serving Spec_Serving L_Server L_Inward L_Logprob L_Serve1 L_Serve2 L_Draws L_Sample M_Serving32 Spec_Serving32 L_Serving32a L_Serving32b L_Serving32c L_Serving32d M_Sample32 Spec_Accuracy L_Acc1 L_Acc2 L_Acc3 L_Acc4 L_Acc5 L_Acc6 Spec_Law L_Law1 L_Law2 L_Law3 L_Law4 L_Law5.
Import ListNotations.
Open Scope R_scope.

Lemma cnt_sum (counts : list Z) : (forall v, (v < length counts)%nat -> (0 <= nth v counts 0)%Z) ->
  sumf (seq 0 (length counts)) (fun v => INR (Z.to_nat (nth v counts 0%Z))) = IZR (fold_right Z.add 0%Z counts).
Proof.
  induction counts as [|x l IH]; intros P; [reflexivity|]. cbn [length seq fold_right]. rewrite sumf_cons, plus_IZR, <- (seq_shift (length l) 0), sumf_map. cbn [nth].
  rewrite <- IH by (intros v Hv; apply (P (Datatypes.S v)); cbn [length]; lia). f_equal. rewrite INR_IZR_INZ, Z2Nat.id; [reflexivity|]. apply (P 0%nat). cbn [length]. lia.
Qed.

Lemma row_err_le ws V eta row r par counts : length ws = V -> length row = list_sum ws -> length counts = V -> 0 <= eta ->
  (forall v, (v < V)%nat -> (0 <= nth v counts 0)%Z) ->
  row_err ws V eta row r par counts <= IZR (130 * Z.of_nat V + 4 * Z.of_nat (list_sum ws) + 16 * fold_right Z.add 0%Z row + 16 * fold_right Z.add 0%Z counts) * eta.
Proof.
  intros LW RL CL He CP. unfold row_err, msg_err, node_err, draw_err.
  rewrite (sumf_ext _ _ (fun v => 72 * eta + (2 * charge eta row (block ws v) + (58 * eta * INR (length (L_BP.kids V r par v)) + 16 * eta * INR (Z.to_nat (nth v counts 0%Z)))))) by (intros; ring).
  rewrite !sumf_plus, !sumf_scal, sumf_const, seq_length, charges by lia. rewrite <- LW at 2. rewrite firstn_all. rewrite <- CL at 3. rewrite cnt_sum by (intros v Hv; apply CP; lia).
  pose proof (kids_count V r par) as KC. unfold charge. rewrite seq_length, <- RL, zsum_range.
  rewrite !plus_IZR, !mult_IZR, <- !INR_IZR_INZ. pose proof (Rmult_le_compat_l (58 * eta) _ _ ltac:(lra) KC). lra.
Qed.

Lemma sample_follows_law : forall lib ws V M N m A W b c d eta lambda row n counts data,
  lib_ok lib -> accurate W eta lambda lib -> consistent ws V M N m -> counts_below A ws N m -> degree_at_most d m ->
  (6 <= A <= 16)%Z -> (0 <= b <= 140)%Z -> (0 <= c)%Z -> (2 * (A + 3 + (b + 4) * c) + (A + 8) * Z.of_nat d + 24 <= 126)%Z ->
  bp (-23) <= eta -> (Z.of_nat (M * M) <= W)%Z -> (forall v, (v < V)%nat -> (Z.of_nat (nth v ws 0%nat) <= W)%Z) ->
  data = Some row \/ data = None /\ row = repeat 0%Z (list_sum ws) ->
  length row = list_sum ws -> Forall (fun x => (0 <= x)%Z) row ->
  (forall v, (v < V)%nat -> (block_sum ws row v <= c)%Z) ->
  (forall v q k, (v < V)%nat -> In q (block ws v) -> (k < M)%nat -> nth q row 0%Z <> 0%Z -> bp (- b) <= feat_prob ws m v q k) ->
  length counts = V -> (forall v, (v < V)%nat -> (0 <= nth v counts 0 <= 127)%Z) ->
  (forall v, (v < V)%nat -> (0 < nth v counts 0)%Z -> (1 <= nth v ws 0)%nat) ->
  let total := IZR (130 * Z.of_nat V + 4 * Z.of_nat (list_sum ws) + 16 * fold_right Z.add 0%Z row + 16 * fold_right Z.add 0%Z counts) * eta in
  total <= 1 / 4 ->
  exists s, tree_server32 lib m = Ok s /\ forall X, length X = n -> (forall x, In x X -> legal_row ws counts x) ->
    agree (INR n * total) (prob_of (ideal (sample32 lib s n counts data)) X)
      (prodf X (fun x => arrangements ws counts x * (row_prob ws m (merge row x) / row_prob ws m row))).
Proof.
  intros lib ws V M N m A W b c d eta lambda row n counts data LIB ACC C CB DG HA Hb Hc HL HE WM WW DT RL RN RC RF CL C0 CW total TS.
  destruct (build32 lib ws V M N m A LIB C CB HA) as (s & ES & TB).
  pose proof (build_agree lib ws V M N m A W eta lambda LIB ACC C CB HA HE WM WW s ES) as TA.
  set (mst := L_Estimate.naive_mst). assert (MC : mst_contract mst) by exact L_Estimate.naive_mst_contract.
  destruct (build_server ws V M N m C mst MC) as (sx & edges & EX & SF & ST & SV & SE & SFe & _ & _ & EP).
  destruct (sf_tree _ _ _ _ _ SF) as (ET & T). pose proof EP as EP'. rewrite ET in EP. cbn [ts_grid] in EP.
  destruct (prog_shape V edges None (sv_prog sx) T ltac:(discriminate) EP) as (r & par & dep & np & RT & BL & EQ).
  assert (EQ3 : s3_prog s = prog_of edges r par np).
  { pose proof (t3_prog _ _ _ _ _ _ TB) as E3. rewrite <- ST in E3. rewrite EP' in E3. inversion E3. congruence. }
  exists s. split; [exact ES|]. intros X LX LR.
  assert (ED : sample32 lib s n counts data = sample32 lib s n counts (Some row)).
  { destruct DT as [->|(-> & ->)]; [reflexivity|]. unfold sample32, sample32_with. now rewrite (t3_R _ _ _ _ _ _ TB). }
  rewrite ED. pose proof eps_pos as PE.
  assert (RE : row_err ws V eta row r par counts <= total).
  { apply row_err_le; auto; [apply (sf_ws _ _ _ _ _ SF)|lra|]. intros v Hv. now apply C0. }
  pose proof (rt_root _ _ _ _ _ RT) as Hr.
  assert (ME : forall v, 0 <= msg_err ws V eta row r par v).
  { intros v. unfold msg_err, node_err. assert (0 <= charge eta row (block ws v)) by (eapply charge_nonneg; eauto). pose proof (pos_INR (length (L_BP.kids V r par v))).
    assert (0 <= 29 * eta * INR (length (L_BP.kids V r par v))) by (apply Rmult_le_pos; lra). lra. }
  assert (TERM : forall v, (v < V)%nat -> 2 * msg_err ws V eta row r par v + draw_err eta counts v <= row_err ws V eta row r par counts).
  { intros v Hv. unfold row_err. apply (sumf_member_le (seq 0 V) (fun v => 2 * msg_err ws V eta row r par v + draw_err eta counts v)); [|apply in_seq; lia].
    intros u I. specialize (ME u). assert (0 <= draw_err eta counts u); [|lra]. unfold draw_err. pose proof (pos_INR (Z.to_nat (nth u counts 0%Z))). assert (0 <= INR (Z.to_nat (nth u counts 0%Z)) * (16 * eta)) by (apply Rmult_le_pos; lra). lra. }
  assert (DE : forall v, 56 * eta <= draw_err eta counts v).
  { intros v. unfold draw_err. pose proof (pos_INR (Z.to_nat (nth v counts 0%Z))). assert (0 <= INR (Z.to_nat (nth v counts 0%Z)) * (16 * eta)) by (apply Rmult_le_pos; lra). lra. }
  eapply agree_weak; [apply Rmult_le_compat_l; [apply pos_INR|exact RE]|].
  apply (sample32_law lib ws V M N d m A W b c eta lambda s sx row edges LIB ACC C CB HA HE WM Hb Hc HL DG TB TA RL RN RC RF SF ST SV SE SFe r par dep RT np BL n counts CL C0 (wide ws V counts CW)); auto.
  - intros v Hv. specialize (TERM v Hv). specialize (ME v). specialize (DE v). lra.
  - specialize (TERM r Hr). specialize (ME r). specialize (DE r). lra.
Qed.

(** Three features in a path, two classes, one category of each feature observed and
    two rows of up to three observations drawn. *)
Lemma ex_case_law : lib_ok lib0 /\ accurate 4 (5 * bp (-23)) (bp (-10)) lib0 /\ consistent [2; 1; 3]%nat 3 2 2 ex_model /\ counts_below 6 [2; 1; 3]%nat 2 ex_model /\
  degree_at_most 2 ex_model /\ (2 * (6 + 3 + (6 + 13) * 1) + (6 + 8) * Z.of_nat 2 + 24 <= 126)%Z /\ bp (-23) <= 5 * bp (-23) /\
  length [1; 0; 1; 0; 1; 0]%Z = list_sum [2; 1; 3]%nat /\ Forall (fun x => (0 <= x)%Z) [1; 0; 1; 0; 1; 0]%Z /\
  (forall v, (v < 3)%nat -> (block_sum [2; 1; 3]%nat [1; 0; 1; 0; 1; 0] v <= 1)%Z) /\
  (forall v q k, (v < 3)%nat -> In q (block [2; 1; 3]%nat v) -> (k < 2)%nat -> bp (- 15) <= feat_prob [2; 1; 3]%nat ex_model v q k) /\
  (forall x, In x [[1; 1; 0; 3; 0; 0]; [0; 2; 0; 1; 1; 1]]%Z -> legal_row [2; 1; 3]%nat [2; 0; 3]%Z x) /\
  IZR (130 * Z.of_nat 3 + 4 * Z.of_nat (list_sum [2; 1; 3]%nat) + 16 * fold_right Z.add 0%Z [1; 0; 1; 0; 1; 0]%Z + 16 * fold_right Z.add 0%Z [2; 0; 3]%Z) * (5 * bp (-23)) <= 1 / 4.
Proof.
  destruct ex_case_accurate as (a1 & a2 & a3 & a4 & a5 & _ & a7 & a8 & a9 & a10 & _).
  split; [exact a1|]. split; [exact a2|]. split; [exact a3|]. split; [exact a4|]. split; [exact a5|]. split; [lia|]. split; [exact a7|]. split; [exact a8|]. split; [exact a9|].
  split; [exact a10|]. split; [intros v q k Hv Hq Hk; exact (feat_prob_low [2; 1; 3]%nat 3 2 2 ex_model 6 a3 a4 ltac:(lia) v q k Hv Hq Hk)|]. split.
  - intros x [<-|[<-|[]]]; (split; [reflexivity|]; split; [intros y I; cbn in I; lia|]; intros v Hv; cbn [length] in Hv; destruct v as [|[|[|v]]]; [reflexivity..|lia]).
  - change (bp (-23)) with (/ IZR (2 ^ 23)). change (IZR (130 * _ + _ + _ + _)) with 542. change (2 ^ 23)%Z with 8388608%Z. lra.
Qed.
