(** The law of one call of [add_row] in the float32 trainer, without conditions on its state. *)
From Coq Require Import List Arith Bool ZArith Reals Lra Lia Permutation.
From Flocq Require Import Core IEEE754.BinarySingleNaN.
From Verif Require Import Base L_Base Spec_Graph Spec_Sum L_Sum Spec_Ragged M_Structure Spec_Program M_Array M_Util M_Rand Spec_Joint M_Training Spec_Stats L_Asg L_Stats L_Trainer Spec_Conditional L_AddRow L_Conditional M_Float32 M_Train32 Spec_Float32
  L_Float32 L_Sample32 L_Train32 L_Train32b L_Train32c L_Train32d L_Train32e L_Train32f L_Train32h L_Train L_Ragged L_Prop1 L_MakeTree.
Import ListNotations.
Open Scope R_scope.

Lemma rising_ge q k : 0 < q <= 1 -> forall x, q <= x -> q ^ k <= rising x k.
Proof.
  intros Q. induction k as [|k IH]; intros x H; cbn [rising pow]; [lra|]. specialize (IH (x + 1) ltac:(lra)).
  apply Rmult_le_compat; try lra. apply pow_le. lra.
Qed.
Lemma rising_le B k : forall x, 0 <= x -> x + INR k <= B -> rising x k <= B ^ k.
Proof.
  induction k as [|k IH]; intros x H0 H; cbn [rising pow]; [lra|]. rewrite S_INR in H. pose proof (pos_INR k).
  specialize (IH (x + 1) ltac:(lra) ltac:(lra)). assert (0 <= rising (x + 1) k) by (left; apply rising_pos; lra). apply Rmult_le_compat; lra.
Qed.
Lemma prodf_rising q l (a : nat -> R) (c : nat -> nat) : 0 < q <= 1 -> (forall r, In r l -> q <= a r) -> q ^ (list_sum (map c l)) <= prodf l (fun r => rising (a r) (c r)).
Proof.
  intros Q. induction l as [|r l IH]; intros H; [cbn; lra|]. cbn [map]. change (list_sum (c r :: map c l)) with (c r + list_sum (map c l))%nat.
  rewrite pow_add, prodf_cons. specialize (IH ltac:(intros; apply H; now right)). pose proof (rising_ge q (c r) Q (a r) (H r (or_introl eq_refl))).
  apply Rmult_le_compat; auto; apply pow_le; lra.
Qed.
Lemma bp_pow e k : bp e ^ k = bp (e * Z.of_nat k).
Proof.
  induction k as [|k IH]; [now rewrite Z.mul_0_r|]. cbn [pow]. rewrite IH, <- bpow_plus. f_equal. lia.
Qed.

Section Cell.
Variables (dot : list f32 -> list f32 -> f32) (ws : list nat) (tb : table) (M : nat) (A : Z) (c : nat).
Hypothesis TK : table_ok ws tb.
Hypothesis ND : nonneg_data tb.
Hypothesis HM : (1 <= M <= 128)%nat.
Hypothesis HA : (1 <= A <= 16)%Z.
Hypothesis Hc : (1 <= c)%nat.
Hypothesis HAc : ((A + 9) * Z.of_nat c + A <= 69)%Z.
Hypothesis HN : ((Z.of_nat (num_rows tb) + 1) * Z.of_nat c < 2 ^ A)%Z.
Hypothesis HW : Forall (fun w => (Z.of_nat w <= 2 ^ A)%Z) ws.
Hypothesis AM : at_most c ws tb.

Lemma polya_low s n v m : tinv ws tb M s -> (n < num_rows tb)%nat -> (v < num_cols tb)%nat -> (m < M)%nat ->
  bp (- ((A + 9) * Z.of_nat c)) <= polya (block ws v) (fun r => IZR (s_feat s r m) + 1 / 2 / INR M) (fun r => Z.to_nat (datum tb n r)).
Proof.
  intros TI Hn Hv Hm. unfold polya. set (a := fun r => IZR (s_feat s r m) + 1 / 2 / INR M). set (k := fun r => Z.to_nat (datum tb n r)).
  assert (IM : 1 <= INR M <= 128) by (split; [apply (le_INR 1); lia|replace 128 with (INR 128) by (cbn; lra); apply le_INR; lia]).
  assert (b8 : bp (-8) = / 256) by reflexivity.
  assert (P0 : / 256 <= 1 / 2 / INR M <= 1 / 2).
  { assert (I1 : / 128 <= / INR M) by (apply Rinv_le; lra). assert (I2 : / INR M <= / 1) by (apply Rinv_le; lra). rewrite Rinv_1 in I2. unfold Rdiv. lra. }
  assert (FN : forall r, In r (block ws v) -> 0 <= IZR (s_feat s r m)).
  { intros r I. apply (block_owns ws tb M TK (proj1 HM)) in I; auto. apply (feat_nonneg ws tb M (proj1 HM) ND s TI v); auto. }
  assert (KC : (list_sum (map k (block ws v)) <= c)%nat).
  { pose proof (AM n v Hn Hv) as H. rewrite block_sum_total in H. assert (E : forall l, Z.of_nat (list_sum (map k l)) = total l (datum tb n)).
    { induction l as [|r l IH]; [reflexivity|]. cbn [map]. change (list_sum (k r :: map k l)) with (k r + list_sum (map k l))%nat. rewrite total_cons, <- IH. unfold k. pose proof (ND n r). unfold datum in *. lia. }
    specialize (E (block ws v)). lia. }
  set (K := list_sum (map k (block ws v))) in *.
  destruct (Nat.eq_dec K 0) as [EK|NK].
  { rewrite EK. cbn [rising]. unfold Rdiv. rewrite Rinv_1, Rmult_1_r. pose proof (prodf_rising (bp (-8)) (block ws v) a k) as PR. fold K in PR. rewrite EK in PR. cbn [pow] in PR.
    eapply Rle_trans; [|apply PR; [lra|]].
    - apply (bpow_le radix2 _ 0). nia.
    - intros r I. unfold a. specialize (FN r I). lra. }
  assert (NE : exists r, In r (block ws v)).
  { destruct (block ws v) as [|r l] eqn:EB; [cbn in NK; unfold K in NK; cbn in NK; lia|]. exists r. now left. }
  destruct NE as (r0 & I0).
  assert (MS : (s_meas s v m + Z.of_nat c < 2 ^ A)%Z).
  { apply (block_owns ws tb M TK (proj1 HM)) in I0; auto.
    destruct (feat_small ws tb M A (Z.of_nat c) TK ND HM ltac:(lia) ltac:(lia) HN AM s v r0 m TI I0 Hm) as (_ & B2). exact B2. }
  pose proof (meas_feat ws tb M TK (proj1 HM) s TI v m Hv Hm) as MF. fold a in MF.
  assert (MP : meas_prior (tb_ri tb) M v <= bp A / 2).
  { assert (E : meas_prior (tb_ri tb) M v = INR (nth v ws 0%nat) * (1 / 2 / INR M)).
    { unfold meas_prior, feat_prior. rewrite !(ri_nth _ _ TK) by lia. pose proof (tk_width _ _ TK). rewrite Nat.add_1_r, sum_firstn_S by lia.
      replace (list_sum (firstn v ws) + nth v ws 0 - list_sum (firstn v ws))%nat with (nth v ws 0%nat) by lia. ring. }
    rewrite E. assert (WB : INR (nth v ws 0%nat) <= bp A).
    { rewrite Forall_forall in HW. assert (I : In (nth v ws 0%nat) ws) by (apply nth_In; pose proof (tk_width _ _ TK); lia). specialize (HW _ I).
      rewrite INR_IZR_INZ, <- IZR_Zpower by lia. apply IZR_le. exact HW. }
    pose proof (pos_INR (nth v ws 0%nat)). nra. }
  assert (SA : sumf (block ws v) a + INR K <= bp (A + 1)).
  { rewrite <- MF. assert (IZR (s_meas s v m + Z.of_nat c) <= bp A) by (rewrite <- IZR_Zpower by lia; apply IZR_le; change (Zpower radix2 A) with (2 ^ A)%Z; lia).
    rewrite plus_IZR, <- INR_IZR_INZ in H. apply le_INR in KC. replace (bp (A + 1)) with (2 * bp A) by (rewrite bpow_plus; cbn [bpow]; change (IZR (Z.pow_pos radix2 1)) with 2; ring).
    pose proof (bpow_gt_0 radix2 A). lra. }
  assert (S0 : 0 < sumf (block ws v) a).
  { apply sumf_pos; [intros r I; unfold a; specialize (FN r I); lra|]. exists r0. split; [exact I0|]. unfold a. specialize (FN r0 I0). lra. }
  pose proof (rising_le _ K _ (Rlt_le _ _ S0) SA) as R2. rewrite bp_pow in R2.
  assert (R1 : bp (-8 * Z.of_nat K) <= prodf (block ws v) (fun r => rising (a r) (k r))).
  { rewrite <- bp_pow. apply prodf_rising; [lra|]. intros r I. unfold a. specialize (FN r I). lra. }
  pose proof (rising_pos K _ S0) as RP.
  apply Rle_trans with (bp (-8 * Z.of_nat K) * bp (- ((A + 1) * Z.of_nat K))).
  { rewrite <- bpow_plus. apply bpow_le. nia. }
  unfold Rdiv. apply Rmult_le_compat; auto; try apply bpow_ge_0. rewrite bpow_opp. apply Rinv_le; auto.
Qed.

Lemma draws_and X (Q Q' : X -> Prop) p : draws_usable Q p -> draws_usable Q' p -> draws_usable (fun a => Q a /\ Q' a) p.
Proof. induction p as [a|e|w k IH]; cbn [draws_usable]; auto. intros (U & H) (_ & H'). split; auto. Qed.

(** What a call of [add_row] does to the trainer. *)
Lemma add_row_more t n : dot_ok dot -> inv32 ws tb M t -> (n < num_rows tb)%nat -> ~ In n (s_added (t_state t)) ->
  draws_usable (fun '(t', x) => x = None /\ inv32 ws tb M t' /\ s_added (t_state t') = set_add n (s_added (t_state t)) /\ s_tree (t_state t') = s_tree (t_state t) /\
      exists z, (forall v, (v < num_cols tb)%nat -> (z v < M)%nat) /\ s_asg (t_state t') = set1 (s_asg (t_state t)) n z)
    (add_row32 dot tb M t n).
Proof.
  intros D I Hn NI.
  assert (HN1 : ((Z.of_nat (num_rows tb) + 1) * 1 < 2 ^ A)%Z) by nia.
  assert (Hc' : (1 <= Z.of_nat c)%Z) by lia.
  pose proof (lo_ok ws tb M A (Z.of_nat c) HM HA Hc' HAc HN AM) as LO.
  pose proof (cell_good_old ws tb M A (Z.of_nat c) TK ND HM HA Hc' HAc HN HW AM) as CG.
  pose proof (add_row_draws treecat_add_cell32 dot ws tb M A _ _ D TK HM HA HN1 LO CG t n I Hn) as DR.
  assert (DE : draws_usable (fun '(t', x) => s_tree (t_state t') = s_tree (t_state t) /\
      exists z, (forall v, (v < num_cols tb)%nat -> (z v < M)%nat) /\ s_asg (t_state t') = set1 (s_asg (t_state t)) n z) (add_row32_with treecat_add_cell32 dot tb M t n)).
  { clear DR. destruct I as (TI & EP). unfold add_row32_with. destruct (set_mem n (s_added (t_state t))) eqn:EM.
    { apply set_mem_In in EM. contradiction. }
    rewrite (L_Base.get_Ok _ IndexError (tb_rows tb) n []) by exact Hn. cbn [flift fbind].
    set (s := t_state t) in *. pose proof TI as TI0. destruct TI0 as [FS SO AL (es & T & ET)].
    pose proof (fs_prog _ _ _ _ FS) as FP. rewrite ET in FP. cbn [ts_grid] in FP.
    destruct (C04_default_proof (num_cols tb) es T) as (prog & root & EPr & _ & VPr). rewrite FP in EPr. inversion EPr as [EPr'].
    assert (PB := prog_bounds (num_cols tb) es (s_prog s) T FP).
    eapply draws_bind.
    - rewrite EPr' in PB |- *.
      apply (prog_draws treecat_add_cell32 dot ws tb M A _ _ D TK HM HA HN1 LO CG s TI (t_eprobs t) n (map (fun '(_, a, b) => (a, b)) (make_tree es)) root prog); auto.
    - intros [[[a b] d] z] HJ. cbv zeta.
      assert (Hz : forall v, (v < num_cols tb)%nat -> (z v < M)%nat) by (intros v Hv; apply (HJ v Hv)).
      destruct (stats_tinv ws tb M TK ltac:(lia) s n z TI Hn NI Hz) as (s' & EU & TI' & E1 & E2 & E3).
      change (s_tree (TSt (s_tree s) (s_prog s) (set_add n (s_added s)) (set1 (s_asg s) n z) (s_vert s) (s_edge s) (s_feat s) (s_meas s) (s_eprobs s))) with (s_tree s).
      rewrite EU. cbn [flift fbind draws_usable t_state]. split; [exact E2|]. exists z. auto. }
  eapply draws_mono; [|apply (draws_and _ _ _ _ DR DE)]. intros [t' x] ((I' & K) & E2 & HZ). destruct (K NI) as (-> & EA). auto.
Qed.

(** No feature has more than V - 1 neighbours. *)
Lemma few_neighbours s : tinv ws tb M s -> forall v, (length (filter (fun f => ((fst f =? v) || (snd f =? v))%nat) (ts_get_edges (s_tree s))) <= num_cols tb - 1)%nat.
Proof.
  intros TI v. destruct (tinv_tree ws tb M s TI) as (_ & L & _). apply Nat.le_trans with (length (ts_get_edges (s_tree s))); [clear L|lia]. generalize (ts_get_edges (s_tree s)). intros l. induction l as [|e l IH]; cbn; auto. destruct (_ || _)%bool; cbn; lia.
Qed.
End Cell.
