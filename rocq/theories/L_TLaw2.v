(** Accuracy of the float32 cell likelihoods in training. *)
From Coq Require Import List Arith Bool ZArith Reals Lra Lia Permutation.
From Flocq Require Import Core Relative IEEE754.BinarySingleNaN.
From Verif Require Import Base L_Base Spec_Graph L_Graph Spec_Sum L_Sum Spec_Ragged M_Structure Spec_Program M_Array M_Util M_Training Spec_Stats Spec_Conditional M_Float32 M_Train32 Spec_Float32
  L_Float32 L_Sample32 L_Train32 L_Train32b L_Train32c L_Train32d L_Train32e L_Ragged L_Prop1 L_MakeTree L_Stats L_Trainer L_Train32f Spec_Accuracy L_Acc1 L_TLaw1 L_AddRow.
Import ListNotations.
Open Scope R_scope.
Notation eps := (bp (-23)).

(** ** The tables against counts plus priors *)
Lemma prior64_agree M : (1 <= M <= 128)%nat -> agree eps (B2R (prior64 M)) (1 / 2 / INR M) /\ 1 / 256 <= 1 / 2 / INR M <= 1 / 2.
Proof.
  intros HM. destruct vert_prior64_spec as (V1 & V2).
  destruct (f64_int (Z.of_nat M)) as (I1 & I2); [lia|]. assert (M1 : 1 <= INR M <= 128) by (rewrite INR_IZR_INZ; split; apply IZR_le; lia).
  assert (P0 : 1 / 256 <= 1 / 2 / INR M <= 1 / 2).
  { split; (apply Rmult_le_reg_r with (INR M); [lra|]); [unfold Rdiv at 2|unfold Rdiv at 1]; rewrite Rmult_assoc, Rinv_l by lra; lra. }
  split; [|exact P0]. unfold prior64. fold vert_prior64. assert (E : B2R (f64_of (Z.of_nat M) 0) = INR M) by (rewrite I2; symmetry; apply INR_IZR_INZ).
  pose proof (bp_pos 1024). assert (b8 : bp (-8) = 1 / 256) by (cbn; lra). assert (b1 : bp (-1) = 1 / 2) by (cbn; lra).
  pose proof (Bdiv_correct 53 1024 p53 e1024 mode_NE vert_prior64 (f64_of (Z.of_nat M) 0) ltac:(lra)) as C. cbn [round_mode] in C.
  rewrite V2, E, b1 in C. fold (rnd 53 1024 (1 / 2 / INR M)) in C.
  rewrite (small 53 1024 p53 (bp (-8)) (bp (-1)) (1 / 2 / INR M)) in C; try (apply fmt_bpow; [reflexivity|lia]); [|lra|lra|apply bpow_lt; lia].
  destruct C as (C1 & _). unfold ddiv. rewrite C1. apply rnd64_agree. apply Rle_trans with (bp (-8)); [apply bpow_le; lia|lra].
Qed.

Lemma add_prior_agree n (p : f64) e q : (0 <= n < 2 ^ 30)%Z -> is_finite p = true -> bp (-9) <= B2R p <= bp 30 -> 0 <= e -> agree e (B2R p) q ->
  agree (e + 2 * eps) (val (add_prior n p)) (IZR n + q).
Proof.
  intros Hn Fp Bp He AG. destruct (f64_int n ltac:(lia)) as (I1 & I2). unfold add_prior.
  assert (N0 : 0 <= IZR n) by (apply IZR_le; lia).
  assert (N1 : IZR n <= bp 30) by (change (bp 30) with (IZR (2 ^ 30)); apply IZR_le; lia).
  assert (b31 : bp 31 = 2 * bp 30) by (change 31%Z with (30 + 1)%Z; rewrite bpow_plus; change (bp 1) with 2; ring).
  assert (Y : is_finite (dadd (f64_of n 0) p) = true /\ B2R (dadd (f64_of n 0) p) = rnd 53 1024 (IZR n + B2R p)).
  { unfold dadd. pose proof (Bplus_correct 53 1024 p53 e1024 mode_NE (f64_of n 0) p I1 Fp) as C. cbn [round_mode] in C. rewrite I2 in C.
    fold (rnd 53 1024 (IZR n + B2R p)) in C. assert (bp 31 < bp 1024) by (apply bpow_lt; lia). pose proof (bp_pos 1024). pose proof (bp_pos (-9)).
    rewrite (small 53 1024 p53 (bp (-9)) (bp 31) (IZR n + B2R p)) in C; try (apply fmt_bpow; [reflexivity|lia]); [|lra|lra|lra].
    destruct C as (C1 & C2 & _). split; [exact C2|exact C1]. }
  destruct Y as (Fy & Y).
  assert (YB : bp (-9) <= B2R (dadd (f64_of n 0) p) <= bp 31).
  { rewrite Y. split; [apply rnd_ge; [exact p53|apply fmt_bpow; [reflexivity|lia]|lra]|apply rnd_le; [exact p53|apply fmt_bpow; [reflexivity|lia]|lra]]. }
  replace (e + 2 * eps) with (eps + (eps + e)) by ring.
  apply agree_trans with (B2R (dadd (f64_of n 0) p)).
  - apply to32_agree; [exact Fy|]. assert (bp (-126) <= bp (-9)) by (apply bpow_le; lia). assert (bp 31 <= bp 126) by (apply bpow_le; lia). lra.
  - apply agree_trans with (IZR n + B2R p).
    + rewrite Y. apply rnd64_agree. apply Rle_trans with (bp (-9)); [apply bpow_le; lia|lra].
    + apply agree_add; [apply agree_refl; lra|exact AG].
Qed.

Section CELLA.
Variables (ws : list nat) (tb : table) (M : nat) (A c : Z).
Hypothesis TK : table_ok ws tb.
Hypothesis ND : nonneg_data tb.
Hypothesis HM : (1 <= M <= 128)%nat.
Hypothesis HA : (1 <= A <= 16)%Z.
Hypothesis Hc : (1 <= c)%Z.
Hypothesis HAc : ((A + 9) * c + A <= 69)%Z.
Hypothesis HN : ((Z.of_nat (num_rows tb) + 1) * c < 2 ^ A)%Z.
Hypothesis HW : Forall (fun w => (Z.of_nat w <= 2 ^ A)%Z) ws.
Hypothesis HC : forall n v, (n < num_rows tb)%nat -> (v < num_cols tb)%nat -> (block_sum ws (nth n (tb_rows tb) []) v <= c)%Z.
Notation V := (num_cols tb).
Let pA : (2 ^ A <= 2 ^ 16)%Z.
Proof. apply Z.pow_le_mono_r; lia. Qed.

(** A cell computed in floats and in reals, side by side. *)
Definition crel (v : nat) (X : nat -> R) (em ef : R) (st : L_Train32b.cstate) (rst : L_AddRow.cstate) : Prop :=
  let '(msg, feat, meas) := st in let '(x, F, Mx) := rst in
  forall m, (m < M)%nat -> agree em (val (msg m)) (x m) /\ 0 < x m <= X m /\
    forall r, owns ws v r -> agree ef (val (feat r m)) (F r m) /\ agree ef (val (meas v m)) (Mx v m) /\ 0 < F r m <= Mx v m.

Lemma crel_step v X em ef st0 M0 st rst j r : cell_inv ws M A v M0 st0 st j -> owns ws v r -> (0 <= j < c)%Z ->
  (forall m, (m < M)%nat -> (0 <= M0 m)%Z /\ (M0 m + c < 2 ^ A)%Z) ->
  (forall m, (m < M)%nat -> bp (-1) <= val (fst (fst st0) m)) -> 0 <= ef ->
  crel v X em ef st rst -> crel v X (em + 2 * ef + 2 * eps) (ef + eps) (cell_draw32 v r st) (cell_draw v r rst).
Proof.
  destruct st0 as [[msg0 feat0] meas0], st as [[msg feat] meas], rst as [[x F] Mx]. intros (I1 & I2 & I3 & _) O Hj HM0 L0 He CR.
  pose proof (c_le A c HA HAc) as C6. pose proof eps_pos as EP. destruct fone_spec as (O1 & O2).
  cbn [cell_draw32 cell_draw crel fst snd] in *. intros m Hm. destruct (CR m Hm) as (A1 & X1 & A2). destruct (A2 r O) as (AF & AM & FM).
  destruct (I1 m Hm) as (fr & F1 & F2). destruct (F1 r O) as ((Ff & Bf) & N2). destruct (F2 (ex_intro _ r O)) as (Fm & Bm).
  destruct (HM0 m Hm) as (H0' & H1). destruct (I2 m Hm) as (G1 & G2). pose proof (I3 m Hm (L0 m Hm)) as G3.
  pose proof (near_A A HA (M0 m + j) ltac:(lia)) as (NA & NA1 & NA2 & NA3 & NA4 & NA5). pose proof (near_A A HA (fr r) ltac:(lia)) as (NB & _).
  pose proof (bp_pos (-8)) as P8. assert (b1 : bp (-1) <= bp (A - 1)) by (apply bpow_le; lia).
  assert (FU : val (feat r m) <= bp (A + 1)) by lra. assert (MU : val (meas v m) <= bp (A + 1)) by lra.
  assert (PF : bp (-8) <= val (feat r m)) by lra. assert (PM : bp (-8) <= val (meas v m)) by lra.
  assert (PR : bp (-1 - (A + 9) * j + -8) <= val (msg m) * val (feat r m) <= bp (A + 7 * j + (A + 1))).
  { rewrite !bpow_plus with (e1 := (-1 - (A + 9) * j)%Z), (bpow_plus radix2 (A + 7 * j)). pose proof (bp_pos (-1 - (A + 9) * j)).
    split; apply Rmult_le_compat; lra. }
  destruct (fmul_agree (msg m) (feat r m) G1 Ff) as (P1 & P2).
  { split; [eapply Rle_trans; [|apply PR]; apply bpow_le; nia|eapply Rle_trans; [apply PR|]; apply bpow_le; nia]. }
  destruct (fmul_bounds (msg m) (feat r m) (bp (-1 - (A + 9) * j + -8)) (bp (A + 7 * j + (A + 1)))) as (_ & PB);
    auto; try (apply fmtb; nia); try (apply bp128; nia); try apply bpow_ge_0.
  assert (QB : bp (-1 - (A + 9) * j + -8 - (A + 1)) <= val (fmul (msg m) (feat r m)) / val (meas v m) <= bp (A + 7 * j + (A + 1) + 8)).
  { split.
    - unfold Z.sub at 1. rewrite bpow_plus, bpow_opp. unfold Rdiv. pose proof (bp_pos (A + 1)). apply Rmult_le_compat; [apply bpow_ge_0| |lra|].
      + left. apply Rinv_0_lt_compat. lra.
      + apply Rinv_le; lra.
    - rewrite (bpow_plus radix2 _ 8). unfold Rdiv. apply Rmult_le_compat; [pose proof (bp_pos (-1 - (A + 9) * j + -8)); lra| |lra|].
      + left. apply Rinv_0_lt_compat. lra.
      + change (bp 8) with (bp (- (-8))). rewrite bpow_opp. apply Rinv_le; lra. }
  destruct (fdiv_agree (fmul (msg m) (feat r m)) (meas v m) P1 ltac:(lra)) as (Q1 & Q2).
  { split; [eapply Rle_trans; [|apply QB]; apply bpow_le; nia|eapply Rle_trans; [apply QB|]; apply bpow_le; nia]. }
  assert (ADD : forall y z, fin32 y = true -> 0 <= val y <= bp (A + 1) -> 0 < z -> agree ef (val y) z -> agree (ef + eps) (val (fadd y fone)) (z + 1)).
  { intros y z Fy By Pz Ay. destruct (fadd_agree y fone Fy O1) as (S1 & S2); try (rewrite ?O2; lra).
    - rewrite O2. assert (bp (A + 1) <= bp 125) by (apply bpow_le; lia). assert (1 <= bp 125) by (change 1 with (bp 0); apply bpow_le; lia).
      change (bp 126) with (bp (125 + 1)). rewrite bpow_plus. change (bp 1) with 2. lra.
    - rewrite O2 in S2. replace (ef + eps) with (eps + ef) by ring. eapply agree_trans; [exact S2|]. apply agree_add; [exact Ay|apply agree_refl; lra]. }
  split; [|split].
  - replace (em + 2 * ef + 2 * eps) with (eps + (eps + (em + ef) + ef)) by ring. eapply agree_trans; [exact Q2|].
    apply agree_div; [|exact AM|lra]. eapply agree_trans; [exact P2|]. now apply agree_mul.
  - split; [apply Rdiv_lt_0_compat; [apply Rmult_lt_0_compat|]; lra|].
    apply Rle_trans with (x m * 1); [|lra]. unfold Rdiv. rewrite Rmult_assoc. apply Rmult_le_compat_l; [lra|].
    apply Rmult_le_reg_r with (Mx v m); [lra|]. rewrite Rmult_assoc, Rinv_l by lra. lra.
  - intros r' O'. destruct (A2 r' O') as (AF' & AM' & FM'). destruct (F1 r' O') as ((Ff' & Bf') & N2').
    pose proof (near_A A HA (fr r') ltac:(lia)) as (NB' & _). unfold set1. rewrite Nat.eqb_refl.
    split; [|split].
    + destruct (Nat.eqb_spec r' r) as [->|D].
      * apply ADD; auto; lra.
      * eapply agree_weak; [|exact AF']. lra.
    + apply ADD; auto; lra.
    + destruct (Nat.eqb_spec r' r) as [->|D]; lra.
Qed.

Lemma crel_weak v X em ef em' ef' st rst : em <= em' -> ef <= ef' -> crel v X em ef st rst -> crel v X em' ef' st rst.
Proof.
  destruct st as [[msg feat] meas], rst as [[x F] Mx]. intros H1 H2 C m Hm. destruct (C m Hm) as (A1 & X1 & A2).
  split; [now apply (agree_weak em)|]. split; [exact X1|]. intros r O. destruct (A2 r O) as (B1 & B2 & B3).
  split; [now apply (agree_weak ef)|]. split; [now apply (agree_weak ef)|exact B3].
Qed.

Notation EM j e0 := (IZR j * (2 * (e0 + IZR c * eps) + 2 * eps)).

Lemma crel_category v X e0 st0 M0 st rst j r z : cell_inv ws M A v M0 st0 st j -> owns ws v r -> (0 <= j)%Z -> (0 <= z)%Z -> (j + z <= c)%Z ->
  (forall m, (m < M)%nat -> (0 <= M0 m)%Z /\ (M0 m + c < 2 ^ A)%Z) ->
  (forall m, (m < M)%nat -> bp (-1) <= val (fst (fst st0) m)) -> 0 <= e0 ->
  crel v X (EM j e0) (e0 + IZR j * eps) st rst ->
  crel v X (EM (j + z) e0) (e0 + IZR (j + z) * eps) (cell_category32 v st (r, z)) (cell_category v rst (r, z)).
Proof.
  intros I O Hj Hz Hjz HM0 L0 He CR. unfold cell_category32, cell_category. cbn [fst snd]. pose proof eps_pos as EP.
  assert (G : forall k, (j + Z.of_nat k <= c)%Z ->
    cell_inv ws M A v M0 st0 (Nat.iter k (cell_draw32 v r) st) (j + Z.of_nat k) /\
    crel v X (EM (j + Z.of_nat k) e0) (e0 + IZR (j + Z.of_nat k) * eps) (Nat.iter k (cell_draw32 v r) st) (Nat.iter k (cell_draw v r) rst)).
  { induction k as [|k IH]; intros Hk.
    - cbn. rewrite Z.add_0_r. split; [exact I|exact CR].
    - destruct (IH ltac:(lia)) as (J1 & J2). cbn [Nat.iter]. replace (j + Z.of_nat (Datatypes.S k))%Z with (j + Z.of_nat k + 1)%Z by lia. split.
      + apply (cell_step ws M A c HA Hc HAc); auto; lia.
      + eapply crel_weak; [| |eapply (fun a b => crel_step v X _ _ st0 M0 _ _ _ r J1 O a HM0 L0 b J2); [lia|]].
        * rewrite (plus_IZR (j + Z.of_nat k) 1). assert (HH : IZR (j + Z.of_nat k) <= IZR c) by (apply IZR_le; lia).
          apply (Rmult_le_compat_r eps) in HH; [|lra]. lra.
        * rewrite (plus_IZR (j + Z.of_nat k) 1). lra.
        * assert (0 <= IZR (j + Z.of_nat k)) by (apply IZR_le; lia). nra. }
  specialize (G (Z.to_nat z) ltac:(lia)). rewrite Z2Nat.id in G by lia. apply G.
Qed.

Lemma crel_fold v X e0 st0 M0 l : (forall r z, In (r, z) l -> owns ws v r /\ (0 <= z)%Z) ->
  (forall m, (m < M)%nat -> (0 <= M0 m)%Z /\ (M0 m + c < 2 ^ A)%Z) ->
  (forall m, (m < M)%nat -> bp (-1) <= val (fst (fst st0) m)) -> 0 <= e0 -> forall st rst j,
  cell_inv ws M A v M0 st0 st j -> (0 <= j)%Z -> (j + fold_right Z.add 0%Z (map snd l) <= c)%Z ->
  crel v X (EM j e0) (e0 + IZR j * eps) st rst ->
  exists j', (j' <= c)%Z /\ crel v X (EM j' e0) (e0 + IZR j' * eps) (fold_left (cell_category32 v) l st) (fold_left (cell_category v) l rst).
Proof.
  intros HL HM0 L0 He. induction l as [|[r z] l IH]; intros st rst j I Hj Hs CR.
  - exists j. cbn in *. split; [lia|exact CR].
  - cbn [fold_left map snd fold_right] in *. destruct (HL r z (or_introl eq_refl)) as (O & Hz).
    assert (S0 : (0 <= fold_right Z.add 0%Z (map snd l))%Z).
    { clear - HL. assert (K : forall r z, In (r, z) l -> (0 <= z)%Z) by (intros r' z' I; apply (HL r' z'); now right).
      clear HL. induction l as [|[r' z'] l IHl]; cbn; [lia|]. specialize (K r' z' (or_introl eq_refl)) as K0.
      assert (0 <= fold_right Z.add 0%Z (map snd l))%Z by (apply IHl; intros; eapply K; right; eauto). lia. }
    apply (IH ltac:(intros r' z' I'; apply HL; now right) (cell_category32 v st (r, z)) (cell_category v rst (r, z)) (j + z)%Z).
    + apply (cell_category_inv ws M A c HA Hc HAc); auto. lia.
    + lia.
    + lia.
    + apply (crel_category v X e0 st0 M0); auto. lia.
Qed.

Section ST.
Variable s : tstate.
Hypothesis TI : tinv ws tb M s.
Notation rvp := (fun v m => IZR (s_vert s v m) + vert_prior).
Notation rfp := (fun q m => IZR (s_feat s q m) + feat_prior M).
Notation rmp := (fun v m => IZR (s_meas s v m) + meas_prior (tb_ri tb) M v).

Lemma vp_exact v m : (v < V)%nat -> (m < M)%nat -> fin32 (vp s v m) = true /\ val (vp s v m) = rvp v m /\ bp (-1) <= rvp v m <= bp A.
Proof.
  intros Hv Hm. destruct (vert_small ws tb M A 1 HM ltac:(lia) ltac:(lia) ltac:(nia) s v m TI Hv Hm) as (B1 & B2).
  destruct vert_prior64_spec as (P1 & P2). assert (b1 : bp (-1) = 1 / 2) by (cbn; lra).
  assert (I0 : 0 <= IZR (s_vert s v m)) by (apply IZR_le; lia).
  assert (I1 : IZR (s_vert s v m) + 1 <= bp A).
  { rewrite <- (IZR_Zpower radix2) by lia. rewrite <- plus_IZR. apply IZR_le. change (radix2 ^ A)%Z with (2 ^ A)%Z. lia. }
  assert (bp A < bp 128) by (apply bpow_lt; lia).
  destruct (add_prior_bounds (s_vert s v m) vert_prior64 (IZR (s_vert s v m) + bp (-1)) (IZR (s_vert s v m) + bp (-1))) as (F & B);
    auto; try (apply fmt_near1; lia); try lia; rewrite ?P2; try lra.
  unfold vp, vert_prior. split; [exact F|]. rewrite b1 in *. split; lra.
Qed.

Lemma fp_agree v r m : owns ws v r -> (m < M)%nat -> agree (3 * eps) (val (fp M s r m)) (rfp r m).
Proof.
  intros O Hm. destruct (feat_small ws tb M A c TK ND HM ltac:(lia) Hc HN HC s v r m TI O Hm) as (B1 & B2).
  destruct (prior64_spec M HM) as (P1 & P2). destruct (prior64_agree M HM) as (P3 & P4). pose proof eps_pos.
  unfold fp, feat_prior. replace (3 * eps) with (eps + 2 * eps) by ring. apply add_prior_agree; auto; [lia| |lra].
  assert (bp (-9) <= bp (-8)) by (apply bpow_le; lia). assert (bp (-1) <= bp 30) by (apply bpow_le; lia). lra.
Qed.

Lemma mp_agree v m : (v < V)%nat -> (m < M)%nat -> (exists r, owns ws v r) -> agree (5 * eps) (val (mp tb M s v m)) (rmp v m).
Proof.
  intros Hv Hm (r & O). destruct (feat_small ws tb M A c TK ND HM ltac:(lia) Hc HN HC s v r m TI O Hm) as (B1 & B2).
  destruct (prior64_spec M HM) as (P1 & P2). pose proof (prior_agree M HM) as P3. destruct (prior64_agree M HM) as (_ & P4). pose proof eps_pos.
  assert (W1 : (1 <= Z.of_nat (nth v ws 0%nat) <= 2 ^ A)%Z).
  { split; [destruct O; lia|]. rewrite Forall_forall in HW. apply HW. apply nth_In. apply O. }
  assert (MP : fin32 (meas_prior32 (tb_ri tb) M v) = true /\ bp (-8) <= val (meas_prior32 (tb_ri tb) M v) <= bp (A - 1) /\
               agree (3 * eps) (val (meas_prior32 (tb_ri tb) M v)) (meas_prior (tb_ri tb) M v)).
  { unfold meas_prior32, meas_prior, feat_prior. rewrite (width_ri ws) by auto. pose proof (bp_pos (-8)).
    destruct (to32_bounds (prior64 M) (bp (-8)) (bp (-1))) as (T1 & T2); auto; try (apply fmtb; lia); try (apply bp128; lia); try lra.
    destruct (f32_int (Z.of_nat (nth v ws 0%nat))) as (I1 & I2); [lia|].
    assert (J1 : 1 <= IZR (Z.of_nat (nth v ws 0%nat))) by (apply IZR_le; lia).
    assert (J2 : IZR (Z.of_nat (nth v ws 0%nat)) <= bp A).
    { rewrite <- (IZR_Zpower radix2) by lia. apply IZR_le. change (radix2 ^ A)%Z with (2 ^ A)%Z. lia. }
    assert (PB : bp (-8) <= val (to32 (prior64 M)) * val (f32_of (Z.of_nat (nth v ws 0%nat)) 0) <= bp (A - 1)).
    { rewrite I2. split.
      - apply Rle_trans with (bp (-8) * 1); [lra|]. apply Rmult_le_compat; lra.
      - replace (A - 1)%Z with (-1 + A)%Z by lia. rewrite bpow_plus. apply Rmult_le_compat; lra. }
    destruct (fmul_bounds (to32 (prior64 M)) (f32_of (Z.of_nat (nth v ws 0%nat)) 0) (bp (-8)) (bp (A - 1)) T1 I1) as (U1 & U2);
      try (apply fmtb; lia); try (apply bp128; lia); try lra.
    split; [exact U1|]. split; [exact U2|].
    destruct (fmul_agree (to32 (prior64 M)) (f32_of (Z.of_nat (nth v ws 0%nat)) 0) T1 I1) as (_ & U3).
    { split; [eapply Rle_trans; [|apply PB]; apply bpow_le; lia|eapply Rle_trans; [apply PB|]; apply bpow_le; lia]. }
    replace (3 * eps) with (eps + (eps + eps + 0)) by ring. eapply agree_trans; [exact U3|]. apply agree_mul; [exact P3|]. rewrite I2, <- INR_IZR_INZ.
    apply agree_refl; [lra|apply pos_INR]. }
  destruct MP as (M1 & M2 & M5). destruct (to64_exact _ M1) as (M3 & M4).
  unfold mp. replace (5 * eps) with (3 * eps + 2 * eps) by ring. apply add_prior_agree; auto; [lia| |lra|now rewrite M4].
  rewrite M4. assert (bp (-9) <= bp (-8)) by (apply bpow_le; lia). assert (bp (A - 1) <= bp 30) by (apply bpow_le; lia). lra.
Qed.

Definition Ec : R := IZR (c * (12 + 2 * c)) * eps.

Lemma Ec_pos : 0 < Ec.
Proof. unfold Ec. pose proof eps_pos. assert (0 < IZR (c * (12 + 2 * c))) by (apply IZR_lt; nia). nra. Qed.

(** UP of a cell none of whose statistics have been touched. *)
Lemma add_cell_law n v msg feat meas : (n < num_rows tb)%nat -> (v < V)%nat ->
  msg = vp s v -> meas v = mp tb M s v -> (forall r, owns ws v r -> feat r = fp M s r) ->
  exists msg' feat' meas',
    treecat_add_cell32 TY_MULTINOMIAL (tb_ri tb) (nth n (tb_rows tb) []) v (msg, feat, meas) = Ok (msg', feat', meas') /\
    (forall m, (m < M)%nat -> fin32 (msg' m) = true /\ agree Ec (val (msg' m)) (nodew ws (nth n (tb_rows tb) []) rvp rfp rmp v m) /\
                              0 < nodew ws (nth n (tb_rows tb) []) rvp rfp rmp v m <= bp A) /\
    (forall r, ~ owns ws v r -> feat' r = feat r) /\ (forall u, u <> v -> meas' u = meas u).
Proof.
  intros Hn Hv EM EE EF. set (row := nth n (tb_rows tb) []) in *.
  set (M0 := fun m => if (0 <? nth v ws 0)%nat then s_meas s v m else 0%Z).
  assert (HN1 : ((Z.of_nat (num_rows tb) + 1) * 1 < 2 ^ A)%Z) by nia.
  assert (VR := vp_range ws tb M A HM HA HN1 s TI v Hv).
  assert (HM0 : forall m, (m < M)%nat -> (0 <= M0 m)%Z /\ (M0 m + c < 2 ^ A)%Z).
  { intros m Hm. unfold M0. destruct (Nat.ltb_spec 0 (nth v ws 0%nat)) as [P|P].
    + assert (O : owns ws v (list_sum (firstn v ws))) by (split; [rewrite (tk_width _ _ TK); auto|lia]).
      destruct (feat_small ws tb M A c TK ND HM ltac:(lia) Hc HN HC s v _ m TI O Hm). lia.
    + destruct (N_small tb M A c HM ltac:(lia) Hc HN). lia. }
  assert (HF : forall m, (m < M)%nat -> exists fr, (forall r, owns ws v r -> near (feat r m) (fr r) /\ (0 <= fr r <= M0 m)%Z) /\
     ((exists r, owns ws v r) -> meas_near A (meas v m) (M0 m))).
  { intros m Hm. exists (fun r => s_feat s r m). split.
    + intros r O. rewrite (EF r O). split; [apply (fp_near ws tb M A c TK ND HM HA Hc HN HC s TI v); auto|].
      destruct (feat_small ws tb M A c TK ND HM ltac:(lia) Hc HN HC s v r m TI O Hm) as (K & _). unfold M0.
      destruct (Nat.ltb_spec 0 (nth v ws 0%nat)) as [P|P]; [exact K|destruct O; lia].
    + intros (r & O). rewrite EE. unfold M0. destruct (Nat.ltb_spec 0 (nth v ws 0%nat)) as [P|P]; [|destruct O; lia].
      apply (mp_near ws tb M A c); eauto. }
  assert (Hmsg : forall m, (m < M)%nat -> fin32 (msg m) = true /\ 0 <= val (msg m) <= bp A).
  { intros m Hm. rewrite EM. destruct (VR m Hm) as (F & B). split; [exact F|]. pose proof (bp_pos (-1)). lra. }
  destruct (add_cell_inv ws tb M A c TK HA Hc HAc n v msg feat meas M0 Hn Hv ND (HC n v Hn Hv) HM0 HF Hmsg) as (msg' & feat' & meas' & EC & C1 & C2 & C3 & C4).
  exists msg', feat', meas'. split; [exact EC|]. split; [|auto].
  unfold treecat_add_cell32 in EC. replace (TY_MULTINOMIAL =? TY_MULTINOMIAL)%nat with true in EC by reflexivity.
  rewrite !(ri_get _ _ TK) in EC by lia. cbn [bind] in EC.
  assert (LR : length row = list_sum ws) by (apply (row_len ws tb TK); exact Hn).
  fold row in EC. rewrite (combine_block ws tb M TK ltac:(lia) row LR v Hv) in EC. inversion EC as [EC']. clear EC.
  set (l := map (fun q => (q, nth q row 0%Z)) (block ws v)) in *.
  assert (HL : forall r z, In (r, z) l -> owns ws v r /\ (0 <= z)%Z).
  { intros r z I. unfold l in I. apply in_map_iff in I. destruct I as (q & Eq & Iq). inversion Eq; subst. split; [now apply (block_owns ws tb M TK ltac:(lia))|apply (ND n)]. }
  assert (ES : fold_right Z.add 0%Z (map snd l) = block_sum ws row v).
  { unfold row. rewrite (block_sum_total ws tb). unfold l. rewrite map_map. cbn [snd]. unfold total, datum. fold row. clear. induction (block ws v) as [|q k IH]; [reflexivity|]. cbn [map fold_right]. now rewrite IH. }
  assert (I0 : cell_inv ws M A v M0 (msg, feat, meas) (msg, feat, meas) 0).
  { unfold cell_inv. split; [|split; [|split; [|split]]]; auto.
    - intros m Hm. destruct (HF m Hm) as (fr & F1 & F2). exists fr. rewrite Z.add_0_r. auto.
    - intros m Hm. replace (A + 7 * 0)%Z with A by lia. auto.
    - intros m Hm H. replace (-1 - (A + 9) * 0)%Z with (-1)%Z by lia. exact H. }
  pose proof eps_pos as EP.
  assert (CR0 : crel v (rvp v) (IZR 0 * (2 * (5 * eps + IZR c * eps) + 2 * eps)) (5 * eps + IZR 0 * eps) (msg, feat, meas) (rvp v, rfp, rmp)).
  { intros m Hm. destruct (vp_exact v m Hv Hm) as (X1 & X2 & X3). pose proof (bp_pos (-1)).
    split; [rewrite EM, X2, Rmult_0_l; apply agree_refl; lra|]. split; [lra|]. intros r O.
    split; [rewrite (EF r O); eapply agree_weak; [|apply (fp_agree v r m O Hm)]; lra|].
    split; [rewrite EE; eapply agree_weak; [|apply (mp_agree v m Hv Hm); eauto]; lra|].
    assert (Ib : In r (block ws v)) by now apply (block_owns ws tb M TK ltac:(lia)).
    split; [apply (fp_pos ws tb M TK ltac:(lia) ND s TI v); auto|].
    cbv beta. rewrite (meas_feat ws tb M TK ltac:(lia) s TI v m Hv Hm). unfold feat_prior.
    assert (NN : forall q, In q (block ws v) -> 0 <= IZR (s_feat s q m) + 1 / 2 / INR M).
    { intros q Iq. left. apply (fp_pos ws tb M TK ltac:(lia) ND s TI v); auto. }
    apply (sumf_member_le (block ws v) (fun q => IZR (s_feat s q m) + 1 / 2 / INR M) r NN Ib). }
  destruct (crel_fold v (rvp v) (5 * eps) (msg, feat, meas) M0 l HL HM0) with (st := (msg, feat, meas)) (rst := (rvp v, rfp, rmp)) (j := 0%Z) as (j' & Hj' & CR); auto.
  - intros m Hm. cbn [fst]. rewrite EM. apply VR. exact Hm.
  - lra.
  - lia.
  - rewrite ES. pose proof (HC n v Hn Hv). fold row in H. lia.
  - rewrite EC' in CR. destruct (fold_left (cell_category v) l (rvp v, rfp, rmp)) as [[x' F'] Mx'] eqn:ER.
    assert (NDl : NoDup (map fst l)).
    { unfold l. rewrite map_map. cbn [fst]. rewrite map_id. unfold block. apply seq_NoDup. }
    destruct (cell_fold v l NDl _ _ _ _ _ _ ER) as (R1 & _).
    intros m Hm. destruct (CR m Hm) as (A1 & X1 & _).
    assert (EX : x' m = nodew ws row rvp rfp rmp v m).
    { rewrite R1.
      - unfold nodew, cellw. unfold l. rewrite prodf_map, map_map. cbn [fst snd]. unfold Rdiv. ring.
      - destruct (mp_pos ws tb M TK ltac:(lia) ND s TI v m Hv Hm) as [E|P]; [left; unfold l; now rewrite E|right; exact P]. }
    rewrite EX in A1, X1. destruct (vp_exact v m Hv Hm) as (_ & _ & X3).
    split; [apply C1; exact Hm|]. split; [|split; [tauto|eapply Rle_trans; [apply X1|lra]]].
    eapply agree_weak; [|exact A1]. unfold Ec. rewrite mult_IZR, plus_IZR, mult_IZR. assert (IZR j' <= IZR c) by (apply IZR_le; lia).
    assert (1 <= IZR c) by (apply IZR_le; lia).
    apply Rle_trans with (IZR c * (2 * (5 * eps + IZR c * eps) + 2 * eps)); [apply Rmult_le_compat_r; [nra|assumption]|]. lra.
Qed.
End ST.
End CELLA.
