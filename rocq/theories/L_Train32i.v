(** The repaired float32 sampler: messages stay usable for any number of observations. *)
From Coq Require Import List Arith Bool ZArith Reals Lra Lia.
From Flocq Require Import Core IEEE754.BinarySingleNaN.
From Verif Require Import Base Spec_Graph Spec_Ragged M_Structure Spec_Program M_Array M_Util M_Training Spec_Stats Spec_Conditional M_Float32 M_Train32 M_Repaired7
  Spec_Float32 L_Float32 L_Sample32 L_Train32 L_Train32b L_Train32c L_Train32d L_Train32e L_Train32f L_Ragged L_Prop1 L_Stats L_Trainer.
Import ListNotations.
Open Scope R_scope.

(** ** Larger counts *)
Definition wide (x : f32) (n : Z) : Prop := fin32 x = true /\ IZR n <= val x <= IZR n + bp (-1) /\ bp (-8) <= val x.

Lemma fmt_int0 n : (0 <= n < 2 ^ 24)%Z -> fmt32 (IZR n).
Proof. intros H. replace (IZR n) with (IZR n * bp 0) by (cbn; ring). apply fmt_int; [reflexivity|lia|lia]. Qed.
Lemma fmt_half n : (0 <= n < 2 ^ 22)%Z -> fmt32 (IZR n + bp (-1)).
Proof.
  intros H. replace (IZR n + bp (-1)) with (IZR (2 * n + 1) * bp (-1)).
  - apply fmt_int; [reflexivity|lia|lia].
  - rewrite plus_IZR, mult_IZR. cbn. lra.
Qed.
Lemma fmt8 : fmt32 (bp (-8)).
Proof. apply fmtb. lia. Qed.
Lemma small22 n : (0 <= n < 2 ^ 22)%Z -> 0 <= IZR n /\ IZR n + bp (-1) <= bp 22 /\ bp 22 < bp 128.
Proof.
  intros H. assert (0 <= IZR n) by (apply IZR_le; lia). assert (IZR n <= IZR (2 ^ 22 - 1)) by (apply IZR_le; lia).
  split; [assumption|]. split; [|apply bpow_lt; lia]. cbn in *. lra.
Qed.

Lemma add_prior_wide n (p : f64) : (0 <= n < 2 ^ 22)%Z -> is_finite p = true -> bp (-8) <= B2R p <= bp (-1) -> wide (add_prior n p) n.
Proof.
  intros Hn Fp Bp. pose proof (small22 n Hn). pose proof (bp_pos (-8)).
  destruct (add_prior_bounds n p (IZR n) (IZR n + bp (-1))) as (F & B); auto using fmt_half; try lia; try lra.
  { apply fmt_int0. lia. }
  destruct (add_prior_bounds n p (bp (-8)) (IZR n + bp (-1))) as (_ & B'); auto using fmt_half, fmt8; try lia; try lra.
  split; [exact F|]. split; [exact B|apply B'].
Qed.

Lemma wide_fadd x n : wide x n -> (0 <= n)%Z -> (n + 1 < 2 ^ 22)%Z -> wide (fadd x fone) (n + 1).
Proof.
  intros (F & B & L) Hn Hn1. destruct fone_spec as (O1 & O2). pose proof (small22 (n + 1) ltac:(lia)). pose proof (bp_pos (-8)).
  destruct (fadd_bounds x fone (IZR (n + 1)) (IZR (n + 1) + bp (-1))) as (F1 & B1); auto; try (apply fmt_half; lia); try (apply fmt_int0; lia); try lra.
  { rewrite O2, plus_IZR. lra. }
  split; [exact F1|]. split; [exact B1|]. assert (1 <= IZR (n + 1)) by (apply IZR_le; lia). assert (bp (-8) <= 1) by (cbn; lra). lra.
Qed.

Section WIDE.
Variable B : Z.
Hypothesis HB : (1 <= B <= 22)%Z.

Definition meas_wide (y : f32) (n : Z) : Prop := fin32 y = true /\ IZR n <= val y <= IZR n + bp (B - 1) /\ bp (-8) <= val y.

Lemma fmt_top n : (0 <= n <= 2 ^ B)%Z -> fmt32 (IZR n + bp (B - 1)).
Proof.
  intros H. assert ((2 ^ B <= 2 ^ 22)%Z) by (apply Z.pow_le_mono_r; lia). assert ((2 ^ (B - 1) <= 2 ^ 21)%Z) by (apply Z.pow_le_mono_r; lia).
  assert (0 <= 2 ^ (B - 1))%Z by (apply Z.pow_nonneg; lia).
  replace (IZR n + bp (B - 1)) with (IZR (n + 2 ^ (B - 1)) * bp 0).
  - apply fmt_int; [reflexivity|lia|lia].
  - rewrite plus_IZR. change (2 ^ (B - 1))%Z with (radix2 ^ (B - 1))%Z. rewrite IZR_Zpower by lia. cbn [bpow]. ring.
Qed.

Lemma top_lt n : (0 <= n <= 2 ^ B)%Z -> 0 <= IZR n /\ bp (B - 1) <= bp B /\ bp (B + 1) < bp 128 /\ IZR n + bp (B - 1) <= bp (B + 1) /\ 1 <= bp (B - 1).
Proof.
  intros H. assert (IZR n <= bp B).
  { rewrite <- (IZR_Zpower radix2) by lia. apply IZR_le. change (radix2 ^ B)%Z with (2 ^ B)%Z. lia. }
  assert (0 <= IZR n) by (apply IZR_le; lia). assert (bp (B - 1) <= bp B) by (apply bpow_le; lia).
  assert (bp (B + 1) < bp 128) by (apply bpow_lt; lia). assert (bp (B + 1) = 2 * bp B) by (rewrite bpow_plus; cbn; ring).
  assert (1 <= bp (B - 1)) by (change 1 with (bp 0); apply bpow_le; lia). lra.
Qed.

Lemma meas_wide_fadd y n : meas_wide y n -> (0 <= n)%Z -> (n + 1 <= 2 ^ B)%Z -> meas_wide (fadd y fone) (n + 1).
Proof.
  intros (F & C & L) Hn Hn1. destruct fone_spec as (O1 & O2). pose proof (top_lt (n + 1) ltac:(lia)). pose proof (bp_pos (-8)).
  assert ((2 ^ B <= 2 ^ 22)%Z) by (apply Z.pow_le_mono_r; lia).
  destruct (fadd_bounds y fone (IZR (n + 1)) (IZR (n + 1) + bp (B - 1))) as (F1 & B1); auto; try (apply fmt_top; lia); try (apply fmt_int0; lia); try lra.
  { rewrite O2, plus_IZR. lra. }
  split; [exact F1|]. split; [exact B1|]. assert (1 <= IZR (n + 1)) by (apply IZR_le; lia). assert (bp (-8) <= 1) by (cbn; lra). lra.
Qed.

Lemma draw_wide (x f y : f32) nf ny p q : fin32 x = true -> wide f nf -> meas_wide y ny -> (0 <= nf <= ny)%Z -> (ny <= 2 ^ B)%Z ->
  0 <= val x <= bp q -> (0 <= q)%Z -> (q + 30 <= 127)%Z -> (-140 <= p - B)%Z ->
  fin32 (fdiv (fmul x f) y) = true /\ 0 <= val (fdiv (fmul x f) y) <= bp (q + 7) /\
  (bp p <= val x -> bp (p - (B + 9)) <= val (fdiv (fmul x f) y)).
Proof.
  intros Fx (Ff & Bf & Lf) (Fy & By & Ly) Hn HnA Bx Hq Hq2 Hp.
  pose proof (top_lt ny ltac:(lia)) as (NA & NA1 & NA2 & NA3 & _). pose proof (bp_pos (-8)) as P8.
  assert (IZR nf <= IZR ny) by (apply IZR_le; lia). assert (0 <= IZR nf) by (apply IZR_le; lia).
  assert (R7 : val f <= bp 7 * val y).
  { assert (E7 : bp 7 = 128) by reflexivity. assert (E8 : bp (-8) = / 256) by reflexivity. assert (E1 : bp (-1) = / 2) by reflexivity.
    rewrite E7. rewrite E8 in Ly. rewrite E1 in Bf. destruct (Z_le_gt_dec ny 0) as [Z0|Z0].
    - replace ny with 0%Z in * by lia. replace nf with 0%Z in * by lia. lra.
    - assert (1 <= IZR ny) by (apply IZR_le; lia). lra. }
  assert (PY : 0 < val y) by lra.
  assert (XF : 0 <= val x * val f <= bp (q + 7) * val y).
  { split; [apply Rmult_le_pos; lra|]. rewrite bpow_plus, Rmult_assoc. apply Rmult_le_compat; lra. }
  assert (FH : fmt32 (bp (q + 7) * val y)) by (apply fmt_scale; [apply fmt_B2R|lia]).
  assert (HH : bp (q + 7) * val y < bp 128).
  { apply Rle_lt_trans with (bp (q + 7) * bp (B + 1)); [apply Rmult_le_compat_l; [pose proof (bp_pos (q + 7)); lra|lra]|].
    rewrite <- bpow_plus. apply bpow_lt. lia. }
  destruct (fmul_bounds x f 0 _ Fx Ff (fmt_0 _ _) FH XF (Rle_refl 0) HH) as (M1 & M2).
  assert (FQ : fmt32 (bp (q + 7))) by (apply fmt_bpow; [reflexivity|lia]). assert (HQ : bp (q + 7) < bp 128) by (apply bpow_lt; lia).
  assert (DD : val (fmul x f) / val y <= bp (q + 7)).
  { apply Rmult_le_reg_r with (val y); [exact PY|]. unfold Rdiv. rewrite Rmult_assoc, Rinv_l by lra. lra. }
  assert (D0 : 0 <= val (fmul x f) / val y) by (apply Rmult_le_pos; [lra|]; left; now apply Rinv_0_lt_compat).
  destruct (fdiv_bounds (fmul x f) y 0 (bp (q + 7)) M1 PY (fmt_0 _ _) FQ) as (V1 & V2); [lra|lra|exact HQ|].
  split; [exact V1|]. split; [exact V2|]. intros LX.
  assert (LF : bp (p - 8) <= val x * val f).
  { replace (p - 8)%Z with (p + -8)%Z by lia. rewrite bpow_plus. apply Rmult_le_compat; pose proof (bp_pos p); lra. }
  assert (PQ : (p <= q)%Z) by (apply (le_bpow radix2); lra).
  destruct (fmul_bounds x f (bp (p - 8)) _ Fx Ff ltac:(apply fmtb; lia) FH ltac:(lra) ltac:(pose proof (bp_pos (p - 8)); lra) HH) as (_ & M3).
  assert (LQ : bp (p - (B + 9)) <= val (fmul x f) / val y).
  { apply Rmult_le_reg_r with (val y); [exact PY|]. unfold Rdiv. rewrite Rmult_assoc, Rinv_l, Rmult_1_r by lra.
    apply Rle_trans with (bp (p - (B + 9)) * bp (B + 1)); [apply Rmult_le_compat_l; [pose proof (bp_pos (p - (B + 9))); lra|lra]|].
    rewrite <- bpow_plus. replace (p - (B + 9) + (B + 1))%Z with (p - 8)%Z by lia. lra. }
  destruct (fdiv_bounds (fmul x f) y (bp (p - (B + 9))) (bp (q + 7)) M1 PY ltac:(apply fmtb; lia) FQ) as (_ & V3);
    [lra|pose proof (bp_pos (p - (B + 9))); lra|exact HQ|]. tauto.
Qed.
End WIDE.

(** ** Dividing by the largest entry *)
Lemma largest_good M A (message : nat -> f32) q : (1 <= M <= 128)%nat -> (0 <= A)%Z -> (q <= 127)%Z ->
  (forall m, (m < M)%nat -> fin32 (message m) = true /\ 0 <= val (message m) <= bp q) -> (exists m, (m < M)%nat /\ 0 < val (message m)) ->
  vgood M (-1) A (rescaled M message).
Proof.
  intros HM HA Hq MS (m0 & Hm0 & P0). set (top := match vec M message with [] => fzero | x :: l => fmax x l end).
  assert (TP : (exists k, (k < M)%nat /\ top = message k) /\ forall m, (m < M)%nat -> val (message m) <= val top).
  { unfold top. destruct (vec M message) as [|x l] eqn:E; [pose proof (len_vec M message) as L; rewrite E in L; cbn in L; lia|].
    destruct (fmax_spec l x) as (T1 & T2).
    - rewrite <- E. apply Forall_forall. intros z I. apply vec_In in I; [|exact HM]. destruct I as (k & Hk & ->). exact (proj1 (MS k Hk)).
    - rewrite <- E in T1, T2. split; [now apply vec_In; [exact HM|]|]. intros m Hm. apply T2. now apply In_vec. }
  destruct TP as ((kt & Hkt & ET) & TM).
  assert (PT : 0 < val top) by (specialize (TM m0 Hm0); lra).
  assert (E1 : bp 0 = 1) by reflexivity.
  assert (Q : forall m, (m < M)%nat -> fin32 (fdiv (message m) top) = true /\ 0 <= val (fdiv (message m) top) <= bp 0).
  { intros m Hm. destruct (MS m Hm) as (a1 & a2). apply fdiv_bounds; auto; [apply fmt_0|apply fmtb; lia| |lra|apply bp128; lia].
    split; [apply Rmult_le_pos; [lra|left; now apply Rinv_0_lt_compat]|]. rewrite E1.
    apply Rmult_le_reg_r with (val top); [lra|]. unfold Rdiv. rewrite Rmult_assoc, Rinv_l by lra. specialize (TM m Hm). lra. }
  unfold rescaled. fold top. split.
  - intros m Hm. rewrite nth_vec_lt by auto. destruct (Q m Hm) as (a1 & a2). split; [exact a1|]. split; [lra|]. apply Rle_trans with (bp 0); [lra|]. apply bpow_le. lia.
  - exists kt. split; [exact Hkt|]. rewrite nth_vec_lt by auto. apply Rle_trans with (bp 0); [apply bpow_le; lia|]. rewrite <- ET.
    destruct (fdiv_bounds top top (bp 0) (bp 0)) as (_ & C); auto; try (apply fmtb; lia); try (apply bp128; lia); [rewrite ET; exact (proj1 (MS kt Hkt))| |apply bpow_ge_0|lra].
    unfold Rdiv. rewrite Rinv_r by lra. rewrite E1. lra.
Qed.

(** ** One cell *)
Section CELLS.
Variables (ws : list nat) (tb : table) (M : nat) (A B c : Z).
Hypothesis TK : table_ok ws tb.
Hypothesis ND : nonneg_data tb.
Hypothesis HM : (1 <= M <= 128)%nat.
Hypothesis HA : (1 <= A <= 16)%Z.
Hypothesis HB : (1 <= B <= 22)%Z.
Hypothesis Hc : (1 <= c)%Z.
Hypothesis HN1 : ((Z.of_nat (num_rows tb) + 1) * 1 < 2 ^ A)%Z.
Hypothesis HN : ((Z.of_nat (num_rows tb) + 1) * c < 2 ^ B)%Z.
Hypothesis HW : Forall (fun w => (Z.of_nat w <= 2 ^ B)%Z) ws.
Hypothesis HC : forall n v, (n < num_rows tb)%nat -> (v < num_cols tb)%nat -> (block_sum ws (nth n (tb_rows tb) []) v <= c)%Z.
Notation V := (num_cols tb).

Let pB : (2 ^ B <= 2 ^ 22)%Z.
Proof. apply Z.pow_le_mono_r; lia. Qed.

Definition rcell_inv (v : nat) (M0 : nat -> Z) (st0 st : cstate) (j : Z) : Prop :=
  let '(_, feat0, meas0) := st0 in let '(msg, feat, meas) := st in
  (forall m, (m < M)%nat -> exists fr, (forall r, owns ws v r -> wide (feat r m) (fr r) /\ (0 <= fr r <= M0 m + j)%Z) /\
     ((exists r, owns ws v r) -> meas_wide B (meas v m) (M0 m + j))) /\
  vgood M (-1) A msg /\
  (forall r, ~ owns ws v r -> feat r = feat0 r) /\ (forall u, u <> v -> meas u = meas0 u).

Lemma rcell_step v M0 st0 st j r : rcell_inv v M0 st0 st j -> owns ws v r -> (0 <= j < c)%Z ->
  (forall m, (m < M)%nat -> (0 <= M0 m)%Z /\ (M0 m + c < 2 ^ B)%Z) -> rcell_inv v M0 st0 (repaired_draw32 M v r st) (j + 1).
Proof.
  destruct st0 as [[msg0 feat0] meas0], st as [[msg feat] meas]. intros (I1 & I2 & I4 & I5) O Hj HM0.
  unfold repaired_draw32. cbn [cell_draw32 rcell_inv].
  split; [|split; [|split]].
  - intros m Hm. destruct (I1 m Hm) as (fr & F1 & F2). destruct (HM0 m Hm) as (H0' & H1).
    exists (fun r' => if (r' =? r)%nat then (fr r' + 1)%Z else fr r'). split.
    + intros r' O'. destruct (F1 r' O') as (N1 & N2). unfold set1. destruct (Nat.eqb_spec r' r) as [->|D].
      * split; [apply wide_fadd; auto; lia|lia].
      * split; [exact N1|lia].
    + intros _. unfold set1. rewrite Nat.eqb_refl. rewrite Z.add_assoc. apply meas_wide_fadd; auto; try lia. apply F2. eauto.
  - destruct I2 as (X & m0 & Hm0 & L0).
    assert (D : forall m, (m < M)%nat -> fin32 (fdiv (fmul (msg m) (feat r m)) (meas v m)) = true /\
      0 <= val (fdiv (fmul (msg m) (feat r m)) (meas v m)) <= bp (A + 7) /\
      (bp (-1) <= val (msg m) -> bp (-1 - (B + 9)) <= val (fdiv (fmul (msg m) (feat r m)) (meas v m)))).
    { intros m Hm. destruct (I1 m Hm) as (fr & F1 & F2). destruct (HM0 m Hm) as (H0' & H1). destruct (F1 r O) as (N1 & N2).
      destruct (X m Hm) as (X1 & X2).
      apply (draw_wide B HB (msg m) (feat r m) (meas v m) (fr r) (M0 m + j)); auto; try lia. apply F2. eauto. }
    apply (largest_good M A _ (A + 7)); try lia.
    + intros m Hm. destruct (D m Hm) as (D1 & D2 & _). auto.
    + exists m0. split; [exact Hm0|]. destruct (D m0 Hm0) as (_ & _ & D3). specialize (D3 L0). pose proof (bp_pos (-1 - (B + 9))). lra.
  - intros r' O'. unfold set1. destruct (Nat.eqb_spec r' r) as [->|D]; [contradiction|]. now apply I4.
  - intros u Hu. unfold set1. destruct (Nat.eqb_spec u v); [contradiction|]. now apply I5.
Qed.

Lemma rcategory_inv v M0 st0 st j r z : rcell_inv v M0 st0 st j -> owns ws v r -> (0 <= j)%Z -> (0 <= z)%Z -> (j + z <= c)%Z ->
  (forall m, (m < M)%nat -> (0 <= M0 m)%Z /\ (M0 m + c < 2 ^ B)%Z) -> rcell_inv v M0 st0 (repaired_category32 M v st (r, z)) (j + z).
Proof.
  intros I O Hj Hz Hjz HM0. unfold repaired_category32. cbn [fst snd].
  assert (G : forall k, (j + Z.of_nat k <= c)%Z -> rcell_inv v M0 st0 (Nat.iter k (repaired_draw32 M v r) st) (j + Z.of_nat k)).
  { induction k as [|k IH]; intros Hk.
    - cbn. rewrite Z.add_0_r. exact I.
    - cbn [Nat.iter]. replace (j + Z.of_nat (Datatypes.S k))%Z with (j + Z.of_nat k + 1)%Z by lia.
      apply rcell_step; auto; [apply IH; lia|lia]. }
  specialize (G (Z.to_nat z) ltac:(lia)). rewrite Z2Nat.id in G by lia. exact G.
Qed.

Lemma rcells_inv v M0 st0 l : (forall r z, In (r, z) l -> owns ws v r /\ (0 <= z)%Z) -> forall st j,
  rcell_inv v M0 st0 st j -> (0 <= j)%Z -> (j + fold_right Z.add 0%Z (map snd l) <= c)%Z ->
  (forall m, (m < M)%nat -> (0 <= M0 m)%Z /\ (M0 m + c < 2 ^ B)%Z) ->
  rcell_inv v M0 st0 (fold_left (repaired_category32 M v) l st) (j + fold_right Z.add 0%Z (map snd l)).
Proof.
  induction l as [|[r z] l IH]; intros HL st j I Hj Hs HM0.
  - cbn. rewrite Z.add_0_r. exact I.
  - cbn [fold_left map snd fold_right] in *. destruct (HL r z (or_introl eq_refl)) as (O & Hz).
    assert (S0 : (0 <= fold_right Z.add 0%Z (map snd l))%Z).
    { clear - HL. assert (K : forall r z, In (r, z) l -> (0 <= z)%Z) by (intros r' z' I; apply (HL r' z'); now right).
      clear HL. induction l as [|[r' z'] l IHl]; cbn; [lia|]. specialize (K r' z' (or_introl eq_refl)) as K0.
      assert (0 <= fold_right Z.add 0%Z (map snd l))%Z by (apply IHl; intros; eapply K; right; eauto). lia. }
    rewrite Z.add_assoc. apply IH; auto; try lia.
    + intros r' z' I'. apply HL. now right.
    + apply rcategory_inv; auto. lia.
Qed.

Section STATE.
Variable s : tstate.
Hypothesis TI : tinv ws tb M s.

Lemma fp_wide v r m : owns ws v r -> (m < M)%nat -> wide (fp M s r m) (s_feat s r m).
Proof.
  intros O Hm. destruct (feat_small ws tb M B c TK ND HM ltac:(lia) Hc HN HC s v r m TI O Hm) as (B1 & B2).
  destruct (prior64_spec M HM) as (P1 & P2). apply add_prior_wide; auto. lia.
Qed.

Lemma mp_wide v m : (v < V)%nat -> (m < M)%nat -> (exists r, owns ws v r) -> meas_wide B (mp tb M s v m) (s_meas s v m).
Proof.
  intros Hv Hm (r & O). destruct (feat_small ws tb M B c TK ND HM ltac:(lia) Hc HN HC s v r m TI O Hm) as (B1 & B2).
  destruct (prior64_spec M HM) as (P1 & P2).
  assert (W1 : (1 <= Z.of_nat (nth v ws 0%nat) <= 2 ^ B)%Z).
  { split; [destruct O; lia|]. rewrite Forall_forall in HW. apply HW. apply nth_In. apply O. }
  assert (MP : fin32 (meas_prior32 (tb_ri tb) M v) = true /\ bp (-8) <= val (meas_prior32 (tb_ri tb) M v) <= bp (B - 1)).
  { unfold meas_prior32. rewrite (width_ri ws) by auto. pose proof (bp_pos (-8)).
    destruct (to32_bounds (prior64 M) (bp (-8)) (bp (-1))) as (T1 & T2); auto; try (apply fmtb; lia); try (apply bp128; lia); try lra.
    destruct (f32_int (Z.of_nat (nth v ws 0%nat))) as (I1 & I2); [lia|].
    assert (J1 : 1 <= IZR (Z.of_nat (nth v ws 0%nat))) by (apply IZR_le; lia).
    assert (J2 : IZR (Z.of_nat (nth v ws 0%nat)) <= bp B).
    { rewrite <- (IZR_Zpower radix2) by lia. apply IZR_le. change (radix2 ^ B)%Z with (2 ^ B)%Z. lia. }
    apply fmul_bounds; auto; try (apply fmtb; lia); try (apply bp128; lia); [|lra]. rewrite I2. split.
    - apply Rle_trans with (bp (-8) * 1); [lra|]. apply Rmult_le_compat; lra.
    - replace (B - 1)%Z with (-1 + B)%Z by lia. rewrite bpow_plus. apply Rmult_le_compat; lra. }
  destruct MP as (M1 & M2). destruct (to64_exact _ M1) as (M3 & M4).
  pose proof (top_lt B HB (s_meas s v m) ltac:(lia)) as NA. pose proof (bp_pos (-8)).
  destruct (add_prior_bounds (s_meas s v m) (to64 (meas_prior32 (tb_ri tb) M v)) (IZR (s_meas s v m)) (IZR (s_meas s v m) + bp (B - 1))) as (F & C);
    auto; try lia; try (apply fmt_top; lia); try (apply fmt_int0; lia); try (rewrite ?M4; lra).
  destruct (add_prior_bounds (s_meas s v m) (to64 (meas_prior32 (tb_ri tb) M v)) (bp (-8)) (IZR (s_meas s v m) + bp (B - 1))) as (_ & C');
    auto; try lia; try (apply fmt_top; lia); try apply fmt8; try (rewrite ?M4; lra).
  split; [exact F|]. split; [exact C|apply C'].
Qed.
End STATE.

Lemma cell_good_repaired : cell_good (repaired_add_cell32 M) ws tb M (-1) A.
Proof.
  intros s n v msg feat meas TI Hn Hv EM EE EF. assert (VR := vp_range ws tb M A HM HA HN1 s TI v Hv).
  set (M0 := fun m => if (0 <? nth v ws 0)%nat then s_meas s v m else 0%Z).
  assert (HM0 : forall m, (m < M)%nat -> (0 <= M0 m)%Z /\ (M0 m + c < 2 ^ B)%Z).
  { intros m Hm. unfold M0. destruct (Nat.ltb_spec 0 (nth v ws 0%nat)) as [P|P].
    - assert (O : owns ws v (list_sum (firstn v ws))) by (split; [rewrite (tk_width _ _ TK); auto|lia]).
      destruct (feat_small ws tb M B c TK ND HM ltac:(lia) Hc HN HC s v _ m TI O Hm). lia.
    - nia. }
  unfold repaired_add_cell32. replace (TY_MULTINOMIAL =? TY_MULTINOMIAL)%nat with true by reflexivity.
  rewrite !(ri_get _ _ TK) by lia. cbn [bind].
  set (row := nth n (tb_rows tb) []) in *. set (beg := list_sum (firstn v ws)). set (fin := list_sum (firstn (v + 1) ws)).
  assert (LW : length ws = V) by apply (tk_width _ _ TK).
  assert (EFn : fin = (beg + nth v ws 0)%nat).
  { unfold fin, beg. rewrite Nat.add_1_r, sum_firstn_S by lia. lia. }
  set (l := combine (seq beg (fin - beg)) (slice row beg fin)).
  assert (LR : length row = list_sum ws) by (apply (row_len ws tb TK); exact Hn).
  assert (LE : (fin <= list_sum ws)%nat).
  { apply sum_firstn_all. }
  assert (LS : length (slice row beg fin) = (fin - beg)%nat) by (unfold slice; rewrite firstn_length, skipn_length; lia).
  assert (ES : fold_right Z.add 0%Z (map snd l) = block_sum ws row v).
  { unfold l. assert (map snd (combine (seq beg (fin - beg)) (slice row beg fin)) = slice row beg fin) as ->.
    { rewrite <- LS. apply map_snd_combine. }
    rewrite <- (zsum_block ws tb TK row v Hv LR). reflexivity. }
  assert (HLl : forall r z, In (r, z) l -> owns ws v r /\ (0 <= z)%Z).
  { intros r z I. unfold l in I. split.
    - apply in_combine_l in I. apply in_seq in I. unfold owns. fold beg. lia.
    - apply in_combine_r in I. unfold slice in I.
      assert (I2 : In z row).
      { rewrite <- (firstn_skipn beg row). apply in_app_iff. right. rewrite <- (firstn_skipn (fin - beg) (skipn beg row)). apply in_app_iff. now left. }
      clear I. rename I2 into I. apply (In_nth _ _ 0%Z) in I. destruct I as (k & Hk & <-). apply (ND n k). }
  assert (I0 : rcell_inv v M0 (msg, feat, meas) (msg, feat, meas) 0).
  { unfold rcell_inv. split; [|split; [|split]]; auto.
    - intros m Hm. exists (fun r => s_feat s r m). rewrite Z.add_0_r. unfold M0. split.
      + intros r O. rewrite (EF r O). split; [apply (fp_wide s TI v); auto|].
        destruct (feat_small ws tb M B c TK ND HM ltac:(lia) Hc HN HC s v r m TI O Hm) as (K & _).
        destruct (Nat.ltb_spec 0 (nth v ws 0%nat)) as [P|P]; [exact K|destruct O; lia].
      + intros (r & O). rewrite EE. destruct (Nat.ltb_spec 0 (nth v ws 0%nat)) as [P|P]; [|destruct O; lia]. apply mp_wide; eauto.
    - rewrite EM. split.
      + intros m Hm. destruct (VR m Hm) as (F & C). split; [exact F|]. pose proof (bp_pos (-1)). lra.
      + exists 0%nat. split; [lia|]. apply VR. lia. }
  pose proof (HC n v Hn Hv) as BS. fold row in BS.
  pose proof (rcells_inv v M0 (msg, feat, meas) l HLl (msg, feat, meas) 0 I0 ltac:(lia) ltac:(rewrite ES; lia) HM0) as R.
  destruct (fold_left (repaired_category32 M v) l (msg, feat, meas)) as [[msg' feat'] meas'] eqn:E.
  exists msg', feat', meas'. split; [reflexivity|]. destruct R as (R1 & R2 & R3 & R4). auto.
Qed.
End CELLS.

Lemma repaired_draws dot ws tb prior M c t n : dot_ok dot -> table_ok ws tb -> nonneg_data tb -> (1 <= M <= 128)%nat ->
  at_most c ws tb -> (Z.of_nat (num_rows tb) < 65535)%Z -> ((Z.of_nat (num_rows tb) + 1) * Z.of_nat c < 2 ^ 22)%Z ->
  Forall (fun w => (Z.of_nat w <= 2 ^ 22)%Z) ws ->
  reachable32_with (repaired_add_cell32 M) dot tb prior M t -> (n < num_rows tb)%nat -> ~ In n (s_added (t_state t)) ->
  draws_usable (fun '(t', x) => x = None /\ from_scratch ws tb M (t_state t') /\ s_added (t_state t') = set_add n (s_added (t_state t)))
    (repaired_add_row32 dot tb M t n).
Proof.
  intros D TK ND HM AM N1 N2 HW RT Hn NI. unfold repaired_add_row32.
  apply (reachable_draws_with (repaired_add_cell32 M) dot ws tb prior M 16 (-1) 16); auto; try lia.
  apply (cell_good_repaired ws tb M 16 22 (Z.of_nat (Nat.max 1 c))); auto; try lia.
  intros k v Hk Hv. specialize (AM k v Hk Hv). lia.
Qed.
