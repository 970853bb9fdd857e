(** Bounds on the float32 tables and messages of the trainer. *)
From Coq Require Import List Arith Bool ZArith Reals Lra Lia.
From Flocq Require Import Core IEEE754.BinarySingleNaN.
From Verif Require Import Base Spec_Graph Spec_Ragged M_Structure M_Array M_Util M_Training Spec_Stats Spec_Conditional M_Float32 M_Train32 Spec_Float32
  L_Float32 L_Sample32.
Import ListNotations.
Open Scope R_scope.

(** ** Integers plus priors *)
Definition near (x : f32) (n : Z) : Prop := fin32 x = true /\ IZR n + bp (-8) <= val x <= IZR n + bp (-1).

Lemma fmt_near8 n : (0 <= n < 2 ^ 16)%Z -> fmt32 (IZR n + bp (-8)).
Proof.
  intros H. replace (IZR n + bp (-8)) with (IZR (256 * n + 1) * bp (-8)).
  - apply fmt_int; [reflexivity|lia|lia].
  - rewrite plus_IZR, mult_IZR. cbn. lra.
Qed.
Lemma fmt_near1 n : (0 <= n < 2 ^ 16)%Z -> fmt32 (IZR n + bp (-1)).
Proof.
  intros H. replace (IZR n + bp (-1)) with (IZR (2 * n + 1) * bp (-1)).
  - apply fmt_int; [reflexivity|lia|lia].
  - rewrite plus_IZR, mult_IZR. cbn. lra.
Qed.
Lemma near_lt n : (0 <= n < 2 ^ 16)%Z -> 0 <= IZR n /\ IZR n + bp (-1) <= bp 16 /\ bp 16 < bp 128 /\ bp 16 < bp 1024.
Proof.
  intros H. assert (0 <= IZR n) by (apply IZR_le; lia). assert (IZR n <= IZR (2 ^ 16 - 1)) by (apply IZR_le; lia).
  split; [assumption|]. split; [|split; apply bpow_lt; lia]. cbn in *. lra.
Qed.

Lemma add_prior_bounds n (p : f64) lo hi : (0 <= n < 2 ^ 30)%Z -> is_finite p = true -> fmt32 lo -> fmt32 hi ->
  lo <= IZR n + B2R p <= hi -> 0 <= lo -> hi < bp 128 -> fin32 (add_prior n p) = true /\ lo <= val (add_prior n p) <= hi.
Proof.
  intros Hn Fp F1 F2 B L H. unfold add_prior. destruct (f64_int n) as (I1 & I2); [lia|].
  assert (B3 : bp 128 < bp 1024) by (apply bpow_lt; lia). pose proof (bp_pos 1024).
  destruct (dadd_bounds (f64_of n 0) p lo hi I1 Fp (f32_in_f64 _ F1) (f32_in_f64 _ F2)) as (D1 & D2); [rewrite I2; exact B|lra|lra|].
  apply to32_bounds; auto.
Qed.

Lemma add_prior_near n (p : f64) : (0 <= n < 2 ^ 16)%Z -> is_finite p = true -> bp (-8) <= B2R p <= bp (-1) -> near (add_prior n p) n.
Proof.
  intros Hn Fp Bp. pose proof (near_lt n Hn). pose proof (bp_pos (-8)).
  apply add_prior_bounds; auto using fmt_near8, fmt_near1; try lia; lra.
Qed.

Lemma fone_spec : fin32 fone = true /\ val fone = 1.
Proof. apply (f32_int 1). lia. Qed.

Lemma near_fadd x n : near x n -> (0 <= n)%Z -> (n + 1 < 2 ^ 16)%Z -> near (fadd x fone) (n + 1).
Proof.
  intros (F & B) Hn Hn1. destruct fone_spec as (O1 & O2). pose proof (near_lt (n + 1) ltac:(lia)). pose proof (bp_pos (-8)).
  apply fadd_bounds; auto; try (apply fmt_near8; lia); try (apply fmt_near1; lia); rewrite ?O2, ?plus_IZR in *; lra.
Qed.

Lemma near_dadd x n d : near x n -> (0 <= n < 2 ^ 16)%Z -> (Z.abs d <= 1)%Z -> (0 <= n + d < 2 ^ 16)%Z -> near (to32 (dadd (to64 x) (f64_of d 0))) (n + d).
Proof.
  intros (F & B) Hn Hd Hnd. destruct (f64_int d) as (I1 & I2); [lia|]. destruct (to64_exact x F) as (T1 & T2).
  pose proof (near_lt (n + d) Hnd). pose proof (bp_pos (-8)). pose proof (bp_pos 1024).
  pose proof (fmt_near8 (n + d) Hnd) as F8. pose proof (fmt_near1 (n + d) Hnd) as F1.
  destruct (dadd_bounds (to64 x) (f64_of d 0) _ _ T1 I1 (f32_in_f64 _ F8) (f32_in_f64 _ F1)) as (D1 & D2);
    [rewrite T2, I2, plus_IZR; lra|rewrite plus_IZR in *; lra|rewrite plus_IZR in *; lra|].
  apply to32_bounds; auto; rewrite plus_IZR in *; lra.
Qed.

Lemma vert_prior64_spec : is_finite vert_prior64 = true /\ B2R vert_prior64 = bp (-1).
Proof.
  unfold vert_prior64, f64_of.
  assert (F : fmt64 (bp (-1))) by (apply fmt_bpow; [reflexivity|lia]). pose proof (bp_pos 1024). pose proof (bp_pos (-1)).
  assert (bp (-1) < bp 1024) by (apply bpow_lt; lia).
  destruct (normalize_bounds 53 1024 p53 e1024 1 (-1) false _ _ F F) as (A1 & A2); [lra|lra|lra|]. split; [exact A1|lra].
Qed.

Lemma prior64_spec M : (1 <= M <= 128)%nat -> is_finite (prior64 M) = true /\ bp (-8) <= B2R (prior64 M) <= bp (-1).
Proof.
  intros HM. unfold prior64. destruct vert_prior64_spec as (V1 & V2). fold vert_prior64.
  destruct (f64_int (Z.of_nat M)) as (I1 & I2); [lia|]. pose proof (bp_pos 1024).
  assert (M1 : 1 <= IZR (Z.of_nat M) <= 128) by (split; apply IZR_le; lia).
  assert (bp (-1) < bp 1024) by (apply bpow_lt; lia). pose proof (bp_pos (-8)). pose proof (bp_pos (-1)).
  assert (E8 : bp (-8) = bp (-1) / 128) by (cbn; lra).
  apply div_bounds; auto; try (apply fmt_bpow; [reflexivity|lia]); rewrite ?I2, ?V2; try lra.
  split.
  - rewrite E8. apply Rmult_le_compat_l; [lra|]. apply Rinv_le; lra.
  - replace (bp (-1)) with (bp (-1) / 1) at 2 by field. apply Rmult_le_compat_l; [lra|]. apply Rinv_le; lra.
Qed.

Lemma fmt_scale x k : fmt32 x -> (0 <= k)%Z -> fmt32 (bp k * x).
Proof.
  intros F Hk. pose proof (@FLT_format_generic radix2 (3 - 128 - 24) 24 p24 x F) as G. destruct G as [[m e] E1 E2 E3]. cbn [Fnum Fexp] in *.
  apply (generic_format_FLT radix2 (3 - 128 - 24) 24). exists (Float radix2 m (e + k)); cbn [Fnum Fexp]; [|exact E2|lia].
  rewrite E1. unfold F2R. cbn [Fnum Fexp]. rewrite bpow_plus. ring.
Qed.

(** ** One observation *)
Section CELL.
Variables (A : Z).
Hypothesis HA : (1 <= A <= 16)%Z.

Definition meas_near (y : f32) (n : Z) : Prop := fin32 y = true /\ IZR n + bp (-8) <= val y <= IZR n + bp (A - 1).

Lemma near_A n : (0 <= n <= 2 ^ A)%Z -> 0 <= IZR n <= bp A /\ bp (A - 1) <= bp A /\ bp A <= bp 16 /\ bp (A + 1) < bp 128 /\ bp (A + 1) = 2 * bp A /\
  IZR n + bp (A - 1) <= bp (A + 1).
Proof.
  intros H. assert (IZR n <= bp A).
  { rewrite <- (IZR_Zpower radix2) by lia. apply IZR_le. change (radix2 ^ A)%Z with (2 ^ A)%Z. lia. }
  assert (0 <= IZR n) by (apply IZR_le; lia). assert (bp (A - 1) <= bp A) by (apply bpow_le; lia).
  assert (bp A <= bp 16) by (apply bpow_le; lia). assert (bp (A + 1) < bp 128) by (apply bpow_lt; lia).
  assert (bp (A + 1) = 2 * bp A) by (rewrite bpow_plus; cbn; ring). lra.
Qed.

Lemma fmt_meas_hi n : (0 <= n <= 2 ^ A)%Z -> fmt32 (IZR n + bp (A - 1)).
Proof.
  intros H. assert ((2 ^ A <= 2 ^ 16)%Z) by (apply Z.pow_le_mono_r; lia). assert ((2 ^ (A - 1) <= 2 ^ 15)%Z) by (apply Z.pow_le_mono_r; lia).
  assert (0 <= 2 ^ (A - 1))%Z by (apply Z.pow_nonneg; lia).
  replace (IZR n + bp (A - 1)) with (IZR (n + 2 ^ (A - 1)) * bp 0).
  - apply fmt_int; [reflexivity|lia|lia].
  - rewrite plus_IZR. change (2 ^ (A - 1))%Z with (radix2 ^ (A - 1))%Z. rewrite IZR_Zpower by lia. cbn [bpow]. ring.
Qed.

Lemma meas_near_fadd y n : meas_near y n -> (0 <= n)%Z -> (n + 1 < 2 ^ 16)%Z -> (n + 1 <= 2 ^ A)%Z -> meas_near (fadd y fone) (n + 1).
Proof.
  intros (F & B) Hn H16 H1. destruct fone_spec as (O1 & O2). pose proof (near_A (n + 1) ltac:(lia)). pose proof (bp_pos (-8)).
  pose proof (fmt_meas_hi (n + 1) ltac:(lia)) as FH. pose proof (fmt_near8 (n + 1) ltac:(lia)) as FL.
  apply fadd_bounds; auto; rewrite ?O2, ?plus_IZR in *; lra.
Qed.

Lemma draw_bounds (x f y : f32) nf ny p q : fin32 x = true -> near f nf -> meas_near y ny -> (0 <= nf <= ny)%Z -> (ny <= 2 ^ A)%Z -> (nf < 2 ^ 16)%Z ->
  0 <= val x <= bp q -> (0 <= q)%Z -> (q + 24 <= 127)%Z -> (-140 <= p - A)%Z ->
  fin32 (fdiv (fmul x f) y) = true /\ 0 <= val (fdiv (fmul x f) y) <= bp (q + 7) /\
  (bp p <= val x -> bp (p - (A + 9)) <= val (fdiv (fmul x f) y)).
Proof.
  intros Fx (Ff & Bf) (Fy & By) Hn HnA Hn16 Bx Hq Hq2 Hp.
  pose proof (near_A ny ltac:(lia)) as (NA & NA1 & NA2 & NA3 & NA4 & NA5). pose proof (bp_pos (-8)) as P8.
  assert (IZR nf <= IZR ny) by (apply IZR_le; lia). assert (0 <= IZR nf) by (apply IZR_le; lia).
  assert (R7 : val f <= bp 7 * val y).
  { assert (bp (-1) = bp 7 * bp (-8)) by (rewrite <- bpow_plus; reflexivity). assert (1 <= bp 7) by (change 1 with (bp 0); apply bpow_le; lia).
    apply Rle_trans with (bp 7 * (IZR ny + bp (-8))); [|apply Rmult_le_compat_l; lra].
    rewrite Rmult_plus_distr_l, <- H1. assert (1 * IZR ny <= bp 7 * IZR ny) by (apply Rmult_le_compat_r; lra). lra. }
  assert (PY : 0 < val y) by lra.
  assert (XF : 0 <= val x * val f <= bp (q + 7) * val y).
  { split; [apply Rmult_le_pos; lra|]. rewrite bpow_plus, Rmult_assoc. apply Rmult_le_compat; lra. }
  assert (FH : fmt32 (bp (q + 7) * val y)) by (apply fmt_scale; [apply fmt_B2R|lia]).
  assert (HH : bp (q + 7) * val y < bp 128).
  { apply Rle_lt_trans with (bp (q + 7) * bp (A + 1)); [apply Rmult_le_compat_l; [pose proof (bp_pos (q + 7)); lra|lra]|].
    rewrite <- bpow_plus. apply bpow_lt. lia. }
  destruct (fmul_bounds x f 0 _ Fx Ff (fmt_0 _ _) FH XF (Rle_refl 0) HH) as (M1 & M2).
  assert (FQ : fmt32 (bp (q + 7))) by (apply fmt_bpow; [reflexivity|lia]). assert (HQ : bp (q + 7) < bp 128) by (apply bpow_lt; lia).
  assert (DD : val (fmul x f) / val y <= bp (q + 7)).
  { apply Rmult_le_reg_r with (val y); [exact PY|]. unfold Rdiv. rewrite Rmult_assoc, Rinv_l by lra. lra. }
  assert (D0 : 0 <= val (fmul x f) / val y) by (apply Rmult_le_pos; [lra|]; left; now apply Rinv_0_lt_compat).
  destruct (fdiv_bounds (fmul x f) y 0 (bp (q + 7)) M1 PY (fmt_0 _ _) FQ) as (V1 & V2); [lra|lra|exact HQ|].
  split; [exact V1|]. split; [exact V2|]. intros LX.
  assert (LF : bp (p - 8) <= val x * val f).
  { replace (p - 8)%Z with (p + -8)%Z by lia. rewrite bpow_plus. apply Rmult_le_compat; pose proof (bp_pos p); lra. }
  destruct (fmul_bounds x f (bp (p - 8)) _ Fx Ff ltac:(apply fmt_bpow; [reflexivity|lia]) FH ltac:(lra) ltac:(pose proof (bp_pos (p - 8)); lra) HH) as (_ & M3).
  assert (LQ : bp (p - (A + 9)) <= val (fmul x f) / val y).
  { apply Rmult_le_reg_r with (val y); [exact PY|]. unfold Rdiv. rewrite Rmult_assoc, Rinv_l, Rmult_1_r by lra.
    apply Rle_trans with (bp (p - (A + 9)) * bp (A + 1)); [apply Rmult_le_compat_l; [pose proof (bp_pos (p - (A + 9))); lra|lra]|].
    rewrite <- bpow_plus. replace (p - (A + 9) + (A + 1))%Z with (p - 8)%Z by lia. lra. }
  destruct (fdiv_bounds (fmul x f) y (bp (p - (A + 9))) (bp (q + 7)) M1 PY ltac:(apply fmt_bpow; [reflexivity|lia]) FQ) as (_ & V3);
    [lra|pose proof (bp_pos (p - (A + 9))); lra|exact HQ|]. tauto.
Qed.
End CELL.
