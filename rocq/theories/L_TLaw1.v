(** How far the float32 table of edge probabilities drifts from the counts. *)
From Coq Require Import List Arith Bool ZArith Reals Lra Lia Permutation.
From Flocq Require Import Core Relative IEEE754.BinarySingleNaN.
From Verif Require Import Base L_Base Spec_Graph Spec_Ragged M_Structure Spec_Program M_Array M_Util M_Training Spec_Stats Spec_Conditional M_Float32 M_Train32 Spec_Float32
  L_Float32 L_Sample32 L_Train32 L_Train32b L_Train32c L_Train32d L_Train32e L_Ragged L_Prop1 L_MakeTree L_Stats L_Trainer L_Train32f Spec_Accuracy L_Acc1 Spec_TrainLaw.
Import ListNotations.
Open Scope R_scope.

(** ** One rounding *)
Local Instance vexp32 : Valid_exp (SpecFloat.fexp 24 128) := fexp_correct 24 128 p24.
Local Instance vexp64 : Valid_exp (SpecFloat.fexp 53 1024) := fexp_correct 53 1024 p53.
Lemma rnd32_err y k : (-100 <= k <= 100)%Z -> 0 < y <= bp k -> Rabs (rnd 24 128 y - y) <= bp (k - 25).
Proof.
  intros Hk (P & [L|E]).
  - pose proof (error_le_half_ulp radix2 (SpecFloat.fexp 24 128) (fun x => negb (Z.even x)) y) as H.
    eapply Rle_trans; [exact H|]. rewrite ulp_neq_0 by lra. unfold cexp.
    assert (mag radix2 y <= k)%Z by (apply mag_le_bpow; [lra|rewrite Rabs_pos_eq; lra]).
    replace (/ 2) with (bp (-1)) by (cbn; lra). rewrite <- bpow_plus. apply bpow_le. unfold SpecFloat.fexp, SpecFloat.emin. lia.
  - rewrite rnd_fmt; [|subst y; apply fmtb; lia]. replace (y - y) with 0 by ring. rewrite Rabs_R0. apply bpow_ge_0.
Qed.

Lemma to32_rnd (x : f64) : is_finite x = true -> bp (-126) <= B2R x <= bp 126 -> val (to32 x) = rnd 24 128 (B2R x).
Proof.
  intros Fx B. pose proof (bp_pos (-126)) as P126. pose proof (bp_pos 128). destruct x as [s|s| |s m e Hb]; try discriminate; [cbn in B; lra|].
  cbn [to32]. pose proof (binary_normalize_correct 24 128 p24 e128 mode_NE (SpecFloat.cond_Zopp s (Zpos m)) e s) as C. cbn [round_mode] in C.
  assert (EQ : F2R (Float radix2 (SpecFloat.cond_Zopp s (Zpos m)) e) = B2R (B754_finite s m e Hb)) by reflexivity.
  rewrite EQ in C. fold (rnd 24 128 (B2R (B754_finite s m e Hb))) in C.
  rewrite (small 24 128 p24 (bp (-126)) (bp 126) (B2R (B754_finite s m e Hb))) in C; try (apply fmtb; lia); [|exact B|lra|apply bpow_lt; lia].
  now destruct C as (C1 & _).
Qed.

(** A float of at least 2^(k-1) is a multiple of 2^(k-24). *)
Lemma float_grid (x : f32) k : bp (k - 1) <= val x -> exists j, val x = IZR j * bp (k - 24).
Proof.
  intros H. pose proof (generic_format_B2R 24 128 x) as G. unfold generic_format in G.
  set (m := Ztrunc (scaled_mantissa radix2 (SpecFloat.fexp 24 128) (val x))) in *. set (e := cexp radix2 (SpecFloat.fexp 24 128) (val x)) in *.
  assert (P : 0 < val x) by (pose proof (bp_pos (k - 1)); lra).
  assert (K : (k <= mag radix2 (val x))%Z).
  { apply mag_ge_bpow. rewrite Rabs_pos_eq by lra. exact H. }
  assert (E : (k - 24 <= e)%Z) by (unfold e, cexp, SpecFloat.fexp, SpecFloat.emin; lia).
  exists (m * 2 ^ (e - (k - 24)))%Z. rewrite G at 1. unfold F2R. cbn [Fnum Fexp]. rewrite mult_IZR.
  change (2 ^ (e - (k - 24)))%Z with (radix2 ^ (e - (k - 24)))%Z. rewrite IZR_Zpower by lia. rewrite Rmult_assoc, <- bpow_plus. f_equal. f_equal. lia.
Qed.

Lemma int_grid n k : (k <= 0)%Z -> IZR n = IZR (n * 2 ^ (- k)) * bp k.
Proof.
  intros H. rewrite mult_IZR. change (2 ^ (- k))%Z with (radix2 ^ (- k))%Z. rewrite IZR_Zpower by lia. rewrite Rmult_assoc, <- bpow_plus.
  replace (- k + k)%Z with 0%Z by lia. cbn. ring.
Qed.

(** ** The drift of an entry *)
Definition drift (A : Z) (p : R) (x : f32) (n : Z) : Prop :=
  exists k j, (-7 <= k <= A)%Z /\ val x <= bp k /\ val x - IZR n = IZR j * bp (k - 24) /\ Rabs (val x - IZR n - p) <= bp (k - 24).

Lemma step_exact x n d k j : near x n -> (-7 <= k <= 16)%Z -> (0 <= n < 2 ^ 16)%Z -> (Z.abs d <= 1)%Z -> (0 <= n + d < 2 ^ 16)%Z ->
  val x - IZR n = IZR j * bp (k - 24) ->
  is_finite (dadd (to64 x) (f64_of d 0)) = true /\ B2R (dadd (to64 x) (f64_of d 0)) = val x + IZR d /\
  val x + IZR d = IZR (j + (n + d) * 2 ^ (24 - k)) * bp (k - 24).
Proof.
  intros (F & B) Hk Hn Hd Hnd E. destruct (f64_int d) as (I1 & I2); [lia|]. destruct (to64_exact x F) as (T1 & T2).
  pose proof (bp_pos (-8)). assert (b1 : bp (-1) = 1 / 2) by (cbn; lra).
  assert (Y : val x + IZR d = IZR (j + (n + d) * 2 ^ (24 - k)) * bp (k - 24)).
  { rewrite plus_IZR, Rmult_plus_distr_r, <- E. pose proof (int_grid (n + d) (k - 24) ltac:(lia)) as G. replace (- (k - 24))%Z with (24 - k)%Z in G by lia.
    rewrite <- G, plus_IZR. ring. }
  assert (ND : 0 <= IZR (n + d) <= 65536) by (split; apply IZR_le; lia). rewrite plus_IZR in ND.
  assert (Fy : fmt64 (val x + IZR d)).
  { rewrite Y. apply fmt_int; [reflexivity| |lia]. apply le_IZR. rewrite abs_IZR. apply Rmult_le_reg_r with (bp (k - 24)); [apply bp_pos|].
    rewrite <- (Rabs_pos_eq (bp (k - 24))) at 1 by apply bpow_ge_0. rewrite <- Rabs_mult, <- Y. change (2 ^ 53)%Z with (radix2 ^ 53)%Z. rewrite IZR_Zpower, <- bpow_plus by lia.
    apply Rle_trans with (bp 17); [|apply bpow_le; lia]. rewrite Rabs_pos_eq by lra. change (bp 17) with 131072. lra. }
  assert (bp 17 < bp 1024) by (apply bpow_lt; lia). assert (bp 17 = 131072) by (cbn; lra). pose proof (bp_pos 1024).
  destruct (dadd_bounds (to64 x) (f64_of d 0) (val x + IZR d) (val x + IZR d) T1 I1 Fy Fy) as (D1 & D2); [rewrite T2, I2; lra|lra|lra|].
  split; [exact D1|]. split; [lra|exact Y].
Qed.

Lemma drift_step A p x n d : (1 <= A <= 16)%Z -> near x n -> drift A p x n -> (0 <= n < 2 ^ A)%Z -> (Z.abs d <= 1)%Z -> (0 <= n + d < 2 ^ A)%Z ->
  drift A p (to32 (dadd (to64 x) (f64_of d 0))) (n + d).
Proof.
  intros HA N (k & j & Hk & L & E & D) Hn Hd Hnd. assert (pA : (2 ^ A <= 2 ^ 16)%Z) by (apply Z.pow_le_mono_r; lia).
  destruct (step_exact x n d k j N ltac:(lia) ltac:(lia) Hd ltac:(lia) E) as (D1 & D2 & Y).
  destruct (near_dadd x n d N ltac:(lia) Hd ltac:(lia)) as (Fz & Bz). destruct N as (F & B).
  assert (b8 : bp (-8) = 1 / 256) by (cbn; lra). assert (b1 : bp (-1) = 1 / 2) by (cbn; lra).
  assert (ND : 0 <= IZR (n + d) <= 65536) by (split; apply IZR_le; lia). rewrite plus_IZR in ND.
  assert (RB : bp (-126) <= val x + IZR d <= bp 126).
  { assert (bp (-126) <= bp (-8)) by (apply bpow_le; lia). assert (bp 17 <= bp 126) by (apply bpow_le; lia). assert (bp 17 = 131072) by (cbn; lra). lra. }
  pose proof (to32_rnd _ D1 ltac:(rewrite D2; exact RB)) as ER. rewrite D2 in ER.
  destruct (Rle_or_lt (val x + IZR d) (bp k)) as [S|S].
  - assert (ex : val (to32 (dadd (to64 x) (f64_of d 0))) = val x + IZR d).
    { rewrite ER. apply rnd_fmt. rewrite Y. apply fmt_int; [reflexivity| |lia]. apply le_IZR. rewrite abs_IZR. apply Rmult_le_reg_r with (bp (k - 24)); [apply bp_pos|].
      rewrite <- (Rabs_pos_eq (bp (k - 24))) at 1 by apply bpow_ge_0. rewrite <- Rabs_mult, <- Y. change (2 ^ 24)%Z with (radix2 ^ 24)%Z. rewrite IZR_Zpower, <- bpow_plus by lia.
      rewrite Rabs_pos_eq by lra. replace (24 + (k - 24))%Z with k by lia. exact S. }
    exists k, j. rewrite ex, plus_IZR. split; [lia|]. split; [exact S|]. split; [rewrite <- E; ring|]. replace (val x + IZR d - (IZR n + IZR d) - p) with (val x - IZR n - p) by ring. exact D.
  - assert (d1 : d = 1%Z).
    { assert (d = 1 \/ d <= 0)%Z as [|K] by lia; [assumption|]. apply IZR_le in K. lra. }
    subst d. set (k' := Z.max (k + 1) 1). assert (Hk' : (k < k')%Z /\ (1 <= k')%Z) by (unfold k'; lia).
    assert (U : val x + 1 <= bp k').
    { unfold k'. destruct (Z_le_gt_dec 0 k) as [K|K].
      - rewrite Z.max_l by lia. rewrite bpow_plus. assert (1 <= bp k) by (change 1 with (bp 0); apply bpow_le; lia). change (bp 1) with 2. lra.
      - rewrite Z.max_r by lia. assert (bp k <= bp (-1)) by (apply bpow_le; lia). change (bp 1) with 2. lra. }
    assert (KA : (k' <= A)%Z).
    { unfold k'. assert (k < A)%Z; [|lia]. destruct (Z_lt_le_dec k 0) as [|K0]; [lia|].
      destruct (Z_lt_le_dec k A) as [|K]; [assumption|]. exfalso. assert (bp A <= bp k) by (apply bpow_le; lia).
      assert (IZR (n + 1) <= bp A - 1).
      { change (bp A) with (bp A). rewrite <- (IZR_Zpower radix2) by lia. rewrite <- minus_IZR. apply IZR_le. change (radix2 ^ A)%Z with (2 ^ A)%Z. lia. }
      rewrite plus_IZR in *. lra. }
    assert (LOW : bp (k' - 1) <= val (to32 (dadd (to64 x) (f64_of 1 0)))).
    { rewrite ER. apply rnd_ge; [exact p24|apply fmtb; lia|]. unfold k'. destruct (Z_le_gt_dec 0 k) as [K|K].
      - rewrite Z.max_l by lia. replace (k + 1 - 1)%Z with k by lia. lra.
      - rewrite Z.max_r by lia. cbn. assert (0 <= IZR n) by (apply IZR_le; lia). lra. }
    destruct (float_grid _ k' LOW) as (j' & EJ).
    exists k', (j' - (n + 1) * 2 ^ (24 - k'))%Z. split; [lia|]. split; [rewrite ER; apply rnd_le; [exact p24|apply fmtb; lia|exact U]|].
    split.
    + rewrite EJ, minus_IZR, Rmult_minus_distr_r. f_equal. pose proof (int_grid (n + 1) (k' - 24) ltac:(lia)) as G. replace (- (k' - 24))%Z with (24 - k')%Z in G by lia. exact G.
    + pose proof (rnd32_err (val x + 1) k' ltac:(lia) ltac:(pose proof (bp_pos (-126)); lra)) as RE. rewrite ER, plus_IZR.
      replace (rnd 24 128 (val x + 1) - (IZR n + 1) - p) with (rnd 24 128 (val x + 1) - (val x + 1) + (val x - IZR n - p)) by ring.
      eapply Rle_trans; [apply Rabs_triang|]. eapply Rle_trans; [apply Rplus_le_compat; [exact RE|exact D]|].
      assert (bp (k - 24) <= bp (k' - 25)) by (apply bpow_le; lia). replace (k' - 24)%Z with (k' - 25 + 1)%Z by lia. rewrite bpow_plus. change (bp 1) with 2. lra.
Qed.

(** The error of a float64 operation on numbers below 2^17. *)
Lemma rnd64_err y : 0 < y <= bp 17 -> Rabs (rnd 53 1024 y - y) <= bp (-34).
Proof.
  intros (P & L). pose proof (error_le_half_ulp radix2 (SpecFloat.fexp 53 1024) (fun x => negb (Z.even x)) y) as H.
  eapply Rle_trans; [exact H|]. rewrite ulp_neq_0 by lra. unfold cexp.
  assert (bp 17 < bp 18) by (apply bpow_lt; lia).
  assert (mag radix2 y <= 18)%Z by (apply mag_le_bpow; [lra|rewrite Rabs_pos_eq; lra]).
  replace (/ 2) with (bp (-1)) by (cbn; lra). rewrite <- bpow_plus. apply bpow_le. unfold SpecFloat.fexp, SpecFloat.emin. lia.
Qed.

Lemma drift_init A (p : f64) n : (1 <= A <= 16)%Z -> is_finite p = true -> bp (-8) <= B2R p <= bp (-1) -> (0 <= n < 2 ^ A)%Z ->
  drift A (B2R p) (add_prior n p) n.
Proof.
  intros HA Fp Bp Hn. assert (pA : (2 ^ A <= 2 ^ 16)%Z) by (apply Z.pow_le_mono_r; lia).
  destruct (add_prior_near n p ltac:(lia) Fp Bp) as (Fx & Bx).
  assert (b8 : bp (-8) = 1 / 256) by (cbn; lra). assert (b1 : bp (-1) = 1 / 2) by (cbn; lra).
  assert (N0 : 0 <= IZR n) by (apply IZR_le; lia).
  assert (NA : IZR n + 1 <= bp A).
  { rewrite <- (IZR_Zpower radix2) by lia. rewrite <- plus_IZR. apply IZR_le. change (radix2 ^ A)%Z with (2 ^ A)%Z. lia. }
  assert (bp A <= bp 16) by (apply bpow_le; lia). assert (b16 : bp 16 = 65536) by (cbn; lra). assert (b17 : bp 17 = 131072) by (cbn; lra).
  unfold add_prior in *. set (y := dadd (f64_of n 0) p) in *.
  destruct (f64_int n ltac:(lia)) as (I1 & I2).
  assert (Y : is_finite y = true /\ B2R y = rnd 53 1024 (IZR n + B2R p)).
  { unfold y, dadd. pose proof (Bplus_correct 53 1024 p53 e1024 mode_NE (f64_of n 0) p I1 Fp) as C. cbn [round_mode] in C. rewrite I2 in C.
    fold (rnd 53 1024 (IZR n + B2R p)) in C. assert (bp 17 < bp 1024) by (apply bpow_lt; lia). pose proof (bp_pos 1024).
    rewrite (small 53 1024 p53 (bp (-8)) (bp 17) (IZR n + B2R p)) in C; try (apply fmt_bpow; [reflexivity|lia]); [|lra|lra|lra].
    destruct C as (C1 & C2 & _). split; [exact C2|exact C1]. }
  destruct Y as (Fy & Y). pose proof (rnd64_err (IZR n + B2R p) ltac:(lra)) as RE.
  assert (YB : bp (-8) <= B2R y <= bp 17).
  { rewrite Y. split; [apply rnd_ge; [exact p53|apply fmt_bpow; [reflexivity|lia]|lra]|apply rnd_le; [exact p53|apply fmt_bpow; [reflexivity|lia]|lra]]. }
  assert (RB : bp (-126) <= B2R y <= bp 126).
  { assert (bp (-126) <= bp (-8)) by (apply bpow_le; lia). assert (bp 17 <= bp 126) by (apply bpow_le; lia). lra. }
  pose proof (to32_rnd y Fy RB) as ER.
  assert (NZ : val (to32 y) <> 0) by lra.
  destruct (mag radix2 (val (to32 y))) as (k0 & HK1). pose proof (HK1 NZ) as HK0. rewrite Rabs_pos_eq in HK0 by lra. clear HK1.
  assert (KA : (k0 <= A)%Z).
  { assert (k0 - 1 < A)%Z; [|lia]. apply (lt_bpow radix2). lra. }
  assert (K7 : (-7 <= k0)%Z).
  { assert (-8 < k0)%Z; [|lia]. apply (lt_bpow radix2). lra. }
  destruct (float_grid (to32 y) k0 ltac:(lra)) as (j & EJ).
  exists k0, (j - n * 2 ^ (24 - k0))%Z. split; [lia|]. split; [lra|]. split.
  - rewrite EJ, minus_IZR, Rmult_minus_distr_r. f_equal. pose proof (int_grid n (k0 - 24) ltac:(lia)) as G. replace (- (k0 - 24))%Z with (24 - k0)%Z in G by lia. exact G.
  - assert (YU : B2R y <= bp k0).
    { destruct (Rle_or_lt (B2R y) (bp k0)) as [|K]; [assumption|]. exfalso. assert (bp k0 <= rnd 24 128 (B2R y)); [|lra]. apply rnd_ge; [exact p24|apply fmtb; lia|lra]. }
    pose proof (rnd32_err (B2R y) k0 ltac:(lia) ltac:(lra)) as R1. rewrite ER.
    replace (rnd 24 128 (B2R y) - IZR n - B2R p) with (rnd 24 128 (B2R y) - B2R y + (B2R y - (IZR n + B2R p))) by ring.
    eapply Rle_trans; [apply Rabs_triang|]. rewrite Y at 3. eapply Rle_trans; [apply Rplus_le_compat; [exact R1|exact RE]|].
    assert (bp (-34) <= bp (k0 - 25)) by (apply bpow_le; lia). replace (k0 - 24)%Z with (k0 - 25 + 1)%Z by lia. rewrite bpow_plus. change (bp 1) with 2. lra.
Qed.

(** Relative form. *)
Lemma agree_rel e x y : 0 <= e <= 1 / 2 -> 0 <= y -> Rabs (x - y) <= e * y -> agree (2 * e) x y.
Proof.
  intros He P H. apply Rabs_le_inv in H. split; [exact P|]. pose proof (exp_ge1 (2 * e)) as G. split.
  - apply Rle_trans with (y * (1 - e)); [|lra]. apply Rmult_le_compat_l; [exact P|]. rewrite exp_Ropp.
    apply Rmult_le_reg_r with (exp (2 * e)); [apply exp_pos|]. rewrite Rinv_l by (pose proof (exp_pos (2 * e)); lra). nra.
  - apply Rle_trans with (y * (1 + e)); [lra|]. apply Rmult_le_compat_l; [exact P|]. lra.
Qed.

(** ** The two cases: any number of classes, and powers of two *)
Definition exact_prior (p : R) (x : f32) (n : Z) : Prop := val x = IZR n + p.

Lemma prior_pow2 (a : nat) : (a <= 7)%nat -> B2R (prior64 (2 ^ a)) = bp (- (Z.of_nat a + 1)).
Proof.
  intros Ha. assert (HM : (1 <= 2 ^ a <= 128)%nat).
  { split; [apply Nat.neq_0_lt_0, Nat.pow_nonzero; lia|]. change 128%nat with (2 ^ 7)%nat. apply Nat.pow_le_mono_r; lia. }
  unfold prior64. fold vert_prior64. destruct vert_prior64_spec as (V1 & V2). destruct (f64_int (Z.of_nat (2 ^ a))) as (I1 & I2); [lia|].
  assert (E : B2R (f64_of (Z.of_nat (2 ^ a)) 0) = bp (Z.of_nat a)).
  { rewrite I2, Nat2Z.inj_pow. change (Z.of_nat 2) with (radix_val radix2). apply IZR_Zpower. lia. }
  pose proof (bp_pos (Z.of_nat a)). pose proof (bp_pos 1024).
  assert (EQ : bp (-1) / bp (Z.of_nat a) = bp (- (Z.of_nat a + 1))).
  { unfold Rdiv. rewrite <- bpow_opp, <- bpow_plus. f_equal. lia. }
  pose proof (div_bounds 53 1024 p53 e1024 vert_prior64 (f64_of (Z.of_nat (2 ^ a)) 0) (bp (- (Z.of_nat a + 1))) (bp (- (Z.of_nat a + 1))) V1) as D.
  unfold ddiv. apply Rle_antisym; apply D; rewrite ?E, ?V2, ?EQ; try lra; try (apply fmt_bpow; [reflexivity|lia]); try (pose proof (bp_pos (- (Z.of_nat a + 1))); lra); apply bpow_lt; lia.
Qed.

Lemma fmt_exact n (a : nat) : (0 <= n < 2 ^ 16)%Z -> (a <= 7)%nat -> fmt32 (IZR n + bp (- (Z.of_nat a + 1))).
Proof.
  intros Hn Ha. replace (IZR n + bp (- (Z.of_nat a + 1))) with (IZR (n * 2 ^ (Z.of_nat a + 1) + 1) * bp (- (Z.of_nat a + 1))).
  - apply fmt_int; [reflexivity| |lia]. assert (2 ^ (Z.of_nat a + 1) <= 2 ^ 8)%Z by (apply Z.pow_le_mono_r; lia). assert (0 <= 2 ^ (Z.of_nat a + 1))%Z by (apply Z.pow_nonneg; lia).
    change (2 ^ 24)%Z with (2 ^ 16 * 2 ^ 8)%Z. nia.
  - rewrite plus_IZR, Rmult_plus_distr_r. pose proof (int_grid n (- (Z.of_nat a + 1)) ltac:(lia)) as G. rewrite Z.opp_involutive in G. rewrite <- G. ring.
Qed.

Lemma exact_init (a : nat) n : (a <= 7)%nat -> (0 <= n < 2 ^ 16)%Z -> exact_prior (bp (- (Z.of_nat a + 1))) (add_prior n (prior64 (2 ^ a))) n.
Proof.
  intros Ha Hn. assert (HM : (1 <= 2 ^ a <= 128)%nat).
  { split; [apply Nat.neq_0_lt_0, Nat.pow_nonzero; lia|]. change 128%nat with (2 ^ 7)%nat. apply Nat.pow_le_mono_r; lia. }
  destruct (prior64_spec _ HM) as (P1 & P2). pose proof (fmt_exact n a Hn Ha) as F. pose proof (near_lt n Hn) as NL. pose proof (bp_pos (-8)).
  assert (bp (- (Z.of_nat a + 1)) <= bp (-1)) by (apply bpow_le; lia). pose proof (bp_pos (- (Z.of_nat a + 1))).
  destruct (add_prior_bounds n (prior64 (2 ^ a)) _ _ ltac:(lia) P1 F F) as (_ & B); rewrite ?prior_pow2 by lia; try lra. unfold exact_prior. lra.
Qed.

Lemma exact_step (a : nat) x n d : (a <= 7)%nat -> near x n -> exact_prior (bp (- (Z.of_nat a + 1))) x n -> (0 <= n < 2 ^ 16)%Z -> (Z.abs d <= 1)%Z -> (0 <= n + d < 2 ^ 16)%Z ->
  exact_prior (bp (- (Z.of_nat a + 1))) (to32 (dadd (to64 x) (f64_of d 0))) (n + d).
Proof.
  unfold exact_prior. intros Ha (Fx & _) E Hn Hd Hnd. destruct (f64_int d) as (I1 & I2); [lia|]. destruct (to64_exact x Fx) as (T1 & T2).
  pose proof (fmt_exact (n + d) a Hnd Ha) as F. pose proof (near_lt (n + d) Hnd) as NL.
  assert (bp (- (Z.of_nat a + 1)) <= bp (-1)) by (apply bpow_le; lia). pose proof (bp_pos (- (Z.of_nat a + 1))). pose proof (bp_pos 1024). pose proof (bp_pos 128).
  destruct (dadd_bounds (to64 x) (f64_of d 0) _ _ T1 I1 (f32_in_f64 _ F) (f32_in_f64 _ F)) as (D1 & D2); [rewrite T2, I2, E, plus_IZR; lra|lra|lra|].
  destruct (to32_bounds (dadd (to64 x) (f64_of d 0)) _ _ D1 F F) as (_ & B); lra.
Qed.

(** ** All entries over all histories *)
Open Scope nat_scope.
Section DRIFT.
Variables (cell : cell_fun) (dot : list f32 -> list f32 -> f32) (ws : list nat) (tb : table) (prior : list R) (M : nat) (A lo hi : Z) (Kx : f32 -> Z -> Prop).
Hypothesis DOT : dot_ok dot.
Hypothesis TK : table_ok ws tb.
Hypothesis HM : (1 <= M <= 128)%nat.
Hypothesis HA : (1 <= A <= 16)%Z.
Hypothesis HN : ((Z.of_nat (num_rows tb) + 1) * 1 < 2 ^ A)%Z.
Hypothesis LO : (-149 <= 2 * lo - 2 * A - 8)%Z /\ (lo <= 0)%Z /\ (2 * hi + A + 10 <= 127)%Z /\ (0 <= hi)%Z.
Hypothesis CELL : cell_good cell ws tb M lo hi.
Hypothesis K0 : forall n, (0 <= n < 2 ^ A)%Z -> Kx (add_prior n (prior64 M)) n.
Hypothesis K1 : forall x n d, near x n -> Kx x n -> (0 <= n < 2 ^ A)%Z -> (Z.abs d <= 1)%Z -> (0 <= n + d < 2 ^ A)%Z ->
  Kx (to32 (dadd (to64 x) (f64_of d 0))) (n + d).
Notation V := (num_cols tb).

Let pA : (2 ^ A <= 2 ^ 16)%Z.
Proof. apply Z.pow_le_mono_r; lia. Qed.

Definition invK (t : trainer32) : Prop := tinv ws tb M (t_state t) /\
  forall e m1 m2, e < V - 1 -> m1 < M -> m2 < M -> near (t_eprobs t e m1 m2) (s_edge (t_state t) e m1 m2) /\ Kx (t_eprobs t e m1 m2) (s_edge (t_state t) e m1 m2).

Lemma stepK x n d : near x n /\ Kx x n -> (0 <= n < 2 ^ A)%Z -> (Z.abs d <= 1)%Z -> (0 <= n + d < 2 ^ A)%Z ->
  near (to32 (dadd (to64 x) (f64_of d 0))) (n + d) /\ Kx (to32 (dadd (to64 x) (f64_of d 0))) (n + d).
Proof. intros (N & Ki) Hn Hd Hnd. split; [apply near_dadd; auto; lia|now apply K1]. Qed.

Lemma freshK s : tinv ws tb M s -> forall e m1 m2, e < V - 1 -> m1 < M -> m2 < M ->
  near (add_prior (s_edge s e m1 m2) (prior64 M)) (s_edge s e m1 m2) /\ Kx (add_prior (s_edge s e m1 m2) (prior64 M)) (s_edge s e m1 m2).
Proof.
  intros TI e m1 m2 He H1 H2. destruct (edge_small ws tb M A 1 HM ltac:(lia) ltac:(lia) HN s e m1 m2 TI He H1 H2) as (B1 & B2).
  destruct (prior64_spec M HM) as (P1 & P2). split; [apply add_prior_near; auto; lia|apply K0; lia].
Qed.

Lemma add_row_drawsK t n : invK t -> n < num_rows tb ->
  draws_usable (fun '(t', x) => invK t' /\ (~ In n (s_added (t_state t)) -> x = None /\ s_added (t_state t') = set_add n (s_added (t_state t))))
    (add_row32_with cell dot tb M t n).
Proof.
  intros (TI & EP) Hn. unfold add_row32_with. destruct (set_mem n (s_added (t_state t))) eqn:EM.
  { cbn [draws_usable]. split; [split; auto|]. intros K. apply set_mem_In in EM. contradiction. }
  assert (NI : ~ In n (s_added (t_state t))) by (intros K; apply set_mem_In in K; congruence).
  rewrite (L_Base.get_Ok _ IndexError (tb_rows tb) n []) by exact Hn. cbn [flift fbind].
  set (s := t_state t) in *. pose proof TI as TI0. destruct TI0 as [FS SO AL (es & T & ET)].
  pose proof (fs_prog _ _ _ _ FS) as FP. rewrite ET in FP. cbn [ts_grid] in FP.
  destruct (C04_default_proof V es T) as (prog & root & EPr & _ & VPr). rewrite FP in EPr. inversion EPr as [EPr']. 
  assert (PB := prog_bounds V es (s_prog s) T FP).
  eapply draws_bind.
  - rewrite EPr' in PB |- *.
    apply (prog_draws cell dot ws tb M A lo hi DOT TK HM HA HN LO CELL s TI (t_eprobs t) n (map (fun '(_, a, b) => (a, b)) (make_tree es)) root prog); auto. intros; now apply EP.
  - intros [[[a b] d] z] HJ. cbv zeta.
    assert (Hz : forall v, v < V -> z v < M) by (intros v Hv; apply (HJ v Hv)).
    destruct (stats_tinv ws tb M TK ltac:(lia) s n z TI Hn NI Hz) as (s' & EU & TI' & E1 & E2 & E3).
    change (s_tree (TSt (s_tree s) (s_prog s) (set_add n (s_added s)) (set1 (s_asg s) n z) (s_vert s) (s_edge s) (s_feat s) (s_meas s) (s_eprobs s))) with (s_tree s).
    rewrite EU. cbn [flift fbind draws_usable]. split; [|auto]. split; [exact TI'|]. cbn [t_state t_eprobs].
    intros e m1 m2 He H1 H2. rewrite eprobs_update_spec. rewrite E2.
    assert (Zn : s_asg s' n = z) by (rewrite E3; unfold set1; now rewrite Nat.eqb_refl).
    pose proof (edge_count ws tb M (proj1 HM) s s' n e m1 m2 TI TI' E2) as EC. rewrite Zn in EC. 
    pose proof (edge_small ws tb M A 1 HM ltac:(lia) ltac:(lia) HN s e m1 m2 TI He H1 H2) as (B1 & B2).
    pose proof (edge_small ws tb M A 1 HM ltac:(lia) ltac:(lia) HN s' e m1 m2 TI' He H1 H2) as (B3 & B4).
    specialize (EP e m1 m2 He H1 H2). fold s in EP. rewrite EC in *; auto;
      try (rewrite E1; apply set_add_perm; auto); try (intros k Hk; rewrite E3; unfold set1; now rewrite (proj2 (Nat.eqb_neq k n))).
    destruct (pair_hit (ts_grid (s_tree s)) z e m1 m2); [apply stepK; auto; lia|rewrite Z.add_0_r; exact EP].
Qed.

Lemma remove_row_invK t n t' x : invK t -> remove_row32 tb M t n = Ok (t', x) -> invK t'.
Proof.
  intros (TI & EP) E. unfold remove_row32 in E. set (s := t_state t) in *.
  destruct (set_mem n (s_added s)) eqn:EM.
  - apply set_mem_In in EM. destruct (remove_row_Ok ws tb M TK (proj1 HM) s n TI EM) as (s' & ER & TI' & E1 & E2 & E3).
    rewrite ER in E. cbn [bind] in E. inversion E; subst t' x. clear E. split; [exact TI'|]. cbn [t_state t_eprobs].
    intros e m1 m2 He H1 H2. rewrite eprobs_update_spec, E2, E3.
    pose proof (edge_count ws tb M (proj1 HM) s' s n e m1 m2 TI' TI (eq_sym E2)) as EC. rewrite E2 in EC.
    pose proof (edge_small ws tb M A 1 HM ltac:(lia) ltac:(lia) HN s e m1 m2 TI He H1 H2) as (B1 & B2).
    pose proof (edge_small ws tb M A 1 HM ltac:(lia) ltac:(lia) HN s' e m1 m2 TI' He H1 H2) as (B3 & B4).
    specialize (EP e m1 m2 He H1 H2). fold s in EP.
    destruct TI as [[F1 _ _ _ _ _ _ _ _] SO _ _].
    rewrite EC in EP, B1, B2; auto;
      try (rewrite E1; now apply set_remove_perm); try (rewrite E1; intros K; apply set_remove_raw_In in K; tauto); try (intros k Hk; now rewrite E3).
    destruct (pair_hit (ts_grid (s_tree s)) (s_asg s n) e m1 m2); [|rewrite Z.add_0_r in EP; exact EP].
    replace (s_edge s' e m1 m2) with (s_edge s' e m1 m2 + 1 + -1)%Z by lia. apply stepK; auto; lia.
  - unfold remove_row in E. rewrite EM in E. cbn [negb bind] in E. inversion E; subst. split; auto.
Qed.

Lemma set_edges_invK t es t' x : invK t -> op_ok tb (OpSetEdges es) -> set_edges32 M t es = Ok (t', x) -> invK t'.
Proof.
  intros (TI & EP) OK E. unfold set_edges32 in E. destruct OK as [T|N].
  - destruct (set_edges_Ok ws tb M (proj1 HM) (t_state t) es TI T) as (s' & ES & TI' & _). rewrite ES in E. cbn [bind] in E. inversion E; subst t' x.
    split; [exact TI'|]. cbn [t_state t_eprobs]. now apply freshK.
  - rewrite (set_edges_rejected ws tb M (proj1 HM) (t_state t) es TI N) in E. cbn [bind] in E. inversion E; subst. split; auto.
Qed.

Lemma reachable_invK t : reachable32_with cell dot tb prior M t -> invK t.
Proof.
  induction 1 as [t E|t n us t' x _ IH OK HU E|t n t' x _ IH OK E|t es t' x _ IH OK E].
  - unfold init_trainer32 in E. destruct (init_trainer tb prior M) as [s|] eqn:EI; [|discriminate]. cbn [bind] in E. inversion E; subst t.
    destruct (init_Ok ws tb M (proj1 HM) prior s EI) as (TI & _). split; [exact TI|]. cbn [t_state t_eprobs]. now apply freshK.
  - destruct (frun_usable _ _ _ (add_row_drawsK t n IH OK) us HU) as [([t1 x1] & E1 & I1 & _)|E1]; rewrite E in E1; [|discriminate].
    inversion E1; subst. exact I1.
  - eapply remove_row_invK; eauto.
  - eapply set_edges_invK; eauto.
Qed.

End DRIFT.

(** The float32 table over any history. *)

Lemma drift_agree M A delta x n : (1 <= M <= 128)%nat -> (1 <= A <= 16)%Z -> (0 <= n)%Z -> (delta = INR M * bp (A - 21) /\ delta <= 1)%R ->
  drift A (B2R (prior64 M)) x n -> agree delta (val x) (IZR n + 1 / 2 / INR M).
Proof.
  intros HM HA Hn (ED & D1) (k & j & Hk & _ & _ & D).
  assert (M1 : (1 <= INR M <= 128)%R) by (rewrite INR_IZR_INZ; split; apply IZR_le; lia).
  assert (P0 : (1 / 256 <= 1 / 2 / INR M <= 1 / 2)%R).
  { split; (apply Rmult_le_reg_r with (INR M); [lra|]); [unfold Rdiv at 2|unfold Rdiv at 1]; rewrite Rmult_assoc, Rinv_l by lra; lra. }
  assert (N0 : (0 <= IZR n)%R) by (apply IZR_le; lia).
  assert (PE : (Rabs (B2R (prior64 M) - 1 / 2 / INR M) <= bp (-34))%R).
  { destruct vert_prior64_spec as (V1 & V2). destruct (f64_int (Z.of_nat M)) as (I1 & I2); [lia|].
    unfold prior64. fold vert_prior64. assert (E : B2R (f64_of (Z.of_nat M) 0) = INR M) by (rewrite I2; symmetry; apply INR_IZR_INZ).
    pose proof (bp_pos 1024). assert (b8 : (bp (-8) = 1 / 256)%R) by (cbn; lra). assert (b1 : (bp (-1) = 1 / 2)%R) by (cbn; lra).
    pose proof (Bdiv_correct 53 1024 p53 e1024 mode_NE vert_prior64 (f64_of (Z.of_nat M) 0) ltac:(lra)) as C. cbn [round_mode] in C.
    rewrite V2, E, b1 in C. fold (rnd 53 1024 (1 / 2 / INR M)) in C.
    rewrite (small 53 1024 p53 (bp (-8)) (bp (-1)) (1 / 2 / INR M)) in C; try (apply fmt_bpow; [reflexivity|lia]); [|lra|lra|apply bpow_lt; lia].
    destruct C as (C1 & _). unfold ddiv. rewrite C1. apply rnd64_err. assert (b17 : (bp 17 = 131072)%R) by (cbn; lra). lra. }
  assert (bp (k - 24) <= bp (A - 24))%R by (apply bpow_le; lia). assert (bp (-34) <= bp (A - 24))%R by (apply bpow_le; lia).
  assert (EB : (bp (A - 21) = 8 * bp (A - 24))%R).
  { replace (A - 21)%Z with (3 + (A - 24))%Z by lia. rewrite bpow_plus. cbn. lra. }
  pose proof (bp_pos (A - 24)).
  replace delta with (2 * (INR M * (4 * bp (A - 24))))%R by (rewrite ED, EB; ring).
  apply agree_rel; [nra|lra|].
  apply Rle_trans with (2 * bp (A - 24))%R.
  - replace (val x - (IZR n + 1 / 2 / INR M))%R with (val x - IZR n - B2R (prior64 M) + (B2R (prior64 M) - 1 / 2 / INR M))%R by ring.
    eapply Rle_trans; [apply Rabs_triang|]. lra.
  - apply Rle_trans with (INR M * (4 * bp (A - 24)) * (1 / 2 / INR M))%R.
    + right. field. lra.
    + apply Rmult_le_compat_l; [nra|lra].
Qed.

Lemma eprobs_agree dot ws tb prior M A c delta : dot_ok dot -> table_ok ws tb -> nonneg_data tb -> 1 <= M <= 128 ->
  (1 <= A <= 16)%Z -> (1 <= c)%Z -> ((A + 9) * c + A <= 69)%Z ->
  ((Z.of_nat (num_rows tb) + 1) * c < 2 ^ A)%Z -> Forall (fun w => (Z.of_nat w <= 2 ^ A)%Z) ws ->
  (forall n v, n < num_rows tb -> v < num_cols tb -> (block_sum ws (nth n (tb_rows tb) []) v <= c)%Z) ->
  drift_bound M A delta ->
  forall t, reachable32 dot tb prior M t -> tinv ws tb M (t_state t) /\
  forall e m1 m2, e < num_cols tb - 1 -> m1 < M -> m2 < M -> near (t_eprobs t e m1 m2) (s_edge (t_state t) e m1 m2) /\
    agree delta (val (t_eprobs t e m1 m2)) (IZR (s_edge (t_state t) e m1 m2) + 1 / 2 / INR M).
Proof.
  intros D TK ND HM HA Hc HAc HN HW HC DB t RT.
  assert (HN1 : ((Z.of_nat (num_rows tb) + 1) * 1 < 2 ^ A)%Z) by nia.
  pose proof (lo_ok ws tb M A c HM HA Hc HAc HN HC) as LO. pose proof (cell_good_old ws tb M A c TK ND HM HA Hc HAc HN HW HC) as CG.
  destruct (prior64_spec M HM) as (P1 & P2).
  assert (pA : (2 ^ A <= 2 ^ 16)%Z) by (apply Z.pow_le_mono_r; lia).
  destruct DB as [(a & EM & ->)|DB].
  - assert (Ha : a <= 7).
    { destruct (le_lt_dec a 7) as [|K]; [assumption|]. assert (2 ^ 8 <= 2 ^ a) by (apply Nat.pow_le_mono_r; lia). cbn in *. lia. }
    destruct (reachable_invK treecat_add_cell32 dot ws tb prior M A _ _ (exact_prior (bp (- (Z.of_nat a + 1)))) D TK HM HA HN1 LO CG) with (t := t) as (TI & K); auto.
    + intros n Hn. rewrite EM. apply exact_init; auto. lia.
    + intros x n d N Kx Hn Hd Hnd. apply exact_step; auto; lia.
    + split; [exact TI|]. intros e m1 m2 He H1 H2. destruct (K e m1 m2 He H1 H2) as (K1 & K2). split; [exact K1|]. unfold exact_prior in K2. rewrite K2.
      assert (E : (1 / 2 / INR M = bp (- (Z.of_nat a + 1)))%R).
      { rewrite EM, INR_IZR_INZ, Nat2Z.inj_pow. change (Z.of_nat 2) with (radix_val radix2). rewrite IZR_Zpower by lia. replace (- (Z.of_nat a + 1))%Z with (-1 + - Z.of_nat a)%Z by lia.
        rewrite bpow_plus, bpow_opp. cbn [bpow]. change (Z.pow_pos radix2 1) with 2%Z. unfold Rdiv. f_equal. lra. }
      rewrite E. apply agree_refl; [lra|]. destruct (edge_small ws tb M A 1 HM ltac:(lia) ltac:(lia) HN1 (t_state t) e m1 m2 TI He H1 H2) as (B1 & B2).
      apply IZR_le in B1. pose proof (bp_pos (- (Z.of_nat a + 1))). lra.
  - destruct (reachable_invK treecat_add_cell32 dot ws tb prior M A _ _ (drift A (B2R (prior64 M))) D TK HM HA HN1 LO CG) with (t := t) as (TI & K); auto.
    + intros n Hn. apply drift_init; auto.
    + intros x n d N Kx Hn Hd Hnd. apply drift_step; auto; lia.
    + split; [exact TI|]. intros e m1 m2 He H1 H2. destruct (K e m1 m2 He H1 H2) as (K1 & K2). split; [exact K1|].
      apply (drift_agree M A); auto. apply (edge_small ws tb M A 1 HM ltac:(lia) ltac:(lia) HN1 (t_state t) e m1 m2 TI He H1 H2).
Qed.
