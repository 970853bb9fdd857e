(** The float32 tables of a server. *)
From Coq Require Import List Arith Bool ZArith Reals Lra Lia.
From Flocq Require Import Core IEEE754.BinarySingleNaN.
From Verif Require Import Base L_Base Spec_Graph Spec_Sum L_Sum M_Structure L_Pairing L_MakeTree L_Program L_ProgramValid Spec_Program L_Center L_Prop1 M_Util Spec_Ragged L_Ragged M_Array M_Training Spec_Stats L_Stats L_Trainer Spec_Conditional L_AddRow
  M_Float32 M_Train32 Spec_Float32 L_Float32 L_Sample32 L_Train32 L_Train32d M_Serving Spec_Serving L_Server M_Serving32 Spec_Serving32.
Import ListNotations.
Open Scope R_scope.

(** ** Counts and priors *)
Lemma prior32_spec M : (1 <= M <= 128)%nat -> fin32 (to32 (prior64 M)) = true /\ bp (-8) <= val (to32 (prior64 M)) <= bp (-1).
Proof.
  intros HM. destruct (prior64_spec M HM) as (P1 & P2). pose proof (bp_pos (-8)).
  apply to32_bounds; auto; try (apply fmtb; lia); [lra|apply bp128; lia].
Qed.

Lemma plus_prior_near M n : (1 <= M <= 128)%nat -> (0 <= n < 2 ^ 16)%Z -> near (plus_prior n (prior64 M)) n.
Proof.
  intros HM Hn. destruct (prior32_spec M HM) as (P1 & P2). destruct (f32_int n ltac:(lia)) as (I1 & I2).
  assert (N0 : 0 <= IZR n) by (apply IZR_le; lia). assert (N1 : IZR n <= bp 16) by (change (bp 16) with (IZR (2 ^ 16)); apply IZR_le; lia).
  pose proof (bp_pos (-8)). assert (E1 : bp (-1) <= 1) by (cbn; lra). assert (bp 16 + 1 < bp 128).
  { apply Rlt_trans with (bp 17); [cbn; lra|apply bpow_lt; lia]. }
  unfold plus_prior. apply fadd_bounds; auto; rewrite ?I2; try lra; [now apply fmt_near8|now apply fmt_near1].
Qed.

Lemma plus_half n : (0 <= n < 2 ^ 16)%Z -> fin32 (plus_prior n vert_prior64) = true /\ bp (-1) <= val (plus_prior n vert_prior64) <= IZR n + bp (-1).
Proof.
  intros Hn. destruct vert_prior64_spec as (V1 & V2). destruct (f32_int n ltac:(lia)) as (I1 & I2).
  pose proof (bp_pos (-1)).
  destruct (to32_bounds vert_prior64 (bp (-1)) (bp (-1)) V1) as (T1 & T2); try (apply fmtb; lia); [lra|lra|apply bp128; lia|].
  assert (N0 : 0 <= IZR n) by (apply IZR_le; lia). assert (N1 : IZR n <= bp 16) by (change (bp 16) with (IZR (2 ^ 16)); apply IZR_le; lia).
  assert (E1 : bp (-1) <= 1) by (cbn; lra). assert (bp 16 + 1 < bp 128).
  { apply Rlt_trans with (bp 17); [cbn; lra|apply bpow_lt; lia]. }
  unfold plus_prior. apply fadd_bounds; auto; rewrite ?I2; try lra; [apply fmtb; lia|now apply fmt_near1].
Qed.

(** The prior 0.5 / M, within a factor of two. *)
Lemma prior_rel M : (1 <= M <= 128)%nat -> exists k, (-9 <= k <= -1)%Z /\ bp k <= 1 / 2 / INR M <= 2 * bp k /\
  bp k <= val (to32 (prior64 M)) <= 2 * bp k.
Proof.
  intros HM. set (p := 1 / 2 / INR M).
  assert (M1 : 1 <= INR M <= 128) by (rewrite INR_IZR_INZ; split; apply IZR_le; lia).
  assert (P0 : 1 / 256 <= p <= 1 / 2).
  { unfold p. split.
    - apply Rmult_le_reg_r with (INR M); [lra|]. unfold Rdiv at 2. rewrite Rmult_assoc, Rinv_l by lra. lra.
    - apply Rmult_le_reg_r with (INR M); [lra|]. unfold Rdiv at 1. rewrite Rmult_assoc, Rinv_l by lra. lra. }
  destruct (mag radix2 p) as (k & Hk). assert (Hk' := Hk ltac:(lra)). rewrite Rabs_pos_eq in Hk' by lra. clear Hk.
  assert (K1 : (k - 1 < 0)%Z). { apply (lt_bpow radix2). cbn [bpow]. lra. }
  assert (K2 : (-8 < k)%Z). { apply (lt_bpow radix2). apply Rle_lt_trans with p; [cbn; lra|tauto]. }
  assert (K3 : bp k = 2 * bp (k - 1)) by (replace k with (1 + (k - 1))%Z at 1 by lia; rewrite bpow_plus; reflexivity).
  exists (k - 1)%Z. split; [lia|]. split; [lra|]. rewrite <- K3.
  destruct vert_prior64_spec as (V1 & V2). destruct (f64_int (Z.of_nat M)) as (I1 & I2); [lia|].
  assert (D : is_finite (prior64 M) = true /\ bp (k - 1) <= B2R (prior64 M) <= bp k).
  { unfold prior64. fold vert_prior64. pose proof (bp_pos (k - 1)). assert (B2R (f64_of (Z.of_nat M) 0) = INR M) by (rewrite I2; symmetry; apply INR_IZR_INZ).
    apply div_bounds; auto; try (apply fmt_bpow; [reflexivity|lia]).
    - rewrite H0. lra.
    - rewrite V2, H0. replace (bp (-1) / INR M) with p by (unfold p; cbn; lra). lra.
    - pose proof (bp_pos 1024). lra.
    - apply bpow_lt. lia. }
  destruct D as (D1 & D2). pose proof (bp_pos (k - 1)).
  apply to32_bounds; auto; try (apply fmtb; lia); [lra|apply bp128; lia].
Qed.

Lemma plus_prior_rel M n : (1 <= M <= 128)%nat -> (0 <= n < 2 ^ 16)%Z ->
  (IZR n + 1 / 2 / INR M) / 2 <= val (plus_prior n (prior64 M)) <= 2 * (IZR n + 1 / 2 / INR M).
Proof.
  intros HM Hn. assert (M1 : 1 <= INR M <= 128) by (rewrite INR_IZR_INZ; split; apply IZR_le; lia).
  assert (P0 : 0 < 1 / 2 / INR M <= 1 / 2).
  { split; [apply Rdiv_lt_0_compat; lra|]. apply Rmult_le_reg_r with (INR M); [lra|]. unfold Rdiv at 1. rewrite Rmult_assoc, Rinv_l by lra. lra. }
  destruct (Z.eq_dec n 0) as [-> | N].
  - destruct (prior_rel M HM) as (k & Hk & P1 & P2). destruct (prior32_spec M HM) as (F & _).
    destruct (f32_int 0 ltac:(lia)) as (I1 & I2). pose proof (bp_pos k).
    assert (K3 : 2 * bp k = bp (1 + k)) by (rewrite bpow_plus; reflexivity).
    destruct (fadd_bounds (f32_of 0 0) (to32 (prior64 M)) (bp k) (bp (1 + k)) I1 F) as (A1 & A2); try (apply fmtb; lia); try (apply bp128; lia); try lra.
    unfold plus_prior. lra.
  - destruct (plus_prior_near M n HM Hn) as (_ & A). assert (1 <= IZR n) by (apply IZR_le; lia). assert (bp (-1) = 1 / 2) by (cbn; lra). pose proof (bp_pos (-8)). lra.
Qed.

(** ** Normalisation *)
Lemma rsum_ge l x : (forall y, In y l -> 0 <= y) -> In x l -> x <= rsum l.
Proof.
  unfold rsum. induction l as [|y l IH]; intros P I; [destruct I|]. cbn [sumf fold_right]. fold (sumf l (fun x => x)).
  assert (0 <= sumf l (fun x => x)) by (apply sumf_nonneg; intros; apply P; now right).
  destruct I as [-> | I]; [lra|]. specialize (IH (fun y I => P y (or_intror I)) I). pose proof (P y (or_introl eq_refl)). lra.
Qed.

Lemma norm_spec sum l x : sum_ok sum -> (Z.of_nat (length l) <= 2 ^ 16)%Z -> Forall (fun x => fin32 x = true /\ 0 <= val x) l ->
  rsum (map (@B2R 24 128) l) <= bp 120 -> In x l -> (exists y, In y l /\ 0 < val y) ->
  fin32 (fdiv x (sum l)) = true /\ 0 <= val (fdiv x (sum l)) <= 1 /\
  (forall k, (-149 <= k <= 0)%Z -> bp k * (2 * rsum (map (@B2R 24 128) l)) <= val x -> bp k <= val (fdiv x (sum l))) /\
  fin32 (sum l) = true /\ 0 < val (sum l).
Proof.
  intros (SO & _) HL F S I (y & Iy & Py). destruct (SO l HL F S) as (S1 & S2 & S3). clear SO.
  rewrite Forall_forall in F. destruct (F x I) as (Fx & Px). pose proof (S3 x I) as Lx. pose proof (S3 y Iy) as Ly.
  assert (P : 0 < val (sum l)) by lra.
  assert (Q1 : val x / val (sum l) <= 1) by (apply Rmult_le_reg_r with (val (sum l)); [lra|]; unfold Rdiv; rewrite Rmult_assoc, Rinv_l by lra; lra).
  assert (Q0 : 0 <= val x / val (sum l)) by (apply Rmult_le_pos; [lra|apply Rlt_le, Rinv_0_lt_compat; lra]).
  assert (B1 : bp 0 = 1) by reflexivity.
  destruct (fdiv_bounds x (sum l) 0 (bp 0)) as (D1 & D2); auto; try (apply fmtb; lia); try (apply bp128; lia); try (rewrite B1; lra); [apply (fmt_0 24 128)|lra|].
  rewrite B1 in D2. split; [exact D1|]. split; [exact D2|]. split; [|split; [exact S1|exact P]].
  intros k Hk L. pose proof (bp_pos k). assert (B0 : bp k <= 1) by (rewrite <- B1; apply bpow_le; lia).
  destruct (fdiv_bounds x (sum l) (bp k) (bp 0)) as (E1 & E2); auto; try (apply fmtb; lia); try (apply bp128; lia); [|lra|tauto].
  rewrite B1. split; [|exact Q1]. apply Rmult_le_reg_r with (val (sum l)); [lra|]. unfold Rdiv. rewrite (Rmult_assoc (val x)), Rinv_l by lra.
  rewrite Rmult_1_r. eapply Rle_trans; [|exact L]. apply Rmult_le_compat_l; [lra|]. lra.
Qed.

Lemma rsum_map_vec (f : nat -> f32) M : rsum (map (@B2R 24 128) (vec M f)) = sumf (seq 0 M) (fun c => val (f c)).
Proof. unfold vec, rsum. rewrite map_map, sumf_map. reflexivity. Qed.
