(** Relative errors, and how the operations of float32 add to them. *)
From Coq Require Import List Arith Bool ZArith Reals Lra Lia.
From Flocq Require Import Core Relative IEEE754.BinarySingleNaN.
From Verif Require Import Base Spec_Sum L_Sum M_Float32 M_Train32 Spec_Float32 L_Float32 L_Sample32 L_Train32 L_Train32d M_Serving32 Spec_Serving32 L_Serving32a L_Serving32b Spec_Accuracy.
Import ListNotations.
Open Scope R_scope.

Lemma exp_le a b : a <= b -> exp a <= exp b.
Proof. intros [H| ->]; [left; now apply exp_increasing|lra]. Qed.
Lemma exp_ge1 a : 1 + a <= exp a.
Proof. destruct (Req_dec a 0) as [-> |N]; [rewrite exp_0; lra|]. destruct (Rlt_dec 0 a); [left; now apply exp_ineq1|]. left. now apply exp_ineq1. Qed.
Lemma exp_pos_ge1 a : 0 <= a -> 1 <= exp a.
Proof. intros H. pose proof (exp_ge1 a). lra. Qed.
Lemma exp_neg_le1 a : 0 <= a -> 0 < exp (- a) <= 1.
Proof. intros H. split; [apply exp_pos|]. rewrite <- exp_0. apply exp_le. lra. Qed.

Lemma agree_weak e e' x y : e <= e' -> agree e x y -> agree e' x y.
Proof.
  intros H (P & L & U). split; [exact P|]. split.
  - eapply Rle_trans; [|exact L]. apply Rmult_le_compat_l; [exact P|]. apply exp_le. lra.
  - eapply Rle_trans; [exact U|]. apply Rmult_le_compat_l; [exact P|]. apply exp_le. lra.
Qed.
Lemma agree_refl e x : 0 <= e -> 0 <= x -> agree e x x.
Proof.
  intros He H. split; [exact H|]. pose proof (exp_neg_le1 e He). pose proof (exp_pos_ge1 e He). split; nra.
Qed.
Lemma agree_nonneg e x y : agree e x y -> 0 <= x.
Proof. intros (P & L & _). eapply Rle_trans; [|exact L]. apply Rmult_le_pos; [exact P|]. left. apply exp_pos. Qed.
Lemma agree_pos e x y : agree e x y -> 0 < y -> 0 < x.
Proof. intros (P & L & _) H. eapply Rlt_le_trans; [|exact L]. apply Rmult_lt_0_compat; [exact H|apply exp_pos]. Qed.
Lemma agree_trans e1 e2 x y z : agree e1 x y -> agree e2 y z -> agree (e1 + e2) x z.
Proof.
  intros (P1 & L1 & U1) (P2 & L2 & U2). split; [exact P2|]. rewrite Ropp_plus_distr, !exp_plus.
  pose proof (exp_pos (- e1)). pose proof (exp_pos e1). split.
  - eapply Rle_trans; [|exact L1]. replace (z * (exp (- e1) * exp (- e2))) with (z * exp (- e2) * exp (- e1)) by ring. apply Rmult_le_compat_r; lra.
  - eapply Rle_trans; [exact U1|]. replace (z * (exp e1 * exp e2)) with (z * exp e2 * exp e1) by ring. apply Rmult_le_compat_r; lra.
Qed.
Lemma agree_mul e1 e2 x y x' y' : agree e1 x x' -> agree e2 y y' -> agree (e1 + e2) (x * y) (x' * y').
Proof.
  intros A1 A2. pose proof (agree_nonneg _ _ _ A1) as X0. pose proof (agree_nonneg _ _ _ A2) as Y0.
  destruct A1 as (P1 & L1 & U1), A2 as (P2 & L2 & U2). split; [now apply Rmult_le_pos|]. rewrite Ropp_plus_distr, !exp_plus.
  pose proof (exp_pos (- e1)). pose proof (exp_pos e1). pose proof (exp_pos (- e2)). pose proof (exp_pos e2). split.
  - replace (x' * y' * (exp (- e1) * exp (- e2))) with ((x' * exp (- e1)) * (y' * exp (- e2))) by ring. apply Rmult_le_compat; auto; apply Rmult_le_pos; lra.
  - replace (x' * y' * (exp e1 * exp e2)) with ((x' * exp e1) * (y' * exp e2)) by ring. apply Rmult_le_compat; auto.
Qed.
Lemma agree_inv e x y : agree e x y -> 0 < y -> agree e (/ x) (/ y).
Proof.
  intros A H. pose proof (agree_pos _ _ _ A H) as X. destruct A as (P & L & U). split; [left; now apply Rinv_0_lt_compat|].
  pose proof (exp_pos e). pose proof (exp_pos (- e)). split.
  - rewrite exp_Ropp, <- Rinv_mult. apply Rinv_le; lra.
  - replace (exp e) with (/ exp (- e)) by (rewrite exp_Ropp, Rinv_inv; reflexivity). rewrite <- Rinv_mult. apply Rinv_le; [apply Rmult_lt_0_compat|]; lra.
Qed.
Lemma agree_div e1 e2 x y x' y' : agree e1 x x' -> agree e2 y y' -> 0 < y' -> agree (e1 + e2) (x / y) (x' / y').
Proof. intros A1 A2 H. unfold Rdiv. apply agree_mul; [exact A1|]. now apply agree_inv. Qed.
Lemma agree_add e x y x' y' : agree e x x' -> agree e y y' -> agree e (x + y) (x' + y').
Proof. intros (P1 & L1 & U1) (P2 & L2 & U2). split; [lra|]. rewrite !Rmult_plus_distr_r. lra. Qed.
Lemma agree_pow e x y n : agree e x y -> agree (INR n * e) (x ^ n) (y ^ n).
Proof.
  intros A. induction n as [|n IH]; [cbn; rewrite Rmult_0_l; apply agree_refl; lra|].
  rewrite S_INR. replace ((INR n + 1) * e) with (e + INR n * e) by ring. cbn [pow]. now apply agree_mul.
Qed.
Lemma agree_sum {A} e (l : list A) f g : (forall x, In x l -> agree e (f x) (g x)) -> agree e (sumf l f) (sumf l g).
Proof.
  induction l as [|x l IH]; intros H.
  - cbn. split; [lra|]. rewrite !Rmult_0_l. lra.
  - cbn [sumf fold_right]. apply agree_add; [apply H; now left|]. apply IH. intros; apply H; now right.
Qed.
Lemma agree_ln e x y : agree e x y -> 0 < y -> Rabs (ln x - ln y) <= e.
Proof.
  intros A H. pose proof (agree_pos _ _ _ A H) as X. destruct A as (P & L & U). pose proof (exp_pos e). pose proof (exp_pos (- e)).
  assert (LE : forall a b, 0 < a -> a <= b -> ln a <= ln b) by (intros a b Ha [Hb| ->]; [left; now apply ln_increasing|lra]).
  apply LE in U; [|exact X]. apply LE in L; [|now apply Rmult_lt_0_compat]. rewrite ln_mult, ln_exp in U, L by lra. apply Rabs_le. lra.
Qed.
Lemma agree_err x y : 0 <= y -> Rabs (x - y) <= bp (-24) * y -> agree (bp (-23)) x y.
Proof.
  intros P H. apply Rabs_le_inv in H. change (bp (-23)) with (/ 8388608). change (bp (-24)) with (/ 16777216) in H. split; [exact P|].
  pose proof (exp_ge1 (/ 8388608)) as G. pose proof (exp_pos (/ 8388608)).
  assert (E : exp (- / 8388608) <= 1 - / 16777216).
  { rewrite exp_Ropp. apply Rmult_le_reg_r with (exp (/ 8388608)); [lra|]. rewrite Rinv_l by lra. nra. }
  split; nra.
Qed.

(** ** Rounding *)
Lemma rnd32_agree z : bp (-126) <= z -> agree (bp (-23)) (rnd 24 128 z) z.
Proof.
  intros B. pose proof (bp_pos (-126)) as P126. apply agree_err; [lra|]. unfold rnd.
  pose proof (relative_error_N_FLT radix2 (3 - 128 - 24) 24 p24 (fun x => negb (Z.even x)) z) as E.
  change (round radix2 (SpecFloat.fexp 24 128) ZnearestE z) with (round radix2 (FLT_exp (3 - 128 - 24) 24) (Znearest (fun x => negb (Z.even x))) z).
  change (3 - 128 - 24 + 24 - 1)%Z with (-126)%Z in E. rewrite (Rabs_pos_eq z) in E by lra.
  specialize (E ltac:(lra)). change (bp (- (24) + 1)) with (/ 8388608) in E. change (bp (-24)) with (/ 16777216). lra.
Qed.

Lemma fmul_agree (x y : f32) : fin32 x = true -> fin32 y = true -> bp (-126) <= val x * val y <= bp 126 ->
  fin32 (fmul x y) = true /\ agree (bp (-23)) (val (fmul x y)) (val x * val y).
Proof.
  intros Fx Fy B. pose proof (bp_pos (-126)) as P126. pose proof (bp_pos 128).
  pose proof (Bmult_correct 24 128 p24 e128 mode_NE x y) as C. cbn [round_mode] in C. fold (rnd 24 128 (val x * val y)) in C.
  rewrite (small 24 128 p24 (bp (-126)) (bp 126) (val x * val y)) in C; try (apply fmtb; lia); [|exact B|lra|apply bpow_lt; lia].
  destruct C as (C1 & C2 & _). unfold fmul. rewrite C1, C2, Fx, Fy. split; [reflexivity|]. now apply rnd32_agree.
Qed.
Lemma fdiv_agree (x y : f32) : fin32 x = true -> 0 < val y -> bp (-126) <= val x / val y <= bp 126 ->
  fin32 (fdiv x y) = true /\ agree (bp (-23)) (val (fdiv x y)) (val x / val y).
Proof.
  intros Fx Py B. pose proof (bp_pos (-126)) as P126. pose proof (bp_pos 128).
  pose proof (Bdiv_correct 24 128 p24 e128 mode_NE x y ltac:(lra)) as C. cbn [round_mode] in C. fold (rnd 24 128 (val x / val y)) in C.
  rewrite (small 24 128 p24 (bp (-126)) (bp 126) (val x / val y)) in C; try (apply fmtb; lia); [|exact B|lra|apply bpow_lt; lia].
  destruct C as (C1 & C2 & _). unfold fdiv. rewrite C1, C2, Fx. split; [reflexivity|]. now apply rnd32_agree.
Qed.
Lemma fadd_agree (x y : f32) : fin32 x = true -> fin32 y = true -> 0 <= val x -> 0 <= val y -> val x + val y <= bp 126 ->
  fin32 (fadd x y) = true /\ agree (bp (-23)) (val (fadd x y)) (val x + val y).
Proof.
  intros Fx Fy Px Py B. destruct (fadd_rel x y Fx Fy Px Py B) as (F & _ & _ & R). split; [exact F|]. apply agree_err; [lra|]. apply Rabs_le. lra.
Qed.
Lemma eps_pos : 0 < bp (-23).
Proof. apply bp_pos. Qed.

(** ** Priors *)
Lemma rnd64_agree z : bp (-1022) <= z -> agree (bp (-23)) (rnd 53 1024 z) z.
Proof.
  intros B. pose proof (bp_pos (-1022)) as P126. apply agree_err; [lra|]. unfold rnd.
  pose proof (relative_error_N_FLT radix2 (3 - 1024 - 53) 53 p53 (fun x => negb (Z.even x)) z) as E.
  change (round radix2 (SpecFloat.fexp 53 1024) ZnearestE z) with (round radix2 (FLT_exp (3 - 1024 - 53) 53) (Znearest (fun x => negb (Z.even x))) z).
  change (3 - 1024 - 53 + 53 - 1)%Z with (-1022)%Z in E. rewrite (Rabs_pos_eq z) in E by lra.
  specialize (E ltac:(lra)). eapply Rle_trans; [exact E|]. apply Rmult_le_compat_r; [lra|].
  assert (bp (- (53) + 1) <= bp (-24)) by (apply bpow_le; lia). pose proof (bp_pos (- (53) + 1)). lra.
Qed.

Lemma to32_agree (x : f64) : is_finite x = true -> bp (-126) <= B2R x <= bp 126 -> agree (bp (-23)) (val (to32 x)) (B2R x).
Proof.
  intros Fx B. pose proof (bp_pos (-126)) as P126. pose proof (bp_pos 128). destruct x as [s|s| |s m e Hb]; try discriminate; [cbn in B; lra|].
  cbn [to32]. pose proof (binary_normalize_correct 24 128 p24 e128 mode_NE (SpecFloat.cond_Zopp s (Zpos m)) e s) as C. cbn [round_mode] in C.
  assert (EQ : F2R (Float radix2 (SpecFloat.cond_Zopp s (Zpos m)) e) = B2R (B754_finite s m e Hb)) by reflexivity.
  rewrite EQ in C. fold (rnd 24 128 (B2R (B754_finite s m e Hb))) in C.
  rewrite (small 24 128 p24 (bp (-126)) (bp 126) (B2R (B754_finite s m e Hb))) in C; try (apply fmtb; lia); [|exact B|lra|apply bpow_lt; lia].
  destruct C as (C1 & _). rewrite C1. now apply rnd32_agree.
Qed.

Lemma prior_agree M : (1 <= M <= 128)%nat -> agree (bp (-23) + bp (-23)) (val (to32 (prior64 M))) (1 / 2 / INR M).
Proof.
  intros HM. destruct (prior64_spec M HM) as (P1 & P2). destruct vert_prior64_spec as (V1 & V2).
  destruct (f64_int (Z.of_nat M)) as (I1 & I2); [lia|]. assert (M1 : 1 <= INR M <= 128) by (rewrite INR_IZR_INZ; split; apply IZR_le; lia).
  assert (P0 : 1 / 256 <= 1 / 2 / INR M <= 1 / 2).
  { split; (apply Rmult_le_reg_r with (INR M); [lra|]); [unfold Rdiv at 2|unfold Rdiv at 1]; rewrite Rmult_assoc, Rinv_l by lra; lra. }
  apply agree_trans with (B2R (prior64 M)).
  - apply to32_agree; [exact P1|]. assert (bp (-126) <= bp (-8)) by (apply bpow_le; lia). assert (bp (-1) <= bp 126) by (apply bpow_le; lia). lra.
  - unfold prior64. fold vert_prior64. assert (E : B2R (f64_of (Z.of_nat M) 0) = INR M) by (rewrite I2; symmetry; apply INR_IZR_INZ).
    pose proof (bp_pos 1024). assert (b8 : bp (-8) = 1 / 256) by (cbn; lra). assert (b1 : bp (-1) = 1 / 2) by (cbn; lra).
    pose proof (Bdiv_correct 53 1024 p53 e1024 mode_NE vert_prior64 (f64_of (Z.of_nat M) 0) ltac:(lra)) as C. cbn [round_mode] in C.
    rewrite V2, E, b1 in C. fold (rnd 53 1024 (1 / 2 / INR M)) in C.
    rewrite (small 53 1024 p53 (bp (-8)) (bp (-1)) (1 / 2 / INR M)) in C; try (apply fmt_bpow; [reflexivity|lia]); [|lra|lra|apply bpow_lt; lia].
    destruct C as (C1 & _). unfold ddiv. rewrite C1. apply rnd64_agree. apply Rle_trans with (bp (-8)); [apply bpow_le; lia|lra].
Qed.

Lemma plus_prior_agree M n : (1 <= M <= 128)%nat -> (0 <= n < 2 ^ 16)%Z ->
  agree (3 * bp (-23)) (val (plus_prior n (prior64 M))) (IZR n + 1 / 2 / INR M).
Proof.
  intros HM Hn. destruct (prior32_spec M HM) as (P1 & P2). destruct (f32_int n ltac:(lia)) as (I1 & I2).
  assert (N0 : 0 <= IZR n) by (apply IZR_le; lia). assert (N1 : IZR n <= bp 16) by (change (bp 16) with (IZR (2 ^ 16)); apply IZR_le; lia).
  pose proof (bp_pos (-8)). pose proof eps_pos. assert (E1 : bp (-1) <= 1) by (cbn; lra). assert (bp 16 + 1 <= bp 126).
  { apply Rle_trans with (bp 17); [cbn; lra|apply bpow_le; lia]. }
  unfold plus_prior. replace (3 * bp (-23)) with (bp (-23) + (bp (-23) + bp (-23))) by ring.
  eapply agree_trans; [apply fadd_agree; auto; rewrite ?I2; lra|]. rewrite I2. apply agree_add; [apply agree_refl; lra|now apply prior_agree].
Qed.
Lemma plus_half_agree n : (0 <= n < 2 ^ 16)%Z -> agree (3 * bp (-23)) (val (plus_prior n vert_prior64)) (IZR n + 1 / 2).
Proof.
  intros Hn. destruct vert_prior64_spec as (V1 & V2). destruct (f32_int n ltac:(lia)) as (I1 & I2).
  destruct (to32_bounds vert_prior64 (bp (-1)) (bp (-1)) V1) as (T1 & T2); try (apply fmtb; lia); [lra|apply bpow_ge_0|apply bp128; lia|].
  assert (N0 : 0 <= IZR n) by (apply IZR_le; lia). assert (N1 : IZR n <= bp 16) by (change (bp 16) with (IZR (2 ^ 16)); apply IZR_le; lia).
  pose proof eps_pos. assert (E1 : bp (-1) = 1 / 2) by (cbn; lra). assert (bp 16 + 1 <= bp 126).
  { apply Rle_trans with (bp 17); [cbn; lra|apply bpow_le; lia]. }
  apply agree_weak with (bp (-23)); [lra|]. unfold plus_prior.
  assert (V : val (to32 vert_prior64) = 1 / 2) by lra.
  destruct (fadd_agree (f32_of n 0) (to32 vert_prior64)) as (_ & Q); auto; rewrite ?I2, ?V in *; lra || exact Q.
Qed.

(** ** A library that is accurate *)
Lemma fold_sum_agree l : forall acc j r, Forall (fun x => fin32 x = true /\ 0 <= val x) l ->
  fin32 acc = true -> agree (IZR j * bp (-23)) (val acc) r -> (0 <= j)%Z -> (j + Z.of_nat (length l) <= 2 ^ 16)%Z ->
  r + rsum (map (@B2R 24 128) l) <= bp 120 ->
  agree (IZR (j + Z.of_nat (length l)) * bp (-23)) (val (fold_left fadd l acc)) (r + rsum (map (@B2R 24 128) l)).
Proof.
  induction l as [|x l IH]; intros acc j r F Fa A Hj HL HS.
  - cbn. rewrite Z.add_0_r. unfold rsum, sumf. cbn. now rewrite Rplus_0_r.
  - inversion F as [|? ? (Fx & Px) F']; subst. cbn [length] in *. rewrite Nat2Z.inj_succ in *.
    assert (SE : rsum (map (@B2R 24 128) (x :: l)) = val x + rsum (map (@B2R 24 128) l)) by reflexivity.
    rewrite SE in *.
    assert (SP : 0 <= rsum (map (@B2R 24 128) l)).
    { unfold rsum. rewrite L_Sum.sumf_map. apply sumf_nonneg. intros z Hz. rewrite Forall_forall in F'. apply F'. exact Hz. }
    pose proof (agree_nonneg _ _ _ A) as A0. pose proof eps_pos as EP.
    assert (J1 : 0 <= IZR j * bp (-23) <= 1 / 2).
    { assert (0 <= IZR j <= IZR (2 ^ 16)) by (split; apply IZR_le; lia). change (2 ^ 16)%Z with 65536%Z in H. cbn. lra. }
    assert (AU : val acc <= 2 * r).
    { destruct A as (P & _ & U). eapply Rle_trans; [exact U|]. rewrite Rmult_comm. apply Rmult_le_compat_r; [exact P|].
      apply Rle_trans with (exp (1 / 2)); [apply exp_le; lra|]. pose proof (exp_ge1 (- (1 / 2))) as G. rewrite exp_Ropp in G. pose proof (exp_pos (1 / 2)).
      apply Rmult_le_reg_r with (/ exp (1 / 2)); [now apply Rinv_0_lt_compat|]. rewrite Rinv_r by lra. lra. }
    assert (R0 : 0 <= r) by apply A.
    assert (B120 : bp 126 = 64 * bp 120) by (change 126%Z with (6 + 120)%Z; rewrite bpow_plus; reflexivity).
    pose proof (bp_pos 120) as P120.
    destruct (fadd_agree acc x) as (A1 & A2); auto; [lra|].
    cbn [fold_left]. replace (j + Z.succ (Z.of_nat (length l)))%Z with ((j + 1) + Z.of_nat (length l))%Z by lia. rewrite <- Rplus_assoc.
    apply IH; auto; try lia; try lra. rewrite plus_IZR. replace ((IZR j + 1) * bp (-23)) with (bp (-23) + IZR j * bp (-23)) by ring.
    eapply agree_trans; [exact A2|]. apply agree_add; [exact A|]. apply agree_refl; lra.
Qed.

Lemma fdot_agree l : forall acc j r, Forall (fun p => (fin32 (fst p) = true /\ 0 <= val (fst p)) /\ (fin32 (snd p) = true /\ 0 <= val (snd p)) /\ bp (-126) <= val (fst p) * val (snd p)) l ->
  fin32 acc = true -> agree (IZR j * bp (-23)) (val acc) r -> (1 <= j)%Z -> (j + Z.of_nat (length l) <= 2 ^ 16)%Z ->
  r + sumf l (fun p => val (fst p) * val (snd p)) <= bp 120 ->
  agree (IZR (j + Z.of_nat (length l)) * bp (-23)) (val (fdot acc l)) (r + sumf l (fun p => val (fst p) * val (snd p))).
Proof.
  induction l as [|[x y] l IH]; intros acc j r F Fa A Hj HL HS.
  - cbn. rewrite Z.add_0_r. now rewrite Rplus_0_r.
  - inversion F as [|? ? ((Fx & Px) & (Fy & Py) & PP) F']; subst. cbn [length fst snd] in *. rewrite Nat2Z.inj_succ in *.
    assert (SE : sumf ((x, y) :: l) (fun p => val (fst p) * val (snd p)) = val x * val y + sumf l (fun p => val (fst p) * val (snd p))) by reflexivity.
    rewrite SE in *.
    assert (SP : 0 <= sumf l (fun p => val (fst p) * val (snd p))).
    { apply sumf_nonneg. intros z Hz. rewrite Forall_forall in F'. apply F' in Hz. apply Rmult_le_pos; tauto. }
    pose proof (agree_nonneg _ _ _ A) as A0. pose proof eps_pos as EP.
    assert (J1 : 0 <= IZR j * bp (-23) <= 1 / 2 /\ bp (-23) <= 1 / 2).
    { assert (0 <= IZR j <= IZR (2 ^ 16)) by (split; apply IZR_le; lia). change (2 ^ 16)%Z with 65536%Z in H. cbn. lra. }
    assert (X2 : exp (1 / 2) <= 2).
    { pose proof (exp_ge1 (- (1 / 2))) as G. rewrite exp_Ropp in G. pose proof (exp_pos (1 / 2)).
      apply Rmult_le_reg_r with (/ exp (1 / 2)); [now apply Rinv_0_lt_compat|]. rewrite Rinv_r by lra. lra. }
    assert (TW : forall e p q, agree e p q -> e <= 1 / 2 -> p <= 2 * q).
    { intros e p q (P & _ & U) H. eapply Rle_trans; [exact U|]. rewrite Rmult_comm. apply Rmult_le_compat_r; [exact P|].
      apply Rle_trans with (exp (1 / 2)); [apply exp_le; lra|exact X2]. }
    pose proof (TW _ _ _ A ltac:(lra)) as AU. assert (R0 : 0 <= r) by apply A.
    assert (B120 : bp 126 = 64 * bp 120) by (change 126%Z with (6 + 120)%Z; rewrite bpow_plus; reflexivity).
    pose proof (bp_pos 120) as P120.
    destruct (fmul_agree x y) as (M1 & M2); auto; [lra|]. pose proof (TW _ _ _ M2 ltac:(lra)) as MU. pose proof (agree_nonneg _ _ _ M2) as M0.
    destruct (fadd_agree acc (fmul x y)) as (A1 & A2); auto; [lra|].
    cbn [fdot]. replace (j + Z.succ (Z.of_nat (length l)))%Z with ((j + 1) + Z.of_nat (length l))%Z by lia. rewrite <- Rplus_assoc.
    apply IH; auto; try lia; try lra. rewrite plus_IZR. replace ((IZR j + 1) * bp (-23)) with (bp (-23) + IZR j * bp (-23)) by ring.
    eapply agree_trans; [exact A2|]. apply agree_add; [exact A|]. eapply agree_weak; [|exact M2]. assert (1 <= IZR j) by (apply IZR_le; lia). nra.
Qed.

Lemma floor_pow_agree x n : fin32 x = true -> 0 < val x <= 1 -> (0 <= n)%Z -> bp (-126) <= val x ^ Z.to_nat n ->
  agree (3 * bp (-23)) (val (floor_pow x n)) (val x ^ Z.to_nat n).
Proof.
  intros Fx Bx Hn B. set (y := val x ^ Z.to_nat n) in *. assert (Y : 0 < y <= 1) by (apply pow_le1; exact Bx).
  assert (E149 : bp 149 * bp (-149) = 1) by (rewrite <- bpow_plus; reflexivity).
  pose proof (bp_pos 149) as P1. pose proof (bp_pos (-149)) as P2. pose proof (bp_pos (-126)) as P3.
  set (z := IZR (Zfloor (y * bp 149)) * bp (-149)).
  assert (ZU : z <= y).
  { unfold z. apply Rle_trans with (y * bp 149 * bp (-149)); [|rewrite Rmult_assoc, E149; lra].
    apply Rmult_le_compat_r; [lra|]. apply Zfloor_lb. }
  assert (ZL : y - bp (-149) <= z).
  { unfold z. apply Rle_trans with ((y * bp 149 - 1) * bp (-149)); [rewrite Rmult_minus_distr_r, Rmult_assoc, E149; lra|].
    apply Rmult_le_compat_r; [lra|]. pose proof (Zfloor_ub (y * bp 149)). lra. }
  assert (Z126 : bp (-126) <= z).
  { unfold z. replace (bp (-126)) with (IZR (2 ^ 23) * bp (-149)).
    - apply Rmult_le_compat_r; [lra|]. apply IZR_le. apply Zfloor_lub. change (IZR (2 ^ 23)) with (bp 23). replace (bp 23) with (bp (-126) * bp 149) by (rewrite <- bpow_plus; reflexivity). apply Rmult_le_compat_r; lra.
    - change (IZR (2 ^ 23)) with (bp 23). rewrite <- bpow_plus. reflexivity. }
  assert (S149 : bp (-149) = bp (-23) * bp (-126)) by (rewrite <- bpow_plus; reflexivity). pose proof eps_pos as EP.
  replace (3 * bp (-23)) with (bp (-23) + 2 * bp (-23)) by ring. apply agree_trans with z.
  - unfold floor_pow, f32_of. fold y. pose proof (binary_normalize_correct 24 128 p24 e128 mode_NE (Zfloor (y * bp 149)) (-149) false) as C. cbn [round_mode] in C.
    assert (EQ : F2R (Float radix2 (Zfloor (y * bp 149)) (-149)) = z) by reflexivity. rewrite EQ in C. fold (rnd 24 128 z) in C. pose proof (bp_pos 128).
    assert (b0 : bp 0 = 1) by reflexivity.
    rewrite (small 24 128 p24 (bp (-126)) (bp 0) z) in C; try (apply fmtb; lia); [|rewrite b0; lra|lra|apply bpow_lt; lia].
    destruct C as (C1 & _). rewrite C1. now apply rnd32_agree.
  - split; [lra|]. pose proof (exp_pos_ge1 (2 * bp (-23)) ltac:(lra)). split; [|nra].
    apply Rle_trans with (y * (1 - bp (-23))).
    + apply Rmult_le_compat_l; [lra|]. rewrite exp_Ropp. pose proof (exp_ge1 (2 * bp (-23))) as G. pose proof (exp_pos (2 * bp (-23))).
      apply Rmult_le_reg_r with (exp (2 * bp (-23))); [lra|]. rewrite Rinv_l by lra. assert (bp (-23) <= 1 / 4) by (cbn; lra). nra.
    + rewrite Rmult_minus_distr_l. assert (bp (-149) <= y * bp (-23)) by (rewrite S149, Rmult_comm; apply Rmult_le_compat_r; lra). lra.
Qed.

Lemma floor_log_near x : fin32 x = true -> 0 < val x -> Rabs (val (floor_log x) - ln (val x)) <= bp (-10).
Proof.
  intros Fx Px. destruct floor_log_ok as (LO & _). destruct (LO x Fx Px) as (_ & B128).
  assert (E : floor_log x = f32_of (Zfloor (ln (val x) * bp 10)) (-10)).
  { destruct x as [s|s| |s m e H]; try discriminate; [cbn in Px; lra|]. destruct s; [|reflexivity].
    exfalso. revert Px. apply Rle_not_lt. apply F2R_le_0. cbn. lia. }
  assert (L1 : bp (-149) <= val x).
  { destruct x as [s|s| |s m e H]; try discriminate; [cbn in Px; lra|]. destruct s.
    - exfalso. revert Px. apply Rle_not_lt. apply F2R_le_0. cbn. lia.
    - cbn [B2R]. unfold F2R. cbn [Fnum Fexp SpecFloat.cond_Zopp cond_Zopp].
      assert (E' : (-149 <= e)%Z).
      { pose proof H as H'. unfold SpecFloat.bounded in H'. apply andb_true_iff in H'. destruct H' as (H' & _). apply Zeq_bool_eq in H'.
        unfold SpecFloat.fexp, SpecFloat.emin in H'. lia. }
      apply Rle_trans with (1 * bp e); [rewrite Rmult_1_l; apply bpow_le; exact E'|].
      apply Rmult_le_compat_r; [apply bpow_ge_0|]. apply IZR_le. lia. }
  assert (L2 : val x < bp 128) by apply (B2R_lt 24 128 x).
  pose proof ln2_small as N2. pose proof (bp_pos (-149)) as P149. assert (N0 : 0 < ln 2) by (rewrite <- ln_1; apply ln_increasing; lra).
  assert (LB : -128 <= ln (val x) <= 110).
  { split.
    - apply Rle_trans with (ln (bp (-149))); [rewrite ln_bp; lra|]. destruct L1 as [L|<-]; [|lra]. apply Rlt_le, ln_increasing; lra.
    - apply Rle_trans with (ln (bp 128)); [apply Rlt_le, ln_increasing; lra|]. rewrite ln_bp. lra. }
  set (n := Zfloor (ln (val x) * bp 10)) in *.
  assert (E10 : bp 10 * bp (-10) = 1) by (rewrite <- bpow_plus; reflexivity). pose proof (bp_pos (-10)). pose proof (bp_pos 10).
  assert (NB : (-131072 <= n <= 131072)%Z).
  { split; [apply Zfloor_lub; cbn; lra|]. apply le_IZR. eapply Rle_trans; [apply Zfloor_lb|]. cbn. lra. }
  assert (V : val (floor_log x) = IZR n * bp (-10)).
  { rewrite E. unfold f32_of. assert (F : fmt32 (IZR n * bp (-10))) by (apply fmt_int; [reflexivity|change (2 ^ 24)%Z with 16777216%Z; lia|lia]).
    assert (BB : - bp 128 < IZR n * bp (-10) < bp 128).
    { assert (B : -131072 <= IZR n <= 131072) by (split; apply IZR_le; lia). assert (131072 < bp 128) by (change 131072 with (bp 17); apply bpow_lt; lia).
      assert (bp (-10) <= 1) by (cbn; lra). split; nra. }
    destruct (normalize_bounds 24 128 p24 e128 n (-10) false _ _ F F) as (_ & Q); [lra|tauto|tauto|]. lra. }
  rewrite V. pose proof (Zfloor_lb (ln (val x) * bp 10)) as G1. pose proof (Zfloor_ub (ln (val x) * bp 10)) as G2. fold n in G1, G2.
  apply Rabs_le. assert (ln (val x) = ln (val x) * bp 10 * bp (-10)) by (rewrite Rmult_assoc, E10; ring).
  set (y := ln (val x) * bp 10) in *. rewrite H1. split; nra.
Qed.

Lemma lib0_accurate W : (3 <= W < 2 ^ 16)%Z -> accurate W (IZR (W + 1) * bp (-23)) (bp (-10)) lib0.
Proof.
  intros HW. pose proof eps_pos as EP. split; [|split; [|split]]; cbn [l_sum l_dot l_pow l_log lib0].
  - intros l HL F S. assert (Z0 : agree (IZR 0 * bp (-23)) (val fzero) 0) by (rewrite Rmult_0_l; apply agree_refl; cbn; lra).
    pose proof (fold_sum_agree l fzero 0 0 F eq_refl Z0 ltac:(lia) ltac:(lia)) as G. rewrite Rplus_0_l in G. specialize (G S).
    eapply agree_weak; [|exact G]. apply Rmult_le_compat_r; [lra|]. apply IZR_le. lia.
  - intros x y EL HL Fx Fy FP S. assert (LC : length (combine x y) = length x) by (rewrite combine_length; lia).
    assert (Z1 : agree (IZR 1 * bp (-23)) (val fzero) 0) by (rewrite Rmult_1_l; apply agree_refl; cbn; lra).
    pose proof (fdot_agree (combine x y) fzero 1 0) as G. rewrite Rplus_0_l, LC in G.
    eapply agree_weak; [|apply G; auto; try lia].
    + apply Rmult_le_compat_r; [lra|]. apply IZR_le. lia.
    + rewrite Forall_forall in *. intros [p q] I. split; [apply Fx; eapply in_combine_l; eauto|]. split; [apply Fy; eapply in_combine_r; eauto|]. apply (FP _ I).
  - intros x n Fx Bx Hn B. eapply agree_weak; [|apply floor_pow_agree; auto]. apply Rmult_le_compat_r; [lra|]. apply IZR_le. lia.
  - intros x Fx Px. now apply floor_log_near.
Qed.
