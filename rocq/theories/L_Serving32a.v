(** Libraries that meet the contracts: sums from left to right, powers and
    logarithms rounded from the exact value. *)
From Coq Require Import List Arith Bool ZArith Reals Lra Lia.
From Flocq Require Import Core Plus_error Relative IEEE754.BinarySingleNaN.
From Verif Require Import Base Spec_Sum L_Sum M_Float32 M_Train32 Spec_Float32 L_Float32 L_Sample32 L_Train32d M_Serving32 Spec_Serving32.
Import ListNotations.
Open Scope R_scope.

Definition seq_sum (l : list f32) : f32 := fold_left fadd l fzero.

Lemma fadd_rel (x y : f32) : fin32 x = true -> fin32 y = true -> 0 <= val x -> 0 <= val y -> val x + val y <= bp 126 ->
  fin32 (fadd x y) = true /\ val x <= val (fadd x y) /\ val y <= val (fadd x y) /\ (val x + val y) * (1 - bp (-24)) <= val (fadd x y) <= (val x + val y) * (1 + bp (-24)).
Proof.
  intros Fx Fy Px Py B.
  assert (B1 : bp 126 < bp 128) by (apply bpow_lt; lia).
  destruct (fadd_bounds x y (val x) (bp 126) Fx Fy (fmt_B2R _ _ _) (fmtb 126 ltac:(lia))) as (F & B2); [lra|lra|lra|].
  destruct (fadd_bounds x y (val y) (bp 126) Fx Fy (fmt_B2R _ _ _) (fmtb 126 ltac:(lia))) as (_ & B3); [lra|lra|lra|].
  split; [exact F|]. split; [lra|]. split; [lra|].
  pose proof (Bplus_correct 24 128 p24 e128 mode_NE x y Fx Fy) as C. cbn [round_mode] in C. fold (rnd 24 128 (val x + val y)) in C.
  rewrite (small 24 128 p24 (val x) (bp 126) (val x + val y)) in C; [|apply fmt_B2R|apply fmtb; lia|lra|pose proof (bpow_gt_0 radix2 128); lra|lra].
  destruct C as (C & _). unfold fadd. rewrite C. unfold rnd.
  destruct (FLT_plus_error_N_ex (prec_gt_0_ := p24) radix2 (3 - 128 - 24) 24 (fun x => negb (Z.even x)) (val x) (val y) (fmt_B2R 24 128 x) (fmt_B2R 24 128 y)) as (eps & E1 & E2).
  change (round radix2 (SpecFloat.fexp 24 128) ZnearestE (val x + val y)) with
    (round radix2 (FLT_exp (3 - 128 - 24) 24) (Znearest (fun x => negb (Z.even x))) (val x + val y)).
  rewrite E2.
  assert (U : u_ro radix2 24 = bp (-24)) by (unfold u_ro; cbn; lra).
  rewrite U in E1. pose proof (bp_pos (-24)) as P. apply Rabs_le_inv in E1.
  assert (bp (-24) / (1 + bp (-24)) <= bp (-24)).
  { apply Rmult_le_reg_r with (1 + bp (-24)); [lra|]. unfold Rdiv. rewrite Rmult_assoc, Rinv_l by lra. nra. }
  split; apply Rmult_le_compat_l; lra.
Qed.

Lemma fold_sum l : forall acc j r, Forall (fun x => fin32 x = true /\ 0 <= val x) l ->
  fin32 acc = true -> 0 <= val acc -> r * (1 - 2 * IZR j * bp (-24)) <= val acc <= r * (1 + 2 * IZR j * bp (-24)) -> 0 <= r -> (0 <= j)%Z -> (j + Z.of_nat (length l) <= 2 ^ 16)%Z ->
  r + rsum (map (@B2R 24 128) l) <= bp 120 ->
  fin32 (fold_left fadd l acc) = true /\ val acc <= val (fold_left fadd l acc) /\
  127 / 128 * (r + rsum (map (@B2R 24 128) l)) <= val (fold_left fadd l acc) <= 129 / 128 * (r + rsum (map (@B2R 24 128) l)) /\
  forall x, In x l -> val x <= val (fold_left fadd l acc).
Proof.
  induction l as [|x l IH]; intros acc j r F Fa B0 Ba Hr Hj HL HS.
  - cbn. split; [exact Fa|]. split; [lra|]. split; [|tauto].
    assert (IZR j <= IZR (2 ^ 16)) by (apply IZR_le; cbn [length] in HL; lia).
    assert (IJ : 0 <= IZR j) by (apply IZR_le; lia). assert (0 <= 2 * IZR j * bp (-24) <= 1 / 128). { cbn. change (2 ^ 16)%Z with 65536%Z in H. lra. }
    unfold rsum, sumf. cbn [map fold_right]. set (a := 2 * IZR j * bp (-24)) in *. cbn. split; nra.
  - inversion F as [|? ? (Fx & Px) F']; subst. cbn [length] in HL. rewrite Nat2Z.inj_succ in HL.
    assert (SE : rsum (map (@B2R 24 128) (x :: l)) = val x + rsum (map (@B2R 24 128) l)) by reflexivity.
    rewrite SE in HS.
    assert (SP : 0 <= rsum (map (@B2R 24 128) l)).
    { unfold rsum. rewrite L_Sum.sumf_map. apply sumf_nonneg. intros z Hz. rewrite Forall_forall in F'. apply F'. exact Hz. }
    assert (J1 : 0 <= 2 * IZR j * bp (-24) <= 1).
    { assert (0 <= IZR j <= IZR (2 ^ 16)) by (split; apply IZR_le; lia). change (2 ^ 16)%Z with 65536%Z in H. cbn. lra. }
    assert (B120 : bp 126 = 64 * bp 120) by (change 126%Z with (6 + 120)%Z; rewrite bpow_plus; reflexivity).
    pose proof (bp_pos 120) as P120.
    destruct (fadd_rel acc x) as (A1 & A2 & A3 & A4); auto; [nra|].
    destruct (IH (fadd acc x) (j + 1)%Z (r + val x)) as (I1 & I2 & I3 & I4); auto; [lra| |lra|lia|lia|lra|].
    + rewrite plus_IZR.
      pose proof (bp_pos (-24)) as P24. set (u := bp (-24)) in *. assert (U1 : u <= 1) by (unfold u; cbn; lra). set (a := 2 * IZR j * u) in *.
      replace (2 * (IZR j + 1) * u) with (a + 2 * u) by (unfold a; ring). split.
      * eapply Rle_trans; [|exact (proj1 A4)]. apply Rle_trans with ((r + val x) * (1 - a) * (1 - u)).
        -- rewrite Rmult_assoc. apply Rmult_le_compat_l; [lra|]. nra.
        -- apply Rmult_le_compat_r; [lra|]. nra.
      * eapply Rle_trans; [exact (proj2 A4)|]. apply Rle_trans with ((r + val x) * (1 + a) * (1 + u)).
        -- apply Rmult_le_compat_r; [lra|]. nra.
        -- rewrite Rmult_assoc. apply Rmult_le_compat_l; [lra|]. nra.
    + cbn [fold_left]. split; [exact I1|]. split; [lra|]. split; [rewrite SE; lra|].
      intros z [<-|Hz]; [lra|auto].
Qed.

Lemma fadd_nan_l x : fadd B754_nan x = B754_nan.
Proof. destruct x; reflexivity. Qed.
Lemma fadd_nan_r x : fadd x B754_nan = B754_nan.
Proof. destruct x; reflexivity. Qed.

Lemma seq_sum_ok : sum_ok seq_sum.
Proof.
  split.
  - intros l HL F S. destruct (fold_sum l fzero 0 0 F) as (A1 & A2 & A3 & A4); auto; try lia; try lra; try (change (val fzero) with 0; lra).
    + change (val fzero) with 0 in A2. unfold seq_sum. split; [exact A1|]. split; [lra|exact A4].
  - intros l. unfold seq_sum. generalize fzero. induction l as [|x l IH]; intros acc I; [destruct I|].
    cbn [fold_left]. destruct I as [->|I]; [|auto]. rewrite fadd_nan_r.
    clear. induction l as [|x l IH]; [reflexivity|]. cbn [fold_left]. rewrite fadd_nan_l. exact IH.
Qed.

(** ** Powers *)
Definition floor_pow (x : f32) (n : Z) : f32 := f32_of (Zfloor (val x ^ Z.to_nat n * bp 149)) (-149).

Lemma pow_le1 x n : 0 < x <= 1 -> 0 < x ^ n <= 1.
Proof.
  intros H. induction n; cbn; [lra|]. split; [apply Rmult_lt_0_compat; lra|]. nra.
Qed.

Lemma floor_pow_ok : pow_ok floor_pow.
Proof.
  intros x n Fx Bx Hn. set (y := val x ^ Z.to_nat n). assert (Y : 0 < y <= 1) by (apply pow_le1; exact Bx).
  assert (E149 : bp 149 * bp (-149) = 1) by (rewrite <- bpow_plus; reflexivity).
  pose proof (bp_pos 149) as P1. pose proof (bp_pos (-149)) as P2.
  set (z := IZR (Zfloor (y * bp 149)) * bp (-149)).
  assert (Z0 : 0 <= z).
  { apply Rmult_le_pos; [|lra]. apply IZR_le. apply Zfloor_lub. apply Rmult_le_pos; lra. }
  assert (ZU : z <= y).
  { unfold z. apply Rle_trans with (y * bp 149 * bp (-149)); [|rewrite Rmult_assoc, E149; lra].
    apply Rmult_le_compat_r; [lra|]. apply Zfloor_lb. }
  assert (ZL : forall k, (-149 <= k)%Z -> bp k <= y -> bp k <= z).
  { intros k Hk L. unfold z. replace (bp k) with (IZR (2 ^ (k + 149)) * bp (-149)).
    - apply Rmult_le_compat_r; [lra|]. apply IZR_le. apply Zfloor_lub. change (2 ^ (k + 149))%Z with (radix2 ^ (k + 149))%Z.
      rewrite IZR_Zpower by lia. rewrite bpow_plus. apply Rmult_le_compat_r; lra.
    - change (2 ^ (k + 149))%Z with (radix2 ^ (k + 149))%Z. rewrite IZR_Zpower by lia. rewrite bpow_plus, Rmult_assoc, E149. ring. }
  assert (NB : forall lo hi, fmt32 lo -> fmt32 hi -> lo <= z <= hi -> 0 <= lo -> hi < bp 128 -> fin32 (floor_pow x n) = true /\ lo <= val (floor_pow x n) <= hi).
  { intros lo hi F1 F2 B L H. unfold floor_pow, f32_of. apply normalize_bounds; auto. pose proof (bpow_gt_0 radix2 128). lra. }
  assert (B1 : bp 0 = 1) by reflexivity.
  destruct (NB 0 (bp 0) (fmt_0 24 128) (fmtb 0 ltac:(lia))) as (N1 & N2); [rewrite B1; lra|lra|apply bp128; lia|]. rewrite B1 in N2.
  split; [exact N1|]. split; [exact N2|].
  destruct (mag radix2 y) as (k & Hk). assert (Hk' := Hk ltac:(lra)). rewrite Rabs_pos_eq in Hk' by lra. clear Hk.
  assert (K1 : (k - 1 <= 0)%Z).
  { apply Z.nlt_ge. intros K. assert (bp 0 < bp (k - 1)) by (apply bpow_lt; lia). rewrite B1 in H. lra. }
  assert (K2 : bp k = 2 * bp (k - 1)) by (replace k with (1 + (k - 1))%Z at 1 by lia; rewrite bpow_plus; reflexivity).
  split; [|split].
  - intros ->. unfold y in *. cbn [Z.to_nat pow] in *. assert (z = 1). { apply Rle_antisym; [lra|]. apply (ZL 0%Z); [lia|rewrite B1; lra]. }
    destruct (NB (bp 0) (bp 0)) as (_ & Q); rewrite ?B1; try lra; try (rewrite <- B1; apply fmtb; lia). rewrite <- B1. apply bp128. lia.
  - destruct (Z_lt_ge_dec k (-149)) as [S|S].
    + destruct (NB 0 (bp (-149)) (fmt_0 24 128) (fmtb (-149) ltac:(lia))) as (_ & Q); [|lra|apply bp128; lia|lra].
      assert (bp k <= bp (-149)) by (apply bpow_le; lia). lra.
    + destruct (NB 0 (bp k) (fmt_0 24 128) (fmtb k ltac:(lia))) as (_ & Q); [lra|lra|apply bp128; lia|]. lra.
  - intros L. assert (K3 : (-126 < k)%Z).
    { apply (lt_bpow radix2). lra. }
    destruct (NB (bp (k - 1)) 1) as (_ & Q); try (apply fmtb; lia); try (rewrite <- B1; apply fmtb; lia).
    + split; [apply ZL; [lia|lra]|lra].
    + pose proof (bp_pos (k - 1)). lra.
    + rewrite <- B1. apply bp128. lia.
    + lra.
Qed.

(** ** Logarithms *)
Definition floor_log (x : f32) : f32 :=
  match x with
  | B754_nan => B754_nan
  | B754_zero _ => B754_infinity true
  | B754_infinity s => if s then B754_nan else B754_infinity false
  | B754_finite s m e H => if s then B754_nan else f32_of (Zfloor (ln (val x) * bp 10)) (-10)
  end.

Lemma ln2_small : ln 2 <= 859 / 1000.
Proof.
  rewrite <- (ln_exp (859 / 1000)). apply Rlt_le, ln_increasing; [lra|].
  replace (859 / 1000) with (4295 / 10000 + 4295 / 10000) by lra. rewrite exp_plus.
  pose proof (exp_ineq1 (4295 / 10000) ltac:(lra)). nra.
Qed.

Lemma ln_bp k : ln (bp k) = IZR k * ln 2.
Proof. rewrite bpow_powerRZ. rewrite powerRZ_Rpower by (cbn; lra). unfold Rpower. rewrite ln_exp. reflexivity. Qed.

Lemma floor_log_ok : log_ok floor_log.
Proof.
  split; [|split].
  - intros x Fx Px. assert (L1 : bp (-149) <= val x).
    { destruct x as [s|s| |s m e H]; try discriminate; [cbn in Px; lra|]. destruct s.
      - exfalso. revert Px. apply Rle_not_lt. apply F2R_le_0. cbn. lia.
      - cbn [B2R]. unfold F2R. cbn [Fnum Fexp SpecFloat.cond_Zopp cond_Zopp].
        assert (E : (-149 <= e)%Z).
        { pose proof H as H'. unfold SpecFloat.bounded in H'. apply andb_true_iff in H'. destruct H' as (H' & _). apply Zeq_bool_eq in H'.
          unfold SpecFloat.fexp, SpecFloat.emin in H'. lia. }
        apply Rle_trans with (1 * bp e); [rewrite Rmult_1_l; apply bpow_le; exact E|].
        apply Rmult_le_compat_r; [apply bpow_ge_0|]. apply IZR_le. lia. }
    assert (L2 : val x < bp 128) by apply (B2R_lt 24 128 x).
    pose proof ln2_small as N2. pose proof (bp_pos (-149)) as P149. assert (N0 : 0 < ln 2) by (apply ln_lt_0 || (rewrite <- ln_1; apply ln_increasing; lra)).
    assert (LB : -128 <= ln (val x) <= 110).
    { split.
      - apply Rle_trans with (ln (bp (-149))); [rewrite ln_bp; lra|]. destruct L1 as [L|<-]; [|lra]. apply Rlt_le, ln_increasing; lra.
      - apply Rle_trans with (ln (bp 128)); [apply Rlt_le, ln_increasing; lra|]. rewrite ln_bp. lra. }
    assert (E : floor_log x = f32_of (Zfloor (ln (val x) * bp 10)) (-10)).
    { destruct x as [s|s| |s m e H]; try discriminate; [cbn in Px; lra|]. destruct s; [|reflexivity].
      exfalso. revert Px. apply Rle_not_lt. apply F2R_le_0. cbn. lia. }
    rewrite E. unfold f32_of.
    assert (F128 : fmt32 128) by (change 128 with (bp 7); apply fmtb; lia).
    assert (B : -128 <= IZR (Zfloor (ln (val x) * bp 10)) * bp (-10) <= 128).
    { assert (E10 : bp 10 * bp (-10) = 1) by (rewrite <- bpow_plus; reflexivity). pose proof (bp_pos (-10)). pose proof (bp_pos 10). split.
      - apply Rle_trans with (IZR (-131072) * bp (-10)); [cbn; lra|]. apply Rmult_le_compat_r; [lra|]. apply IZR_le. apply Zfloor_lub. cbn. lra.
      - apply Rle_trans with (ln (val x) * bp 10 * bp (-10)); [apply Rmult_le_compat_r; [lra|apply Zfloor_lb]|]. rewrite Rmult_assoc, E10. lra. }
    assert (B128 : 128 < bp 128) by (change 128 with (bp 7) at 1; apply bpow_lt; lia).
    destruct (normalize_bounds 24 128 p24 e128 (Zfloor (ln (val x) * bp 10)) (-10) false (-128) 128) as (A1 & A2); auto; try lra.
    { apply generic_format_opp. exact F128. }
    split; [exact A1|]. apply Rabs_le. exact A2.
  - intros x Fx Zx. destruct x as [s|s| |s m e H]; try discriminate; [reflexivity|].
    exfalso. cbn [B2R] in Zx. apply eq_0_F2R in Zx. cbn in Zx. destruct s; discriminate.
  - reflexivity.
Qed.

Definition lib0 : numlib := NumLib seq_dot seq_sum floor_pow floor_log.
Lemma lib0_ok : lib_ok lib0.
Proof. split; [exact seq_dot_ok|]. split; [exact seq_sum_ok|]. split; [exact floor_pow_ok|exact floor_log_ok]. Qed.
