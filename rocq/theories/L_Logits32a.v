(** Rounding errors of sums in float32. *)
From Coq Require Import List Arith Bool ZArith Reals Lra Lia.
From Flocq Require Import Core Plus_error Relative IEEE754.BinarySingleNaN.
From Verif Require Import Base L_Base Spec_Sum L_Sum M_Float32 Spec_Float32 L_Float32 M_SampleTree32 L_Serving32a Spec_Logits32.
Import ListNotations.
Open Scope R_scope.

Lemma rnd_plus x y : fmt32 x -> fmt32 y -> Rabs (rnd 24 128 (x + y) - (x + y)) <= bp (-24) * Rabs (x + y).
Proof.
  intros Fx Fy. destruct (@FLT_plus_error_N_ex radix2 (-149) 24 p24 (fun z => negb (Z.even z)) x y Fx Fy) as (ep & E1 & E).
  assert (E' : rnd 24 128 (x + y) = (x + y) * (1 + ep)) by exact E. rewrite E'.
  replace ((x + y) * (1 + ep) - (x + y)) with ((x + y) * ep) by ring. rewrite Rabs_mult, Rmult_comm. apply Rmult_le_compat_r; [apply Rabs_pos|].
  assert (U : u_ro radix2 24 = bp (-24)).
  { unfold u_ro. change (bp (- (24) + 1)) with (bp (1 + -24)). rewrite bpow_plus. change (bp 1) with 2. field. }
  rewrite U in E1. pose proof (bpow_gt_0 radix2 (-24)). eapply Rle_trans; [exact E1|]. apply Rmult_le_reg_r with (1 + bp (-24)); [lra|].
  unfold Rdiv. rewrite Rmult_assoc, Rinv_l by lra. nra.
Qed.

Lemma val_fmt (x : f32) : fmt32 (val x).
Proof. exact (generic_format_B2R 24 128 x). Qed.

Lemma fadd_near (x y : f32) : fin32 x = true -> fin32 y = true -> Rabs (val x + val y) <= bp 120 ->
  fin32 (fadd x y) = true /\ Rabs (val (fadd x y) - (val x + val y)) <= bp (-24) * Rabs (val x + val y).
Proof.
  intros Fx Fy B. pose proof (Bplus_correct 24 128 p24 e128 mode_NE x y Fx Fy) as C. cbn [round_mode] in C. fold (rnd 24 128 (val x + val y)) in C.
  assert (F : fmt32 (bp 120)) by (apply fmt_bpow; [reflexivity|lia]).
  assert (F' : fmt32 (- bp 120)) by (apply generic_format_opp; exact F). apply Rabs_le_inv in B. assert (bp 120 < bp 128) by (apply bpow_lt; lia).
  rewrite (small 24 128 p24 (- bp 120) (bp 120) (val x + val y)) in C; [|exact F'|exact F|lra|lra|lra].
  destruct C as (C1 & C2 & _). unfold fadd. split; [exact C2|]. rewrite C1. apply rnd_plus; apply val_fmt.
Qed.
Lemma fsub_near (x y : f32) : fin32 x = true -> fin32 y = true -> Rabs (val x - val y) <= bp 120 ->
  fin32 (fsub x y) = true /\ Rabs (val (fsub x y) - (val x - val y)) <= bp (-24) * Rabs (val x - val y).
Proof.
  intros Fx Fy B. pose proof (Bminus_correct 24 128 p24 e128 mode_NE x y Fx Fy) as C. cbn [round_mode] in C. fold (rnd 24 128 (val x - val y)) in C.
  assert (F : fmt32 (bp 120)) by (apply fmt_bpow; [reflexivity|lia]).
  assert (F' : fmt32 (- bp 120)) by (apply generic_format_opp; exact F). apply Rabs_le_inv in B. assert (bp 120 < bp 128) by (apply bpow_lt; lia).
  rewrite (small 24 128 p24 (- bp 120) (bp 120) (val x - val y)) in C; [|exact F'|exact F|lra|lra|lra].
  destruct C as (C1 & C2 & _). unfold fsub. split; [exact C2|]. rewrite C1. apply (rnd_plus (val x) (- val y)); [apply val_fmt|apply generic_format_opp, val_fmt].
Qed.

(** Adding from left to right. *)
Lemma fold_near A : A <= bp 100 -> forall l (acc : f32) x0 e, fin32 acc = true -> Forall (fun x => fin32 x = true) l ->
  Rabs x0 + sumf l (fun x => Rabs (val x)) <= A -> Rabs (val acc - x0) <= e -> 0 <= e -> e + INR (length l) * bp (-23) * A <= A / 2 ->
  fin32 (fold_left fadd l acc) = true /\ Rabs (val (fold_left fadd l acc) - (x0 + sumf l (fun x => val x))) <= e + INR (length l) * bp (-23) * A.
Proof.
  intros HA. pose proof (bpow_gt_0 radix2 (-23)) as P23. assert (B24 : bp (-23) = 2 * bp (-24)) by (change (-23)%Z with (1 + -24)%Z; rewrite bpow_plus; reflexivity).
  assert (A120 : 2 * bp 100 <= bp 120) by (change 2 with (bp 1); rewrite <- bpow_plus; apply bpow_le; lia).
  induction l as [|y l IH]; intros acc x0 e Fa F HS HE E0 HB.
  - cbn [fold_left length]. rewrite sumf_nil. rewrite sumf_nil in HS. split; [exact Fa|]. cbn [INR length] in *. replace (x0 + 0) with x0 by ring. lra.
  - inversion F as [|? ? Fy F']; subst. rewrite sumf_cons in HS. cbn [length] in HB |- *. rewrite S_INR in HB |- *. cbn [fold_left]. rewrite sumf_cons.
    assert (SN : 0 <= sumf l (fun x => Rabs (val x))) by (apply sumf_nonneg; intros; apply Rabs_pos).
    assert (A0 : 0 <= A) by (pose proof (Rabs_pos x0); pose proof (Rabs_pos (val y)); lra).
    assert (NA : 0 <= INR (length l) * bp (-23) * A) by (apply Rmult_le_pos; [apply Rmult_le_pos; [apply pos_INR|lra]|exact A0]).
    assert (PA : 0 <= bp (-23) * A) by (apply Rmult_le_pos; lra).
    assert (S1 : Rabs (val acc + val y) <= 2 * A).
    { replace (val acc + val y) with ((val acc - x0) + x0 + val y) by ring. eapply Rle_trans; [apply Rabs_triang|]. pose proof (Rabs_triang (val acc - x0) x0). lra. }
    destruct (fadd_near acc y Fa Fy) as (G1 & G2); [lra|].
    destruct (IH (fadd acc y) (x0 + val y) (e + bp (-23) * A)) as (I1 & I2); auto.
    + pose proof (Rabs_triang x0 (val y)). lra.
    + replace (val (fadd acc y) - (x0 + val y)) with ((val (fadd acc y) - (val acc + val y)) + (val acc - x0)) by ring.
      eapply Rle_trans; [apply Rabs_triang|]. assert (bp (-24) * Rabs (val acc + val y) <= bp (-24) * (2 * A)) by (apply Rmult_le_compat_l; [pose proof (bpow_gt_0 radix2 (-24)); lra|exact S1]).
      rewrite B24. lra.
    + lra.
    + lra.
    + split; [exact I1|]. replace (x0 + (val y + sumf l (fun x => val x))) with (x0 + val y + sumf l (fun x => val x)) by ring. lra.
Qed.

Lemma seq_sum_near : sum_near seq_sum.
Proof.
  intros l HL F HS. unfold seq_sum. set (A := sumf l (fun x => Rabs (B2R x))) in *.
  assert (A0 : 0 <= A) by (apply sumf_nonneg; intros; apply Rabs_pos).
  assert (NB : INR (length l) * bp (-23) <= 1 / 2).
  { rewrite INR_IZR_INZ. apply IZR_le in HL. change (IZR (2 ^ 16)) with 65536 in HL. assert (bp (-23) = / 8388608) by reflexivity. rewrite H. lra. }
  destruct (fold_near A HS l fzero 0 0) as (I1 & I2); auto; try lra.
  - rewrite Rabs_R0. unfold A. lra.
  - change (val fzero) with 0. rewrite Rminus_0_r, Rabs_R0. lra.
  - assert (INR (length l) * bp (-23) * A <= 1 / 2 * A) by (apply Rmult_le_compat_r; lra). lra.
  - split; [exact I1|]. rewrite Rplus_0_l in I2. lra.
Qed.
