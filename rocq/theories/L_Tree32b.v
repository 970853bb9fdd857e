(** The float32 weights of candidate edges. *)
From Coq Require Import List Arith Bool ZArith Reals Lra Lia.
From Flocq Require Import Core Relative IEEE754.BinarySingleNaN.
From Verif Require Import Base L_Base Spec_Sum L_Sum M_Structure M_Rand L_Rand M_SampleTree M_Float32 M_Train32 Spec_Float32 L_Float32 L_Sample32 Spec_Serving32 Spec_Law L_Grid L_Grid2 M_SampleTree32 Spec_Tree32 L_Tree32a.
Import ListNotations.
Open Scope R_scope.

(** ** Subtraction *)
Lemma rnd_err x : Rabs (rnd 24 128 x - x) <= bp (-24) * Rabs x + bp (-150).
Proof.
  assert (P : Prec_gt_0 24) by reflexivity.
  destruct (error_N_FLT radix2 (-149) 24 P (fun z => negb (Z.even z)) x) as (ep & et & E1 & E2 & _ & E).
  assert (E' : rnd 24 128 x = x * (1 + ep) + et) by exact E. rewrite E'.
  replace (x * (1 + ep) + et - x) with (x * ep + et) by ring. eapply Rle_trans; [apply Rabs_triang|]. rewrite Rabs_mult.
  assert (H2 : bp (-24 + 1) = 2 * bp (-24)) by (change (-24 + 1)%Z with (1 + -24)%Z; rewrite bpow_plus; reflexivity).
  assert (H3 : bp (-149) = 2 * bp (-150)) by (change (-149)%Z with (1 + -150)%Z; rewrite bpow_plus; reflexivity).
  assert (E1' : Rabs ep <= bp (-24)) by (eapply Rle_trans; [exact E1|]; change (/ 2 * bp (-24 + 1) <= bp (-24)); lra).
  assert (E2' : Rabs et <= bp (-150)) by (eapply Rle_trans; [exact E2|]; change (/ 2 * bp (-149) <= bp (-150)); lra). pose proof (Rabs_pos x).
  assert (Rabs x * Rabs ep <= Rabs x * bp (-24)) by (apply Rmult_le_compat_l; lra). lra.
Qed.

Lemma fsub_spec (y m : f32) : fin32 y = true -> fin32 m = true -> Rabs (val y) <= bp 126 -> Rabs (val m) <= bp 126 -> val y <= val m ->
  fin32 (fsub y m) = true /\ val (fsub y m) = rnd 24 128 (val y - val m) /\ val (fsub y m) <= 0.
Proof.
  intros Fy Fm By Bm L. pose proof (Bminus_correct 24 128 p24 e128 mode_NE y m Fy Fm) as C. cbn [round_mode] in C.
  apply Rabs_le_inv in By, Bm. assert (b127 : bp 127 = 2 * bp 126) by (change 127%Z with (1 + 126)%Z; rewrite bpow_plus; cbn; lra). pose proof (bp_pos 126).
  assert (F127 : fmt32 (- bp 127)) by (apply generic_format_opp, fmt_bpow; [reflexivity|lia]).
  assert (bp 127 < bp 128) by (apply bpow_lt; lia).
  fold (rnd 24 128 (val y - val m)) in C. rewrite (small 24 128 p24 (- bp 127) 0 (val y - val m)) in C; [|exact F127|apply fmt_0|lra|lra|lra].
  destruct C as (C1 & C2 & _). unfold fsub. split; [exact C2|]. split; [exact C1|]. rewrite C1.
  apply (rnd_le 24 128 p24 0); [apply fmt_0|lra].
Qed.

(** ** Exponentials *)
Lemma exp_le_x x : 0 <= x -> x <= exp (x / 2).
Proof.
  intros H. replace (x / 2) with (x / 4 + x / 4) by lra. rewrite exp_plus. pose proof (exp_ineq1_le (x / 4)) as H1.
  apply Rle_trans with ((1 + x / 4) * (1 + x / 4)); [pose proof (Rle_0_sqr (x / 4 - 1)) as H2; unfold Rsqr in H2; lra|]. apply Rmult_le_compat; lra.
Qed.
Lemma exp_gap a b : a <= b -> 0 <= exp b - exp a <= (b - a) * exp b.
Proof.
  intros H. split; [assert (exp a <= exp b) by (destruct H as [H| ->]; [left; now apply exp_increasing|lra]); lra|].
  replace (exp a) with (exp b * exp (a - b)) by (rewrite <- exp_plus; f_equal; ring).
  pose proof (exp_ineq1_le (a - b)). pose proof (exp_pos b). nra.
Qed.
Lemma exp_diff a b : a <= 0 -> b <= 0 -> Rabs (b - a) <= bp (-24) * Rabs a + bp (-150) -> Rabs (exp b - exp a) <= bp (-22).
Proof.
  intros Ha Hb H. rewrite (Rabs_left1 a Ha) in H.
  assert (b24 : bp (-24) = / 16777216) by reflexivity. assert (t0 : 0 < bp (-150)) by apply bp_pos. assert (t1 : bp (-150) <= bp (-25)) by (apply bpow_le; lia).
  assert (b25 : bp (-25) = / 33554432) by reflexivity. assert (b22 : bp (-22) = / 4194304) by reflexivity.
  rewrite b24 in H. rewrite b22. apply Rabs_le_inv in H. set (x := - a) in *. assert (Hx : 0 <= x) by (unfold x; lra). set (tau := bp (-150)) in *.
  assert (EX : exp (- x) <= 1 /\ x * exp (- (x / 2)) <= 1).
  { split; [rewrite <- exp_0; destruct Hx as [Hx|<-]; [left; apply exp_increasing; lra|rewrite Ropp_0; lra]|].
    rewrite exp_Ropp. apply Rmult_le_reg_r with (exp (x / 2)); [apply exp_pos|]. rewrite Rmult_assoc, Rinv_l by (pose proof (exp_pos (x / 2)); lra). pose proof (exp_le_x x Hx). lra. }
  assert (EM : forall c, c <= 0 -> c <= - (x / 2) + tau -> exp c <= 1 /\ x * exp c <= 9 / 8).
  { intros c C0 C1. split; [rewrite <- exp_0; destruct C0 as [C0| ->]; [left; now apply exp_increasing|lra]|].
    assert (exp c <= exp (- (x / 2)) * exp tau) by (rewrite <- exp_plus; destruct C1 as [C1| ->]; [left; now apply exp_increasing|lra]).
    assert (TT : exp tau <= 9 / 8).
    { assert (exp tau * exp (- tau) = 1) by (rewrite <- exp_plus, Rplus_opp_r; apply exp_0). pose proof (exp_ineq1_le (- tau)). pose proof (exp_pos tau). nra. }
    pose proof (exp_pos (- (x / 2))). pose proof (exp_pos c). destruct EX as (_ & EX). nra. }
  destruct (Rle_dec a b) as [L|L].
  - destruct (exp_gap a b L) as (G0 & G1). rewrite Rabs_pos_eq by exact G0. destruct (EM b Hb) as (M1 & M2); [unfold x in *; lra|]. pose proof (exp_pos b).
    apply Rle_trans with ((/ 16777216 * x + tau) * exp b); [eapply Rle_trans; [exact G1|]; apply Rmult_le_compat_r; lra|].
    assert (tau * exp b <= tau * 1) by (apply Rmult_le_compat_l; lra). lra.
  - destruct (exp_gap b a) as (G0 & G1); [lra|]. rewrite Rabs_left1 by lra. destruct (EM a Ha) as (M1 & M2); [unfold x in *; lra|]. pose proof (exp_pos a).
    apply Rle_trans with ((/ 16777216 * x + tau) * exp a); [apply Rle_trans with ((a - b) * exp a); [lra|]; apply Rmult_le_compat_r; lra|].
    assert (tau * exp a <= tau * 1) by (apply Rmult_le_compat_l; lra). lra.
Qed.

(** ** The maximum *)
Lemma emax2_assoc a b c : emax2 a (emax2 b c) = emax2 (emax2 a b) c.
Proof. destruct a, b, c; cbn; auto. now rewrite Rmax_assoc. Qed.
Lemma fmax2_logit x y : good_logit x -> good_logit y -> good_logit (fmax2 x y) /\ logit_of (fmax2 x y) = emax2 (logit_of x) (logit_of y).
Proof.
  intros Gx Gy. destruct Gx as [(Fx & Bx)| ->], Gy as [(Fy & By)| ->].
  - rewrite fmax2_spec by auto. unfold logit_of. rewrite Fx, Fy. cbn [emax2].
    case Rlt_bool_spec; intros L; (split; [now left|]); rewrite ?Fx, ?Fy; f_equal; symmetry; [apply Rmax_right|apply Rmax_left]; lra.
  - assert (E : fmax2 x (B754_infinity true) = x) by (destruct x as [s|s| |s m e H]; try discriminate; [destruct s; reflexivity|destruct s; reflexivity]).
    rewrite E. split; [now left|]. unfold logit_of. rewrite Fx. reflexivity.
  - assert (E : fmax2 (B754_infinity true) y = y) by (destruct y as [s|s| |s m e H]; try discriminate; [destruct s; reflexivity|destruct s; reflexivity]).
    rewrite E. split; [now left|]. unfold logit_of. rewrite Fy. reflexivity.
  - split; [now right|reflexivity].
Qed.
Lemma fmax_logit l : forall x, Forall good_logit (x :: l) -> good_logit (fmax x l) /\ logit_of (fmax x l) = emax (map logit_of (x :: l)).
Proof.
  induction l as [|y l IH]; intros x F; inversion F as [|? ? Gx F1]; subst.
  - split; [exact Gx|]. cbn. unfold logit_of. destruct (is_finite x); reflexivity.
  - inversion F1 as [|? ? Gy F2]; subst. cbn [fmax]. destruct (fmax2_logit x y Gx Gy) as (G & E).
    destruct (IH (fmax2 x y)) as (G' & E'); [constructor; auto|]. split; [exact G'|]. rewrite E'. cbn [map emax fold_right]. rewrite E. now rewrite <- emax2_assoc.
Qed.
Lemma emax_ge l : forall m, emax l = Some m -> (forall y, In (Some y) l -> y <= m) /\ In (Some m) l.
Proof.
  induction l as [|x l IH]; intros m E; [discriminate|]. cbn [emax fold_right] in E. fold (emax l) in E. destruct x as [x|], (emax l) as [m'|] eqn:EL; cbn [emax2] in E; inversion E; subst.
  - destruct (IH m' eq_refl) as (H1 & H2). split.
    + intros y [I|I]; [inversion I; apply Rmax_l|]. eapply Rle_trans; [now apply H1|apply Rmax_r].
    + unfold Rmax. destruct (Rle_dec x m'); [now right|now left].
  - split.
    + intros y [I|I]; [inversion I; lra|]. exfalso. clear - I EL. induction l as [|z l IH]; [destruct I|]. cbn [emax fold_right] in EL. fold (emax l) in EL. destruct I as [->|I]; destruct (emax l) eqn:E; try (destruct z); cbn in EL; try discriminate. now apply IH.
    + now left.
  - destruct (IH m eq_refl) as (H1 & H2). split; [|now right]. intros y [I|I]; [discriminate|now apply H1].
Qed.
Lemma emax_None l : emax l = None -> forall x, In x l -> x = None.
Proof.
  induction l as [|x l IH]; intros E y I; [destruct I|]. cbn [emax fold_right] in E. fold (emax l) in E. destruct x as [x|], (emax l) as [m'|] eqn:EL; cbn [emax2] in E; try discriminate.
  destruct I as [<-|I]; auto.
Qed.

(** ** The weights *)
Section W.
Variables (exp32 : f32 -> f32) (sum : list f32 -> f32) (eta : R).
Hypothesis EX : exp_ok eta exp32.
Hypothesis SM : sum_ok sum.
Hypothesis ET : 0 <= eta <= 1.

Lemma one_weight (m y : f32) : fin32 m = true -> Rabs (val m) <= bp 126 -> good_logit y -> (forall z, logit_of y = Some z -> z <= val m) ->
  let w := exp32 (fsub y m) in
  fin32 w = true /\ 0 <= val w <= 2 /\ Rabs (val w - shift_exp (val m) (logit_of y)) <= eta + bp (-22) /\
  (0 < val w -> 0 < shift_exp (val m) (logit_of y)) /\ (logit_of y = Some (val m) -> val w = 1).
Proof.
  intros Fm Bm G H w. destruct EX as (E1 & E2 & E3 & E4). pose proof (bp_pos (-22)). unfold logit_of in *. destruct G as [(Fy & By)|E].
  - rewrite Fy in *. specialize (H _ eq_refl). destruct (fsub_spec y m Fy Fm By Bm H) as (S1 & S2 & S3).
    destruct (E1 _ S1 S3) as (W1 & W2 & W3). fold w in W1, W2, W3. cbn [shift_exp].
    assert (EE : exp (val (fsub y m)) <= 1) by (rewrite <- exp_0; destruct S3 as [S3|S3]; [left; now apply exp_increasing|rewrite S3; lra]).
    split; [exact W1|]. split; [apply Rabs_le_inv in W3; lra|]. split; [|split].
    + replace (val w - exp (val y - val m)) with ((val w - exp (val (fsub y m))) + (exp (val (fsub y m)) - exp (val y - val m))) by ring.
      eapply Rle_trans; [apply Rabs_triang|]. apply Rplus_le_compat; [exact W3|]. apply exp_diff; [lra|exact S3|]. rewrite S2. apply rnd_err.
    + intros _. apply exp_pos.
    + intros K. inversion K as [K']. apply E2; [exact S1|]. rewrite S2, K'. rewrite Rminus_diag_eq by reflexivity. apply (rnd_fmt 24 128), fmt_0.
  - assert (Ew : w = fzero). { unfold w. rewrite E. replace (fsub (B754_infinity true) m) with (@B754_infinity 24 128 true) by (destruct m as [s|s| |s mm e HH]; try discriminate; destruct s; reflexivity). exact E3. }
    rewrite Ew. rewrite E. cbn. split; [reflexivity|]. split; [lra|]. split; [rewrite Rminus_0_r, Rabs_R0; lra|]. split; [lra|discriminate].
Qed.

Lemma weights_sim B x l (k : nat -> fprog nat) (k' : nat -> rprog nat) k1 th : Forall good_logit (x :: l) -> (Z.of_nat (length (x :: l)) <= 2 ^ 16)%Z -> (length (x :: l) <= B)%nat ->
  2 * INR B * (eta + bp (-22)) <= th -> (forall i, sim B th 0 (k i) (k' i)) ->
  let w := map (fun y => exp32 (fsub y (fmax x l))) (x :: l) in
  sim B th 1 (if fltb fzero (sum w) then FCat w k else FRet k1)
    (match emax (map logit_of (x :: l)) with
     | Some m => let w := map (shift_exp m) (map logit_of (x :: l)) in if Rlt_dec 0 (rsum w) then Cat w k' else Ret k1
     | None => Ret k1 end).
Proof.
  intros F LZ LB HT HK w. destruct (fmax_logit l x F) as (GM & EM). set (m := fmax x l) in *. destruct SM as (SM1 & SM2).
  destruct (emax (map logit_of (x :: l))) as [mr|] eqn:EE.
  - destruct (emax_ge _ _ EE) as (G1 & G2). unfold logit_of in EM. destruct (is_finite m) eqn:Fm; [|discriminate]. inversion EM as [EMr]. 
    assert (Bm : Rabs (val m) <= bp 126) by (destruct GM as [(_ & ?)|K]; [assumption|rewrite K in Fm; discriminate]).
    set (L := x :: l) in *. rewrite <- EMr in *. 
    assert (OW : forall y, In y L -> let w := exp32 (fsub y m) in
       fin32 w = true /\ 0 <= val w <= 2 /\ Rabs (val w - shift_exp (val m) (logit_of y)) <= eta + bp (-22) /\
       (0 < val w -> 0 < shift_exp (val m) (logit_of y)) /\ (logit_of y = Some (val m) -> val w = 1)).
    { intros y I. apply one_weight; auto; [rewrite Forall_forall in F; now apply F|]. intros z Ez. apply G1. rewrite <- Ez. now apply in_map. }
    set (w' := map (shift_exp (val m)) (map logit_of L)). cbv zeta.
    apply in_map_iff in G2. destruct G2 as (y0 & Ey0 & Iy0).
    assert (W1 : In (exp32 (fsub y0 m)) w) by (apply in_map_iff; exists y0; auto).
    assert (V1 : val (exp32 (fsub y0 m)) = 1) by (apply OW; auto).
    assert (US : usable w).
    { split; [unfold w; rewrite map_length; exact LZ|]. split.
      - apply Forall_forall. intros v I. apply in_map_iff in I. destruct I as (y & <- & Iy). destruct (OW y Iy) as (O1 & O2 & _). split; [exact O1|].
        assert (2 <= bp 100) by (change 2 with (bp 1); apply bpow_le; lia). cbn zeta in O2. lra.
      - exists (exp32 (fsub y0 m)). split; [exact W1|]. rewrite V1. lra. }
    assert (N0 : forall v, In v w' -> 0 <= v).
    { intros v I. apply in_map_iff in I. destruct I as ([z|] & <- & _); cbn; [left; apply exp_pos|lra]. }
    assert (S1 : 1 <= rsum w').
    { assert (I1 : In 1 w') by (unfold w'; apply in_map_iff; exists (Some (val m)); cbn [shift_exp]; split; [rewrite Rminus_diag_eq, exp_0 by reflexivity; reflexivity|apply in_map_iff; eauto]).
      clear - N0 I1. unfold rsum. induction w' as [|a q IH]; [destruct I1|]. rewrite sumf_cons. destruct I1 as [->|I1].
      - assert (0 <= sumf q (fun x => x)) by (apply sumf_nonneg; intros; apply N0; now right). lra.
      - specialize (IH (fun v I => N0 v (or_intror I)) I1). specialize (N0 a (or_introl eq_refl)). lra. }
    destruct (Rlt_dec 0 (rsum w')) as [_|K]; [|lra].
    assert (SP : fltb fzero (sum w) = true).
    { destruct US as (U1 & U2 & _).
      assert (RS : rsum (map B2R w) <= bp 120).
      { apply Rle_trans with (INR (length w) * 2).
        - unfold rsum. rewrite sumf_map. replace (INR (length w) * 2) with (sumf w (fun _ => 2)) by (clear; induction w as [|a q IH]; [cbn; lra|]; rewrite sumf_cons, IH; cbn [length]; rewrite S_INR; lra).
          apply sumf_le. intros v I. apply in_map_iff in I. destruct I as (y & <- & Iy). destruct (OW y Iy) as (_ & O2 & _). cbn zeta in O2. lra.
        - apply Rle_trans with (bp 17); [|apply bpow_le; lia]. rewrite INR_IZR_INZ. apply IZR_le in U1. change (IZR (2 ^ 16)) with 65536 in U1. change (bp 17) with (IZR 131072). lra. }
      destruct (SM1 w U1) as (Q1 & _ & Q3); auto.
      { eapply Forall_impl; [|exact U2]. intros a (A1 & A2). split; [exact A1|lra]. }
      rewrite fltb_spec by auto. apply Rlt_bool_true. specialize (Q3 _ W1). rewrite V1 in Q3. change (val fzero) with 0. lra. }
    rewrite SP.
    assert (LEN : length w' = length w) by (unfold w, w'; now rewrite !map_length).
    assert (D0 : 0 <= eta + bp (-22)) by (pose proof (bp_pos (-22)); lra).
    assert (NT : forall i, (i < length w)%nat -> exists y, In y L /\ nth i w fzero = exp32 (fsub y m) /\ nth i w' 0 = shift_exp (val m) (logit_of y)).
    { intros i Hi. unfold w in Hi. rewrite map_length in Hi. exists (nth i L x). split; [now apply nth_In|]. split.
      - rewrite (nth_indep w fzero (exp32 (fsub x m))) by (unfold w; now rewrite map_length). unfold w. apply (map_nth (fun y => exp32 (fsub y m))).
      - unfold w'. rewrite map_map. rewrite (nth_indep _ 0 (shift_exp (val m) (logit_of x))) by now rewrite map_length. apply (map_nth (fun y => shift_exp (val m) (logit_of y))). }
    assert (DI : forall i, (i < length w)%nat -> Rabs (val (nth i w fzero) - nth i w' 0) <= eta + bp (-22)).
    { intros i Hi. destruct (NT i Hi) as (y & Iy & -> & ->). now apply OW. }
    constructor; auto.
    + unfold w. now rewrite map_length.
    + lra.
    + intros i Hi P. destruct (NT i Hi) as (y & Iy & Ew & ->). rewrite Ew in P. destruct (OW y Iy) as (_ & _ & _ & O4 & _). now apply O4.
    + eapply Rle_trans; [|exact HT]. unfold share. pose proof (total_pos w US) as PT. unfold total in PT. set (S0 := rsum (map (fun x0 : f32 => B2R x0) w)) in *. set (S1' := rsum w') in *.
      assert (n0 : length w = length L) by (unfold w; apply map_length).
      assert (EQ0 : S0 = sumf (seq 0 (length w)) (fun i => val (nth i w fzero))).
      { unfold S0. rewrite <- sumf_seq_nth, map_length. apply sumf_ext. intros i _. apply (map_nth (fun x0 : f32 => val x0) w fzero). }
      assert (EQ1 : S1' = sumf (seq 0 (length w)) (fun i => nth i w' 0)) by (unfold S1'; rewrite <- sumf_seq_nth, LEN; reflexivity).
      set (sg := sumf (seq 0 (length w)) (fun i => Rabs (val (nth i w fzero) - nth i w' 0))).
      assert (SG : sg <= INR B * (eta + bp (-22))).
      { apply Rle_trans with (sumf (seq 0 (length w)) (fun _ => eta + bp (-22))).
        - apply sumf_le. intros i Hi. apply in_seq in Hi. apply DI. lia.
        - assert (C : forall n a, sumf (seq a n) (fun _ => eta + bp (-22)) = INR n * (eta + bp (-22))) by (clear; induction n as [|n IH]; intros a; [cbn; lra|]; cbn [seq]; rewrite sumf_cons, IH, S_INR; ring).
          rewrite C. apply Rmult_le_compat_r; [lra|]. apply le_INR. lia. }
      assert (SD : Rabs (S0 - S1') <= sg) by (rewrite EQ0, EQ1, <- sumf_minus; apply sumf_abs).
      apply Rle_trans with (sumf (seq 0 (length w)) (fun i => (Rabs (val (nth i w fzero) - nth i w' 0)) / S1' + val (nth i w fzero) * (sg / (S0 * S1')))).
      * apply sumf_le. intros i Hi. apply in_seq in Hi. destruct (weight_ok w US i) as (_ & W0).
        replace (val (nth i w fzero) / S0 - nth i w' 0 / S1') with ((val (nth i w fzero) - nth i w' 0) / S1' + val (nth i w fzero) * ((S1' - S0) / (S0 * S1'))) by (field; lra).
        eapply Rle_trans; [apply Rabs_triang|]. assert (IS1 : 0 < / S1') by (apply Rinv_0_lt_compat; lra). assert (IS2 : 0 < / (S0 * S1')) by (apply Rinv_0_lt_compat; nra).
        apply Rplus_le_compat; unfold Rdiv; rewrite !Rabs_mult.
        -- rewrite (Rabs_pos_eq (/ S1')) by lra. lra.
        -- rewrite (Rabs_pos_eq (val _)) by lra. rewrite (Rabs_pos_eq (/ (S0 * S1'))) by lra. apply Rmult_le_compat_l; [lra|]. apply Rmult_le_compat_r; [lra|]. rewrite Rabs_minus_sym. exact SD.
      * rewrite sumf_plus, sumf_div, sumf_scal_r, <- EQ0. fold sg. assert (SGP : 0 <= sg) by (apply sumf_nonneg; intros; apply Rabs_pos).
        replace (sg / S1' + S0 * (sg / (S0 * S1'))) with (2 * sg * / S1') by (field; lra).
        apply Rle_trans with (2 * sg * 1); [|lra]. apply Rmult_le_compat_l; [lra|]. rewrite <- Rinv_1. apply Rinv_le_contravar; lra.
  - assert (Em : m = B754_infinity true) by (destruct GM as [(Fm & _)|K]; [unfold logit_of in EM; rewrite Fm in EM; discriminate|exact K]).
    assert (NAN : sum w = B754_nan).
    { apply SM2. unfold w. cbn [map]. left. rewrite Em. pose proof (emax_None _ EE (logit_of x) (or_introl eq_refl)) as K.
      assert (Ex : x = B754_infinity true). { inversion F as [|? ? Gx _]; subst. destruct Gx as [(Fx & _)|K']; [unfold logit_of in K; rewrite Fx in K; discriminate|exact K']. }
      rewrite Ex. change (fsub (B754_infinity true) (B754_infinity true)) with (@B754_nan 24 128). apply EX. }
    rewrite NAN. cbn. constructor.
Qed.
End W.
