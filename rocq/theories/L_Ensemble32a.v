(** logsumexp in float32 is close to the exact one. *)
From Coq Require Import List Arith Bool ZArith Reals Lra Lia.
From Flocq Require Import Core IEEE754.BinarySingleNaN.
From Verif Require Import Base L_Base Spec_Sum L_Sum Spec_Graph Spec_Stats M_Structure M_Training M_Float32 M_Train32 Spec_Float32 L_Float32 M_Serving M_Serving32 Spec_Serving32 M_SampleTree32 Spec_Tree32 L_Serving32a
  Spec_Accuracy L_Acc1 L_Logits32a L_Logits32b M_EstimateTree32 M_Ensemble32 Spec_Ensemble32.
Import ListNotations.
Open Scope R_scope.

Lemma exp_lip a b : a <= 0 -> b <= 0 -> Rabs (exp a - exp b) <= Rabs (a - b).
Proof.
  assert (K : forall a b, a <= b -> b <= 0 -> 0 <= exp b - exp a <= b - a).
  { clear. intros a b L Hb. assert (E : exp a = exp b * exp (a - b)) by (rewrite <- exp_plus; f_equal; ring).
    assert (G : 1 + (a - b) <= exp (a - b)) by (destruct (Req_dec (a - b) 0) as [->|N]; [rewrite exp_0; lra|left; now apply exp_ineq1]).
    assert (G1 : exp (a - b) <= 1) by (rewrite <- exp_0; destruct (Req_dec (a - b) 0) as [->|N]; [lra|left; apply exp_increasing; lra]).
    assert (EB : exp b <= 1) by (rewrite <- exp_0; destruct (Req_dec b 0) as [->|N]; [lra|left; apply exp_increasing; lra]).
    pose proof (exp_pos b). rewrite E. split; nra. }
  intros Ha Hb. destruct (Rle_dec a b) as [L|L].
  - destruct (K a b L Hb). rewrite (Rabs_minus_sym a b), (Rabs_pos_eq (b - a)) by lra. rewrite Rabs_minus_sym, Rabs_pos_eq; lra.
  - destruct (K b a ltac:(lra) Ha). rewrite !Rabs_pos_eq; lra.
Qed.

Lemma ln_lip a b : 1 <= a -> 1 <= b -> Rabs (ln a - ln b) <= Rabs (a - b).
Proof.
  assert (K : forall a b, 1 <= a -> a <= b -> 0 <= ln b - ln a <= b - a).
  { clear. intros a b Ha L. split; [destruct L as [L| ->]; [pose proof (ln_increasing a b ltac:(lra) L); lra|lra]|].
    replace (ln b - ln a) with (ln (b / a)) by (unfold Rdiv; rewrite ln_mult, ln_Rinv by (try apply Rinv_0_lt_compat; lra); ring).
    assert (Q : 1 <= b / a) by (apply Rmult_le_reg_r with a; [lra|]; unfold Rdiv; rewrite Rmult_assoc, Rinv_l by lra; lra).
    assert (G : ln (b / a) <= b / a - 1).
    { pose proof (exp_ineq1_le (b / a - 1)) as E. rewrite <- (ln_exp (b / a - 1)).
      destruct (Req_dec (b / a) (exp (b / a - 1))) as [<-|N]; [lra|]. left. apply ln_increasing; lra. }
    eapply Rle_trans; [exact G|]. replace (b / a - 1) with ((b - a) * / a) by (field; lra).
    assert (/ a <= 1) by (rewrite <- Rinv_1; apply Rinv_le_contravar; lra). nra. }
  intros Ha Hb. destruct (Rle_dec a b) as [L|L].
  - destruct (K a b Ha L). rewrite (Rabs_minus_sym a b), (Rabs_pos_eq (b - a)) by lra. rewrite Rabs_minus_sym, Rabs_pos_eq; lra.
  - destruct (K b a Hb ltac:(lra)). rewrite !Rabs_pos_eq; lra.
Qed.

Section Lse.
Variables (lib : numlib) (exp32 : f32 -> f32) (W : Z) (eta lambda ex B : R).
Hypothesis LIB : lib_ok lib.
Hypothesis ACC : accurate W eta lambda lib.
Hypothesis EX : exp_ok ex exp32.
Hypothesis HX : 0 <= ex <= 1.
Hypothesis HB : B <= bp 24.

(** ln (sum of exp). *)
Definition lse (l : list f32) : R := ln (sumf l (fun x => exp (val x))).

Lemma rsum_sumf {X} (f : X -> R) l : rsum (map f l) = sumf l f.
Proof. induction l as [|x l IH]; [reflexivity|]. cbn [map]. rewrite sumf_cons, <- IH. reflexivity. Qed.

Lemma lse_near l : l <> [] -> (Z.of_nat (length l) <= W)%Z -> (Z.of_nat (length l) <= 2 ^ 16)%Z ->
  Forall (fun x => fin32 x = true /\ Rabs (val x) <= B) l ->
  exists r, logsumexp32 lib exp32 l = Ok r /\ fin32 r = true /\ Rabs (val r) <= 2 * (B + 128) /\
    Rabs (val r - lse l) <= INR (length l) * (ex + bp (-23) * B) + eta + lambda + bp (-24) * (B + 128).
Proof.
  intros NE HW HL F. destruct l as [|x0 t] eqn:El; [congruence|]. rewrite <- El in *. clear NE.
  assert (FF : Forall (fun z => fin32 z = true) (x0 :: t)) by (rewrite <- El; eapply Forall_impl; [|exact F]; intros ? [G _]; exact G).
  destruct (fmax_spec t x0 FF) as (IM & UM). set (m := fmax x0 t) in *. rewrite <- El in IM, UM.
  rewrite Forall_forall in F. destruct (F m IM) as (Fm & Bm). apply Rabs_le_inv in Bm.
  assert (B0 : 0 <= B) by lra. assert (B20 : bp 24 = 16777216) by reflexivity. assert (B120 : bp 27 <= bp 120) by (apply bpow_le; lia). change (bp 27) with 134217728 in B120.
  assert (P24 : 0 < bp (-24)) by apply bpow_gt_0. assert (B24 : bp (-23) = 2 * bp (-24)) by (change (-23)%Z with (1 + -24)%Z; rewrite bpow_plus; reflexivity).
  assert (S24 : bp (-24) <= / 16) by (change (bp (-24)) with (/ 16777216); lra).
  assert (D : forall y, In y l -> fin32 (fsub y m) = true /\ val (fsub y m) <= 0 /\ Rabs (val (fsub y m) - (val y - val m)) <= bp (-23) * B).
  { intros y Iy. destruct (F y Iy) as (Fy & By). apply Rabs_le_inv in By. pose proof (UM y Iy) as U.
    destruct (fsub_near y m Fy Fm) as (G1 & G2); [apply Rabs_le; lra|]. rewrite (Rabs_left1 (val y - val m)) in G2 by lra.
    split; [exact G1|]. split; [apply Rabs_le_inv in G2; nra|]. eapply Rle_trans; [exact G2|]. rewrite B24. nra. }
  set (es := map (fun y => exp32 (fsub y m)) l).
  destruct EX as (E1 & E2 & _).
  assert (EE : forall y, In y l -> fin32 (exp32 (fsub y m)) = true /\ 0 <= val (exp32 (fsub y m)) /\ Rabs (val (exp32 (fsub y m)) - exp (val y - val m)) <= ex + bp (-23) * B).
  { intros y Iy. destruct (D y Iy) as (D1 & D2 & D3). destruct (E1 _ D1 D2) as (G1 & G2 & G3). split; [exact G1|]. split; [exact G2|].
    pose proof (exp_lip (val (fsub y m)) (val y - val m) D2 ltac:(pose proof (UM y Iy); lra)) as L.
    replace (val (exp32 (fsub y m)) - exp (val y - val m)) with ((val (exp32 (fsub y m)) - exp (val (fsub y m))) + (exp (val (fsub y m)) - exp (val y - val m))) by ring.
    eapply Rle_trans; [apply Rabs_triang|]. lra. }
  set (S' := sumf l (fun y => val (exp32 (fsub y m)))). set (S0 := sumf l (fun y => exp (val y - val m))).
  assert (SS : Rabs (S' - S0) <= INR (length l) * (ex + bp (-23) * B)).
  { unfold S', S0. rewrite <- sumf_minus, <- sumf_const. eapply Rle_trans; [apply sumf_abs_le|]. apply sumf_le. intros y Iy. now apply EE. }
  assert (S0p : 1 <= S0).
  { replace 1 with (exp (val m - val m)) by (rewrite Rminus_eq_0; apply exp_0). unfold S0. apply (sumf_member_le l (fun y => exp (val y - val m)) m); auto. intros. left. apply exp_pos. }
  assert (EM : val (exp32 (fsub m m)) = 1).
  { destruct (D m IM) as (D1 & D2 & D3). apply E2; [exact D1|]. destruct (fsub_near m m Fm Fm) as (_ & G); [rewrite Rminus_eq_0, Rabs_R0; lra|].
    rewrite Rminus_eq_0, Rabs_R0, Rmult_0_r, Rminus_0_r in G. pose proof (Rabs_pos (val (fsub m m))). apply Rabs_eq_R0. lra. }
  assert (S'p : 1 <= S').
  { rewrite <- EM. unfold S'. apply (sumf_member_le l (fun y => val (exp32 (fsub y m))) m); auto. intros y Iy. now apply EE. }
  assert (FE : Forall (fun x => fin32 x = true /\ 0 <= val x) es).
  { apply Forall_forall. intros z Iz. apply in_map_iff in Iz. destruct Iz as (y & <- & Iy). destruct (EE y Iy) as (? & ? & _). auto. }
  assert (RS : rsum (map (@B2R 24 128) es) = S') by (unfold es; rewrite map_map; apply rsum_sumf).
  assert (LEs : length es = length l) by (unfold es; now rewrite map_length).
  assert (SB : S' <= bp 120).
  { apply Rle_trans with (INR (length l) * 2).
    - unfold S'. rewrite <- sumf_const. apply sumf_le. intros y Iy. destruct (D y Iy) as (D1 & D2 & _). destruct (E1 _ D1 D2) as (_ & _ & G3). apply Rabs_le_inv in G3.
      assert (exp (val (fsub y m)) <= 1) by (rewrite <- exp_0; destruct (Req_dec (val (fsub y m)) 0) as [->|N]; [lra|left; apply exp_increasing; lra]). lra.
    - rewrite INR_IZR_INZ. apply IZR_le in HL. change (IZR (2 ^ 16)) with 65536 in HL. lra. }
  destruct LIB as (_ & LS & _ & LG). destruct ACC as (AS & _ & _ & AL).
  destruct (proj1 LS es) as (Q1 & Q2 & _); [rewrite LEs; exact HL|exact FE|rewrite RS; exact SB|]. rewrite RS in Q2.
  assert (QA : agree eta (val (l_sum lib es)) S') by (rewrite <- RS; apply AS; [rewrite LEs; exact HW|exact FE|rewrite RS; exact SB]).
  assert (QP : 0 < val (l_sum lib es)) by (apply (agree_pos _ _ _ QA); lra).
  pose proof (agree_ln _ _ _ QA ltac:(lra)) as QL. pose proof (AL _ Q1 QP) as QG. destruct (proj1 LG _ Q1 QP) as (G1 & G2). apply Rabs_le_inv in G2.
  set (lg := l_log lib (l_sum lib es)) in *.
  destruct (fadd_near lg m G1 Fm) as (H1 & H2); [apply Rabs_le; lra|].
  exists (fadd lg m). split.
  { unfold logsumexp32. rewrite El. cbv zeta. fold m. rewrite Fm. rewrite <- El. fold es. fold lg. reflexivity. }
  split; [exact H1|].
  assert (AB : Rabs (val lg + val m) <= B + 128) by (apply Rabs_le; lra).
  assert (H3 : Rabs (val (fadd lg m) - (val lg + val m)) <= bp (-24) * (B + 128)) by (eapply Rle_trans; [exact H2|]; apply Rmult_le_compat_l; lra).
  split.
  { apply Rabs_le_inv in H3. apply Rabs_le_inv in AB. apply Rabs_le. nra. }
  assert (LS0 : lse l = val m + ln S0).
  { unfold lse. replace (sumf l (fun x => exp (val x))) with (exp (val m) * S0).
    - rewrite ln_mult, ln_exp; [reflexivity|apply exp_pos|lra].
    - unfold S0. rewrite <- sumf_scal. apply sumf_ext. intros y _. rewrite <- exp_plus. f_equal. ring. }
  rewrite LS0. pose proof (ln_lip S' S0 S'p S0p) as LL.
  replace (val (fadd lg m) - (val m + ln S0)) with ((val (fadd lg m) - (val lg + val m)) + ((val lg - ln (val (l_sum lib es))) + ((ln (val (l_sum lib es)) - ln S') + (ln S' - ln S0)))) by ring.
  eapply Rle_trans; [apply Rabs_triang|]. pose proof (Rabs_triang (val lg - ln (val (l_sum lib es))) ((ln (val (l_sum lib es)) - ln S') + (ln S' - ln S0))).
  pose proof (Rabs_triang (ln (val (l_sum lib es)) - ln S') (ln S' - ln S0)). lra.
Qed.
End Lse.
