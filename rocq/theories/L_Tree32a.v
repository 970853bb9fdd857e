(** Programs that draw from nearly the same weights have nearly the same law. *)
From Coq Require Import List Arith Bool ZArith Reals Lra Lia.
From Flocq Require Import Core IEEE754.BinarySingleNaN.
From Verif Require Import Base L_Base Spec_Sum L_Sum M_Rand L_Rand M_Float32 M_Train32 Spec_Float32 L_Float32 L_Sample32 Spec_Law L_Grid L_Grid2.
Import ListNotations.
Open Scope R_scope.

Definition share (w : list f32) (i : nat) : R := val (nth i w fzero) / rsum (map (fun x : f32 => B2R x) w).

Inductive sim {A} (B : nat) (th : R) : nat -> fprog A -> rprog A -> Prop :=
| sim_ret D a : sim B th D (FRet a) (Ret a)
| sim_fail D e : sim B th D (FFail e) (Fail e)
| sim_cat D w w' k k' : usable w -> length w' = length w -> (length w <= B)%nat -> (forall x, In x w' -> 0 <= x) -> 0 < rsum w' ->
    (forall i, (i < length w)%nat -> 0 < val (nth i w fzero) -> 0 < nth i w' 0) ->
    sumf (seq 0 (length w)) (fun i => Rabs (share w i - nth i w' 0 / rsum w')) <= th ->
    (forall i, sim B th D (k i) (k' i)) -> sim B th (S D) (FCat w k) (Cat w' k').

Fixpoint frets {A} (J : A -> Prop) (p : fprog A) : Prop :=
  match p with FRet a => J a | FFail _ => True | FCat _ k => forall i, frets J (k i) end.

Section SIM.
Variables (B : nat) (th : R).
Hypothesis TH : 0 <= th.

Lemma sim_mono {A} D D' (p : fprog A) q : sim B th D p q -> (D <= D')%nat -> sim B th D' p q.
Proof.
  intros HS. revert D'. induction HS as [D a|D e|D w w' k k' U L LB N P PP T HK IH]; intros D' HD; [constructor|constructor|].
  destruct D' as [|D']; [lia|]. constructor; auto. intros i. apply IH. lia.
Qed.
Lemma sim_bind {A A'} (J : A -> Prop) D D' (p : fprog A) q (f : A -> fprog A') g : sim B th D p q -> frets J p ->
  (forall a, J a -> sim B th D' (f a) (g a)) -> sim B th (D + D') (fbind p f) (rbind q g).
Proof.
  intros HS HJ HF. induction HS as [D a|D e|D w w' k k' U L LB N P PP T HK IH]; cbn [fbind rbind Nat.add].
  - eapply sim_mono; [apply HF; exact HJ|lia].
  - constructor.
  - constructor; auto.
Qed.
Lemma sim_lift {A A'} D (r : result A) (f : A -> fprog A') g : (forall a, r = Ok a -> sim B th D (f a) (g a)) -> sim B th D (fbind (flift r) f) (rbind (lift r) g).
Proof. destruct r as [a|e]; intros H; cbn; [now apply H|constructor]. Qed.
Lemma frets_bind {A A'} (J : A -> Prop) (J' : A' -> Prop) (p : fprog A) f : frets J p -> (forall a, J a -> frets J' (f a)) -> frets J' (fbind p f).
Proof. induction p as [a|e|w k IH]; cbn; auto. Qed.
Lemma frets_lift {A A'} (J : A' -> Prop) (r : result A) f : (forall a, r = Ok a -> frets J (f a)) -> frets J (fbind (flift r) f).
Proof. destruct r as [a|e]; intros H; cbn; auto. Qed.
Lemma frets_true {A} (p : fprog A) : frets (fun _ => True) p.
Proof. induction p; cbn; auto. Qed.
Lemma sim_fold {A S} (J : S -> Prop) D (f : S -> A -> fprog S) g l : (forall s x, J s -> sim B th D (f s x) (g s x) /\ frets J (f s x)) ->
  forall s, J s -> sim B th (length l * D) (ffold f l s) (rfold g l s).
Proof.
  intros H. induction l as [|x l IH]; intros s HJ; cbn [ffold rfold length]; [constructor|]. cbn [Nat.mul].
  destruct (H s x HJ) as (H1 & H2). now apply (sim_bind J).
Qed.

Lemma sim_shape {A} D (p : fprog A) q : sim B th D p q -> shape B D p.
Proof. induction 1; cbn [shape]; auto. Qed.
Lemma sim_draws {A} (P : A -> Prop) D (p : fprog A) q : sim B th D p q -> always P q -> draws_usable P p.
Proof.
  induction 1 as [D a|D e|D w w' k k' U L LB N PO PP T HK IH]; cbn [always draws_usable]; auto.
  intros (_ & HA). split; [exact U|]. intros i Hi Pi. apply IH. apply HA. split; [lia|]. left. auto.
Qed.

Lemma sim_prob {A} D (p : fprog A) q b : sim B th D p q -> 0 <= prob (ideal p) b <= 1 /\ Rabs (prob (ideal p) b - prob q b) <= INR D * th.
Proof.
  unfold prob. set (f := fun r => match r with Ok a => if b a then 1 else 0 | Raise _ => 0 end).
  induction 1 as [D a|D e|D w w' k k' U L LB N PO PP T HK IH].
  - cbn [ideal expect f]. assert (0 <= INR D * th) by (apply Rmult_le_pos; [apply pos_INR|exact TH]).
    unfold f. destruct (b a); (split; [lra|]); rewrite Rminus_diag_eq, Rabs_R0 by reflexivity; auto.
  - cbn [ideal expect]. unfold f. assert (0 <= INR D * th) by (apply Rmult_le_pos; [apply pos_INR|exact TH]).
    split; [lra|]. rewrite Rminus_diag_eq, Rabs_R0 by reflexivity. auto.
  - cbn [ideal expect]. pose proof (total_pos w U) as PT. unfold total in PT.
    destruct (map B2R w) as [|x0 l0] eqn:EW; [cbn in PT; lra|]. rewrite <- EW in *.
    destruct w' as [|y0 l1] eqn:EW'; [cbn in PO; lra|]. rewrite <- EW' in *.
    destruct (Req_EM_T (rsum (map B2R w)) 0) as [Z|_]; [lra|]. destruct (Req_EM_T (rsum w') 0) as [Z|_]; [lra|].
    rewrite map_length, L. set (S0 := rsum (map B2R w)) in *. set (S1 := rsum w') in *.
    assert (NTH : forall i, nth i (map B2R w) 0 / S0 = share w i) by (intros i; unfold share; fold S0; f_equal; apply (map_nth (fun x : f32 => val x) w fzero)).
    assert (SH0 : forall i, 0 <= share w i).
    { intros i. destruct (weight_ok w U i) as (_ & W1). unfold share. fold S0. apply Rmult_le_pos; [lra|left; now apply Rinv_0_lt_compat]. }
    assert (SH1 : sumf (seq 0 (length w)) (share w) = 1).
    { rewrite (sumf_ext _ _ (fun i => nth i (map B2R w) 0 / S0)) by (intros; now rewrite NTH). rewrite sumf_div, <- (map_length B2R w), sumf_seq_nth. fold S0. unfold Rdiv. apply Rinv_r. lra. }
    assert (Q0 : forall i, (i < length w)%nat -> 0 <= nth i w' 0 / S1).
    { intros i Hi. apply Rmult_le_pos; [apply N, nth_In; lia|left; now apply Rinv_0_lt_compat]. }
    assert (Q1 : sumf (seq 0 (length w)) (fun i => nth i w' 0 / S1) = 1).
    { rewrite sumf_div, <- L, sumf_seq_nth. fold S1. unfold Rdiv. apply Rinv_r. lra. }
    rewrite (sumf_ext _ _ (fun i => share w i * expect (ideal (k i)) f)) by (intros; now rewrite NTH). split.
    + split; [apply sumf_nonneg; intros i _; specialize (SH0 i); destruct (IH i) as (I1 & _); nra|]. rewrite <- SH1.
      apply sumf_le. intros i _. specialize (SH0 i). destruct (IH i) as (I1 & _). nra.
    + replace (sumf (seq 0 (length w)) (fun i => share w i * expect (ideal (k i)) f) - sumf (seq 0 (length w)) (fun i => nth i w' 0 / S1 * expect (k' i) f))
        with (sumf (seq 0 (length w)) (fun i => (share w i - nth i w' 0 / S1) * expect (ideal (k i)) f + nth i w' 0 / S1 * (expect (ideal (k i)) f - expect (k' i) f))).
      2:{ rewrite <- L_Sum.sumf_minus. apply sumf_ext. intros i _. ring. }
      eapply Rle_trans; [apply sumf_abs|].
      apply Rle_trans with (sumf (seq 0 (length w)) (fun i => Rabs (share w i - nth i w' 0 / S1) + nth i w' 0 / S1 * (INR D * th))).
      * apply sumf_le. intros i Hi. apply in_seq in Hi. destruct (IH i) as (I1 & I2). eapply Rle_trans; [apply Rabs_triang|].
        rewrite !Rabs_mult. apply Rplus_le_compat.
        -- rewrite <- (Rmult_1_r (Rabs (share w i - _))) at 2. apply Rmult_le_compat_l; [apply Rabs_pos|]. rewrite Rabs_pos_eq; lra.
        -- rewrite (Rabs_pos_eq (nth i w' 0 / S1)) by (apply Q0; lia). apply Rmult_le_compat_l; [apply Q0; lia|exact I2].
      * rewrite sumf_plus, sumf_scal_r, Q1. rewrite S_INR. lra.
Qed.
End SIM.
