(** The repaired [logprob] stays finite. *)
From Coq Require Import List Arith Bool ZArith Reals Lra Lia.
From Flocq Require Import Core IEEE754.BinarySingleNaN.
From Verif Require Import Base L_Base Spec_Graph L_Graph Spec_Sum L_Sum M_Structure L_Pairing L_MakeTree L_Program L_ProgramValid Spec_Program L_Center L_Prop1 M_Util Spec_Ragged L_Ragged M_Array M_Training Spec_Stats L_Stats L_Trainer L_SampleTree Spec_Conditional L_Asg L_BP L_BPVec L_AddRow
  M_Float32 M_Train32 Spec_Float32 L_Float32 L_Sample32 L_Train32 L_Train32c L_Train32d M_Serving Spec_Serving L_Server L_Serve1 M_Serving32 Spec_Serving32 L_Serving32a L_Serving32b L_Serving32c L_Serving32d M_Repaired8.
Import ListNotations.
Open Scope R_scope.

Section RUN.
Variables (lib : numlib) (ws : list nat) (V M N : nat) (m : smodel) (A : Z) (s : server32) (row : list Z).
Hypothesis LIB : lib_ok lib.
Hypothesis C : consistent ws V M N m.
Hypothesis CB : counts_below A ws N m.
Hypothesis HA : (6 <= A <= 16)%Z.
Hypothesis TB : tables32 ws V M A m s.
Hypothesis RL : length row = list_sum ws.

Notation good := (mgood M A 0 0).

Lemma HL0 : (2 * (A + 3 + (0 + 4) * 0) + A + 11 <= 149)%Z.
Proof. lia. Qed.

Definition lgood (st : (nat -> f32) * f32) : Prop := good (fst st) /\ fin32 (snd st) = true /\ Rabs (val (snd st)) <= bp 40.

Lemma factor_good v q st : (v < V)%nat -> In q (block ws v) -> lgood st -> lgood (repaired_factor32 lib s q st).
Proof.
  destruct st as [msg lp]. intros Hv Iq ((G1 & k0 & Hk0 & G2) & F & B). cbn [fst snd] in *.
  unfold repaired_factor32. rewrite (t3_M _ _ _ _ _ _ TB).
  assert (HM := HM ws V M N m C).
  assert (FE : forall k, (k < M)%nat -> fin32 (s3_feat s q k) = true /\ 0 <= val (s3_feat s q k) <= bp 0 /\ bp (- (A + 12)) <= val (s3_feat s q k)).
  { intros k Hk. destruct (t3_feat _ _ _ _ _ _ TB v q k Hv Iq Hk) as (f1 & f2 & f3). split; [exact f1|].
    change (bp 0) with 1. split; [lra|]. replace (- (A + 12))%Z with (- (A + 9 + 3))%Z by lia. apply f3; [lia|].
    apply (feat_prob_low ws V M N m A C CB HA); auto. }
  destruct (sum_classes lib ws V M N m A 0 0 row LIB C HA ltac:(lia) ltac:(lia) HL0 RL (fun k => fmul (msg k) (s3_feat s q k)) 0) as (S1 & S2 & S3).
  - lia.
  - intros k Hk. destruct (G1 k Hk) as (g1 & g2). destruct (FE k Hk) as (f1 & f2 & f3).
    destruct (mul_pow M HM (msg k) (s3_feat s q k) 0 0 0 0 g1 f1 g2 f2 ltac:(lia)) as (x1 & x2 & _). auto.
  - exists k0. split; [exact Hk0|]. destruct (G1 k0 Hk0) as (g1 & g2). destruct (FE k0 Hk0) as (f1 & f2 & f3).
    destruct (mul_pow M HM (msg k0) (s3_feat s q k0) 0 0 (- (A + 3 + (0 + 4) * 0)) (- (A + 12)) g1 f1 g2 f2 ltac:(lia)) as (_ & _ & x3).
    eapply Rlt_le_trans; [|apply x3; [lia|exact G2|exact f3]]. apply bp_pos.
  - destruct LIB as (_ & _ & _ & LG & _). destruct (LG _ S1 S2) as (Q1 & Q2). destruct (fadd_log lp _ F Q1 B Q2) as (Q3 & Q4).
    split; [exact S3|]. split; [exact Q3|exact Q4].
Qed.

Lemma observe_fold v : (v < V)%nat -> forall l st, incl l (block ws v) -> lgood st ->
  exists st', foldM (fun st r => bind (get IndexError row r) (fun power => Ok (Nat.iter (Z.to_nat power) (repaired_factor32 lib s r) st))) l st = Ok st' /\ lgood st'.
Proof.
  intros Hv. induction l as [|q l IH]; intros st IL G; [exists st; auto|].
  assert (Iq : In q (block ws v)) by (apply IL; now left).
  assert (Q : (q < length row)%nat) by (rewrite RL; now apply (block_lt ws V M N m C v)).
  cbn [foldM]. unfold get at 1. rewrite (nth_error_nth' row 0%Z Q). cbn [bind].
  apply IH; [intros k I; apply IL; now right|].
  induction (Z.to_nat (nth q row 0%Z)) as [|n IHn]; [exact G|]. cbn [Nat.iter nat_rect]. now apply (factor_good v).
Qed.

Lemma observe_lgood v st : (v < V)%nat -> lgood st -> exists st', repaired_observe32 lib s row v st = Ok st' /\ lgood st'.
Proof.
  intros Hv G. unfold repaired_observe32. rewrite (t3_ri _ _ _ _ _ _ TB). pose proof (cm_width _ _ _ _ _ C) as W. rewrite !mri_get by lia. cbn [bind].
  assert (E : (list_sum (firstn (v + 1) ws) - list_sum (firstn v ws) = nth v ws 0)%nat).
  { rewrite Nat.add_1_r, sum_firstn_S by lia. lia. }
  rewrite E. fold (block ws v). apply (observe_fold v Hv); [apply incl_refl|exact G].
Qed.

Section LOOP.
Variables (es : list (nat * nat)) (root : nat).
Hypothesis VPG : valid_program V es root (s3_prog s).
Hypothesis PB : forall op v a e, In (I op v a e) (s3_prog s) -> (v < V)%nat /\ match op with OP_IN | OP_OUT => (a < V)%nat /\ (e < V - 1)%nat | _ => True end.

Lemma repaired_loop_finite suf : forall messages lp, incl suf (s3_prog s) -> In (I OP_ROOT root 0 0) suf ->
  (forall v, (v < V)%nat -> good (messages v)) -> fin32 lp = true -> Rabs (val lp) <= bp 40 ->
  exists x, repaired_logprob_loop32 lib s row suf messages lp = Ok x /\ fin32 x = true.
Proof.
  assert (LG := proj1 (proj2 (proj2 (proj2 LIB)))).
  induction suf as [|[op v a e] suf IH]; intros messages lp IC IR J1 J2 J3; [destruct IR|].
  assert (IN : In (I op v a e) (s3_prog s)) by (apply IC; now left).
  assert (IC' : incl suf (s3_prog s)) by (intros x K; apply IC; now right).
  assert (IR' : op <> OP_ROOT -> In (I OP_ROOT root 0 0) suf) by (intros NE; destruct IR as [K|K]; [inversion K; congruence|exact K]).
  destruct (PB _ _ _ _ IN) as (Hv & HB).
  cbn [repaired_logprob_loop32]. rewrite (t3_V _ _ _ _ _ _ TB), (t3_M _ _ _ _ _ _ TB). unfold index at 1. rewrite (proj2 (Nat.ltb_lt v V) Hv). cbn [bind].
  assert (Gv := J1 v Hv).
  assert (PUT : forall f, good f -> forall u, (u < V)%nat -> good (set1 messages v f u)).
  { intros f Gf u Hu. destruct (Nat.eq_dec u v) as [->|NE]; [now rewrite set1_same|]. rewrite set1_other by auto. auto. }
  destruct op.
  - (* UP *)
    destruct (observe_lgood v (messages v, lp) Hv) as ([msg' lp'] & EO & GO & L1 & L2); [split; [exact Gv|split; [exact J2|exact J3]]|].
    rewrite EO. cbn [bind]. apply IH; auto. apply IR'. discriminate.
  - (* IN *)
    destruct HB as (Ha & He). rewrite (proj2 (Nat.ltb_lt a V) Ha), (proj2 (Nat.ltb_lt e (V - 1)) He). cbn [andb index bind].
    destruct (in_step lib ws V M N m A 0 0 s row LIB C HA ltac:(lia) ltac:(lia) HL0 TB RL v a e (messages v) (messages a) Hv Ha He Gv (J1 a Ha)) as (S1 & S2 & S3). cbv zeta in S1, S2, S3.
    destruct (LG _ S1 S2) as (Q1 & Q2). destruct (fadd_log lp _ J2 Q1 J3 Q2) as (Q3 & Q4).
    apply IH; auto. apply IR'. discriminate.
  - (* ROOT *)
    destruct Gv as (G1 & k & Hk & G2).
    destruct (sum_classes lib ws V M N m A 0 0 row LIB C HA ltac:(lia) ltac:(lia) HL0 RL (messages v) 0) as (S1 & S2 & _); [lia|exact G1|exists k; split; [exact Hk|pose proof (bp_pos (- (A + 3 + (0 + 4) * 0))); lra]|].
    destruct (LG _ S1 S2) as (Q1 & Q2). destruct (fadd_log lp _ J2 Q1 J3 Q2) as (Q3 & Q4). eexists. split; [reflexivity|exact Q3].
  - apply IH; auto. apply IR'. discriminate.
  - apply IH; auto. apply IR'. discriminate.
Qed.
End LOOP.

Lemma repaired_row_finite : exists x, repaired_logprob_row32 lib s row = Ok x /\ fin32 x = true.
Proof.
  unfold repaired_logprob_row32. rewrite (t3_R _ _ _ _ _ _ TB), RL, Nat.eqb_refl. cbn [assert_ bind].
  destruct (cm_tree _ _ _ _ _ C) as (es & T & ET). pose proof (t3_prog _ _ _ _ _ _ TB) as EP. rewrite ET in EP. cbn [ts_grid] in EP.
  pose proof (prog_bounds V es _ T EP) as PB.
  destruct (find_center_Ok V es T) as (ctr & EC & CC). destruct (make_program_valid V es ctr T (proj1 CC)) as (prog & E1 & VP).
  assert (EQ : s3_prog s = prog).
  { unfold make_propagation_program in EP, E1. rewrite EC in EP. cbn [bind] in EP, E1. rewrite EP in E1. now inversion E1. }
  apply (repaired_loop_finite ctr PB).
  - apply incl_refl.
  - rewrite EQ. apply (vp_root _ _ _ _ VP). auto.
  - intros v Hv. apply (vert_good ws V M N m A 0 0 s row C); auto; lia.
  - reflexivity.
  - cbn. rewrite Rabs_R0. lra.
Qed.
End RUN.

Lemma repaired_logprob_finite lib ws V M N m A row : lib_ok lib -> consistent ws V M N m -> counts_below A ws N m ->
  (6 <= A <= 16)%Z -> length row = list_sum ws ->
  exists s x, tree_server32 lib m = Ok s /\ repaired_logprob_row32 lib s row = Ok x /\ is_finite x = true.
Proof.
  intros LIB C CB HA RL. destruct (build32 lib ws V M N m A LIB C CB HA) as (s & E & TB).
  destruct (repaired_row_finite lib ws V M N m A s row LIB C CB HA TB RL) as (x & EX & FX). eauto.
Qed.
