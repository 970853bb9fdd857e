(** Float32 log probabilities: the results. *)
From Coq Require Import List Arith Bool ZArith Reals Lra Lia.
From Flocq Require Import Core IEEE754.BinarySingleNaN.
From Verif Require Import Base L_Base Spec_Graph L_Graph Spec_Sum L_Sum M_Structure L_Pairing L_MakeTree L_Program L_ProgramValid Spec_Program L_Center L_Prop1 M_Util Spec_Ragged L_Ragged M_Array M_Training Spec_Stats L_Stats L_Trainer L_SampleTree Spec_Conditional L_Asg L_BP L_BPVec L_AddRow
  M_Float32 M_Train32 Spec_Float32 L_Float32 L_Sample32 L_Train32 L_Train32c L_Train32d M_Serving Spec_Serving L_Server L_Serve1 M_Serving32 Spec_Serving32 L_Serving32a L_Serving32b L_Serving32c L_Serving32d L_Serving32e.
Import ListNotations.
Open Scope R_scope.

Lemma logprob_finite lib ws V M N m A b c row : lib_ok lib -> consistent ws V M N m -> counts_below A ws N m ->
  (6 <= A <= 16)%Z -> (0 <= b <= 140)%Z -> (0 <= c)%Z -> (2 * (A + 3 + (b + 4) * c) + A + 11 <= 149)%Z ->
  length row = list_sum ws -> Forall (fun x => (0 <= x)%Z) row ->
  (forall v, (v < V)%nat -> (block_sum ws row v <= c)%Z) ->
  (forall v q k, (v < V)%nat -> In q (block ws v) -> (k < M)%nat -> nth q row 0%Z <> 0%Z -> bp (- b) <= feat_prob ws m v q k) ->
  exists s x, tree_server32 lib m = Ok s /\ logprob_row32 lib s row = Ok x /\ is_finite x = true.
Proof.
  intros LIB C CB HA Hb Hc HL RL RN RC RF. destruct (build32 lib ws V M N m A LIB C CB HA) as (s & E & TB).
  destruct (row_finite lib ws V M N m A b c s row LIB C HA Hb Hc HL TB RL RN RC RF) as (x & EX & FX). eauto.
Qed.

Lemma logprob_finite_any lib ws V M N m A c row : lib_ok lib -> consistent ws V M N m -> counts_below A ws N m ->
  (6 <= A <= 16)%Z -> (0 <= c)%Z -> (2 * (A + 3 + (A + 13) * c) + A + 11 <= 149)%Z ->
  length row = list_sum ws -> Forall (fun x => (0 <= x)%Z) row ->
  (forall v, (v < V)%nat -> (block_sum ws row v <= c)%Z) ->
  exists s x, tree_server32 lib m = Ok s /\ logprob_row32 lib s row = Ok x /\ is_finite x = true.
Proof.
  intros LIB C CB HA Hc HL RL RN RC. apply (logprob_finite lib ws V M N m A (A + 9) c row); auto; try lia.
  intros v q k Hv Iq Hk _. apply (feat_prob_low ws V M N m A C CB HA); auto.
Qed.

Lemma logprob_finite_one lib ws V M N m row : lib_ok lib -> consistent ws V M N m -> counts_below 16 ws N m ->
  length row = list_sum ws -> Forall (fun x => (0 <= x)%Z) row ->
  (forall v, (v < V)%nat -> (block_sum ws row v <= 1)%Z) ->
  exists s x, tree_server32 lib m = Ok s /\ logprob_row32 lib s row = Ok x /\ is_finite x = true.
Proof. intros LIB C CB. apply (logprob_finite_any lib ws V M N m 16 1 row); auto; lia. Qed.

Lemma logprob_underflows lib V M N m : lib_ok lib -> (2 <= V)%nat -> consistent (repeat 2%nat V) V M N m -> counts_below 16 (repeat 2%nat V) N m ->
  exists s x, tree_server32 lib m = Ok s /\ logprob_row32 lib s (concat (repeat [64; 63]%Z V)) = Ok x /\ is_finite x = false.
Proof.
  intros LIB HV C CB. change (repeat 2%nat V) with (twos V) in *. change (concat (repeat [64; 63]%Z V)) with (middle V).
  destruct (build32 lib (twos V) V M N m 16 LIB C CB ltac:(lia)) as (s & E & TB). exists s.
  destruct (cm_tree _ _ _ _ _ C) as (es & T & ET). pose proof (t3_prog _ _ _ _ _ _ TB) as EP. rewrite ET in EP. cbn [ts_grid] in EP.
  pose proof (prog_bounds V es _ T EP) as PB.
  destruct (find_center_Ok V es T) as (ctr & EC & CC). destruct (make_program_valid V es ctr T (proj1 CC)) as (prog & E1 & VP).
  assert (EQ : s3_prog s = prog).
  { unfold make_propagation_program in EP, E1. rewrite EC in EP. cbn [bind] in EP, E1. rewrite EP in E1. now inversion E1. }
  destruct (loop_underflows lib V M N m s LIB C TB (grid_edges (make_tree es)) ctr) with (suf := s3_prog s) (pre := @nil instr) (messages := s3_vert s) (lp := fzero) as (x & EX & FX).
  - rewrite EQ. exact VP.
  - exact PB.
  - reflexivity.
  - set (k := if (ctr =? 0)%nat then 1%nat else 0%nat).
    assert (Hk : (k < V)%nat /\ k <> ctr) by (unfold k; destruct (Nat.eqb_spec ctr 0); lia). destruct Hk as (Hk & NE).
    destruct (make_tree_spanning _ _ T) as (_ & _ & CN).
    destruct (dist_exists (grid_edges (make_tree es)) ctr k (CN _ _ (proj1 CC) Hk)) as (d & D).
    destruct d as [|d]; [destruct D as (W & _); inversion W; congruence|].
    destruct (dist_pred _ _ _ _ D) as (p & AD & DP).
    assert (X : exists f e, nth_error (grid_edges (make_tree es)) e = Some f /\ same_edge (p, k) f).
    { destruct AD as [I|I]; apply In_nth_error in I; destruct I as (e & Ee).
      - exists (p, k), e. split; [exact Ee|now left].
      - exists (k, p), e. split; [exact Ee|]. right. cbn. auto. }
    destruct X as (f & e & Ee & SE). exists p, k, e. rewrite EQ. apply (vp_in _ _ _ _ VP). split; [exists f; auto|]. exists d. auto.
  - rewrite EQ. apply (vp_root _ _ _ _ VP). auto.
  - intros v Hv. split; [intros []|auto].
  - exists x. split; [exact E|]. split; [|exact FX]. unfold logprob_row32. rewrite (t3_R _ _ _ _ _ _ TB), middle_length, twos_sum, Nat.eqb_refl. exact EX.
Qed.

(** ** Cases *)
Lemma ex_below : counts_below 6 [2; 1; 3]%nat 2 ex_model.
Proof.
  assert (LE : forall v n, (v < n)%nat -> In v (seq 0 n)) by (intros; apply in_seq; lia).
  split; [reflexivity|]. intros v c Hv Hc. cbn [length] in Hv. cbn [ex_model d_M] in Hc. apply LE in Hv, Hc. cbn [seq In] in Hv, Hc.
  destruct Hv as [<-|[<-|[<-|[]]]], Hc as [<-|[<-|[]]]; split; reflexivity.
Qed.

(** Two ordinal features with levels 0 .. 127, two classes, two rows of class 0. *)
Definition mid_model : smodel :=
  SModel (TS 2 (make_tree [(0, 1)]%nat)) [0; 2; 4]%nat
    (fun v c => nth c [2; 0] 0)%Z
    (fun e c1 c2 => nth c2 (nth c1 [[2; 0]; [0; 0]] []) 0)%Z
    (fun q c => nth c (nth q [[128; 0]; [126; 0]; [100; 0]; [154; 0]] []) 0)%Z
    2 [0]%R.

Lemma mid_consistent : consistent (repeat 2%nat 2) 2 2 2 mid_model.
Proof.
  assert (LE : forall v n, (v < n)%nat -> In v (seq 0 n)) by (intros; apply in_seq; lia).
  constructor; cbn [mid_model d_ri d_M d_tree d_vert d_edge d_feat d_logits]; auto.
  - split; [reflexivity|lia].
  - exists [(0, 1)]%nat. split; [|reflexivity]. exact (path_spanning 2 ltac:(lia)).
  - intros e v1 v2 c He Hc. apply LE in Hc. cbn [seq In] in Hc. destruct Hc as [<-|[<-|[]]]; split; reflexivity.
  - intros v c Hv Hc. apply LE in Hc. cbn [seq In] in Hc. destruct Hc as [<-|[<-|[]]]; cbn; lia.
  - intros e c1 c2 He H1 H2. apply LE in H1, H2. cbn [seq In Nat.sub] in H1, H2.
    destruct H1 as [<-|[<-|[]]], H2 as [<-|[<-|[]]]; cbn; lia.
  - intros q c Hq Hc. cbn [repeat list_sum fold_right Nat.add] in Hq. apply LE in Hq, Hc. cbn [seq In] in Hq, Hc.
    destruct Hq as [<-|[<-|[<-|[<-|[]]]]], Hc as [<-|[<-|[]]]; cbn; lia.
Qed.

Lemma mid_below : counts_below 16 (repeat 2%nat 2) 2 mid_model.
Proof.
  assert (LE : forall v n, (v < n)%nat -> In v (seq 0 n)) by (intros; apply in_seq; lia).
  split; [reflexivity|]. intros v c Hv Hc. cbn [repeat length] in Hv. cbn [mid_model d_M] in Hc. apply LE in Hv, Hc. cbn [seq In] in Hv, Hc.
  destruct Hv as [<-|[<-|[]]], Hc as [<-|[<-|[]]]; split; reflexivity.
Qed.

Lemma ex_case_finite : lib_ok lib0 /\ consistent [2; 1; 3]%nat 3 2 2 ex_model /\ counts_below 6 [2; 1; 3]%nat 2 ex_model /\
  (2 * (6 + 3 + (6 + 13) * 2) + 6 + 11 <= 149)%Z /\
  length [1; 0; 0; 1; 1; 0]%Z = list_sum [2; 1; 3]%nat /\ Forall (fun x => (0 <= x)%Z) [1; 0; 0; 1; 1; 0]%Z /\
  (forall v, (v < 3)%nat -> (block_sum [2; 1; 3]%nat [1; 0; 0; 1; 1; 0] v <= 2)%Z).
Proof.
  split; [exact lib0_ok|]. split; [exact ex_consistent|]. split; [exact ex_below|]. split; [lia|]. split; [reflexivity|]. split.
  - repeat constructor; lia.
  - intros v Hv. destruct v as [|[|[|v]]]; try lia; cbn; lia.
Qed.
