(** Float32 samples: the results. *)
From Coq Require Import List Arith Bool ZArith Reals Lra Lia.
From Flocq Require Import Core IEEE754.BinarySingleNaN.
From Verif Require Import Base L_Base Spec_Graph L_Graph Spec_Sum L_Sum M_Structure L_Pairing L_MakeTree L_Program L_ProgramValid Spec_Program L_Center L_Prop1 M_Util L_Quantize Spec_Ragged L_Ragged M_Array M_Training Spec_Stats L_Stats L_Trainer Spec_Conditional L_Asg L_BP L_BPVec L_AddRow
  M_Float32 M_Train32 Spec_Float32 L_Float32 L_Sample32 L_Train32 L_Train32c L_Train32d L_Train32i M_Serving Spec_Serving L_Server L_Serve1 L_SampleCounts M_Serving32 Spec_Serving32 L_Serving32a L_Serving32b L_Serving32c L_Serving32d L_Serving32e L_Serving32f M_Sample32 M_Repaired9 L_ServeSample.
Import ListNotations.
Open Scope R_scope.

(** ** What OP_UP does to a message *)
Section OBS.
Variables (lib : numlib) (ws : list nat) (V M N0 : nat) (m : smodel) (A b c : Z) (s : server32) (row : list Z).
Hypothesis LIB : lib_ok lib.
Hypothesis C : consistent ws V M N0 m.
Hypothesis HA : (6 <= A <= 16)%Z.
Hypothesis Hb : (0 <= b <= 140)%Z.
Hypothesis Hc : (0 <= c)%Z.
Notation L := (A + 3 + (b + 4) * c)%Z.
Hypothesis HL : (2 * L + A + 11 <= 149)%Z.
Hypothesis TB : tables32 ws V M A m s.
Hypothesis RL : length row = list_sum ws.
Hypothesis RN : Forall (fun x => (0 <= x)%Z) row.
Hypothesis RC : forall v, (v < V)%nat -> (block_sum ws row v <= c)%Z.
Hypothesis RF : forall v q k, (v < V)%nat -> In q (block ws v) -> (k < M)%nat -> nth q row 0%Z <> 0%Z -> bp (- b) <= feat_prob ws m v q k.

Let HM : (1 <= M <= 128)%nat.
Proof. apply (cm_M _ _ _ _ _ C). Qed.

Lemma nonzero_fold v : (v < V)%nat -> forall l msg p, incl l (block ws v) -> (zsum (map (fun q => nth q row 0%Z) l) <= c)%Z ->
  (0 <= p)%Z -> (p + (b + 4) * zsum (map (fun q => nth q row 0%Z) l) <= 149)%Z ->
  (forall k, (k < M)%nat -> fin32 (msg k) = true /\ 0 <= val (msg k) <= 1) ->
  exists msg', foldM (fun message r => power <- get IndexError row r ;;
           Ok (if (power =? 0)%Z then message else fun m => fmul (message m) (l_pow lib (s3_feat s r m) power))) l msg = Ok msg' /\
    (forall k, (k < M)%nat -> fin32 (msg' k) = true /\ 0 <= val (msg' k) <= 1 /\
      (bp (- p) <= val (msg k) -> bp (- (p + (b + 4) * zsum (map (fun q => nth q row 0%Z) l))) <= val (msg' k))).
Proof.
  intros Hv. induction l as [|q l IH]; intros msg p IL HS Hp HB G.
  - exists msg. split; [reflexivity|]. intros k Hk. destruct (G k Hk). split; [auto|]. split; [auto|]. cbn [map zsum fold_right]. rewrite Z.mul_0_r, Z.add_0_r. auto.
  - cbn [foldM map zsum fold_right] in *. fold (zsum (map (fun q => nth q row 0%Z) l)) in *.
    assert (Iq : In q (block ws v)) by (apply IL; now left). pose proof (nonneg_at row RN q) as P0.
    assert (Z0 : (0 <= zsum (map (fun q => nth q row 0%Z) l))%Z).
    { clear - RN. induction l as [|k l IH]; [cbn; lia|]. cbn [map zsum fold_right]. fold (zsum (map (fun q => nth q row 0%Z) l)). pose proof (nonneg_at row RN k). lia. }
    assert (Q : (q < length row)%nat) by (rewrite RL; now apply (block_lt ws V M N0 m C v)).
    unfold get at 1. rewrite (nth_error_nth' row 0%Z Q). cbn [bind]. set (n := nth q row 0%Z) in *.
    assert (IL' : incl l (block ws v)) by (intros k Ik; apply IL; now right).
    destruct (Z.eqb_spec n 0) as [E0|NZ].
    { rewrite E0 in *. destruct (IH msg p IL' ltac:(lia) Hp ltac:(lia) G) as (msg' & E & R). exists msg'. split; [exact E|].
      rewrite Z.add_0_l. exact R. }
    destruct (IH (fun k => fmul (msg k) (l_pow lib (s3_feat s q k) n)) (p + (b + 4) * n)%Z) as (msg' & E & R).
    + exact IL'.
    + lia.
    + nia.
    + nia.
    + intros k Hk. destruct (G k Hk) as (G1 & G2).
      destruct (power_low lib ws V M N0 m A b c s row LIB C HA Hb HL TB RL RN RF v q k Hv Iq Hk ltac:(lia)) as (W1 & W2 & _). fold n in W1, W2.
      destruct (mul_pow M HM (msg k) (l_pow lib (s3_feat s q k) n) 0 0 0 0 G1 W1 G2 W2 ltac:(lia)) as (X1 & X2 & _). split; [exact X1|exact X2].
    + exists msg'. split; [exact E|]. intros k Hk. destruct (R k Hk) as (R1 & R2 & R3). split; [exact R1|]. split; [exact R2|]. intros LO.
      destruct (G k Hk) as (G1 & G2).
      destruct (power_low lib ws V M N0 m A b c s row LIB C HA Hb HL TB RL RN RF v q k Hv Iq Hk ltac:(lia)) as (W1 & W2 & W3). fold n in W1, W2, W3.
      destruct (mul_pow M HM (msg k) (l_pow lib (s3_feat s q k) n) 0 0 (- p) (- ((b + 4) * n)) G1 W1 G2 W2 ltac:(lia)) as (_ & _ & X3).
      replace (p + (b + 4) * (n + zsum (map (fun q => nth q row 0%Z) l)))%Z with (p + (b + 4) * n + (b + 4) * zsum (map (fun q => nth q row 0%Z) l))%Z by lia.
      apply R3. replace (- (p + (b + 4) * n))%Z with (- p + - ((b + 4) * n))%Z by lia. apply X3; auto. nia.
Qed.

Lemma nonzero_good v : (v < V)%nat -> exists msg', observe_nonzero32 lib s row v (s3_vert s v) = Ok msg' /\ mg M L msg'.
Proof.
  intros Hv. unfold observe_nonzero32. rewrite (t3_ri _ _ _ _ _ _ TB). pose proof (cm_width _ _ _ _ _ C) as W. rewrite !mri_get by lia. cbn [bind].
  assert (E : (list_sum (firstn (v + 1) ws) - list_sum (firstn v ws) = nth v ws 0)%nat).
  { rewrite Nat.add_1_r, sum_firstn_S by lia. lia. }
  rewrite E. fold (block ws v). pose proof (RC v Hv) as Rv. rewrite block_sum_zsum in Rv.
  assert (VB : forall k, (k < M)%nat -> fin32 (s3_vert s v k) = true /\ bp (- (A + 3)) <= val (s3_vert s v k) <= 1) by (intros k Hk; exact (t3_vert _ _ _ _ _ _ TB v k Hv Hk)).
  pose proof (bp_pos (- (A + 3))) as P3.
  destruct (nonzero_fold v Hv (block ws v) (s3_vert s v) (A + 3)) as (msg' & E' & R); auto; [apply incl_refl|lia|nia| |].
  { intros k Hk. destruct (VB k Hk) as (B1 & B2). split; [exact B1|lra]. }
  exists msg'. split; [exact E'|]. split.
  - intros k Hk. destruct (R k Hk) as (R1 & R2 & _). auto.
  - exists 0%nat. split; [lia|]. destruct (R 0%nat ltac:(lia)) as (_ & _ & R3). destruct (VB 0%nat ltac:(lia)) as (F & B).
    eapply Rle_trans; [|apply R3; apply B]. apply bpow_le. nia.
Qed.
End OBS.

Section REPAIRED.
Variables (ws : list nat) (V M N0 : nat) (m : smodel) (A : Z) (s : server32) (row : list Z).
Hypothesis C : consistent ws V M N0 m.
Hypothesis CB : counts_below A ws N0 m.
Hypothesis HA : (6 <= A <= 16)%Z.
Hypothesis TB : tables32 ws V M A m s.
Hypothesis RL : length row = list_sum ws.

Lemma max_factor v q msg : (v < V)%nat -> In q (block ws v) -> mg M (A + 3) msg -> mg M (A + 3) (rescaled M (fun k => fmul (msg k) (s3_feat s q k))).
Proof.
  intros Hv Iq (G1 & k0 & Hk0 & G2). pose proof (proj2 (cm_M _ _ _ _ _ C)) as HM.
  assert (FE : forall k, (k < M)%nat -> fin32 (s3_feat s q k) = true /\ 0 <= val (s3_feat s q k) <= bp 0 /\ bp (- (A + 12)) <= val (s3_feat s q k)).
  { intros k Hk. destruct (t3_feat _ _ _ _ _ _ TB v q k Hv Iq Hk) as (f1 & f2 & f3). split; [exact f1|].
    change (bp 0) with 1. split; [lra|]. replace (- (A + 12))%Z with (- (A + 9 + 3))%Z by lia. apply f3; [lia|].
    apply (feat_prob_low ws V M N0 m A C CB HA); auto. }
  assert (G : vgood M (-1) 0 (rescaled M (fun k => fmul (msg k) (s3_feat s q k)))).
  { apply (largest_good M 0 _ (0 + 0) HM); [lia|lia| |].
    - intros k Hk. destruct (G1 k Hk) as (g1 & g2). destruct (FE k Hk) as (f1 & f2 & f3).
      destruct (mul_pow M HM (msg k) (s3_feat s q k) 0 0 0 0 g1 f1 g2 f2 ltac:(lia)) as (x1 & x2 & _). auto.
    - exists k0. split; [exact Hk0|]. destruct (G1 k0 Hk0) as (g1 & g2). destruct (FE k0 Hk0) as (f1 & f2 & f3).
      destruct (mul_pow M HM (msg k0) (s3_feat s q k0) 0 0 (- (A + 3)) (- (A + 12)) g1 f1 g2 f2 ltac:(lia)) as (_ & _ & x3).
      eapply Rlt_le_trans; [|apply x3; [lia|exact G2|exact f3]]. apply bp_pos. }
  destruct G as (H1 & k & Hk & H2). split; [exact H1|]. exists k. split; [exact Hk|]. eapply Rle_trans; [|exact H2]. apply bpow_le. lia.
Qed.

Lemma max_fold v : (v < V)%nat -> forall l msg, incl l (block ws v) -> mg M (A + 3) msg ->
  exists msg', foldM (fun message r => power <- get IndexError row r ;;
            Ok (Nat.iter (Z.to_nat power) (fun message => rescaled M (fun k => fmul (message k) (s3_feat s r k))) message)) l msg = Ok msg' /\ mg M (A + 3) msg'.
Proof.
  intros Hv. induction l as [|q l IH]; intros msg IL G; [exists msg; auto|].
  assert (Iq : In q (block ws v)) by (apply IL; now left).
  assert (Q : (q < length row)%nat) by (rewrite RL; now apply (block_lt ws V M N0 m C v)).
  cbn [foldM]. unfold get at 1. rewrite (nth_error_nth' row 0%Z Q). cbn [bind].
  apply IH; [intros k Ik; apply IL; now right|].
  induction (Z.to_nat (nth q row 0%Z)) as [|n IHn]; [exact G|]. cbn [Nat.iter nat_rect]. now apply (max_factor v).
Qed.

Lemma max_good v msg : (v < V)%nat -> mg M (A + 3) msg -> exists msg', repaired_observe_max32 s row v msg = Ok msg' /\ mg M (A + 3) msg'.
Proof.
  intros Hv G. unfold repaired_observe_max32. rewrite (t3_ri _ _ _ _ _ _ TB). pose proof (cm_width _ _ _ _ _ C) as W. rewrite !mri_get by lia. cbn [bind].
  assert (E : (list_sum (firstn (v + 1) ws) - list_sum (firstn v ws) = nth v ws 0)%nat).
  { rewrite Nat.add_1_r, sum_firstn_S by lia. lia. }
  rewrite E. fold (block ws v). rewrite (t3_M _ _ _ _ _ _ TB). apply (max_fold v); auto. apply incl_refl.
Qed.
End REPAIRED.

(** ** The theorems *)
Definition good_counts (ws : list nat) (V : nat) (counts : list Z) : Prop :=
  length counts = V /\ (forall v, (v < V)%nat -> (0 <= nth v counts 0 <= 127)%Z) /\ (forall v, (v < V)%nat -> (0 < nth v counts 0%Z)%Z -> (1 <= nth v ws 0)%nat).

Lemma run_sample lib ws V M N0 m A L s n counts data obs : lib_ok lib -> consistent ws V M N0 m -> counts_below A ws N0 m -> (6 <= A <= 16)%Z ->
  (A + 3 <= L)%Z -> (2 * L + A + 11 <= 149)%Z -> tables32 ws V M A m s -> good_counts ws V counts ->
  (forall v, (v < V)%nat -> exists msg', obs s data v (s3_vert s v) = Ok msg' /\ mg M L msg') -> length data = list_sum ws ->
  draws_usable (fun X => length X = n /\ forall x, In x X -> legal_row ws counts x) (sample32_with lib obs s n counts (Some data)).
Proof.
  intros LIB C CBL HA HL0 HL TB (CL & CB & CW) OBS DL.
  destruct (cm_tree _ _ _ _ _ C) as (es & T & ET). pose proof (t3_prog _ _ _ _ _ _ TB) as EP. rewrite ET in EP. cbn [ts_grid] in EP.
  pose proof (prog_bounds V es _ T EP) as PB.
  destruct (find_center_Ok V es T) as (ctr & EC & CC). destruct (make_program_valid V es ctr T (proj1 CC)) as (prog & E1 & VP).
  assert (EQ : s3_prog s = prog).
  { unfold make_propagation_program in EP, E1. rewrite EC in EP. cbn [bind] in EP, E1. rewrite EP in E1. now inversion E1. }
  rewrite <- EQ in VP.
  apply (sample_ok lib ws V M N0 m A L s n counts data obs) with (es := grid_edges (make_tree es)) (root := ctr); auto.
Qed.

Lemma sample_usable32 lib ws V M N m A b c n counts row : lib_ok lib -> consistent ws V M N m -> counts_below A ws N m ->
  (6 <= A <= 16)%Z -> (0 <= b <= 140)%Z -> (0 <= c)%Z -> (2 * (A + 3 + (b + 4) * c) + A + 11 <= 149)%Z ->
  length counts = V -> (forall v, (v < V)%nat -> (0 <= nth v counts 0 <= 127)%Z) ->
  (forall v, (v < V)%nat -> (0 < nth v counts 0%Z)%Z -> (1 <= nth v ws 0)%nat) ->
  length row = list_sum ws -> Forall (fun x => (0 <= x)%Z) row ->
  (forall v, (v < V)%nat -> (block_sum ws row v <= c)%Z) ->
  (forall v q k, (v < V)%nat -> In q (block ws v) -> (k < M)%nat -> nth q row 0%Z <> 0%Z -> bp (- b) <= feat_prob ws m v q k) ->
  exists s, tree_server32 lib m = Ok s /\
    draws_usable (fun rows => length rows = n /\ forall x, In x rows -> legal_row ws counts x) (sample32 lib s n counts (Some row)).
Proof.
  intros LIB C CB HA Hb Hc HL CL C1 C2 RL RN RC RF. destruct (build32 lib ws V M N m A LIB C CB HA) as (s & E & TB).
  exists s. split; [exact E|]. apply (run_sample lib ws V M N m A (A + 3 + (b + 4) * c)); auto; [nia|split; auto|].
  intros v Hv. apply (nonzero_good lib ws V M N m A b c s row LIB C HA Hb Hc HL TB RL RN RC RF v Hv).
Qed.

Lemma sample_usable32_any lib ws V M N m A c n counts row : lib_ok lib -> consistent ws V M N m -> counts_below A ws N m ->
  (6 <= A <= 16)%Z -> (0 <= c)%Z -> (2 * (A + 3 + (A + 13) * c) + A + 11 <= 149)%Z ->
  length counts = V -> (forall v, (v < V)%nat -> (0 <= nth v counts 0 <= 127)%Z) ->
  (forall v, (v < V)%nat -> (0 < nth v counts 0%Z)%Z -> (1 <= nth v ws 0)%nat) ->
  length row = list_sum ws -> Forall (fun x => (0 <= x)%Z) row ->
  (forall v, (v < V)%nat -> (block_sum ws row v <= c)%Z) ->
  exists s, tree_server32 lib m = Ok s /\
    draws_usable (fun rows => length rows = n /\ forall x, In x rows -> legal_row ws counts x) (sample32 lib s n counts (Some row)).
Proof.
  intros LIB C CB HA Hc HL CL C1 C2 RL RN RC. apply (sample_usable32 lib ws V M N m A (A + 9) c n counts row); auto; try lia.
  intros v q k Hv Iq Hk _. apply (feat_prob_low ws V M N m A C CB HA); auto.
Qed.

Lemma sample_usable32_one lib ws V M N m n counts row : lib_ok lib -> consistent ws V M N m -> counts_below 16 ws N m ->
  length counts = V -> (forall v, (v < V)%nat -> (0 <= nth v counts 0 <= 127)%Z) ->
  (forall v, (v < V)%nat -> (0 < nth v counts 0%Z)%Z -> (1 <= nth v ws 0)%nat) ->
  length row = list_sum ws -> Forall (fun x => (0 <= x)%Z) row ->
  (forall v, (v < V)%nat -> (block_sum ws row v <= 1)%Z) ->
  exists s, tree_server32 lib m = Ok s /\
    draws_usable (fun rows => length rows = n /\ forall x, In x rows -> legal_row ws counts x) (sample32 lib s n counts (Some row)).
Proof. intros LIB C CB. apply (sample_usable32_any lib ws V M N m 16 1 n counts row); auto; lia. Qed.

Lemma zeros_sum ws v : block_sum ws (repeat 0%Z (list_sum ws)) v = 0%Z.
Proof.
  rewrite block_sum_zsum. set (l := block ws v). clearbody l. induction l as [|q l IH]; [reflexivity|]. cbn [map zsum fold_right].
  fold (zsum (map (fun q => nth q (repeat 0%Z (list_sum ws)) 0%Z) l)). rewrite IH, nth_repeat. reflexivity.
Qed.

Lemma sample_usable32_none lib ws V M N m n counts : lib_ok lib -> consistent ws V M N m -> counts_below 16 ws N m ->
  length counts = V -> (forall v, (v < V)%nat -> (0 <= nth v counts 0 <= 127)%Z) ->
  (forall v, (v < V)%nat -> (0 < nth v counts 0%Z)%Z -> (1 <= nth v ws 0)%nat) ->
  exists s, tree_server32 lib m = Ok s /\
    draws_usable (fun rows => length rows = n /\ forall x, In x rows -> legal_row ws counts x) (sample32 lib s n counts None).
Proof.
  intros LIB C CB CL C1 C2. destruct (build32 lib ws V M N m 16 LIB C CB ltac:(lia)) as (s & E & TB).
  destruct (sample_usable32_one lib ws V M N m n counts (repeat 0%Z (list_sum ws)) LIB C CB CL C1 C2) as (s' & E' & D).
  - apply repeat_length.
  - apply Forall_forall. intros x Ix. apply repeat_spec in Ix. lia.
  - intros v Hv. rewrite zeros_sum. lia.
  - rewrite E in E'. injection E' as <-. exists s. split; [exact E|].
    unfold sample32, sample32_with in D |- *. rewrite (t3_R _ _ _ _ _ _ TB) in D |- *. exact D.
Qed.

Lemma repaired_sample_usable32 lib ws V M N m A n counts row : lib_ok lib -> consistent ws V M N m -> counts_below A ws N m -> (6 <= A <= 16)%Z ->
  length counts = V -> (forall v, (v < V)%nat -> (0 <= nth v counts 0 <= 127)%Z) ->
  (forall v, (v < V)%nat -> (0 < nth v counts 0%Z)%Z -> (1 <= nth v ws 0)%nat) ->
  length row = list_sum ws ->
  exists s, tree_server32 lib m = Ok s /\
    draws_usable (fun rows => length rows = n /\ forall x, In x rows -> legal_row ws counts x) (repaired_sample32 lib s n counts (Some row)).
Proof.
  intros LIB C CB HA CL C1 C2 RL. destruct (build32 lib ws V M N m A LIB C CB HA) as (s & E & TB).
  exists s. split; [exact E|]. apply (run_sample lib ws V M N m A (A + 3)); auto; [lia|lia|split; auto|].
  intros v Hv. apply (max_good ws V M N m A s row C CB HA TB RL v); auto.
  split.
  - intros k Hk. destruct (t3_vert _ _ _ _ _ _ TB v k Hv Hk) as (F & B). split; [exact F|]. pose proof (bp_pos (- (A + 3))). lra.
  - exists 0%nat. pose proof (proj2 (cm_M _ _ _ _ _ C)). split; [lia|]. apply (t3_vert _ _ _ _ _ _ TB v 0%nat Hv). lia.
Qed.
