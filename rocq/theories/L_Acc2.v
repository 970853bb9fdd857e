(** The float32 tables of a server are accurate. *)
From Coq Require Import List Arith Bool ZArith Reals Lra Lia.
From Flocq Require Import Core Relative IEEE754.BinarySingleNaN.
From Verif Require Import Base L_Base Spec_Graph L_Graph Spec_Sum L_Sum M_Structure L_Pairing L_MakeTree L_Program L_ProgramValid Spec_Program L_Center L_Prop1 M_Util Spec_Ragged L_Ragged M_Array M_Training Spec_Stats L_Stats L_Trainer Spec_Conditional L_Asg L_BP L_BPVec L_AddRow
  M_Float32 M_Train32 Spec_Float32 L_Float32 L_Sample32 L_Train32 L_Train32d M_Serving Spec_Serving L_Server M_Serving32 Spec_Serving32 L_Serving32a L_Serving32b L_Serving32c Spec_Accuracy L_Acc1.
Import ListNotations.
Open Scope R_scope.

Section ACC.
Variables (lib : numlib) (ws : list nat) (V M N : nat) (m : smodel) (A W : Z) (eta lambda : R).
Hypothesis LIB : lib_ok lib.
Hypothesis ACC : accurate W eta lambda lib.
Hypothesis C : consistent ws V M N m.
Hypothesis CB : counts_below A ws N m.
Hypothesis HA : (6 <= A <= 16)%Z.
Hypothesis HE : bp (-23) <= eta.
Hypothesis WM : (Z.of_nat (M * M) <= W)%Z.
Hypothesis WW : forall v, (v < V)%nat -> (Z.of_nat (nth v ws 0%nat) <= W)%Z.

(** Normalising. *)
Lemma norm_agree {X} (l : list X) (p : X -> f32) (q : X -> R) x :
  (Z.of_nat (length l) <= W)%Z -> (Z.of_nat (length l) <= 2 ^ 16)%Z -> In x l ->
  (forall y, In y l -> fin32 (p y) = true /\ bp (-8) <= val (p y) <= bp 20 /\ agree (3 * bp (-23)) (val (p y)) (q y) /\ 0 < q y) ->
  agree (8 * eta) (val (fdiv (p x) (l_sum lib (map p l)))) (q x / sumf l q).
Proof.
  intros LW LL Ix P. destruct ACC as (AS & _). pose proof (bp_pos (-8)) as P8. pose proof eps_pos as EP.
  assert (FA : Forall (fun x => fin32 x = true /\ 0 <= val x) (map p l)).
  { apply Forall_forall. intros y I. apply in_map_iff in I. destruct I as (k & <- & Ik). destruct (P k Ik) as (? & ? & _). split; [auto|lra]. }
  assert (SE : rsum (map (@B2R 24 128) (map p l)) = sumf l (fun y => val (p y))) by (unfold rsum; rewrite !sumf_map; reflexivity).
  assert (S1 : sumf l (fun y => val (p y)) <= bp 36).
  { apply Rle_trans with (sumf l (fun _ => bp 20)).
    - apply sumf_le. intros k Ik. apply (P k Ik).
    - rewrite sumf_const. replace (bp 36) with (bp 16 * bp 20) by (rewrite <- bpow_plus; reflexivity). apply Rmult_le_compat_r; [apply bpow_ge_0|].
      rewrite INR_IZR_INZ. change (bp 16) with (IZR (2 ^ 16)). now apply IZR_le. }
  assert (S2 : rsum (map (@B2R 24 128) (map p l)) <= bp 120) by (rewrite SE; apply Rle_trans with (bp 36); [exact S1|apply bpow_le; lia]).
  destruct (proj1 (proj1 (proj2 LIB)) (map p l)) as (T1 & T2 & T3); [now rewrite map_length|exact FA|exact S2|].
  specialize (AS (map p l) ltac:(now rewrite map_length) FA S2). rewrite SE in *. set (Tt := l_sum lib (map p l)) in *.
  destruct (P x Ix) as (Fx & Bx & Ax & Qx). pose proof (T3 (p x) (in_map p l x Ix)) as Lx.
  assert (SQ : 0 < sumf l q) by (apply sumf_pos'; [intros E; rewrite E in Ix; destruct Ix|intros y Iy; apply (P y Iy)]).
  assert (AT : agree (eta + 3 * bp (-23)) (val Tt) (sumf l q)).
  { eapply agree_trans; [exact AS|]. apply agree_sum. intros y Iy. apply (P y Iy). }
  assert (B126 : bp 36 <= bp 126) by (apply bpow_le; lia).
  destruct (fdiv_agree (p x) Tt) as (_ & Q); auto; [lra| |].
  - split.
    + apply Rmult_le_reg_r with (val Tt); [lra|]. unfold Rdiv. rewrite Rmult_assoc, Rinv_l by lra. rewrite Rmult_1_r.
      apply Rle_trans with (bp (-126) * bp 37).
      * apply Rmult_le_compat_l; [apply bpow_ge_0|]. replace (bp 37) with (bp 1 * bp 36) by (rewrite <- bpow_plus; reflexivity). change (bp 1) with 2. pose proof (bp_pos 36). lra.
      * rewrite <- bpow_plus. apply Rle_trans with (bp (-8)); [apply bpow_le; lia|lra].
    + apply Rle_trans with (bp 0); [|apply bpow_le; lia]. change (bp 0) with 1. apply Rmult_le_reg_r with (val Tt); [lra|]. unfold Rdiv. rewrite Rmult_assoc, Rinv_l by lra. lra.
  - eapply agree_weak; [|eapply agree_trans; [exact Q|apply (agree_div _ _ _ _ _ _ Ax AT SQ)]]. lra.
Qed.

Lemma cnt_bounds n (HM' : (1 <= M <= 128)%nat) : (0 <= n < 2 ^ 16)%Z -> fin32 (plus_prior n (prior64 M)) = true /\ bp (-8) <= val (plus_prior n (prior64 M)) <= bp 20.
Proof.
  intros FC. destruct (plus_prior_near M n HM' FC) as (N1 & N2). split; [exact N1|]. assert (0 <= IZR n <= 65536) by (split; apply IZR_le; lia). change (bp 20) with 1048576.
  assert (bp (-1) <= 1) by (cbn; lra). lra.
Qed.

Let HM : (1 <= M <= 128)%nat.
Proof. apply (cm_M _ _ _ _ _ C). Qed.
Let EM : d_M m = M.
Proof. apply (cm_M _ _ _ _ _ C). Qed.

Lemma vert_agree v c : (v < V)%nat -> (c < M)%nat -> agree (8 * eta) (val (vert_probs32 lib M (d_vert m) v c)) (vert_prob m v c).
Proof.
  intros Hv Hc. unfold vert_probs32, vert_prob. rewrite EM. unfold vec.
  apply (norm_agree (seq 0 M) (fun m0 => plus_prior (d_vert m v m0) vert_prior64) (fun c => IZR (d_vert m v c) + 1 / 2) c).
  - rewrite seq_length. nia.
  - rewrite seq_length. lia.
  - apply in_seq. lia.
  - intros k I. apply in_seq in I. pose proof (vcount ws V M N m A C CB HA v k Hv ltac:(lia)) as VC. destruct (plus_half _ VC) as (F & B).
    assert (0 <= IZR (d_vert m v k) <= 65536) by (split; apply IZR_le; lia). change (bp (-1)) with (/ 2) in B.
    split; [exact F|]. split; [change (bp (-8)) with (/ 256); change (bp 20) with 1048576; lra|]. split; [now apply plus_half_agree|lra].
Qed.

Lemma eprob_agree e c1 c2 : (e < V - 1)%nat -> (c1 < M)%nat -> (c2 < M)%nat -> agree (8 * eta) (val (edge_probs32 lib M (d_edge m) e c1 c2)) (edge_prob m e c1 c2).
Proof.
  intros He H1 H2. unfold edge_probs32, edge_prob. rewrite EM.
  set (l := flat_map (fun m1 => map (fun m2 => (m1, m2)) (seq 0 M)) (seq 0 M)).
  assert (E1 : forall p : nat -> nat -> f32, flat_map (fun m1 => vec M (p m1)) (seq 0 M) = map (fun x => p (fst x) (snd x)) l).
  { intros p. unfold l. generalize (seq 0 M) at 1 3 as s. induction s as [|k s IH]; [reflexivity|]. cbn [flat_map]. rewrite map_app, map_map, IH. reflexivity. }
  rewrite E1.
  assert (E2 : sumf (seq 0 M) (fun c1 => sumf (seq 0 M) (fun c2 => IZR (d_edge m e c1 c2) + 1 / 2 / INR M)) = sumf l (fun x => IZR (d_edge m e (fst x) (snd x)) + 1 / 2 / INR M)).
  { unfold l. rewrite sumf_flat_map. apply sumf_ext. intros k Ik. rewrite sumf_map. reflexivity. }
  rewrite E2.
  assert (LL : length l = (M * M)%nat).
  { unfold l. assert (X : forall s : list nat, length (flat_map (fun m1 => map (fun m2 => (m1, m2)) (seq 0 M)) s) = (length s * M)%nat).
    { induction s; [reflexivity|]. cbn [flat_map length]. rewrite app_length, map_length, seq_length, IHs. lia. }
    rewrite X, seq_length. reflexivity. }
  apply (norm_agree l (fun x => plus_prior (d_edge m e (fst x) (snd x)) (prior64 M)) (fun x => IZR (d_edge m e (fst x) (snd x)) + 1 / 2 / INR M) (c1, c2)).
  - rewrite LL. exact WM.
  - rewrite LL. change (2 ^ 16)%Z with 65536%Z. nia.
  - apply in_flat_map. exists c1. split; [apply in_seq; lia|]. apply in_map. apply in_seq. lia.
  - intros [k k2] I. apply in_flat_map in I. destruct I as (k' & Ik' & I). apply in_map_iff in I. destruct I as (k2' & E & Ik2). injection E as -> ->.
    apply in_seq in Ik'. apply in_seq in Ik2. cbn [fst snd]. pose proof (ecount ws V M N m A C CB HA e k k2 He ltac:(lia) ltac:(lia)) as EC.
    destruct (cnt_bounds _ HM EC) as (F & B). split; [exact F|]. split; [exact B|]. split; [now apply plus_prior_agree|].
    apply (ecount_pos ws V M N m C); lia || auto; lia.
Qed.

Record atables (s : server32) : Prop := {
  ta_vert : forall v c, (v < V)%nat -> (c < M)%nat -> agree (8 * eta) (val (s3_vert s v c)) (vert_prob m v c);
  ta_trans : forall e v1 v2 c1 c2, nth_error (ts_get_edges (d_tree m)) e = Some (v1, v2) -> (e < V - 1)%nat -> (c1 < M)%nat -> (c2 < M)%nat ->
    agree (26 * eta) (val (s3_trans s e c1 c2)) (edge_prob m e c1 c2 / vert_prob m v1 c1 / vert_prob m v2 c2);
  ta_feat : forall v q c, (v < V)%nat -> In q (block ws v) -> (c < M)%nat -> agree (8 * eta) (val (s3_feat s q c)) (feat_prob ws m v q c)
}.

Lemma vert_prob_pos v c : (v < V)%nat -> (c < M)%nat -> 0 < vert_prob m v c.
Proof.
  intros Hv Hc. unfold vert_prob. rewrite EM. apply Rdiv_lt_0_compat; [now apply (vcount_pos ws V M N m C)|].
  apply sumf_pos'; [apply (seqM ws V M N m C)|]. intros k I. apply in_seq in I. apply (vcount_pos ws V M N m C); lia || auto.
Qed.

Lemma build_agree s : tree_server32 lib m = Ok s -> atables s.
Proof.
  destruct (cm_tree _ _ _ _ _ C) as (es & T & ET). pose proof (cm_width _ _ _ _ _ C) as W'.
  destruct (find_center_Ok V es T) as (ctr & EC & CC).
  destruct (tree_rooted V _ ctr (make_tree_spanning _ _ T) (proj1 CC)) as (par & dep & RT).
  destruct (make_program_rooted_Ok _ _ _ _ _ RT) as (np & EP & BL).
  pose proof (make_tree_spanning _ _ T) as (L' & RG' & _).
  unfold tree_server32. rewrite ET, EM, (cm_ri _ _ _ _ _ C). cbn [ts_grid ts_V].
  assert (EPP : make_propagation_program (make_tree es) None = Ok (prog_of es ctr par np)).
  { unfold make_propagation_program. rewrite EC. cbn [bind]. exact EP. }
  rewrite EPP. cbn [bind]. rewrite mri_last. cbn [bind]. cbv zeta.
  unfold edge_trans32. unfold make_tree at 1.
  set (l := pair_sort (map sort_pair es)).
  assert (EL : grid_edges (make_tree es) = l) by (unfold make_tree, grid_edges; apply number_from_edges).
  destruct (trans_fold32 V (vert_probs32 lib M (d_vert m)) l 0 (edge_probs32 lib M (d_edge m))) as (tr & E1 & _ & TR).
  { rewrite EL in L'. lia. }
  { intros x y I. rewrite <- EL in I. now apply RG'. }
  rewrite E1. cbn [bind].
  unfold feat_cond32. destruct (feat_fold32 (l_sum lib) ws) with (n := V) (b := 0%nat) (f := fun r c => plus_prior (d_feat m r c) (prior64 M)) as (ft & E2 & _ & FT).
  { lia. }
  match goal with |- context[foldM ?f ?l ?i] => replace (foldM f l i) with (Ok ft) by (symmetry; exact E2) end.
  cbn [bind]. intros E. injection E as <-.
  split; cbn [s3_V s3_ri s3_M s3_R s3_prog s3_vert s3_trans s3_feat].
  - intros. now apply vert_agree.
  - intros e v1 v2 c1 c2 D He H1 H2. assert (GE : ts_get_edges (d_tree m) = l) by (rewrite ET; exact EL).
    destruct (edge_ends ws V M N m C e v1 v2 D) as (B1 & B2). rewrite GE in D.
    assert (HL : (e < length l)%nat) by (apply nth_error_Some; congruence).
    specialize (TR e HL c1 c2). cbn [Nat.add] in TR. rewrite TR. rewrite (nth_error_nth _ _ _ D). cbn [fst snd].
    destruct (eprob32 lib ws V M N m A LIB C CB HA e c1 c2 He H1 H2) as (X1 & X2).
    destruct (vert32 lib ws V M N m A LIB C CB HA v1 c1 B1 H1) as (_ & Y2). destruct (vert32 lib ws V M N m A LIB C CB HA v2 c2 B2 H2) as (_ & Z2).
    pose proof (eprob_agree e c1 c2 He H1 H2) as AE. pose proof (vert_agree v1 c1 B1 H1) as A1. pose proof (vert_agree v2 c2 B2 H2) as A2.
    set (x := edge_probs32 lib M (d_edge m) e c1 c2) in *. set (y := vert_probs32 lib M (d_vert m) v1 c1) in *. set (z := vert_probs32 lib M (d_vert m) v2 c2) in *.
    pose proof (bp_pos (- (A + 3))) as PA. pose proof (bp_pos (- (A + 11))) as PA11.
    assert (DB : forall p q lo hi, bp lo <= p <= bp hi -> bp (- (A + 3)) <= q <= 1 -> bp lo <= p / q <= bp (hi + (A + 3))).
    { intros p q lo hi Bp Bq. pose proof (bp_pos lo). split.
      - apply Rmult_le_reg_r with q; [lra|]. unfold Rdiv. rewrite (Rmult_assoc p), Rinv_l by lra. nra.
      - apply Rmult_le_reg_r with q; [lra|]. unfold Rdiv. rewrite (Rmult_assoc p), Rinv_l by lra.
        apply Rle_trans with (bp hi); [lra|]. replace (bp hi) with (bp (hi + (A + 3)) * bp (- (A + 3))) by (rewrite <- bpow_plus; f_equal; lia).
        apply Rmult_le_compat_l; [apply bpow_ge_0|lra]. }
    destruct (DB (val x) (val y) (- (A + 11))%Z 0%Z X2 Y2) as (DL & DU).
    assert (G126 : forall k, (-126 <= k <= 126)%Z -> bp (-126) <= bp k <= bp 126) by (intros; split; apply bpow_le; lia).
    pose proof (G126 (- (A + 11))%Z ltac:(lia)) as g1. pose proof (G126 (0 + (A + 3))%Z ltac:(lia)) as g2. pose proof (G126 (0 + (A + 3) + (A + 3))%Z ltac:(lia)) as g3.
    destruct (fdiv_agree x y X1 ltac:(lra) ltac:(lra)) as (F1 & Q1).
    destruct (div_prob A HA x y (- (A + 11)) 0 X1 X2 Y2 ltac:(lia) ltac:(lia) ltac:(lia)) as (_ & R1).
    destruct (DB (val (fdiv x y)) (val z) (- (A + 11))%Z (0 + (A + 3))%Z R1 Z2) as (EL' & EU).
    destruct (fdiv_agree (fdiv x y) z F1 ltac:(lra) ltac:(lra)) as (F2 & Q2).
    pose proof (agree_div _ _ _ _ _ _ AE A1 (vert_prob_pos v1 c1 B1 H1)) as D1.
    pose proof (agree_div _ _ _ _ _ _ (agree_trans _ _ _ _ _ Q1 D1) A2 (vert_prob_pos v2 c2 B2 H2)) as D2.
    eapply agree_weak; [|exact (agree_trans _ _ _ _ _ Q2 D2)]. lra.
  - intros v q c Hv Iq Hc. rewrite (FT v q c ltac:(lia) Iq). unfold feat_prob. rewrite EM.
    apply (norm_agree (block ws v) (fun q => plus_prior (d_feat m q c) (prior64 M)) (fun q => IZR (d_feat m q c) + 1 / 2 / INR M) q).
    + unfold block. rewrite seq_length. now apply WW.
    + unfold block. rewrite seq_length. destruct CB as (_ & CB'). destruct (CB' v c) as (W1 & W2); [lia|rewrite EM; exact Hc|]. pose proof (pA A HA). lia.
    + exact Iq.
    + intros k Ik. pose proof (fcount ws V M N m A C CB HA v k c Hv Ik Hc) as FC. destruct (cnt_bounds _ HM FC) as (F & B).
      split; [exact F|]. split; [exact B|]. split; [now apply plus_prior_agree|]. apply (fcount_pos ws V M N m C v); auto.
Qed.
End ACC.
