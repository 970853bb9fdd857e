(** One step of the float32 log probability beside one step of the exact one. *)
From Coq Require Import List Arith Bool ZArith Reals Lra Lia.
From Flocq Require Import Core Relative IEEE754.BinarySingleNaN.
From Verif Require Import Base L_Base Spec_Graph L_Graph Spec_Sum L_Sum M_Structure L_Pairing L_MakeTree L_Program L_ProgramValid Spec_Program L_Center L_Prop1 M_Util Spec_Ragged L_Ragged M_Array M_Training Spec_Stats L_Stats L_Trainer Spec_Conditional L_Asg L_BP L_BPVec L_AddRow
  M_Float32 M_Train32 Spec_Float32 L_Float32 L_Sample32 L_Train32 L_Train32c L_Train32d M_Serving Spec_Serving L_Server M_Serving32 Spec_Serving32 L_Serving32a L_Serving32b L_Serving32c L_Serving32d Spec_Accuracy L_Acc1 L_Acc2.
Import ListNotations.
Open Scope R_scope.

Lemma exp_half : exp (1 / 2) <= 2.
Proof.
  pose proof (exp_ge1 (- (1 / 2))) as G. rewrite exp_Ropp in G. pose proof (exp_pos (1 / 2)).
  apply Rmult_le_reg_r with (/ exp (1 / 2)); [now apply Rinv_0_lt_compat|]. rewrite Rinv_r by lra. lra.
Qed.

Lemma div_ge x a b : 0 < b -> x * b <= a -> x <= a / b.
Proof. intros Hb H. apply Rmult_le_reg_r with b; [exact Hb|]. unfold Rdiv. rewrite Rmult_assoc, Rinv_l by lra. lra. Qed.
Lemma div_le x a b : 0 < b -> a <= x * b -> a / b <= x.
Proof. intros Hb H. apply Rmult_le_reg_r with b; [exact Hb|]. unfold Rdiv. rewrite Rmult_assoc, Rinv_l by lra. lra. Qed.

(** Positive weights of which none is below 2^-D times another. *)
Definition ranged (M : nat) (D : Z) (f : nat -> R) : Prop :=
  (forall k, (k < M)%nat -> 0 < f k) /\ forall k j, (k < M)%nat -> (j < M)%nat -> bp (- D) * f j <= f k.

Lemma ranged_weak M D D' f : (D <= D')%Z -> ranged M D f -> ranged M D' f.
Proof.
  intros H (P & B). split; [exact P|]. intros k j Hk Hj. eapply Rle_trans; [|apply (B k j Hk Hj)].
  apply Rmult_le_compat_r; [left; now apply P|]. apply bpow_le. lia.
Qed.
Lemma ranged_mul M D D' f g : ranged M D f -> ranged M D' g -> ranged M (D + D') (fun k => f k * g k).
Proof.
  intros (P & B) (P' & B'). split; [intros; apply Rmult_lt_0_compat; auto|]. intros k j Hk Hj.
  replace (- (D + D'))%Z with (- D + - D')%Z by lia. rewrite bpow_plus.
  replace (bp (- D) * bp (- D') * (f j * g j)) with ((bp (- D) * f j) * (bp (- D') * g j)) by ring.
  apply Rmult_le_compat; auto; apply Rmult_le_pos; try apply bpow_ge_0; left; auto.
Qed.
Lemma ranged_div M D f a : 0 < a -> ranged M D f -> ranged M D (fun k => f k / a).
Proof.
  intros Ha (P & B). split; [intros; apply Rdiv_lt_0_compat; auto|]. intros k j Hk Hj. unfold Rdiv. rewrite <- Rmult_assoc.
  apply Rmult_le_compat_r; [left; now apply Rinv_0_lt_compat|auto].
Qed.
Lemma ranged_within M D f : (forall k, (k < M)%nat -> bp (- D) <= f k <= 1) -> ranged M D f.
Proof.
  intros H. pose proof (bp_pos (- D)). split; [intros k Hk; destruct (H k Hk); lra|]. intros k j Hk Hj. destruct (H k Hk), (H j Hj). nra.
Qed.

Section STEP.
Variables (lib : numlib) (ws : list nat) (V M N : nat) (m : smodel) (A W b c : Z) (eta lambda : R) (s : server32) (row : list Z).
Hypothesis LIB : lib_ok lib.
Hypothesis ACC : accurate W eta lambda lib.
Hypothesis C : consistent ws V M N m.
Hypothesis CB : counts_below A ws N m.
Hypothesis HA : (6 <= A <= 16)%Z.
Hypothesis HE : bp (-23) <= eta.
Hypothesis WM : (Z.of_nat (M * M) <= W)%Z.
Hypothesis Hb : (0 <= b <= 140)%Z.
Hypothesis Hc : (0 <= c)%Z.
Notation L := (A + 3 + (b + 4) * c)%Z.
Hypothesis HL : (2 * L + 20 <= 126)%Z.
Hypothesis TB : tables32 ws V M A m s.
Hypothesis TA : atables ws V M m eta s.
Hypothesis RL : length row = list_sum ws.
Hypothesis RN : Forall (fun x => (0 <= x)%Z) row.
Hypothesis RC : forall v, (v < V)%nat -> (block_sum ws row v <= c)%Z.
Hypothesis RF : forall v q k, (v < V)%nat -> In q (block ws v) -> (k < M)%nat -> nth q row 0%Z <> 0%Z -> bp (- b) <= feat_prob ws m v q k.

Let HM : (1 <= M <= 128)%nat.
Proof. apply (cm_M _ _ _ _ _ C). Qed.
Let EM : d_M m = M.
Proof. apply (cm_M _ _ _ _ _ C). Qed.
Let E0 : 0 < eta.
Proof. pose proof eps_pos. lra. Qed.
Let HLo : (2 * L + A + 11 <= 149)%Z.
Proof. lia. Qed.

(** ** Exact probabilities *)
Lemma NA : INR N + 1 <= bp A.
Proof.
  destruct CB as (H & _). rewrite INR_IZR_INZ, <- (IZR_Zpower radix2) by lia. rewrite <- plus_IZR. apply IZR_le. change (radix2 ^ A)%Z with (2 ^ A)%Z. lia.
Qed.
Lemma vcount_le v k : (v < V)%nat -> (k < M)%nat -> 0 <= IZR (d_vert m v k) <= INR N.
Proof.
  intros Hv Hk. split; [apply IZR_le; now apply (cm_vert_nonneg _ _ _ _ _ C)|]. rewrite INR_IZR_INZ, <- (cm_vert _ _ _ _ _ C v Hv). apply IZR_le.
  apply (total_ge (seq 0 M) (d_vert m v) k); [|apply in_seq; lia]. intros j I. apply in_seq in I. apply (cm_vert_nonneg _ _ _ _ _ C); lia.
Qed.

Lemma vert_form v k : (v < V)%nat -> vert_prob m v k = (IZR (d_vert m v k) + 1 / 2) / (INR N + INR M / 2).
Proof. intros Hv. unfold vert_prob. rewrite EM, (vert_total ws V M N m C v Hv). reflexivity. Qed.
Lemma edge_form e v1 v2 c1 c2 : nth_error (ts_get_edges (d_tree m)) e = Some (v1, v2) ->
  edge_prob m e c1 c2 = (IZR (d_edge m e c1 c2) + 1 / 2 / INR M) / (INR N + INR M / 2).
Proof. intros D. unfold edge_prob. rewrite EM, (edge_total ws V M N m C e v1 v2 D). reflexivity. Qed.

Lemma vert_ranged v : (v < V)%nat -> ranged M (A + 1) (vert_prob m v).
Proof.
  intros Hv. pose proof (tot_pos ws V M N m C) as TP. pose proof NA as NA'.
  apply (ranged_weak M (A + 1)); [lia|].
  assert (E : ranged M (A + 1) (fun k => (IZR (d_vert m v k) + 1 / 2) / (INR N + INR M / 2))).
  { apply ranged_div; [exact TP|]. split; [intros k Hk; pose proof (vcount_le v k Hv Hk); lra|].
    intros k j Hk Hj. pose proof (vcount_le v k Hv Hk). pose proof (vcount_le v j Hv Hj).
    replace (- (A + 1))%Z with (- A + -1)%Z by lia. rewrite bpow_plus. change (bp (-1)) with (/ 2). assert (E1 : bp (- A) * bp A = 1) by (rewrite <- bpow_plus, Z.add_opp_diag_l; reflexivity).
    pose proof (bp_pos (- A)). apply Rle_trans with (bp (- A) * / 2 * bp A); [apply Rmult_le_compat_l; lra|]. nra. }
  destruct E as (P & B). split; intros; rewrite !vert_form by auto; auto.
Qed.

Lemma prior_M : 1 / 256 <= 1 / 2 / INR M <= 1 / 2.
Proof.
  assert (M1 : 1 <= INR M <= 128) by (rewrite INR_IZR_INZ; split; apply IZR_le; lia).
  split; [apply div_ge|apply div_le]; lra.
Qed.

Lemma cond_bounds e v1 v2 c1 c2 : nth_error (ts_get_edges (d_tree m)) e = Some (v1, v2) -> (e < V - 1)%nat -> (c1 < M)%nat -> (c2 < M)%nat ->
  bp (- (A + 8)) <= edge_prob m e c1 c2 / vert_prob m v1 c1 <= 1 /\ bp (- (A + 8)) <= edge_prob m e c1 c2 / vert_prob m v2 c2 <= 1.
Proof.
  intros D He H1 H2. destruct (edge_ends ws V M N m C e v1 v2 D) as (B1 & B2). pose proof (tot_pos ws V M N m C) as TP. pose proof NA as NA'. pose proof prior_M as PM.
  pose proof (vcount_le v1 c1 B1 H1) as K1. pose proof (vcount_le v2 c2 B2 H2) as K2.
  assert (E0' : 0 <= IZR (d_edge m e c1 c2)) by (apply IZR_le; now apply (cm_edge_nonneg _ _ _ _ _ C)).
  assert (G1 : IZR (d_edge m e c1 c2) <= IZR (d_vert m v1 c1)).
  { apply IZR_le. rewrite <- (proj1 (cm_edge _ _ _ _ _ C e v1 v2 c1 D H1)). apply (total_ge (seq 0 M) (fun c2 => d_edge m e c1 c2) c2); [|apply in_seq; lia].
    intros j I. apply in_seq in I. apply (cm_edge_nonneg _ _ _ _ _ C); lia. }
  assert (G2 : IZR (d_edge m e c1 c2) <= IZR (d_vert m v2 c2)).
  { apply IZR_le. rewrite <- (proj2 (cm_edge _ _ _ _ _ C e v1 v2 c2 D H2)). apply (total_ge (seq 0 M) (fun c1 => d_edge m e c1 c2) c1); [|apply in_seq; lia].
    intros j I. apply in_seq in I. apply (cm_edge_nonneg _ _ _ _ _ C); lia. }
  assert (X : forall v k, (v < V)%nat -> IZR (d_edge m e c1 c2) <= IZR (d_vert m v k) -> 0 <= IZR (d_vert m v k) <= INR N ->
    bp (- (A + 8)) <= edge_prob m e c1 c2 / vert_prob m v k <= 1).
  { intros v k Hv G K. rewrite (edge_form e v1 v2 c1 c2 D), (vert_form v k Hv).
    replace ((IZR (d_edge m e c1 c2) + 1 / 2 / INR M) / (INR N + INR M / 2) / ((IZR (d_vert m v k) + 1 / 2) / (INR N + INR M / 2)))
      with ((IZR (d_edge m e c1 c2) + 1 / 2 / INR M) / (IZR (d_vert m v k) + 1 / 2)).
    2:{ set (x := IZR (d_edge m e c1 c2) + 1 / 2 / INR M). field. split; lra. }
    split; [|apply div_le; lra]. apply div_ge; [lra|].
    replace (- (A + 8))%Z with (- A + -8)%Z by lia. rewrite bpow_plus. change (bp (-8)) with (/ 256). assert (E1 : bp (- A) * bp A = 1) by (rewrite <- bpow_plus, Z.add_opp_diag_l; reflexivity).
    pose proof (bp_pos (- A)). apply Rle_trans with (bp (- A) * / 256 * bp A); [apply Rmult_le_compat_l; lra|]. nra. }
  split; apply X; auto.
Qed.

(** The exact transition table of an edge, one way or the other. *)
Definition tx (e v1 v2 : nat) (t : bool) (k j : nat) : R :=
  if t then edge_prob m e j k / vert_prob m v1 j / vert_prob m v2 k else edge_prob m e k j / vert_prob m v1 k / vert_prob m v2 j.

Lemma tx_pos e v1 v2 t k j : nth_error (ts_get_edges (d_tree m)) e = Some (v1, v2) -> (e < V - 1)%nat -> (k < M)%nat -> (j < M)%nat -> 0 < tx e v1 v2 t k j.
Proof.
  intros D He Hk Hj. destruct (edge_ends ws V M N m C e v1 v2 D) as (B1 & B2). unfold tx. pose proof (bp_pos (- (A + 8))) as P8.
  destruct t; apply Rdiv_lt_0_compat; try (apply (vert_prob_pos ws V M N m W C WM); auto).
  - destruct (cond_bounds e v1 v2 j k D He Hj Hk). lra.
  - destruct (cond_bounds e v1 v2 k j D He Hk Hj). lra.
Qed.

Lemma dot_ranged e v1 v2 t g : nth_error (ts_get_edges (d_tree m)) e = Some (v1, v2) -> (e < V - 1)%nat -> (forall j, (j < M)%nat -> 0 < g j) ->
  ranged M (A + 8) (fun k => sumf (seq 0 M) (fun j => tx e v1 v2 t k j * g j)).
Proof.
  intros D He G. destruct (edge_ends ws V M N m C e v1 v2 D) as (B1 & B2). pose proof (vert_prob_pos ws V M N m W C WM) as VP. split.
  - intros k Hk. apply sumf_pos'; [apply (seqM ws V M N m C)|]. intros j I. apply in_seq in I. apply Rmult_lt_0_compat; [apply tx_pos; auto; lia|apply G; lia].
  - intros k k' Hk Hk'. rewrite <- sumf_scal. apply sumf_le. intros j I. apply in_seq in I. rewrite <- Rmult_assoc. apply Rmult_le_compat_r; [left; apply G; lia|].
    unfold tx. destruct t.
    + destruct (cond_bounds e v1 v2 j k D He ltac:(lia) Hk) as (_ & Q1). destruct (cond_bounds e v1 v2 j k' D He ltac:(lia) Hk') as (_ & Q2).
      pose proof (VP v1 j B1 ltac:(lia)) as P1. pose proof (VP v2 k B2 Hk) as P2. pose proof (VP v2 k' B2 Hk') as P3.
      replace (edge_prob m e j k' / vert_prob m v1 j / vert_prob m v2 k') with (edge_prob m e j k' / vert_prob m v2 k' / vert_prob m v1 j) by (field; lra).
      replace (edge_prob m e j k / vert_prob m v1 j / vert_prob m v2 k) with (edge_prob m e j k / vert_prob m v2 k / vert_prob m v1 j) by (field; lra).
      unfold Rdiv at 1 3. rewrite <- Rmult_assoc. apply Rmult_le_compat_r; [left; now apply Rinv_0_lt_compat|]. pose proof (bp_pos (- (A + 8))). nra.
    + destruct (cond_bounds e v1 v2 k j D He Hk ltac:(lia)) as (Q1 & _). destruct (cond_bounds e v1 v2 k' j D He Hk' ltac:(lia)) as (Q2 & _).
      pose proof (VP v2 j B2 ltac:(lia)) as P1.
      unfold Rdiv at 1 3. rewrite <- Rmult_assoc. apply Rmult_le_compat_r; [left; now apply Rinv_0_lt_compat|]. pose proof (bp_pos (- (A + 8))). nra.
Qed.

(** ** Observations *)
Lemma feat_pos v q k : (v < V)%nat -> In q (block ws v) -> (k < M)%nat -> 0 < feat_prob ws m v q k <= 1.
Proof.
  intros Hv Iq Hk. pose proof (feat_prob_low ws V M N m A C CB HA v q k Hv Iq Hk) as LO. pose proof (bp_pos (- (A + 9))). split; [lra|].
  unfold feat_prob. set (S := sumf _ _). assert (P : forall q, In q (block ws v) -> 0 < IZR (d_feat m q k) + 1 / 2 / INR (d_M m)).
  { intros p Ip. rewrite EM. now apply (fcount_pos ws V M N m C v). }
  assert (X : IZR (d_feat m q k) + 1 / 2 / INR (d_M m) <= S).
  { unfold S. apply (sumf_member_le (block ws v) (fun q => IZR (d_feat m q k) + 1 / 2 / INR (d_M m)) q); [intros y Iy; left; now apply P|exact Iq]. }
  specialize (P q Iq). apply div_le; lra.
Qed.

Lemma power_agree v q k : (v < V)%nat -> In q (block ws v) -> (k < M)%nat -> (nth q row 0 <= c)%Z ->
  agree (eta + IZR (nth q row 0%Z) * (8 * eta)) (val (l_pow lib (s3_feat s q k) (nth q row 0%Z))) (powerRZ (feat_prob ws m v q k) (nth q row 0%Z)).
Proof.
  intros Hv Iq Hk Hn. destruct (t3_feat _ _ _ _ _ _ TB v q k Hv Iq Hk) as (F & P & LO). pose proof (nonneg_at row RN q) as P0.
  pose proof (ta_feat _ _ _ _ _ _ TA v q k Hv Iq Hk) as AF. set (n := nth q row 0%Z) in *. set (x := val (s3_feat s q k)) in *.
  assert (G : bp (- ((b + 3) * n)) <= x ^ Z.to_nat n).
  { destruct (Z.eq_dec n 0) as [E|E]; [rewrite E, Z.mul_0_r; cbn; lra|].
    specialize (LO b Hb (RF v q k Hv Iq Hk E)).
    replace (- ((b + 3) * n))%Z with ((- (b + 3)) * Z.of_nat (Z.to_nat n))%Z by (rewrite Z2Nat.id by lia; lia).
    generalize (Z.to_nat n). intros k'. induction k'; [rewrite Z.mul_0_r; cbn; lra|].
    replace (- (b + 3) * Z.of_nat (Datatypes.S k'))%Z with (- (b + 3) + - (b + 3) * Z.of_nat k')%Z by lia. rewrite bpow_plus. cbn [pow].
    apply Rmult_le_compat; auto; apply bpow_ge_0. }
  assert (G2 : bp (-126) <= x ^ Z.to_nat n) by (eapply Rle_trans; [|exact G]; apply bpow_le; nia).
  destruct ACC as (_ & _ & AP & _). specialize (AP (s3_feat s q k) n F P P0 G2).
  assert (EQ : powerRZ (feat_prob ws m v q k) n = feat_prob ws m v q k ^ Z.to_nat n).
  { rewrite <- (Z2Nat.id n) at 1 by lia. now rewrite <- pow_powerRZ. }
  rewrite EQ. eapply agree_weak; [|eapply agree_trans; [exact AP|apply (agree_pow _ _ _ (Z.to_nat n) AF)]]. rewrite INR_IZR_INZ, Z2Nat.id by lia. lra.
Qed.

Lemma power_ranged v q : (v < V)%nat -> In q (block ws v) -> ranged M (b * nth q row 0%Z) (fun k => powerRZ (feat_prob ws m v q k) (nth q row 0%Z)).
Proof.
  intros Hv Iq. pose proof (nonneg_at row RN q) as P0. apply ranged_within. intros k Hk. pose proof (feat_pos v q k Hv Iq Hk) as FP. set (n := nth q row 0%Z) in *.
  assert (EQ : powerRZ (feat_prob ws m v q k) n = feat_prob ws m v q k ^ Z.to_nat n).
  { rewrite <- (Z2Nat.id n) at 1 by lia. now rewrite <- pow_powerRZ. }
  rewrite EQ. split; [|now apply pow_le1].
  destruct (Z.eq_dec n 0) as [E|E]; [rewrite E, Z.mul_0_r; cbn; lra|]. pose proof (RF v q k Hv Iq Hk E) as LO.
  replace (- (b * n))%Z with ((- b) * Z.of_nat (Z.to_nat n))%Z by (rewrite Z2Nat.id by lia; lia).
  generalize (Z.to_nat n). intros k'. induction k'; [rewrite Z.mul_0_r; cbn; lra|].
  replace (- b * Z.of_nat (Datatypes.S k'))%Z with (- b + - b * Z.of_nat k')%Z by lia. rewrite bpow_plus. cbn [pow].
  apply Rmult_le_compat; auto; apply bpow_ge_0.
Qed.

(** Charge for observing the cells [l]. *)
Definition charge (l : list nat) : R := IZR (2 * Z.of_nat (length l) + 8 * zsum (map (fun q => nth q row 0%Z) l)) * eta.

Lemma zsum_nonneg l : (0 <= zsum (map (fun q => nth q row 0%Z) l))%Z.
Proof. induction l as [|k l IH]; [cbn; lia|]. cbn [map zsum fold_right]. fold (zsum (map (fun q => nth q row 0%Z) l)). pose proof (nonneg_at row RN k). lia. Qed.

Lemma observe_both v (ft : nat -> nat -> R) : (v < V)%nat -> (forall q k, In q (block ws v) -> ft q k = feat_prob ws m v q k) ->
  forall l msg mx p e D, incl l (block ws v) -> (zsum (map (fun q => nth q row 0%Z) l) <= c)%Z ->
  (0 <= p)%Z -> (p + (b + 4) * zsum (map (fun q => nth q row 0%Z) l) <= 126)%Z ->
  (forall k, (k < M)%nat -> fin32 (msg k) = true /\ bp (- p) <= val (msg k) <= 1 /\ agree e (val (msg k)) (mx k)) -> ranged M D mx ->
  exists msg' mx', foldM (fun message r => power <- get IndexError row r ;;
           Ok (fun m => fmul (message m) (l_pow lib (s3_feat s r m) power))) l msg = Ok msg' /\
    foldM (fun message r => power <- get IndexError row r ;;
           Ok (fun m => message m * powerRZ (ft r m) power)%R) l mx = Ok mx' /\
    (forall k, (k < M)%nat -> fin32 (msg' k) = true /\ bp (- (p + (b + 4) * zsum (map (fun q => nth q row 0%Z) l))) <= val (msg' k) <= 1 /\
      agree (e + charge l) (val (msg' k)) (mx' k)) /\
    ranged M (D + b * zsum (map (fun q => nth q row 0%Z) l)) mx'.
Proof.
  intros Hv FT. induction l as [|q l IH]; intros msg mx p e D IL HS Hp HB G RD.
  - exists msg, mx. split; [reflexivity|]. split; [reflexivity|]. unfold charge. cbn [map zsum fold_right length]. rewrite !Z.mul_0_r, !Z.add_0_r. change (2 * Z.of_nat 0 + 8 * 0)%Z with 0%Z.
    rewrite Rmult_0_l, Rplus_0_r. auto.
  - unfold charge in *. cbn [foldM map zsum fold_right length] in *. fold (zsum (map (fun q => nth q row 0%Z) l)) in *.
    assert (Iq : In q (block ws v)) by (apply IL; now left). pose proof (nonneg_at row RN q) as P0. pose proof (zsum_nonneg l) as Z0.
    assert (Q : (q < length row)%nat) by (rewrite RL; now apply (block_lt ws V M N m C v)).
    unfold get at 1. rewrite (nth_error_nth' row 0%Z Q). unfold get at 2. rewrite (nth_error_nth' row 0%Z Q). cbn [bind]. set (n := nth q row 0%Z) in *.
    destruct (IH (fun k => fmul (msg k) (l_pow lib (s3_feat s q k) n)) (fun k => mx k * powerRZ (ft q k) n) (p + (b + 4) * n)%Z (e + (eta + IZR n * (8 * eta)) + bp (-23)) (D + b * n)%Z) as (msg' & mx' & E1 & E2 & R & RR).
    + intros k I. apply IL. now right.
    + lia.
    + nia.
    + nia.
    + intros k Hk. destruct (G k Hk) as (G1 & G2 & G3). pose proof (bp_pos (- p)) as Pp. assert (G2' : 0 <= val (msg k) <= 1) by lra.
      destruct (power_low lib ws V M N m A b c s row LIB C HA Hb HLo TB RL RN RF v q k Hv Iq Hk ltac:(lia)) as (W1 & W2 & W3). fold n in W1, W2, W3.
      pose proof (power_agree v q k Hv Iq Hk ltac:(fold n; lia)) as PA. fold n in PA.
      destruct (mul_pow M HM (msg k) (l_pow lib (s3_feat s q k) n) 0 0 (- p) (- ((b + 4) * n)) G1 W1 G2' W2 ltac:(lia)) as (X1 & X2 & X3).
      split; [exact X1|]. split; [split; [|apply X2]|].
      * replace (- (p + (b + 4) * n))%Z with (- p + - ((b + 4) * n))%Z by lia. apply X3; [nia|tauto|tauto].
      * rewrite FT by auto.
        destruct (fmul_agree (msg k) (l_pow lib (s3_feat s q k) n) G1 W1) as (_ & Y).
        { split.
          - apply Rle_trans with (bp (- p + - ((b + 4) * n))); [apply bpow_le; nia|]. rewrite bpow_plus. apply Rmult_le_compat; try apply bpow_ge_0; tauto.
          - apply Rle_trans with (bp 0); [change (bp 0) with 1; nra|apply bpow_le; lia]. }
        replace (e + (eta + IZR n * (8 * eta)) + bp (-23)) with (bp (-23) + (e + (eta + IZR n * (8 * eta)))) by ring.
        eapply agree_trans; [exact Y|]. now apply agree_mul.
    + apply ranged_mul; [exact RD|]. destruct (power_ranged v q Hv Iq) as (PR1 & PR2). fold n in PR1, PR2. split; intros; rewrite !FT by auto; auto.
    + exists msg', mx'. split; [exact E1|]. split; [exact E2|]. split.
      * intros k Hk. destruct (R k Hk) as (R1 & R2 & R3). split; [exact R1|]. split.
        -- replace (p + (b + 4) * (n + zsum (map (fun q => nth q row 0%Z) l)))%Z with (p + (b + 4) * n + (b + 4) * zsum (map (fun q => nth q row 0%Z) l))%Z by lia. exact R2.
        -- eapply agree_weak; [|exact R3]. rewrite !plus_IZR, !mult_IZR, !plus_IZR, Nat2Z.inj_succ, succ_IZR. nra.
      * eapply ranged_weak; [|exact RR]. lia.
Qed.

(** ** Combining messages *)
Lemma in_both v a e v1 v2 f g fx gx cf cg ef eg Df Bf Bg :
  nth_error (ts_get_edges (d_tree m)) e = Some (v1, v2) -> (e < V - 1)%nat -> (v < V)%nat -> (a < V)%nat ->
  mgood M A b c f -> mgood M A b c g -> 0 < cf -> 0 < cg ->
  (forall k, (k < M)%nat -> agree ef (val (f k)) (cf * fx k) /\ bp (- Bf) <= val (f k)) ->
  (forall k, (k < M)%nat -> agree eg (val (g k)) (cg * gx k) /\ bp (- Bg) <= val (g k)) ->
  ranged M Df fx -> (forall k, (k < M)%nat -> 0 < gx k) ->
  (Bf + L + A + 11 <= 126)%Z -> (Bg + A + 11 <= 126)%Z -> (Df + (A + 8) + 9 <= 126)%Z -> ef + eg + 28 * eta <= 1 / 4 ->
  let trans := if (a <? v)%nat then transpose (s3_trans s e) else s3_trans s e in
  let message := fun k => fmul (f k) (l_dot lib (vec M (trans k)) (vec M g)) in
  let S32 := l_sum lib (vec M message) in
  let mx := fun k => fx k * sumf (seq 0 M) (fun j => tx e v1 v2 (a <? v)%nat k j * gx j) in
  let Sx := sumf (seq 0 M) mx in
  0 < Sx /\ ranged M (Df + (A + 8)) (fun k => mx k / Sx) /\
  forall k, (k < M)%nat ->
    agree (ef + eg + 29 * eta) (val (fdiv (message k) S32)) (cf * cg * Sx / val S32 * (mx k / Sx)) /\
    bp (- (Df + (A + 8) + 9)) <= val (fdiv (message k) S32).
Proof.
  intros D He Hv Ha GF GG Pcf Pcg AF AG RF' PG HB1 HB2 HD Hsm trans message S32 mx Sx.
  pose proof GF as (F1 & k0 & Hk0 & F2). pose proof GG as (G1 & j0 & Hj0 & G2).
  assert (TR : forall k j, (k < M)%nat -> (j < M)%nat -> fin32 (trans k j) = true /\ bp (- (A + 11)) <= val (trans k j) <= bp (2 * A + 6)).
  { intros k j Hk Hj. unfold trans. destruct (a <? v)%nat; [unfold transpose|]; apply (t3_trans _ _ _ _ _ _ TB); auto. }
  assert (TAG : forall k j, (k < M)%nat -> (j < M)%nat -> agree (26 * eta) (val (trans k j)) (tx e v1 v2 (a <? v)%nat k j)).
  { intros k j Hk Hj. unfold trans, tx. destruct (a <? v)%nat; [unfold transpose|]; apply (ta_trans _ _ _ _ _ _ TA); auto. }
  pose proof (dot_ranged e v1 v2 (a <? v)%nat gx D He PG) as DR.
  assert (RM : ranged M (Df + (A + 8)) mx) by (apply ranged_mul; auto).
  assert (SP : 0 < Sx) by (apply sumf_pos'; [apply (seqM ws V M N m C)|]; intros k I; apply in_seq in I; apply RM; lia).
  split; [exact SP|]. split; [now apply ranged_div|].
  (* the dot products *)
  assert (DD : forall k, (k < M)%nat -> fin32 (l_dot lib (vec M (trans k)) (vec M g)) = true /\
    0 <= val (l_dot lib (vec M (trans k)) (vec M g)) <= bp (2 * A + 6 + 0 + 7) /\ bp (- (A + 11) + - L) <= val (l_dot lib (vec M (trans k)) (vec M g)) /\
    agree (27 * eta + eg) (val (l_dot lib (vec M (trans k)) (vec M g))) (cg * sumf (seq 0 M) (fun j => tx e v1 v2 (a <? v)%nat k j * gx j))).
  { intros k Hk.
    assert (FT : Forall (fun z => fin32 z = true /\ 0 <= val z <= bp (2 * A + 6)) (vec M (trans k))).
    { apply Forall_forall. intros x I. apply vec_In in I; [|exact HM]. destruct I as (j & Hj & ->). destruct (TR k j Hk Hj) as (T1 & T2). split; [exact T1|].
      pose proof (bp_pos (- (A + 11))). lra. }
    assert (FG : Forall (fun z => fin32 z = true /\ 0 <= val z <= bp 0) (vec M g)).
    { apply Forall_forall. intros x I. apply vec_In in I; [|exact HM]. destruct I as (j & Hj & ->). exact (G1 j Hj). }
    assert (CO : forall h : f32 * f32 -> R, sumf (combine (vec M (trans k)) (vec M g)) h = sumf (seq 0 M) (fun j => h (trans k j, g j))).
    { intros h. unfold vec. generalize (seq 0 M). intros l. induction l as [|j l IH]; [reflexivity|]. cbn [map combine]. rewrite !sumf_cons, IH. reflexivity. }
    destruct (proj1 LIB (vec M (trans k)) (vec M g) (2 * A + 6)%Z 0%Z 7%Z) as (D1 & D2 & D3); auto; try lia.
    - now rewrite !len_vec.
    - rewrite len_vec. change (2 ^ 7)%Z with 128%Z. lia.
    - split; [exact D1|]. split; [exact D2|]. split.
      + apply (D3 j0); [now rewrite len_vec|pose proof (HL' ws V M N m A b c row C HA Hb Hc HLo RL); lia| |].
        * rewrite nth_vec_lt by auto. apply (TR k j0 Hk Hj0).
        * rewrite nth_vec_lt by auto. exact G2.
      + destruct ACC as (_ & AD & _). specialize (AD (vec M (trans k)) (vec M g) ltac:(now rewrite !len_vec) ltac:(rewrite len_vec; nia)).
        assert (AD' : agree eta (val (l_dot lib (vec M (trans k)) (vec M g))) (sumf (combine (vec M (trans k)) (vec M g)) (fun p => val (fst p) * val (snd p)))).
        { apply AD.
          - eapply Forall_impl; [|exact FT]. cbn beta. intros z (? & ?). split; [auto|lra].
          - eapply Forall_impl; [|exact FG]. cbn beta. intros z (? & ?). split; [auto|lra].
          - apply Forall_forall. intros [x y] I. unfold vec in I.
            assert (X : exists j, (j < M)%nat /\ x = trans k j /\ y = g j).
            { assert (Z : forall l, In (x, y) (combine (map (trans k) l) (map g l)) -> exists j, In j l /\ x = trans k j /\ y = g j).
              { clear. induction l as [|j l IH]; intros I; [destruct I|]. cbn [map combine] in I. destruct I as [E|I]; [injection E as <- <-; exists j; split; [now left|auto]|].
                destruct (IH I) as (i & Ii & E). exists i. split; [now right|exact E]. }
              destruct (Z _ I) as (j & Ij & E). apply in_seq in Ij. exists j. split; [lia|exact E]. }
            destruct X as (j & Hj & -> & ->). cbn [fst snd]. apply Rle_trans with (bp (- (A + 11) + - Bg)); [apply bpow_le; lia|]. rewrite bpow_plus.
            apply Rmult_le_compat; try apply bpow_ge_0; [apply (TR k j Hk Hj)|apply (AG j Hj)].
          - rewrite CO. cbn [fst snd]. apply Rle_trans with (sumf (seq 0 M) (fun _ => bp (2 * A + 6))).
            + apply sumf_le. intros j I. apply in_seq in I. destruct (TR k j Hk ltac:(lia)) as (_ & T2). destruct (G1 j ltac:(lia)) as (_ & T3). pose proof (bp_pos (- (A + 11))). nra.
            + rewrite sumf_const, seq_length. apply Rle_trans with (bp 7 * bp (2 * A + 6)); [apply Rmult_le_compat_r; [apply bpow_ge_0|]; rewrite INR_IZR_INZ; change (bp 7) with (IZR 128); apply IZR_le; lia|].
              rewrite <- bpow_plus. apply bpow_le. lia. }
        rewrite CO in AD'. cbn [fst snd] in AD'. replace (27 * eta + eg) with (eta + (26 * eta + eg)) by ring. eapply agree_trans; [exact AD'|].
        replace (cg * sumf (seq 0 M) (fun j => tx e v1 v2 (a <? v)%nat k j * gx j)) with (sumf (seq 0 M) (fun j => tx e v1 v2 (a <? v)%nat k j * (cg * gx j))).
        * apply agree_sum. intros j I. apply in_seq in I. apply agree_mul; [apply TAG; lia|apply AG; lia].
        * rewrite <- sumf_scal. apply sumf_ext. intros; ring. }
  (* the products *)
  assert (PP : forall k, (k < M)%nat -> fin32 (message k) = true /\ 0 < val (message k) <= bp (2 * A + 13) /\ agree (ef + eg + 28 * eta) (val (message k)) (cf * cg * mx k)).
  { intros k Hk. destruct (F1 k Hk) as (f1 & f2). destruct (DD k Hk) as (d1 & d2 & d3 & d4). destruct (AF k Hk) as (f3 & f4).
    pose proof (bp_pos (- Bf)) as PB. pose proof (bp_pos (- (A + 11) + - L)) as PL.
    assert (LOW : bp (-126) <= val (f k) * val (l_dot lib (vec M (trans k)) (vec M g))).
    { apply Rle_trans with (bp (- Bf + (- (A + 11) + - L))); [apply bpow_le; lia|]. rewrite bpow_plus. apply Rmult_le_compat; lra. }
    assert (UP : val (f k) * val (l_dot lib (vec M (trans k)) (vec M g)) <= bp (2 * A + 13)).
    { replace (2 * A + 13)%Z with (2 * A + 6 + 0 + 7)%Z by lia. nra. }
    destruct (fmul_agree (f k) (l_dot lib (vec M (trans k)) (vec M g)) f1 d1) as (m1 & m2).
    { split; [exact LOW|]. eapply Rle_trans; [exact UP|]. apply bpow_le. lia. }
    split; [exact m1|]. split.
    - pose proof (bp_pos (-126)). split; [apply (agree_pos _ _ _ m2); lra|].
      destruct (mul_pow M HM (f k) (l_dot lib (vec M (trans k)) (vec M g)) 0 (2 * A + 6 + 0 + 7) 0 0 f1 d1 f2 d2 ltac:(lia)) as (_ & x2 & _).
      replace (2 * A + 13)%Z with (0 + (2 * A + 6 + 0 + 7))%Z by lia. apply x2.
    - replace (cf * cg * mx k) with (cf * fx k * (cg * sumf (seq 0 M) (fun j => tx e v1 v2 (a <? v)%nat k j * gx j))) by (unfold mx; ring).
      eapply agree_weak; [|eapply agree_trans; [exact m2|apply (agree_mul _ _ _ _ _ _ f3 d4)]]. lra. }
  (* the sum *)
  assert (FA : Forall (fun x => fin32 x = true /\ 0 <= val x) (vec M message)).
  { apply Forall_forall. intros x I. apply vec_In in I; [|exact HM]. destruct I as (k & Hk & ->). destruct (PP k Hk) as (? & ? & _). split; [auto|lra]. }
  assert (MX : exists k, (k < M)%nat /\ forall j, (j < M)%nat -> val (message j) <= val (message k)).
  { clear - HM. assert (X : forall n, (1 <= n)%nat -> exists k, (k < n)%nat /\ forall j, (j < n)%nat -> val (message j) <= val (message k)).
    { induction n as [|n IH]; intros Hn; [lia|]. destruct n.
      - exists 0%nat. split; [lia|]. intros j Hj. replace j with 0%nat by lia. lra.
      - destruct IH as (k & Hk & B); [lia|]. destruct (Rle_dec (val (message (Datatypes.S n))) (val (message k))) as [D|D].
        + exists k. split; [lia|]. intros j Hj. destruct (Nat.eq_dec j (Datatypes.S n)) as [->|]; [exact D|]. apply B. lia.
        + exists (Datatypes.S n). split; [lia|]. intros j Hj. destruct (Nat.eq_dec j (Datatypes.S n)) as [->|]; [lra|]. specialize (B j ltac:(lia)). lra. }
    apply X. lia. }
  destruct MX as (km & Hkm & MX). destruct (PP km Hkm) as (_ & Pm & Am).
  assert (RS : rsum (map (@B2R 24 128) (vec M message)) <= 128 * val (message km)).
  { rewrite rsum_map_vec. apply Rle_trans with (sumf (seq 0 M) (fun _ => val (message km))).
    - apply sumf_le. intros j I. apply in_seq in I. apply MX. lia.
    - rewrite sumf_const, seq_length. apply Rmult_le_compat_r; [lra|]. rewrite INR_IZR_INZ. apply IZR_le. lia. }
  assert (RS120 : rsum (map (@B2R 24 128) (vec M message)) <= bp 120).
  { eapply Rle_trans; [exact RS|]. apply Rle_trans with (bp 7 * bp (2 * A + 13)); [change (bp 7) with 128; nra|]. rewrite <- bpow_plus. apply bpow_le. lia. }
  assert (LN : (Z.of_nat (length (vec M message)) <= 2 ^ 16)%Z) by (rewrite len_vec; lia).
  assert (SO := proj1 (proj2 LIB)).
  intros k Hk. destruct (PP k Hk) as (Fk & Pk & Ak).
  destruct (norm_spec (l_sum lib) (vec M message) (message k) SO LN FA RS120 (In_vec M HM message k Hk)) as (N1 & N2 & N3 & N4 & N5).
  { exists (message k). split; [now apply In_vec|lra]. }
  destruct (proj1 SO (vec M message) LN FA RS120) as (_ & S2 & S3). fold S32 in N1, N2, N3, N4, N5, S2, S3.
  (* no class is much smaller than the largest *)
  assert (LOWK : bp (- (Df + (A + 8) + 1)) * val (message km) <= val (message k)).
  { destruct RM as (_ & RM). specialize (RM k km Hk Hkm). destruct Ak as (_ & Ak & _). destruct Am as (Mp & _ & Am).
    assert (X : exp (ef + eg + 28 * eta) <= 2 * exp (- (ef + eg + 28 * eta))).
    { replace (exp (ef + eg + 28 * eta)) with (exp (2 * (ef + eg + 28 * eta)) * exp (- (ef + eg + 28 * eta))) by (rewrite <- exp_plus; f_equal; ring).
      apply Rmult_le_compat_r; [left; apply exp_pos|]. apply Rle_trans with (exp (1 / 2)); [apply exp_le; lra|exact exp_half]. }
    set (x := exp (- (ef + eg + 28 * eta))) in *. assert (X0 : 0 < x) by apply exp_pos.
    replace (- (Df + (A + 8) + 1))%Z with (- (Df + (A + 8)) + -1)%Z by lia. rewrite bpow_plus. change (bp (-1)) with (/ 2).
    pose proof (bp_pos (- (Df + (A + 8)))) as PD. eapply Rle_trans; [|exact Ak].
    apply Rle_trans with (bp (- (Df + (A + 8))) * / 2 * (cf * cg * mx km * (2 * x))).
    - apply Rmult_le_compat_l; [lra|]. eapply Rle_trans; [exact Am|]. apply Rmult_le_compat_l; lra.
    - replace (bp (- (Df + (A + 8))) * / 2 * (cf * cg * mx km * (2 * x))) with (cf * cg * (bp (- (Df + (A + 8))) * mx km) * x) by field.
      apply Rmult_le_compat_r; [lra|]. apply Rmult_le_compat_l; [nra|exact RM]. }
  assert (LOW9 : bp (- (Df + (A + 8) + 9)) * (2 * rsum (map (@B2R 24 128) (vec M message))) <= val (message k)).
  { eapply Rle_trans; [|exact LOWK]. replace (- (Df + (A + 8) + 9))%Z with (- (Df + (A + 8) + 1) + -8)%Z by lia. rewrite bpow_plus. change (bp (-8)) with (/ 256).
    rewrite Rmult_assoc. apply Rmult_le_compat_l; [apply bpow_ge_0|]. lra. }
  assert (KZ : (-149 <= - (Df + (A + 8) + 9) <= 0)%Z).
  { split; [lia|]. destruct (Z_lt_le_dec 0 (- (Df + (A + 8) + 9))) as [Z|Z]; [|exact Z]. exfalso.
    assert (G : 1 <= bp (- (Df + (A + 8) + 9))) by (change 1 with (bp 0); apply bpow_le; lia).
    pose proof (S3 (message k) (In_vec M HM message k Hk)). assert (R0 : 0 < rsum (map (@B2R 24 128) (vec M message))) by lra. nra. }
  split; [|apply N3; [exact KZ|exact LOW9]].
  destruct (fdiv_agree (message k) S32 Fk N5) as (_ & Q).
  { split.
    - apply div_ge; [lra|]. eapply Rle_trans; [|exact LOW9].
      apply Rmult_le_compat; [apply bpow_ge_0|lra|apply bpow_le; lia|lra].
    - apply Rle_trans with (bp 0); [|apply bpow_le; lia]. change (bp 0) with 1. apply div_le; [lra|].
      pose proof (S3 (message k) (In_vec M HM message k Hk)). lra. }
  replace (cf * cg * Sx / val S32 * (mx k / Sx)) with (cf * cg * mx k / val S32) by (field; lra).
  eapply agree_weak; [|eapply agree_trans; [exact Q|]].
  2:{ apply agree_div with (e2 := 0); [exact Ak|apply agree_refl; lra|lra]. }
  lra.
Qed.
End STEP.
