(** Float32 marginals are finite numbers that add up to one. *)
From Coq Require Import List Arith Bool ZArith Reals Lra Lia.
From Flocq Require Import Core Relative IEEE754.BinarySingleNaN.
From Verif Require Import Base L_Base Spec_Graph L_Graph Spec_Sum L_Sum M_Structure L_Pairing L_MakeTree L_Program L_ProgramValid Spec_Program L_Center L_Prop1 M_Util L_Quantize Spec_Ragged L_Ragged M_Array M_Training Spec_Stats L_Stats L_Trainer Spec_Conditional L_Asg L_BP L_BPVec L_AddRow
  M_Float32 M_Train32 Spec_Float32 L_Float32 L_Sample32 L_Train32 L_Train32c L_Train32d L_Train32i M_Serving Spec_Serving L_Server M_Serving32 Spec_Serving32 L_Serving32a L_Serving32b L_Serving32c L_Serving32d M_Sample32 M_Marg32.
Import ListNotations.
Open Scope R_scope.

(** ** Quotients by a float32 sum *)
Lemma fdiv_abs (x y : f32) : fin32 x = true -> 0 < val y -> 0 <= val x / val y <= 1 ->
  Rabs (val (fdiv x y) - val x / val y) <= bp (-24) * (val x / val y) + bp (-150).
Proof.
  intros Fx Py B. assert (B1 : bp 0 = 1) by reflexivity.
  pose proof (Bdiv_correct 24 128 p24 e128 mode_NE x y ltac:(lra)) as C. cbn [round_mode] in C. fold (rnd 24 128 (val x / val y)) in C.
  rewrite (small 24 128 p24 0 (bp 0) (val x / val y)) in C; try (apply fmtb; lia);
    [|apply (fmt_0 24 128)|rewrite B1; exact B|pose proof (bpow_gt_0 radix2 128); lra|apply bpow_lt; lia].
  destruct C as (C & _). unfold fdiv. rewrite C. unfold rnd.
  change (round radix2 (SpecFloat.fexp 24 128) ZnearestE (val x / val y)) with
    (round radix2 (FLT_exp (3 - 128 - 24) 24) (Znearest (fun x => negb (Z.even x))) (val x / val y)).
  destruct (error_N_FLT radix2 (3 - 128 - 24) 24 p24 (fun x => negb (Z.even x)) (val x / val y)) as (eps & eta & E1 & E2 & _ & E3).
  rewrite E3. apply Rabs_le_inv in E1, E2. apply Rabs_le.
  change (3 - 128 - 24)%Z with (-149)%Z in E2. replace (/ 2 * bp (-149)) with (bp (-150)) in E2 by (change (-150)%Z with (-1 + -149)%Z; rewrite bpow_plus; reflexivity).
  change (/ 2 * bp (- (24) + 1)) with (bp (-1) * bp (-23)) in E1. rewrite <- bpow_plus in E1. change (-1 + -23)%Z with (-24)%Z in E1. nra.
Qed.

Lemma quotients_sum sum l : sum_ok sum -> (Z.of_nat (length l) <= 2 ^ 16)%Z -> Forall (fun x => fin32 x = true /\ 0 <= val x) l ->
  rsum (map (@B2R 24 128) l) <= bp 120 -> (exists y, In y l /\ 0 < val y) ->
  63 / 64 <= rsum (map (fun x => val (fdiv x (sum l))) l) <= 65 / 64.
Proof.
  intros SO HL F S EX. destruct (proj1 SO l HL F S) as (S1 & S2 & S3). destruct EX as (y & Iy & Py). pose proof (S3 y Iy) as Ly.
  rewrite Forall_forall in F. set (t := val (sum l)) in *. assert (T0 : 0 < t) by lra.
  set (r := rsum (map (@B2R 24 128) l)) in *.
  assert (G : forall l', incl l' l -> Rabs (rsum (map (fun x => val (fdiv x (sum l))) l') - rsum (map (@B2R 24 128) l') / t) <=
    bp (-24) * (rsum (map (@B2R 24 128) l') / t) + INR (length l') * bp (-150)).
  { induction l' as [|x l' IH]; intros IL.
    - cbn. unfold Rdiv. rewrite Rmult_0_l, Rminus_0_r, Rabs_R0. lra.
    - specialize (IH ltac:(intros z Iz; apply IL; now right)). assert (Ix : In x l) by (apply IL; now left).
      destruct (F x Ix) as (Fx & Px). pose proof (S3 x Ix) as Lx. fold t in Lx.
      assert (D : Rabs (val (fdiv x (sum l)) - val x / t) <= bp (-24) * (val x / t) + bp (-150)).
      { apply fdiv_abs; auto. fold t. split; [apply Rmult_le_pos; [lra|apply Rlt_le, Rinv_0_lt_compat; lra]|].
        apply Rmult_le_reg_r with t; [lra|]. unfold Rdiv. rewrite Rmult_assoc, Rinv_l by lra. lra. }
      cbn [map length]. rewrite S_INR. unfold rsum in *. cbn [sumf fold_right] in *.
      change (fold_right (fun a s0 => a + s0) 0 (map (fun x0 => val (fdiv x0 (sum l))) l')) with (sumf (map (fun x0 => val (fdiv x0 (sum l))) l') (fun a => a)) in *.
      change (fold_right (fun a s0 => a + s0) 0 (map (@B2R 24 128) l')) with (sumf (map (@B2R 24 128) l') (fun a => a)) in *.
      set (a := sumf (map (fun x0 => val (fdiv x0 (sum l))) l') (fun a => a)) in *. set (b := sumf (map (@B2R 24 128) l') (fun a => a)) in *.
      apply Rabs_le_inv in IH, D. apply Rabs_le. replace ((val x + b) / t) with (val x / t + b / t) by (field; lra). lra. }
  specialize (G l (incl_refl l)). fold r in G. apply Rabs_le_inv in G.
  assert (R0 : r / t * t = r) by (field; lra). set (z := r / t) in *.
  assert (Z1 : 128 / 129 <= z <= 128 / 127).
  { assert (0 <= r). { unfold r, rsum. apply sumf_nonneg. intros a Ia. apply in_map_iff in Ia. destruct Ia as (x & <- & Ix). now apply F. }
    split; apply Rmult_le_reg_r with t; lra. }
  assert (N0 : 0 <= INR (length l) * bp (-150) <= bp (-24)).
  { pose proof (bp_pos (-150)). split; [apply Rmult_le_pos; [apply pos_INR|lra]|]. apply Rle_trans with (bp 16 * bp (-150)).
    - apply Rmult_le_compat_r; [lra|]. rewrite INR_IZR_INZ. change (bp 16) with (IZR (2 ^ 16)). now apply IZR_le.
    - rewrite <- bpow_plus. apply bpow_le. lia. }
  change (bp (-24)) with (/ 16777216) in *. lra.
Qed.

(** ** The largest entry of a message *)
Lemma tight M lo hi f : (1 <= M)%nat -> vgood M lo hi f -> exists p, (lo <= p <= hi)%Z /\ vgood M p (p + 1) f.
Proof.
  intros HM (F & k0 & Hk0 & P).
  assert (X : forall n, (n < M)%nat -> exists k, (k <= n)%nat /\ forall j, (j <= n)%nat -> val (f j) <= val (f k)).
  { induction n as [|n IH]; intros Hn; [exists 0%nat; split; [lia|]; intros j Hj; replace j with 0%nat by lia; lra|].
    destruct IH as (k & Hk & K); [lia|]. destruct (Rle_dec (val (f k)) (val (f (Datatypes.S n)))) as [D|D].
    - exists (Datatypes.S n). split; [lia|]. intros j Hj. destruct (Nat.eq_dec j (Datatypes.S n)) as [-> | N]; [lra|]. specialize (K j ltac:(lia)). lra.
    - exists k. split; [lia|]. intros j Hj. destruct (Nat.eq_dec j (Datatypes.S n)) as [-> | N]; [lra|]. apply K. lia. }
  destruct (X (M - 1)%nat ltac:(lia)) as (k & Hk & K). specialize (F k ltac:(lia)) as Fk. pose proof (K k0 ltac:(lia)) as K0. pose proof (bp_pos lo) as PL.
  destruct (mag radix2 (val (f k))) as (p & Hp). specialize (Hp ltac:(lra)). rewrite Rabs_pos_eq in Hp by lra.
  exists (p - 1)%Z. split; [split|].
  - assert (lo < p)%Z by (apply (lt_bpow radix2); lra). lia.
  - apply (le_bpow radix2). lra.
  - split; [|exists k; split; [lia|tauto]]. intros j Hj. destruct (F j Hj) as (F1 & F2). split; [exact F1|]. split; [tauto|].
    replace (p - 1 + 1)%Z with p by lia. specialize (K j ltac:(lia)). lra.
Qed.

(** The marginal of one feature. *)
Definition block_good (ws : list nat) (v : nat) (res : nat -> f32) : Prop :=
  (forall q, In q (block ws v) -> fin32 (res q) = true /\ 0 < val (res q) <= 1) /\
  (block ws v <> [] -> 63 / 64 <= sumf (block ws v) (fun q => val (res q)) <= 65 / 64).

Section RUN.
Variables (lib : numlib) (ws : list nat) (V M N0 : nat) (m : smodel) (A L : Z) (s : server32) (data : list Z) (obs : observe_fun)
  (post : nat -> (nat -> f32) -> nat -> f32) (lo hi : nat -> Z) (D : nat).
Hypothesis LIB : lib_ok lib.
Hypothesis C : consistent ws V M N0 m.
Hypothesis CBL : counts_below A ws N0 m.
Hypothesis HA : (6 <= A <= 16)%Z.
Hypothesis HL0 : (A + 3 <= L)%Z.
Hypothesis HL : (2 * L + A + 11 <= 149)%Z.
Hypothesis TB : tables32 ws V M A m s.
Let HM : (1 <= M <= 128)%nat.
Proof. apply (cm_M _ _ _ _ _ C). Qed.
Notation off v := (list_sum (firstn v ws)).
Notation mg := (vgood M (- L) 0).

Lemma lenws' : length ws = V.
Proof. apply (cm_width _ _ _ _ _ C). Qed.

Lemma feat_low v q k : (v < V)%nat -> In q (block ws v) -> (k < M)%nat -> fin32 (s3_feat s q k) = true /\ bp (- (A + 12)) <= val (s3_feat s q k) <= bp 0.
Proof.
  intros Hv Iq Hk. destruct (t3_feat _ _ _ _ _ _ TB v q k Hv Iq Hk) as (f1 & f2 & f3). split; [exact f1|]. change (bp 0) with 1. split; [|lra].
  replace (- (A + 12))%Z with (- (A + 9 + 3))%Z by lia. apply f3; [lia|]. apply (feat_prob_low ws V M N0 m A C CBL HA); auto.
Qed.

Lemma down_good v f l h : (v < V)%nat -> vgood M l h f -> (-149 <= l - (A + 12))%Z -> (h <= 90)%Z ->
  let marginal := fun r => l_dot lib (vec M (s3_feat s r)) (vec M f) in
  block_good ws v (fun r => fdiv (marginal r) (l_sum lib (map marginal (block ws v)))).
Proof.
  intros Hv G Hl Hh marginal. destruct (tight M l h f ltac:(lia) G) as (p & Hp & (F & k0 & Hk0 & P)).
  assert (MB : forall q, In q (block ws v) -> fin32 (marginal q) = true /\ bp (- (A + 12) + p) <= val (marginal q) <= bp (0 + (p + 1) + 7)).
  { intros q Iq. destruct (proj1 LIB (vec M (s3_feat s q)) (vec M f) 0%Z (p + 1)%Z 7%Z) as (D1 & D2 & D3); try lia.
    - now rewrite !len_vec.
    - rewrite len_vec. change (2 ^ 7)%Z with 128%Z. lia.
    - apply Forall_forall. intros x Ix. apply vec_In in Ix; [|exact HM]. destruct Ix as (j & Hj & ->). destruct (feat_low v q j Hv Iq Hj) as (T1 & T2). split; [exact T1|].
      pose proof (bp_pos (- (A + 12))). lra.
    - apply Forall_forall. intros x Ix. apply vec_In in Ix; [|exact HM]. destruct Ix as (j & Hj & ->). exact (F j Hj).
    - split; [exact D1|]. split; [|exact (proj2 D2)]. apply (D3 k0); [now rewrite len_vec|lia| |].
      + rewrite nth_vec_lt by auto. apply (feat_low v q k0 Hv Iq Hk0).
      + rewrite nth_vec_lt by auto. exact P. }
  set (ls := map marginal (block ws v)). pose proof (bp_pos (- (A + 12) + p)) as PP.
  assert (LL : (Z.of_nat (length ls) <= 2 ^ 16)%Z).
  { unfold ls. rewrite map_length. unfold block. rewrite seq_length.
    destruct CBL as (_ & K). destruct (K v 0%nat) as (K1 & _); [rewrite lenws'; exact Hv|rewrite (proj1 (cm_M _ _ _ _ _ C)); lia|].
    assert (2 ^ A <= 2 ^ 16)%Z by (apply Z.pow_le_mono_r; lia). lia. }
  assert (FF : Forall (fun x => fin32 x = true /\ 0 <= val x) ls).
  { apply Forall_forall. intros x Ix. apply in_map_iff in Ix. destruct Ix as (q & <- & Iq). destruct (MB q Iq) as (M1 & M2). split; [exact M1|lra]. }
  assert (SS : rsum (map (@B2R 24 128) ls) <= bp (p + 24)).
  { assert (E : forall bl, incl bl (block ws v) -> rsum (map (@B2R 24 128) (map marginal bl)) <= INR (length bl) * bp (0 + (p + 1) + 7)).
    { induction bl as [|q bl IH]; intros IL; [cbn; lra|]. specialize (IH ltac:(intros z Iz; apply IL; now right)). destruct (MB q ltac:(apply IL; now left)) as (_ & M2).
      cbn [map length]. rewrite S_INR. unfold rsum in *. cbn [sumf fold_right] in *. unfold sumf in IH. lra. }
    eapply Rle_trans; [apply (E _ (incl_refl _))|]. unfold ls in LL. rewrite map_length in LL. pose proof (bp_pos (0 + (p + 1) + 7)).
    apply Rle_trans with (bp 16 * bp (0 + (p + 1) + 7)).
    - apply Rmult_le_compat_r; [lra|]. rewrite INR_IZR_INZ. change (bp 16) with (IZR (2 ^ 16)). now apply IZR_le.
    - rewrite <- bpow_plus. apply bpow_le. lia. }
  assert (S1 : rsum (map (@B2R 24 128) ls) <= bp 120) by (eapply Rle_trans; [exact SS|apply bpow_le; lia]).
  assert (EX : forall q, In q (block ws v) -> exists y, In y ls /\ 0 < val y).
  { intros q Iq. exists (marginal q). split; [now apply in_map|]. destruct (MB q Iq) as (_ & M2). lra. }
  destruct LIB as (_ & SO & _). split.
  - intros q Iq. destruct (norm_spec (l_sum lib) ls (marginal q) SO LL FF S1 (in_map marginal _ _ Iq) (EX q Iq)) as (X1 & X2 & X3 & _).
    split; [exact X1|]. split; [|tauto]. apply Rlt_le_trans with (bp (- (A + 12) - 25)); [apply bp_pos|]. apply X3; [lia|].
    destruct (MB q Iq) as (_ & M2 & _). eapply Rle_trans; [|exact M2].
    apply Rle_trans with (bp (- (A + 12) - 25) * (bp 1 * bp (p + 24))).
    + apply Rmult_le_compat_l; [apply Rlt_le, bp_pos|]. change (bp 1) with 2. lra.
    + rewrite <- !bpow_plus. apply bpow_le. lia.
  - intros NE. assert (NQ : exists q0, In q0 (block ws v)) by (destruct (block ws v) as [|q0 bl]; [congruence|exists q0; now left]). destruct NQ as (q0 & Iq0).
    pose proof (quotients_sum (l_sum lib) ls SO LL FF S1 (EX q0 Iq0)) as Q.
    assert (EQ : rsum (map (fun x => val (fdiv x (l_sum lib ls))) ls) = sumf (block ws v) (fun q => val (fdiv (marginal q) (l_sum lib ls)))).
    { unfold rsum. generalize (l_sum lib ls). intros t. unfold ls. rewrite map_map. clear. induction (block ws v) as [|a bl IH]; [reflexivity|]. cbn [map sumf fold_right]. unfold sumf in IH. now rewrite IH. }
    rewrite EQ in Q. exact Q.
Qed.

(** ** Steps outward *)
Lemma trans_range' (c : bool) e k j : (e < V - 1)%nat -> (k < M)%nat -> (j < M)%nat ->
  let trans := if c then transpose (s3_trans s e) else s3_trans s e in
  fin32 (trans k j) = true /\ bp (- (A + 11)) <= val (trans k j) <= bp (2 * A + 6).
Proof. intros He Hk Hj. destruct c; cbn; [unfold transpose|]; apply (t3_trans _ _ _ _ _ _ TB); auto. Qed.

Lemma step_good (c : bool) e f g l1 h1 l2 h2 : (e < V - 1)%nat -> vgood M l1 h1 f -> vgood M l2 h2 g ->
  (-149 <= l1 + l2 - (A + 11))%Z -> (l1 <= 0)%Z -> (0 <= h1)%Z -> (0 <= h2)%Z -> (h1 + h2 + 2 * A + 13 <= 127)%Z ->
  vgood M (l1 + l2 - (A + 11)) (h1 + h2 + 2 * A + 13) (fun k => fmul (f k) (l_dot lib (vec M ((if c then transpose (s3_trans s e) else s3_trans s e) k)) (vec M g))).
Proof.
  intros He (F1 & k0 & Hk0 & F2) (G1 & j0 & Hj0 & G2) H1 H2 H3 H4 H5. set (trans := if c then transpose (s3_trans s e) else s3_trans s e).
  assert (TR : forall k j, (k < M)%nat -> (j < M)%nat -> fin32 (trans k j) = true /\ bp (- (A + 11)) <= val (trans k j) <= bp (2 * A + 6)).
  { intros. now apply trans_range'. }
  assert (DD : forall k, (k < M)%nat -> fin32 (l_dot lib (vec M (trans k)) (vec M g)) = true /\
    0 <= val (l_dot lib (vec M (trans k)) (vec M g)) <= bp (2 * A + 6 + h2 + 7) /\ bp (- (A + 11) + l2) <= val (l_dot lib (vec M (trans k)) (vec M g))).
  { intros k Hk. destruct (proj1 LIB (vec M (trans k)) (vec M g) (2 * A + 6)%Z h2 7%Z) as (D1 & D2 & D3); try lia.
    - now rewrite !len_vec.
    - rewrite len_vec. change (2 ^ 7)%Z with 128%Z. lia.
    - apply Forall_forall. intros x Ix. apply vec_In in Ix; [|exact HM]. destruct Ix as (j & Hj & ->). destruct (TR k j Hk Hj) as (T1 & T2). split; [exact T1|].
      pose proof (bp_pos (- (A + 11))). lra.
    - apply Forall_forall. intros x Ix. apply vec_In in Ix; [|exact HM]. destruct Ix as (j & Hj & ->). exact (G1 j Hj).
    - split; [exact D1|]. split; [exact D2|]. apply (D3 j0); [now rewrite len_vec|lia| |].
      + rewrite nth_vec_lt by auto. apply (TR k j0 Hk Hj0).
      + rewrite nth_vec_lt by auto. exact G2. }
  split.
  - intros k Hk. destruct (F1 k Hk) as (f1 & f2). destruct (DD k Hk) as (d1 & d2 & _).
    destruct (mul_pow M HM (f k) (l_dot lib (vec M (trans k)) (vec M g)) h1 (2 * A + 6 + h2 + 7) 0 0 f1 d1 f2 d2 ltac:(lia)) as (x1 & x2 & _).
    replace (h1 + h2 + 2 * A + 13)%Z with (h1 + (2 * A + 6 + h2 + 7))%Z by lia. auto.
  - exists k0. split; [exact Hk0|]. destruct (F1 k0 Hk0) as (f1 & f2). destruct (DD k0 Hk0) as (d1 & d2 & d3).
    destruct (mul_pow M HM (f k0) (l_dot lib (vec M (trans k0)) (vec M g)) h1 (2 * A + 6 + h2 + 7) l1 (- (A + 11) + l2) f1 d1 f2 d2 ltac:(lia)) as (_ & _ & x3).
    replace (l1 + l2 - (A + 11))%Z with (l1 + (- (A + 11) + l2))%Z by lia. apply x3; auto. lia.
Qed.

Lemma rescaled_good l h f : (h <= 127)%Z -> vgood M l h f -> mg (rescaled M f).
Proof.
  intros Hh (F & k & Hk & P). pose proof (bp_pos l).
  destruct (largest_good M 0 f h HM ltac:(lia) Hh F) as (G1 & j & Hj & G2); [exists k; split; [exact Hk|lra]|]. split; [exact G1|].
  exists j. split; [exact Hj|]. eapply Rle_trans; [|exact G2]. apply bpow_le. lia.
Qed.

Lemma mg_vert' v : (v < V)%nat -> mg (s3_vert s v).
Proof.
  intros Hv. split.
  - intros k Hk. destruct (t3_vert _ _ _ _ _ _ TB v k Hv Hk) as (F & B). split; [exact F|]. pose proof (bp_pos (- (A + 3))). change (bp 0) with 1. lra.
  - exists 0%nat. split; [lia|]. destruct (t3_vert _ _ _ _ _ _ TB v 0%nat Hv ltac:(lia)) as (F & B). eapply Rle_trans; [|apply B]. apply bpow_le. lia.
Qed.

(** ** The program *)
Hypothesis OBS : forall v, (v < V)%nat -> exists msg', obs s data v (s3_vert s v) = Ok msg' /\ mg msg'.
Hypothesis LH0 : lo 0 = (- L)%Z /\ hi 0 = 0%Z.
Hypothesis POST : forall d (c : bool) e f g, (e < V - 1)%nat -> (d < D)%nat -> mg f -> vgood M (lo d) (hi d) g ->
  vgood M (lo (Datatypes.S d)) (hi (Datatypes.S d))
    (post M (fun k => fmul (f k) (l_dot lib (vec M ((if c then transpose (s3_trans s e) else s3_trans s e) k)) (vec M g)))).
Hypothesis RNG : forall d, (d <= D)%nat -> (-149 <= lo d - (A + 12))%Z /\ (hi d <= 90)%Z.

Section LOOP.
Variables (edges : list (nat * nat)) (r : nat) (par dep : nat -> nat).
Notation es := (grid_edges (make_tree edges)).
Hypothesis RT : rooted V es r par dep.
Hypothesis VPG : valid_program V es r (s3_prog s).
Hypothesis PB : forall op v a e, In (I op v a e) (s3_prog s) -> (v < V)%nat /\ match op with OP_IN | OP_OUT => (a < V)%nat /\ (e < V - 1)%nat | _ => True end.
Hypothesis DEP : forall v, (v < V)%nat -> (dep v <= D)%nat.

Definition moved (pre : list instr) (v : nat) : Prop := exists a e, In (I OP_OUT v a e) pre.

Definition MJ (pre : list instr) (st : mstate32) : Prop :=
  let '(min, mout, res) := st in
  (forall v, (v < V)%nat -> ~ moved pre v -> mg (min v) /\ (~ In (I OP_UP v 0 0) pre -> min v = s3_vert s v) /\ (In (I OP_UP v 0 0) pre -> mg (mout v))) /\
  (forall v, (v < V)%nat -> moved pre v -> vgood M (lo (dep v)) (hi (dep v)) (min v) /\ vgood M (lo (dep v)) (hi (dep v)) (mout v)) /\
  (forall v, (v < V)%nat -> In (I OP_DOWN v 0 0) pre -> block_good ws v res).

Lemma off_block' v : (v < V)%nat -> seq (off v) (off (v + 1) - off v) = block ws v.
Proof. intros Hv. pose proof lenws'. unfold block. rewrite Nat.add_1_r, sum_firstn_S by lia. f_equal. lia. Qed.

Lemma mstep_ok pre i suf st : s3_prog s = pre ++ i :: suf -> MJ pre st ->
  exists st', marginals_instr32_with lib obs post s data st i = Ok st' /\ MJ (pre ++ [i]) st'.
Proof.
  destruct st as [[min mout] res]. destruct i as [op v a e]. intros E (J1 & J2 & J3).
  assert (IN : In (I op v a e) (s3_prog s)) by (rewrite E; apply in_app_iff; right; now left).
  pose proof (vp_nodup _ _ _ _ VPG) as NDP.
  assert (NEW : ~ In (I op v a e) pre).
  { rewrite E in NDP. apply NoDup_remove_2 in NDP. intros K. apply NDP. apply in_app_iff. now left. }
  assert (BEF : forall x, precedes (s3_prog s) x (I op v a e) -> In x pre) by (intros x K; rewrite E in K, NDP; now apply before_in in K).
  assert (IP : forall i, In i pre -> In i (s3_prog s)) by (intros i K; rewrite E; apply in_app_iff; now left).
  assert (AFT : forall x, In x pre -> ~ precedes (s3_prog s) (I op v a e) x).
  { intros x Ix K. apply NEW. apply in_split in Ix. destruct Ix as (p1 & p2 & ->).
    rewrite E in K, NDP. rewrite <- app_assoc in K, NDP. cbn [app] in K, NDP. apply before_in in K; [|exact NDP]. apply in_app_iff. now left. }
  assert (KEEP : forall o u b c, o <> op -> (In (I o u b c) (pre ++ [I op v a e]) <-> In (I o u b c) pre)).
  { intros o u b c NE. rewrite in_app_iff. split; [intros [K|[K|[]]]; [exact K|inversion K; congruence]|now left]. }
  assert (KM : op <> OP_OUT -> forall u, moved (pre ++ [I op v a e]) u <-> moved pre u).
  { intros NE u. split; intros (b & c & K); exists b, c; [apply KEEP in K; auto|apply KEEP; auto]. }
  assert (MR : forall u, (u < V)%nat -> moved pre u -> u <> r).
  { intros u Hu (b & c & K). apply IP in K. apply (vp_out _ _ _ _ VPG) in K. apply (parent_edge_iff V edges r par dep RT) in K. tauto. }
  assert (OUTS : forall u, (u < V)%nat -> moved pre u -> In (I OP_ROOT r 0 0) pre).
  { intros u Hu (b & c & K). pose proof (vp_out_root _ _ _ _ VPG _ _ _ (IP _ K)) as PR. apply in_split in K. destruct K as (p1 & p2 & EP).
    rewrite E, EP, <- app_assoc in PR, NDP. cbn [app] in PR, NDP. apply before_in in PR; [|exact NDP]. rewrite EP. apply in_app_iff. now left. }
  destruct (PB _ _ _ _ IN) as (Hv & HB). cbn [marginals_instr32_with]. rewrite (t3_V _ _ _ _ _ _ TB), (t3_M _ _ _ _ _ _ TB).
  unfold index at 1. rewrite (proj2 (Nat.ltb_lt v V) Hv). cbn [bind]. destruct op.
  - (* UP *)
    destruct (proj1 (vp_up _ _ _ _ VPG v a e) IN) as (_ & -> & ->).
    assert (NM : ~ moved pre v).
    { intros K. apply (AFT _ (OUTS v Hv K)). now apply (vp_root_after _ _ _ _ VPG). }
    destruct (J1 v Hv NM) as (_ & Fv & _). rewrite (Fv NEW).
    destruct (OBS v Hv) as (msg' & EO & GO). rewrite EO. cbn [bind]. eexists. split; [reflexivity|]. split; [|split].
    + intros u Hu N. rewrite KM in N by discriminate. destruct (Nat.eq_dec u v) as [->|NE].
      * rewrite !set1_same. split; [exact GO|]. split; [|auto]. intros K. destruct K. apply in_app_iff. right. now left.
      * rewrite !set1_other by auto. destruct (J1 u Hu N) as (K1 & K2 & K3). split; [exact K1|]. split.
        -- intros K. apply K2. intros K'. apply K. apply in_app_iff. now left.
        -- intros K. apply K3. apply in_app_iff in K. destruct K as [K|[K|[]]]; [exact K|inversion K; congruence].
    + intros u Hu N. rewrite KM in N by discriminate. destruct (Nat.eq_dec u v) as [->|NE]; [contradiction|]. rewrite !set1_other by auto. auto.
    + intros u Hu K. apply KEEP in K; [|discriminate]. auto.
  - (* IN *)
    destruct HB as (Ha & He). unfold index. rewrite (proj2 (Nat.ltb_lt a V) Ha), (proj2 (Nat.ltb_lt e (V - 1)) He). cbn [andb bind]. eexists. split; [reflexivity|].
    assert (NM : forall u, (u < V)%nat -> ~ moved pre u).
    { intros u Hu K. apply (AFT _ (OUTS u Hu K)). now apply (vp_root_after_in _ _ _ _ VPG). }
    split; [|split].
    + intros u Hu _. destruct (J1 u Hu (NM u Hu)) as (K1 & K2 & K3). destruct (Nat.eq_dec u v) as [->|NE].
      * rewrite set1_same. split.
        -- eapply rescaled_good; [|apply (step_good (a <? v)%nat e (min v) (min a) (- L) 0 (- L) 0 He)]; try lia; [exact K1|apply (J1 a Ha (NM a Ha))].
        -- split; [|rewrite KEEP by discriminate; exact K3]. intros K. destruct K. apply KEEP; [discriminate|]. apply BEF. now apply (vp_in_up _ _ _ _ VPG).
      * rewrite set1_other by auto. rewrite KEEP by discriminate. auto.
    + intros u Hu K. rewrite KM in K by discriminate. now apply NM in K.
    + intros u Hu K. apply KEEP in K; [|discriminate]. auto.
  - (* ROOT *)
    eexists. split; [reflexivity|]. split; [|split].
    + intros u Hu N. rewrite KM in N by discriminate. rewrite KEEP by discriminate. auto.
    + intros u Hu K. rewrite KM in K by discriminate. auto.
    + intros u Hu K. apply KEEP in K; [|discriminate]. auto.
  - (* OUT *)
    destruct HB as (Ha & He). unfold index. rewrite (proj2 (Nat.ltb_lt a V) Ha), (proj2 (Nat.ltb_lt e (V - 1)) He). cbn [andb bind]. eexists. split; [reflexivity|].
    pose proof (proj1 (vp_out _ _ _ _ VPG v a e) IN) as PE. apply (parent_edge_iff V edges r par dep RT) in PE. destruct PE as (_ & NR & Ea & Ee).
    pose proof (rt_par _ _ _ _ _ RT v Hv NR) as (_ & Dv & _). rewrite <- Ea in Dv.
    assert (AUP : forall u, (u < V)%nat -> In (I OP_UP u 0 0) pre).
    { intros u Hu. assert (R1 : In (I OP_ROOT r 0 0) pre) by (apply BEF; now apply (vp_out_root _ _ _ _ VPG)).
      pose proof (vp_root_after _ _ _ _ VPG u Hu) as PR. apply in_split in R1. destruct R1 as (p1 & p2 & EP).
      rewrite E, EP, <- app_assoc in PR, NDP. cbn [app] in PR, NDP. apply before_in in PR; [|exact NDP]. rewrite EP. apply in_app_iff. now left. }
    assert (MA : vgood M (lo (dep a)) (hi (dep a)) (mout a)).
    { destruct (Nat.eq_dec a r) as [ER|NAR].
      - rewrite ER, (rt_dep _ _ _ _ _ RT). destruct LH0 as (-> & ->). rewrite <- ER. apply (J1 a Ha); [|now apply AUP]. intros K. now apply (MR a Ha K).
      - apply (J2 a Ha).
        assert (OA : In (I OP_OUT a (par a) (eidx edges par a)) (s3_prog s)) by (apply (vp_out _ _ _ _ VPG); apply (parent_edge_iff V edges r par dep RT); auto).
        pose proof (BEF _ (vp_out_down _ _ _ _ VPG _ _ _ IN)) as DA. exists (par a), (eidx edges par a).
        pose proof (vp_down_out _ _ _ _ VPG _ _ _ OA) as (l1 & l2 & EF).
        assert (PR : precedes (s3_prog s) (I OP_OUT a (par a) (eidx edges par a)) (I OP_DOWN a 0 0)) by (exists l1, [], l2; exact EF).
        apply in_split in DA. destruct DA as (p1 & p2 & EP). rewrite E, EP, <- app_assoc in PR, NDP. cbn [app] in PR, NDP. apply before_in in PR; [|exact NDP].
        rewrite EP. apply in_app_iff. now left. }
    assert (NM : ~ moved pre v).
    { intros (b & c & K). pose proof (proj1 (vp_out _ _ _ _ VPG v b c) (IP _ K)) as PE. apply (parent_edge_iff V edges r par dep RT) in PE. destruct PE as (_ & _ & -> & ->).
      apply NEW. subst. exact K. }
    destruct (J1 v Hv NM) as (G1 & _ & G2). specialize (G2 (AUP v Hv)).
    assert (DD : (dep a < D)%nat) by (pose proof (DEP v Hv); lia).
    assert (US : forall u, moved (pre ++ [I OP_OUT v a e]) u <-> moved pre u \/ u = v).
    { intros u. split.
      - intros (b & c & K). apply in_app_iff in K. destruct K as [K|[K|[]]]; [left; now exists b, c|right; now inversion K].
      - intros [(b & c & K) | ->]; [exists b, c; apply in_app_iff; now left|exists a, e; apply in_app_iff; right; now left]. }
    split; [|split].
    + intros u Hu N. rewrite US in N. assert (u <> v /\ ~ moved pre u) as (N1 & N2) by tauto. rewrite !set1_other by auto. rewrite KEEP by discriminate. auto.
    + intros u Hu K. rewrite US in K. destruct (Nat.eq_dec u v) as [->|NE].
      * rewrite !set1_same. rewrite Dv. split; [apply (POST (dep a) (a <? v)%nat e (min v) (mout a)); auto|apply (POST (dep a) (a <? v)%nat e (mout v) (mout a)); auto].
      * rewrite !set1_other by auto. apply J2; auto. destruct K; [auto|contradiction].
    + intros u Hu K. apply KEEP in K; [|discriminate]. auto.
  - (* DOWN *)
    destruct (proj1 (vp_down _ _ _ _ VPG v a e) IN) as (_ & -> & ->).
    rewrite (t3_ri _ _ _ _ _ _ TB). pose proof lenws' as LW. rewrite !mri_get by lia. cbn [bind]. rewrite off_block' by auto. eexists. split; [reflexivity|].
    assert (MV : vgood M (lo (dep v)) (hi (dep v)) (min v)).
    { destruct (Nat.eq_dec v r) as [ER|NR].
      - rewrite ER, (rt_dep _ _ _ _ _ RT). destruct LH0 as (-> & ->). rewrite <- ER. apply (J1 v Hv). intros K. now apply (MR v Hv K).
      - apply (J2 v Hv).
        assert (OA : In (I OP_OUT v (par v) (eidx edges par v)) (s3_prog s)) by (apply (vp_out _ _ _ _ VPG); apply (parent_edge_iff V edges r par dep RT); auto).
        exists (par v), (eidx edges par v). apply BEF. pose proof (vp_down_out _ _ _ _ VPG _ _ _ OA) as (l1 & l2 & EF). exists l1, [], l2. exact EF. }
    destruct (RNG (dep v) (DEP v Hv)) as (R1 & R2).
    pose proof (down_good v (min v) _ _ Hv MV R1 R2) as DG. cbv zeta in DG.
    assert (BLK : forall q, ((off v <=? q) && (q <? off (v + 1)))%nat = true <-> In q (block ws v)).
    { intros q. unfold block. rewrite in_seq, andb_true_iff, Nat.leb_le, Nat.ltb_lt, Nat.add_1_r, sum_firstn_S by lia. lia. }
    split; [|split].
    + intros u Hu N. rewrite KM in N by discriminate. rewrite KEEP by discriminate. auto.
    + intros u Hu K. rewrite KM in K by discriminate. auto.
    + intros u Hu K. destruct (Nat.eq_dec u v) as [->|NE].
      * destruct DG as (DG1 & DG2). split.
        -- intros q Iq. rewrite (proj2 (BLK q) Iq). now apply DG1.
        -- intros NE. specialize (DG2 NE). erewrite sumf_ext; [exact DG2|]. intros q Iq. now rewrite (proj2 (BLK q) Iq).
      * assert (KD : In (I OP_DOWN u 0 0) pre) by (apply in_app_iff in K; destruct K as [K|[K|[]]]; [exact K|inversion K; congruence]).
        assert (DJ : forall q, In q (block ws u) -> ((off v <=? q) && (q <? off (v + 1)))%nat = false).
        { intros q Iq. destruct ((off v <=? q) && (q <? off (v + 1)))%nat eqn:EQ; [|reflexivity]. apply BLK in EQ. exfalso. apply NE.
          unfold block in Iq, EQ. apply in_seq in Iq, EQ. apply (owns_unique ws u v q); split; lia. }
        destruct (J3 u Hu KD) as (B1 & B2). split.
        -- intros q Iq. rewrite (DJ q Iq). now apply B1.
        -- intros NB. specialize (B2 NB). erewrite sumf_ext; [exact B2|]. intros q Iq. now rewrite (DJ q Iq).
Qed.

Hypothesis DL : length data = list_sum ws.

Lemma marg_ok junk : exists x, marginals_row32_with lib obs post s junk data = Ok x /\ length x = list_sum ws /\
  forall v, (v < V)%nat -> block_good ws v (fun q => nth q x fzero).
Proof.
  unfold marginals_row32_with. pose proof lenws' as LW. rewrite (t3_R _ _ _ _ _ _ TB), DL, Nat.eqb_refl. cbn [assert_ bind].
  assert (G : forall suf pre st, s3_prog s = pre ++ suf -> MJ pre st -> exists st', foldM (marginals_instr32_with lib obs post s data) suf st = Ok st' /\ MJ (s3_prog s) st').
  { induction suf as [|i suf IH]; intros pre st E J.
    - exists st. split; [reflexivity|]. now rewrite E, app_nil_r.
    - destruct (mstep_ok pre i suf st E J) as (st' & E1 & J'). cbn [foldM]. rewrite E1. cbn [bind]. apply (IH (pre ++ [i])); [now rewrite <- app_assoc|exact J']. }
  destruct (G (s3_prog s) [] (s3_vert s, junk, fun _ => fzero) eq_refl) as ([[mi mo] res] & E & (_ & _ & J3)).
  { split; [|split]; [|intros v Hv (b & c & [])|intros v Hv []]. intros v Hv _. split; [now apply mg_vert'|]. split; [auto|intros []]. }
  rewrite E. cbn [bind]. eexists. split; [reflexivity|]. split; [now rewrite map_length, seq_length|].
  assert (NTH : forall q, (q < list_sum ws)%nat -> nth q (map res (seq 0 (list_sum ws))) fzero = res q).
  { intros q Hq. rewrite nth_indep with (d' := res 0%nat) by (rewrite map_length, seq_length; lia). rewrite map_nth, seq_nth by lia. reflexivity. }
  intros v Hv. destruct (J3 v Hv) as (B1 & B2); [apply (vp_down _ _ _ _ VPG); auto|].
  assert (LT : forall q, In q (block ws v) -> (q < list_sum ws)%nat) by (intros q Iq; now apply (block_lt ws V M N0 m C v q)).
  split.
  - intros q Iq. rewrite NTH by auto. auto.
  - intros NB. specialize (B2 NB). erewrite sumf_ext; [exact B2|]. intros q Iq. now rewrite NTH by auto.
Qed.
End LOOP.
End RUN.
