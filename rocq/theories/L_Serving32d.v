(** The float32 log probability of a row is finite. *)
From Coq Require Import List Arith Bool ZArith Reals Lra Lia.
From Flocq Require Import Core IEEE754.BinarySingleNaN.
From Verif Require Import Base L_Base Spec_Graph L_Graph Spec_Sum L_Sum M_Structure L_Pairing L_MakeTree L_Program L_ProgramValid Spec_Program L_Center L_Prop1 M_Util Spec_Ragged L_Ragged M_Array M_Training Spec_Stats L_Stats L_Trainer Spec_Conditional L_Asg L_BP L_BPVec L_AddRow
  M_Float32 M_Train32 Spec_Float32 L_Float32 L_Sample32 L_Train32 L_Train32c L_Train32d M_Serving Spec_Serving L_Server M_Serving32 Spec_Serving32 L_Serving32a L_Serving32b L_Serving32c.
Import ListNotations.
Open Scope R_scope.

(** ** Adding logarithms never overflows *)
Lemma big_stays : rnd 24 128 (bp 40 + bp 7) = bp 40.
Proof.
  pose proof (Bplus_correct 24 128 p24 e128 mode_NE (f32_of 1 40) (f32_of 1 7) eq_refl eq_refl) as C. cbn [round_mode] in C.
  assert (E1 : val (f32_of 1 40) = bp 40) by (vm_compute; lra). assert (E2 : val (f32_of 1 7) = bp 7) by (vm_compute; lra).
  rewrite E1, E2 in C. fold (rnd 24 128 (bp 40 + bp 7)) in C.
  rewrite (small 24 128 p24 (bp 40) (bp 41) (bp 40 + bp 7)) in C; try (apply fmtb; lia).
  - destruct C as (C & _). rewrite <- C.
    vm_compute. lra.
  - cbn. lra.
  - pose proof (bp_pos 128). pose proof (bp_pos 40). lra.
  - apply bpow_lt. lia.
Qed.

Lemma mono32 x y : x <= y -> rnd 24 128 x <= rnd 24 128 y.
Proof. unfold rnd. apply round_le; [apply (fexp_correct 24 128 p24)|apply valid_rnd_N]. Qed.

Lemma fadd_log (x y : f32) : fin32 x = true -> fin32 y = true -> Rabs (val x) <= bp 40 -> Rabs (val y) <= 128 ->
  fin32 (fadd x y) = true /\ Rabs (val (fadd x y)) <= bp 40.
Proof.
  intros Fx Fy Bx By. change 128 with (bp 7) in By. apply Rabs_le_inv in Bx. apply Rabs_le_inv in By.
  pose proof (Bplus_correct 24 128 p24 e128 mode_NE x y Fx Fy) as C. cbn [round_mode] in C. fold (rnd 24 128 (val x + val y)) in C.
  assert (B : - bp 40 <= rnd 24 128 (val x + val y) <= bp 40).
  { split.
    - assert (E : rnd 24 128 (- (bp 40 + bp 7)) = - bp 40) by (rewrite <- big_stays at 2; unfold rnd; apply round_NE_opp).
      rewrite <- E. apply mono32; lra.
    - rewrite <- big_stays. apply mono32; lra. }
  assert (A : Rabs (rnd 24 128 (val x + val y)) <= bp 40) by (now apply Rabs_le).
  rewrite Rlt_bool_true in C by (eapply Rle_lt_trans; [exact A|apply bpow_lt; lia]).
  destruct C as (C1 & C2 & _). unfold fadd. rewrite C1. auto.
Qed.

Definition zsum (l : list Z) : Z := fold_right Z.add 0%Z l.

Lemma block_sum_zsum ws row v : block_sum ws row v = zsum (map (fun q => nth q row 0%Z) (block ws v)).
Proof.
  unfold block_sum, zsum, block. f_equal. set (b := list_sum (firstn v ws)). generalize (nth v ws 0%nat) as n. clearbody b. intros n.
  assert (E : seq b n = map (Nat.add b) (seq 0 n)).
  { clear. revert b. induction n; intros b; [reflexivity|]. cbn [seq map]. rewrite Nat.add_0_r. f_equal. rewrite (IHn (Datatypes.S b)), <- seq_shift, map_map. apply map_ext. intros; lia. }
  rewrite E, map_map. reflexivity.
Qed.

Lemma nonneg_at row : Forall (fun x => (0 <= x)%Z) row -> forall q, (0 <= nth q row 0)%Z.
Proof. intros RN q. destruct (Nat.lt_ge_cases q (length row)); [|rewrite nth_overflow by auto; lia]. rewrite Forall_forall in RN. apply RN. now apply nth_In. Qed.

Section RUN.
Variables (lib : numlib) (ws : list nat) (V M N : nat) (m : smodel) (A b c : Z) (s : server32) (row : list Z).
Hypothesis LIB : lib_ok lib.
Hypothesis C : consistent ws V M N m.
Hypothesis HA : (6 <= A <= 16)%Z.
Hypothesis Hb : (0 <= b <= 140)%Z.
Hypothesis Hc : (0 <= c)%Z.
Notation L := (A + 3 + (b + 4) * c)%Z.
Hypothesis HL : (2 * L + A + 11 <= 149)%Z.
Hypothesis TB : tables32 ws V M A m s.
Hypothesis RL : length row = list_sum ws.
Hypothesis RN : Forall (fun x => (0 <= x)%Z) row.
Hypothesis RC : forall v, (v < V)%nat -> (block_sum ws row v <= c)%Z.
Hypothesis RF : forall v q k, (v < V)%nat -> In q (block ws v) -> (k < M)%nat -> nth q row 0%Z <> 0%Z -> bp (- b) <= feat_prob ws m v q k.

Let HM : (1 <= M <= 128)%nat.
Proof. apply (cm_M _ _ _ _ _ C). Qed.

Lemma power_low v q k : (v < V)%nat -> In q (block ws v) -> (k < M)%nat -> (nth q row 0 <= c)%Z ->
  fin32 (l_pow lib (s3_feat s q k) (nth q row 0%Z)) = true /\ 0 <= val (l_pow lib (s3_feat s q k) (nth q row 0%Z)) <= 1 /\
  bp (- ((b + 4) * nth q row 0%Z)) <= val (l_pow lib (s3_feat s q k) (nth q row 0%Z)).
Proof.
  intros Hv Iq Hk Hn. destruct (t3_feat _ _ _ _ _ _ TB v q k Hv Iq Hk) as (F & P & LO). pose proof (nonneg_at row RN q) as P0.
  destruct LIB as (_ & _ & PW & _). destruct (PW (s3_feat s q k) (nth q row 0%Z) F P P0) as (Q1 & Q2 & Q3 & _ & Q5).
  split; [exact Q1|]. split; [exact Q2|].
  destruct (Z.eq_dec (nth q row 0%Z) 0) as [E|E].
  - rewrite Q3 by auto. rewrite E, Z.mul_0_r. change (bp (- 0)) with 1. lra.
  - specialize (LO b Hb (RF v q k Hv Iq Hk E)). set (n := nth q row 0%Z) in *. set (x := val (s3_feat s q k)) in *.
    assert (G : bp (- ((b + 3) * n)) <= x ^ Z.to_nat n).
    { replace (- ((b + 3) * n))%Z with ((- (b + 3)) * Z.of_nat (Z.to_nat n))%Z by (rewrite Z2Nat.id by lia; lia).
      generalize (Z.to_nat n). intros k'. induction k'; [rewrite Z.mul_0_r; cbn; lra|].
      replace (- (b + 3) * Z.of_nat (Datatypes.S k'))%Z with (- (b + 3) + - (b + 3) * Z.of_nat k')%Z by lia. rewrite bpow_plus. cbn [pow].
      apply Rmult_le_compat; auto; apply bpow_ge_0. }
    assert (BN : ((b + 3) * n <= 126)%Z) by nia.
    assert (G2 : bp (-126) <= x ^ Z.to_nat n) by (eapply Rle_trans; [|exact G]; apply bpow_le; lia).
    specialize (Q5 G2). eapply Rle_trans; [|exact Q5].
    apply Rle_trans with (bp (- ((b + 3) * n) + -1)); [apply bpow_le; nia|]. rewrite bpow_plus. change (bp (-1)) with (/ 2). lra.
Qed.

Lemma observe_fold v : (v < V)%nat -> forall l msg p, incl l (block ws v) -> (zsum (map (fun q => nth q row 0%Z) l) <= c)%Z ->
  (0 <= p)%Z -> (p + (b + 4) * zsum (map (fun q => nth q row 0%Z) l) <= 149)%Z ->
  (forall k, (k < M)%nat -> fin32 (msg k) = true /\ 0 <= val (msg k) <= 1) ->
  exists msg', foldM (fun message r => power <- get IndexError row r ;;
           Ok (fun m => fmul (message m) (l_pow lib (s3_feat s r m) power))) l msg = Ok msg' /\
    (forall k, (k < M)%nat -> fin32 (msg' k) = true /\ 0 <= val (msg' k) <= 1 /\
      (bp (- p) <= val (msg k) -> bp (- (p + (b + 4) * zsum (map (fun q => nth q row 0%Z) l))) <= val (msg' k))).
Proof.
  intros Hv. induction l as [|q l IH]; intros msg p IL HS Hp HB G.
  - exists msg. split; [reflexivity|]. intros k Hk. destruct (G k Hk). split; [auto|]. split; [auto|]. cbn [map zsum fold_right]. rewrite Z.mul_0_r, Z.add_0_r. auto.
  - cbn [foldM map zsum fold_right] in *. fold (zsum (map (fun q => nth q row 0%Z) l)) in *.
    assert (Iq : In q (block ws v)) by (apply IL; now left). pose proof (nonneg_at row RN q) as P0.
    assert (Z0 : (0 <= zsum (map (fun q => nth q row 0%Z) l))%Z).
    { clear - RN. induction l as [|k l IH]; [cbn; lia|]. cbn [map zsum fold_right]. fold (zsum (map (fun q => nth q row 0%Z) l)). pose proof (nonneg_at row RN k). lia. }
    assert (Q : (q < length row)%nat) by (rewrite RL; now apply (block_lt ws V M N m C v)).
    unfold get at 1. rewrite (nth_error_nth' row 0%Z Q). cbn [bind]. set (n := nth q row 0%Z) in *.
    destruct (IH (fun k => fmul (msg k) (l_pow lib (s3_feat s q k) n)) (p + (b + 4) * n)%Z) as (msg' & E & R).
    + intros k I. apply IL. now right.
    + lia.
    + nia.
    + nia.
    + intros k Hk. destruct (G k Hk) as (G1 & G2). destruct (power_low v q k Hv Iq Hk ltac:(lia)) as (W1 & W2 & _). fold n in W1, W2.
      destruct (mul_pow M HM (msg k) (l_pow lib (s3_feat s q k) n) 0 0 0 0 G1 W1 G2 W2 ltac:(lia)) as (X1 & X2 & _). split; [exact X1|exact X2].
    + exists msg'. split; [exact E|]. intros k Hk. destruct (R k Hk) as (R1 & R2 & R3). split; [exact R1|]. split; [exact R2|]. intros LO.
      destruct (G k Hk) as (G1 & G2). destruct (power_low v q k Hv Iq Hk ltac:(lia)) as (W1 & W2 & W3). fold n in W1, W2, W3.
      destruct (mul_pow M HM (msg k) (l_pow lib (s3_feat s q k) n) 0 0 (- p) (- ((b + 4) * n)) G1 W1 G2 W2 ltac:(lia)) as (_ & _ & X3).
      replace (p + (b + 4) * (n + zsum (map (fun q => nth q row 0%Z) l)))%Z with (p + (b + 4) * n + (b + 4) * zsum (map (fun q => nth q row 0%Z) l))%Z by lia.
      apply R3. replace (- (p + (b + 4) * n))%Z with (- p + - ((b + 4) * n))%Z by lia. apply X3; auto. nia.
Qed.

Definition mgood (f : nat -> f32) : Prop :=
  (forall k, (k < M)%nat -> fin32 (f k) = true /\ 0 <= val (f k) <= 1) /\ exists k, (k < M)%nat /\ bp (- L) <= val (f k).

Lemma HL' : (9 <= L /\ L <= 69)%Z.
Proof. split; [nia|lia]. Qed.

Lemma vert_good v : (v < V)%nat -> mgood (s3_vert s v).
Proof.
  intros Hv. split.
  - intros k Hk. destruct (t3_vert _ _ _ _ _ _ TB v k Hv Hk) as (F & B). split; [exact F|]. pose proof (bp_pos (- (A + 3))). lra.
  - exists 0%nat. split; [lia|]. destruct (t3_vert _ _ _ _ _ _ TB v 0%nat Hv ltac:(lia)) as (F & B). eapply Rle_trans; [|apply B]. apply bpow_le. nia.
Qed.

Lemma observe_good v : (v < V)%nat -> exists msg', observe32 lib s row v (s3_vert s v) = Ok msg' /\ mgood msg'.
Proof.
  intros Hv. unfold observe32. rewrite (t3_ri _ _ _ _ _ _ TB). pose proof (cm_width _ _ _ _ _ C) as W. rewrite !mri_get by lia. cbn [bind].
  assert (E : (list_sum (firstn (v + 1) ws) - list_sum (firstn v ws) = nth v ws 0)%nat).
  { rewrite Nat.add_1_r, sum_firstn_S by lia. lia. }
  rewrite E. fold (block ws v). pose proof (RC v Hv) as Rv. rewrite block_sum_zsum in Rv. pose proof HL' as HL'.
  destruct (vert_good v Hv) as (G1 & _).
  destruct (observe_fold v Hv (block ws v) (s3_vert s v) (A + 3)) as (msg' & E' & R); auto; [apply incl_refl|lia|nia|].
  exists msg'. split; [exact E'|]. split.
  - intros k Hk. destruct (R k Hk) as (R1 & R2 & _). auto.
  - exists 0%nat. split; [lia|]. destruct (R 0%nat ltac:(lia)) as (_ & _ & R3). destruct (t3_vert _ _ _ _ _ _ TB v 0%nat Hv ltac:(lia)) as (F & B).
    eapply Rle_trans; [|apply R3; apply B]. apply bpow_le. nia.
Qed.

(** Sums of classes. *)
Lemma sum_classes (f : nat -> f32) u : (u <= 100)%Z -> (forall k, (k < M)%nat -> fin32 (f k) = true /\ 0 <= val (f k) <= bp u) ->
  (exists k, (k < M)%nat /\ 0 < val (f k)) ->
  fin32 (l_sum lib (vec M f)) = true /\ 0 < val (l_sum lib (vec M f)) /\
  mgood (fun k => fdiv (f k) (l_sum lib (vec M f))).
Proof.
  intros Hu G (k0 & Hk0 & P0).
  assert (FA : Forall (fun x => fin32 x = true /\ 0 <= val x) (vec M f)).
  { apply Forall_forall. intros x I. apply vec_In in I; [|exact HM]. destruct I as (k & Hk & ->). destruct (G k Hk). split; [auto|tauto]. }
  assert (S1 : forall mx, (forall k, (k < M)%nat -> val (f k) <= mx) -> 0 <= mx -> rsum (map (@B2R 24 128) (vec M f)) <= 128 * mx).
  { intros mx H H0. rewrite rsum_map_vec. apply Rle_trans with (sumf (seq 0 M) (fun _ => mx)).
    - apply sumf_le. intros k I. apply in_seq in I. apply H. lia.
    - rewrite sumf_const, seq_length. apply Rmult_le_compat_r; [exact H0|]. rewrite INR_IZR_INZ. apply IZR_le. lia. }
  assert (S2 : rsum (map (@B2R 24 128) (vec M f)) <= bp 120).
  { eapply Rle_trans; [apply (S1 (bp u)); [intros k Hk; apply (G k Hk)|apply bpow_ge_0]|]. change 128 with (bp 7). rewrite <- bpow_plus. apply bpow_le. lia. }
  assert (LN : (Z.of_nat (length (vec M f)) <= 2 ^ 16)%Z) by (rewrite len_vec; lia).
  assert (SO := proj1 (proj2 LIB)).
  assert (EX : exists y, In y (vec M f) /\ 0 < val y) by (exists (f k0); split; [now apply In_vec|exact P0]).
  assert (NS : forall k, (k < M)%nat -> _) by (intros k Hk; exact (norm_spec (l_sum lib) (vec M f) (f k) SO LN FA S2 (In_vec M HM f k Hk) EX)).
  destruct (NS k0 Hk0) as (_ & _ & _ & D1 & D2). split; [exact D1|]. split; [exact D2|]. split.
  - intros k Hk. destruct (NS k Hk) as (E1 & E2 & _). auto.
  - assert (MX : exists k, (k < M)%nat /\ forall j, (j < M)%nat -> val (f j) <= val (f k)).
    { clear - HM. assert (X : forall n, (1 <= n)%nat -> exists k, (k < n)%nat /\ forall j, (j < n)%nat -> val (f j) <= val (f k)).
      { induction n as [|n IH]; intros Hn; [lia|]. destruct n.
        - exists 0%nat. split; [lia|]. intros j Hj. replace j with 0%nat by lia. lra.
        - destruct IH as (k & Hk & B); [lia|]. destruct (Rle_dec (val (f (Datatypes.S n))) (val (f k))) as [D|D].
          + exists k. split; [lia|]. intros j Hj. destruct (Nat.eq_dec j (Datatypes.S n)) as [->|]; [exact D|]. apply B. lia.
          + exists (Datatypes.S n). split; [lia|]. intros j Hj. destruct (Nat.eq_dec j (Datatypes.S n)) as [->|]; [lra|]. specialize (B j ltac:(lia)). lra. }
      apply X. lia. }
    destruct MX as (k & Hk & B). exists k. split; [exact Hk|]. destruct (NS k Hk) as (_ & _ & E3 & _).
    pose proof HL' as HL'. apply Rle_trans with (bp (-8)); [apply bpow_le; lia|]. apply E3; [lia|].
    assert (0 <= val (f k)) by (apply G; auto). pose proof (S1 (val (f k)) B H). change (bp (-8)) with (/ 256). lra.
Qed.

Lemma in_step v a e f g : (v < V)%nat -> (a < V)%nat -> (e < V - 1)%nat -> mgood f -> mgood g ->
  let trans := if (a <? v)%nat then transpose (s3_trans s e) else s3_trans s e in
  let message := fun k => fmul (f k) (l_dot lib (vec M (trans k)) (vec M g)) in
  fin32 (l_sum lib (vec M message)) = true /\ 0 < val (l_sum lib (vec M message)) /\
  mgood (fun k => fdiv (message k) (l_sum lib (vec M message))).
Proof.
  intros Hv Ha He (F1 & k0 & Hk0 & F2) (G1 & j0 & Hj0 & G2) trans message. pose proof HL' as HL'.
  assert (TR : forall k j, (k < M)%nat -> (j < M)%nat -> fin32 (trans k j) = true /\ bp (- (A + 11)) <= val (trans k j) <= bp (2 * A + 6)).
  { intros k j Hk Hj. unfold trans. destruct (a <? v)%nat; [unfold transpose|]; apply (t3_trans _ _ _ _ _ _ TB); auto. }
  assert (D : forall k, (k < M)%nat -> fin32 (l_dot lib (vec M (trans k)) (vec M g)) = true /\
    0 <= val (l_dot lib (vec M (trans k)) (vec M g)) <= bp (2 * A + 6 + 0 + 7) /\ bp (- (A + 11) + - L) <= val (l_dot lib (vec M (trans k)) (vec M g))).
  { intros k Hk. destruct (proj1 LIB (vec M (trans k)) (vec M g) (2 * A + 6)%Z 0%Z 7%Z) as (D1 & D2 & D3); try lia.
    - now rewrite !len_vec.
    - rewrite len_vec. change (2 ^ 7)%Z with 128%Z. lia.
    - apply Forall_forall. intros x I. apply vec_In in I; [|exact HM]. destruct I as (j & Hj & ->). destruct (TR k j Hk Hj) as (T1 & T2). split; [exact T1|].
      pose proof (bp_pos (- (A + 11))). lra.
    - apply Forall_forall. intros x I. apply vec_In in I; [|exact HM]. destruct I as (j & Hj & ->). exact (G1 j Hj).
    - split; [exact D1|]. split; [exact D2|]. apply (D3 j0); [now rewrite len_vec|lia| |].
      + rewrite nth_vec_lt by auto. apply (TR k j0 Hk Hj0).
      + rewrite nth_vec_lt by auto. exact G2. }
  apply (sum_classes message (0 + (2 * A + 6 + 0 + 7))); [lia| |].
  - intros k Hk. destruct (F1 k Hk) as (f1 & f2). destruct (D k Hk) as (d1 & d2 & _).
    destruct (mul_pow M HM (f k) (l_dot lib (vec M (trans k)) (vec M g)) 0 (2 * A + 6 + 0 + 7) 0 0 f1 d1 f2 d2 ltac:(lia)) as (x1 & x2 & _). auto.
  - exists k0. split; [exact Hk0|]. destruct (F1 k0 Hk0) as (f1 & f2). destruct (D k0 Hk0) as (d1 & d2 & d3).
    destruct (mul_pow M HM (f k0) (l_dot lib (vec M (trans k0)) (vec M g)) 0 (2 * A + 6 + 0 + 7) (- L) (- (A + 11) + - L) f1 d1 f2 d2 ltac:(lia)) as (_ & _ & x3).
    eapply Rlt_le_trans; [|apply x3; [lia|exact F2|exact d3]]. apply bp_pos.
Qed.

Section LOOP.
Variables (es : list (nat * nat)) (root : nat).
Hypothesis VPG : valid_program V es root (s3_prog s).
Hypothesis PB : forall op v a e, In (I op v a e) (s3_prog s) -> (v < V)%nat /\ match op with OP_IN | OP_OUT => (a < V)%nat /\ (e < V - 1)%nat | _ => True end.

Definition J (pre : list instr) (messages : nat -> nat -> f32) (lp : f32) : Prop :=
  (forall v, (v < V)%nat -> mgood (messages v) /\ (~ In (I OP_UP v 0 0) pre -> messages v = s3_vert s v)) /\
  fin32 lp = true /\ Rabs (val lp) <= bp 40.

Lemma loop_finite suf : forall pre messages lp, s3_prog s = pre ++ suf -> In (I OP_ROOT root 0 0) suf -> J pre messages lp ->
  exists x, logprob_loop32 lib s row suf messages lp = Ok x /\ fin32 x = true.
Proof.
  destruct LIB as (_ & _ & _ & LG & _).
  induction suf as [|[op v a e] suf IH]; intros pre messages lp E IR (J1 & J2 & J3); [destruct IR|].
  assert (IN : In (I op v a e) (s3_prog s)) by (rewrite E; apply in_app_iff; right; now left).
  assert (E' : s3_prog s = (pre ++ [I op v a e]) ++ suf) by (rewrite E, <- app_assoc; reflexivity).
  assert (IR' : op <> OP_ROOT -> In (I OP_ROOT root 0 0) suf) by (intros NE; destruct IR as [K|K]; [inversion K; congruence|exact K]).
  assert (KEEP : forall u, ~ In (I OP_UP u 0 0) (pre ++ [I op v a e]) -> ~ In (I OP_UP u 0 0) pre) by (intros u K K'; apply K; apply in_app_iff; now left).
  destruct (PB _ _ _ _ IN) as (Hv & HB). pose proof (vp_nodup _ _ _ _ VPG) as NDP.
  cbn [logprob_loop32]. rewrite (t3_V _ _ _ _ _ _ TB), (t3_M _ _ _ _ _ _ TB). unfold index at 1. rewrite (proj2 (Nat.ltb_lt v V) Hv). cbn [bind].
  destruct (J1 v Hv) as (Gv & Fv). destruct op.
  - (* UP *)
    destruct (proj1 (vp_up _ _ _ _ VPG v a e) IN) as (_ & -> & ->).
    assert (NP : ~ In (I OP_UP v 0 0) pre).
    { rewrite E in NDP. apply NoDup_remove_2 in NDP. intros K. apply NDP. apply in_app_iff. now left. }
    rewrite (Fv NP). destruct (observe_good v Hv) as (msg' & EO & GO). rewrite EO. cbn [bind].
    apply (IH (pre ++ [I OP_UP v 0 0])); [exact E'|apply IR'; discriminate|]. split; [|auto]. intros u Hu.
    destruct (Nat.eq_dec u v) as [->|NE].
    + rewrite set1_same. split; [exact GO|]. intros K. destruct K. apply in_app_iff. right. now left.
    + rewrite set1_other by auto. destruct (J1 u Hu) as (K1 & K2). split; [exact K1|]. intros K. apply K2. now apply KEEP.
  - (* IN *)
    destruct HB as (Ha & He). rewrite (proj2 (Nat.ltb_lt a V) Ha), (proj2 (Nat.ltb_lt e (V - 1)) He). cbn [andb index bind].
    destruct (in_step v a e (messages v) (messages a) Hv Ha He Gv (proj1 (J1 a Ha))) as (S1 & S2 & S3). cbv zeta in S1, S2, S3.
    destruct (LG _ S1 S2) as (Q1 & Q2). destruct (fadd_log lp _ J2 Q1 J3 Q2) as (Q3 & Q4).
    apply (IH (pre ++ [I OP_IN v a e])); [exact E'|apply IR'; discriminate|]. split; [|split; [exact Q3|exact Q4]]. intros u Hu.
    destruct (Nat.eq_dec u v) as [->|NE].
    + rewrite set1_same. split; [exact S3|]. intros K. apply KEEP in K. destruct K.
      destruct (vp_in_up _ _ _ _ VPG _ _ _ IN) as (_ & U2). rewrite E in NDP, U2. now apply before_in in U2.
    + rewrite set1_other by auto. destruct (J1 u Hu) as (K1 & K2). split; [exact K1|]. intros K. apply K2. now apply KEEP.
  - (* ROOT *)
    destruct Gv as (G1 & k & Hk & G2). destruct (sum_classes (messages v) 0) as (S1 & S2 & _); [lia|exact G1|exists k; split; [exact Hk|pose proof (bp_pos (- L)); lra]|].
    destruct (LG _ S1 S2) as (Q1 & Q2). destruct (fadd_log lp _ J2 Q1 J3 Q2) as (Q3 & Q4). eexists. split; [reflexivity|exact Q3].
  - (* OUT *)
    apply (IH (pre ++ [I OP_OUT v a e])); [exact E'|apply IR'; discriminate|]. split; [|auto]. intros u Hu. destruct (J1 u Hu) as (K1 & K2). split; auto.
  - (* DOWN *)
    apply (IH (pre ++ [I OP_DOWN v a e])); [exact E'|apply IR'; discriminate|]. split; [|auto]. intros u Hu. destruct (J1 u Hu) as (K1 & K2). split; auto.
Qed.
End LOOP.

Lemma row_finite : exists x, logprob_row32 lib s row = Ok x /\ fin32 x = true.
Proof.
  unfold logprob_row32. rewrite (t3_R _ _ _ _ _ _ TB), RL, Nat.eqb_refl. cbn [assert_ bind].
  destruct (cm_tree _ _ _ _ _ C) as (es & T & ET). pose proof (t3_prog _ _ _ _ _ _ TB) as EP. rewrite ET in EP. cbn [ts_grid] in EP.
  pose proof (prog_bounds V es _ T EP) as PB.
  destruct (find_center_Ok V es T) as (ctr & EC & CC). destruct (make_program_valid V es ctr T (proj1 CC)) as (prog & E1 & VP).
  assert (EQ : s3_prog s = prog).
  { unfold make_propagation_program in EP, E1. rewrite EC in EP. cbn [bind] in EP, E1. rewrite EP in E1. now inversion E1. }
  rewrite EQ in *. apply (loop_finite (grid_edges (make_tree es)) ctr) with (pre := []); rewrite ?EQ; auto.
  - apply (vp_root _ _ _ _ VP). auto.
  - split; [intros v Hv; split; [now apply vert_good|auto]|]. split; [reflexivity|]. cbn. rewrite Rabs_R0. lra.
Qed.
End RUN.
