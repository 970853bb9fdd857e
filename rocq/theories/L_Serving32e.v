(** A float32 log probability that underflows. *)
From Coq Require Import List Arith Bool ZArith Reals Lra Lia.
From Flocq Require Import Core IEEE754.BinarySingleNaN.
From Verif Require Import Base L_Base Spec_Graph L_Graph Spec_Sum L_Sum M_Structure L_Pairing L_MakeTree L_Program L_ProgramValid Spec_Program L_Center L_Prop1 M_Util Spec_Ragged L_Ragged M_Array M_Training Spec_Stats L_Stats L_Trainer Spec_Conditional L_Asg L_BP L_BPVec L_AddRow
  M_Float32 M_Train32 Spec_Float32 L_Float32 L_Sample32 L_Train32 L_Train32c L_Train32d M_Serving Spec_Serving L_Server M_Serving32 Spec_Serving32 L_Serving32a L_Serving32b L_Serving32c L_Serving32d.
Import ListNotations.
Open Scope R_scope.

(** ** Zeros and non-finite numbers *)
Lemma zero_form (x : f32) : fin32 x = true -> val x = 0 -> exists sg, x = B754_zero sg.
Proof.
  destruct x as [sg|sg| |sg p e H]; cbn; try discriminate; [eauto|]. intros _ E. exfalso.
  apply eq_0_F2R in E. cbn in E. destruct sg; discriminate.
Qed.

Lemma tiny_zero z : 0 <= z <= bp (-190) -> rnd 24 128 z = 0.
Proof.
  intros B. assert (U : rnd 24 128 (bp (-190)) = 0).
  { pose proof (Bmult_correct 24 128 p24 e128 mode_NE (f32_of 1 (-95)) (f32_of 1 (-95))) as C. cbn [round_mode] in C.
    assert (E1 : val (f32_of 1 (-95)) = bp (-95)) by (vm_compute; lra). rewrite E1, <- bpow_plus in C. change (-95 + -95)%Z with (-190)%Z in C.
    fold (rnd 24 128 (bp (-190))) in C.
    rewrite (small 24 128 p24 0 (bp (-149)) (bp (-190))) in C; [|apply (fmt_0 24 128)|apply fmtb; lia| | |apply bpow_lt; lia].
    - destruct C as (C & _). rewrite <- C. vm_compute. reflexivity.
    - split; [apply bpow_ge_0|apply bpow_le; lia].
    - pose proof (bp_pos 128). lra. }
  assert (Z : rnd 24 128 0 = 0) by (unfold rnd; apply round_0, valid_rnd_N).
  pose proof (mono32 0 z ltac:(lra)). pose proof (mono32 z (bp (-190)) ltac:(lra)). lra.
Qed.

Lemma fmul_tiny (x y : f32) : fin32 x = true -> fin32 y = true -> 0 <= val x * val y <= bp (-190) -> fin32 (fmul x y) = true /\ val (fmul x y) = 0.
Proof.
  intros Fx Fy B. pose proof (Bmult_correct 24 128 p24 e128 mode_NE x y) as C. cbn [round_mode] in C. fold (rnd 24 128 (val x * val y)) in C.
  rewrite (tiny_zero _ B) in C. rewrite Rabs_R0, Rlt_bool_true in C by apply bpow_gt_0. destruct C as (C1 & C2 & _).
  unfold fmul. rewrite C1, C2, Fx, Fy. auto.
Qed.

Lemma fadd_dead (x y : f32) : fin32 x = false -> fin32 (fadd x y) = false.
Proof. destruct x as [sg|sg| |sg p e H]; try discriminate; intros _; destruct y as [sg'|sg'| |sg' p' e' H']; cbn; auto; destruct sg, sg'; reflexivity. Qed.
Lemma fadd_inf (x : f32) sg : fin32 (fadd x (B754_infinity sg)) = false.
Proof. destruct x as [sg'|sg'| |sg' p e H]; cbn; auto; destruct sg, sg'; reflexivity. Qed.

(** ** Rows of features with two columns *)
Definition twos (V : nat) : list nat := repeat 2%nat V.
Definition middle (V : nat) : list Z := concat (repeat [64; 63]%Z V).

Lemma twos_length V : length (twos V) = V.
Proof. apply repeat_length. Qed.
Lemma twos_sum V : list_sum (twos V) = (2 * V)%nat.
Proof. unfold twos. induction V; [reflexivity|]. change (2 + list_sum (repeat 2%nat V) = 2 * Datatypes.S V)%nat. rewrite IHV. lia. Qed.
Lemma twos_first v : forall V, (v <= V)%nat -> list_sum (firstn v (twos V)) = (2 * v)%nat.
Proof.
  induction v; intros V H; [reflexivity|]. destruct V; [lia|]. change (2 + list_sum (firstn v (twos V)) = 2 * Datatypes.S v)%nat. rewrite IHv by lia. lia.
Qed.
Lemma twos_nth v V : (v < V)%nat -> nth v (twos V) 0%nat = 2%nat.
Proof. unfold twos. revert v. induction V; intros [|v] H; try lia; [reflexivity|]. cbn [repeat nth]. apply IHV. lia. Qed.
Lemma twos_block v V : (v < V)%nat -> block (twos V) v = [2 * v; 2 * v + 1]%nat.
Proof. intros H. unfold block. rewrite twos_nth, twos_first by lia. cbn [seq]. f_equal. f_equal. lia. Qed.
Lemma middle_length V : length (middle V) = (2 * V)%nat.
Proof. unfold middle. induction V; [reflexivity|]. cbn [repeat concat app length]. rewrite IHV. lia. Qed.
Lemma middle_nth v : forall V, (v < V)%nat -> nth_error (middle V) (2 * v) = Some 64%Z /\ nth_error (middle V) (2 * v + 1) = Some 63%Z.
Proof.
  induction v; intros V H; (destruct V; [lia|]); unfold middle; cbn [repeat concat app]; fold (middle V).
  - split; reflexivity.
  - replace (2 * Datatypes.S v)%nat with (Datatypes.S (Datatypes.S (2 * v))) by lia. cbn [nth_error]. apply IHv. lia.
Qed.

(** x^64 y^63 when x + y is not much above one. *)
Lemma powers_small x y : 0 <= x <= 1 -> 0 <= y -> x + y <= 65 / 64 -> x ^ 64 * y ^ 63 <= bp (-123).
Proof.
  intros Hx Hy H.
  assert (P : 0 <= x * y <= 4225 / 16384).
  { split; [apply Rmult_le_pos; lra|]. pose proof (Rle_0_sqr (x - y)) as Q. unfold Rsqr in Q.
    assert (Q2 : (x + y) * (x + y) <= 65 / 64 * (65 / 64)) by (apply Rmult_le_compat; lra). lra. }
  assert (E : x ^ 64 * y ^ 63 = x * (x * y) ^ 63) by (rewrite Rpow_mult_distr; change 64%nat with (1 + 63)%nat at 1; rewrite pow_add; ring).
  rewrite E. apply Rle_trans with (1 * (4225 / 16384) ^ 63).
  - apply Rmult_le_compat; try tauto; [apply pow_le; tauto|apply pow_incr; exact P].
  - rewrite Rmult_1_l. assert (Q : (4225 / 16384) ^ 63 <= bp (-123)).
    { replace (4225 / 16384) with (4225 * / 16384) by lra. rewrite Rpow_mult_distr. change (bp (-123)) with (/ IZR (2 ^ 123)).
      rewrite pow_inv by lra. change 4225 with (IZR 4225). change 16384 with (IZR 16384). rewrite !pow_IZR.
      apply Rmult_le_reg_r with (IZR (16384 ^ Z.of_nat 63)); [apply IZR_lt; reflexivity|].
      rewrite Rmult_assoc, Rinv_l by (apply Rgt_not_eq, IZR_lt; reflexivity). rewrite Rmult_1_r.
      apply Rmult_le_reg_l with (IZR (2 ^ 123)); [apply IZR_lt; reflexivity|]. rewrite <- Rmult_assoc, Rinv_r by (apply Rgt_not_eq, IZR_lt; reflexivity).
      rewrite Rmult_1_l, <- mult_IZR. apply IZR_le. apply Z.leb_le. vm_compute. reflexivity. }
    exact Q.
Qed.

Section DEAD.
Variables (lib : numlib) (V M N : nat) (m : smodel) (s : server32).
Hypothesis LIB : lib_ok lib.
Hypothesis C : consistent (twos V) V M N m.
Hypothesis TB : tables32 (twos V) V M 16 m s.
Notation row := (middle V).

Let HM : (1 <= M <= 128)%nat.
Proof. apply (cm_M _ _ _ _ _ C). Qed.

Lemma observe_middle v f : (v < V)%nat ->
  observe32 lib s row v f = Ok (fun k => fmul (fmul (f k) (l_pow lib (s3_feat s (2 * v) k) 64)) (l_pow lib (s3_feat s (2 * v + 1) k) 63)).
Proof.
  intros Hv. unfold observe32. rewrite (t3_ri _ _ _ _ _ _ TB). rewrite !mri_get by (rewrite twos_length; lia). cbn [bind].
  rewrite !twos_first by lia. replace (2 * (v + 1) - 2 * v)%nat with 2%nat by lia. cbn [seq foldM].
  destruct (middle_nth v V Hv) as (E1 & E2). unfold get. rewrite E1. cbn [bind]. replace (Datatypes.S (2 * v)) with (2 * v + 1)%nat by lia. rewrite E2. cbn [bind]. reflexivity.
Qed.

Definition tiny (f : nat -> f32) : Prop := forall k, (k < M)%nat -> fin32 (f k) = true /\ 0 <= val (f k) <= bp (-120).

Lemma observe_tiny v : (v < V)%nat ->
  tiny (fun k => fmul (fmul (s3_vert s v k) (l_pow lib (s3_feat s (2 * v) k) 64)) (l_pow lib (s3_feat s (2 * v + 1) k) 63)).
Proof.
  intros Hv k Hk.
  destruct (t3_vert _ _ _ _ _ _ TB v k Hv Hk) as (F & B). pose proof (bp_pos (- (16 + 3))) as P19.
  destruct (t3_feat _ _ _ _ _ _ TB v (2 * v) k Hv) as (F0 & B0 & _); auto; [rewrite twos_block by auto; now left|].
  destruct (t3_feat _ _ _ _ _ _ TB v (2 * v + 1) k Hv) as (F1 & B1 & _); auto; [rewrite twos_block by auto; right; now left|].
  pose proof (t3_fsum _ _ _ _ _ _ TB v k Hv Hk) as FS. rewrite twos_block in FS by auto. unfold sumf in FS. cbn [map fold_right] in FS.
  destruct LIB as (_ & _ & PW & _).
  destruct (PW (s3_feat s (2 * v) k) 64%Z F0 B0 ltac:(lia)) as (X1 & X2 & _ & X3 & _).
  destruct (PW (s3_feat s (2 * v + 1) k) 63%Z F1 B1 ltac:(lia)) as (Y1 & Y2 & _ & Y3 & _).
  set (x := val (s3_feat s (2 * v) k)) in *. set (y := val (s3_feat s (2 * v + 1) k)) in *.
  set (px := l_pow lib (s3_feat s (2 * v) k) 64) in *. set (py := l_pow lib (s3_feat s (2 * v + 1) k) 63) in *.
  change (Z.to_nat 64) with 64%nat in X3. change (Z.to_nat 63) with 63%nat in Y3.
  assert (XY : x ^ 64 * y ^ 63 <= bp (-123)) by (apply powers_small; lra).
  pose proof (pow_le1 x 64 ltac:(lra)) as Qx. pose proof (pow_le1 y 63 ltac:(lra)) as Qy.
  assert (PP : 0 <= val px * val py <= bp (-120)).
  { split; [apply Rmult_le_pos; tauto|].
    apply Rle_trans with ((2 * x ^ 64 + bp (-149)) * (2 * y ^ 63 + bp (-149))); [apply Rmult_le_compat; tauto|].
    assert (E : bp (-149) <= bp (-123) / 16) by (replace (bp (-123)) with (bp 26 * bp (-149)) by (rewrite <- bpow_plus; reflexivity); change (bp 26) with 67108864; pose proof (bp_pos (-149)); lra).
    replace (bp (-120)) with (8 * bp (-123)) by (change 8 with (bp 3); rewrite <- bpow_plus; reflexivity).
    pose proof (bp_pos (-149)) as P149. pose proof (bp_pos (-123)) as P123.
    assert (S1 : bp (-149) <= 1) by (change 1 with (bp 0); apply bpow_le; lia).
    set (a := x ^ 64) in *. set (b := y ^ 63) in *. set (ep := bp (-149)) in *. nra. }
  assert (Bx : val px < bp 128) by (apply Rle_lt_trans with (bp 0); [cbn; lra|apply bpow_lt; lia]).
  destruct (fmul_bounds (s3_vert s v k) px 0 (val px)) as (Z1 & Z2); auto; [apply (fmt_0 24 128)|apply fmt_B2R|nra|lra|].
  assert (BB : bp (-120) < bp 128) by (apply bpow_lt; lia).
  destruct (fmul_bounds (fmul (s3_vert s v k) px) py 0 (bp (-120))) as (W1 & W2); auto; [apply (fmt_0 24 128)|apply fmtb; lia| |lra].
  split; [apply Rmult_le_pos; lra|]. apply Rle_trans with (val px * val py); [apply Rmult_le_compat_r; lra|tauto].
Qed.

Section LOOP.
Variables (es : list (nat * nat)) (root : nat).
Hypothesis VPG : valid_program V es root (s3_prog s).
Hypothesis PB : forall op v a e, In (I op v a e) (s3_prog s) -> (v < V)%nat /\ match op with OP_IN | OP_OUT => (a < V)%nat /\ (e < V - 1)%nat | _ => True end.

(** Once it is not finite, it stays so. *)
Lemma loop_dead suf : forall messages lp, incl suf (s3_prog s) -> (exists v a e, In (I OP_ROOT v a e) suf) -> fin32 lp = false ->
  exists x, logprob_loop32 lib s row suf messages lp = Ok x /\ fin32 x = false.
Proof.
  induction suf as [|[op v a e] suf IH]; intros messages lp IL (v0 & a0 & e0 & IR) D; [destruct IR|].
  destruct (PB op v a e (IL _ (or_introl eq_refl))) as (Hv & HB).
  assert (IL' : incl suf (s3_prog s)) by (intros i Ii; apply IL; now right).
  assert (IR' : op <> OP_ROOT -> exists v a e, In (I OP_ROOT v a e) suf) by (intros NE; destruct IR as [K|K]; [inversion K; congruence|eauto]).
  cbn [logprob_loop32]. rewrite (t3_V _ _ _ _ _ _ TB), (t3_M _ _ _ _ _ _ TB). unfold index at 1. rewrite (proj2 (Nat.ltb_lt v V) Hv). cbn [bind].
  destruct op.
  - rewrite observe_middle by auto. cbn [bind]. apply IH; auto. apply IR'. discriminate.
  - destruct HB as (Ha & He). rewrite (proj2 (Nat.ltb_lt a V) Ha), (proj2 (Nat.ltb_lt e (V - 1)) He). cbn [andb index bind].
    apply IH; auto; [apply IR'; discriminate|]. now apply fadd_dead.
  - eexists. split; [reflexivity|]. now apply fadd_dead.
  - apply IH; auto. apply IR'. discriminate.
  - apply IH; auto. apply IR'. discriminate.
Qed.

Lemma in_zero v a e f g : (v < V)%nat -> (a < V)%nat -> (e < V - 1)%nat -> tiny f -> tiny g ->
  let trans := if (a <? v)%nat then transpose (s3_trans s e) else s3_trans s e in
  l_log lib (l_sum lib (vec M (fun k => fmul (f k) (l_dot lib (vec M (trans k)) (vec M g))))) = B754_infinity true.
Proof.
  intros Hv Ha He TF TG trans.
  assert (TR : forall k j, (k < M)%nat -> (j < M)%nat -> fin32 (trans k j) = true /\ bp (- (16 + 11)) <= val (trans k j) <= bp (2 * 16 + 6)).
  { intros k j Hk Hj. unfold trans. destruct (a <? v)%nat; [unfold transpose|]; apply (t3_trans _ _ _ _ _ _ TB); auto. }
  set (msg := fun k => fmul (f k) (l_dot lib (vec M (trans k)) (vec M g))).
  assert (ZM : forall k, (k < M)%nat -> fin32 (msg k) = true /\ val (msg k) = 0).
  { intros k Hk. destruct (proj1 LIB (vec M (trans k)) (vec M g) (2 * 16 + 6)%Z (-120)%Z 7%Z) as (D1 & D2 & _); try lia.
    - now rewrite !len_vec.
    - rewrite len_vec. change (2 ^ 7)%Z with 128%Z. lia.
    - apply Forall_forall. intros x I. apply vec_In in I; [|exact HM]. destruct I as (j & Hj & ->). destruct (TR k j Hk Hj) as (T1 & T2). split; [exact T1|].
      pose proof (bp_pos (- (16 + 11))). lra.
    - apply Forall_forall. intros x I. apply vec_In in I; [|exact HM]. destruct I as (j & Hj & ->). exact (TG j Hj).
    - destruct (TF k Hk) as (f1 & f2). apply fmul_tiny; auto. split; [apply Rmult_le_pos; tauto|].
      apply Rle_trans with (bp (-120) * bp (2 * 16 + 6 + -120 + 7)); [apply Rmult_le_compat; tauto|]. rewrite <- bpow_plus. apply bpow_le. lia. }
  destruct LIB as (_ & (SO & _) & _ & (_ & LZ & _)).
  assert (RS : rsum (map (@B2R 24 128) (vec M msg)) = 0).
  { rewrite rsum_map_vec. rewrite (sumf_ext (seq 0 M) (fun c => val (msg c)) (fun _ => 0)); [rewrite sumf_const; lra|]. intros k I. apply in_seq in I. apply ZM. lia. }
  destruct (SO (vec M msg)) as (S1 & S2 & _).
  - rewrite len_vec. lia.
  - apply Forall_forall. intros x I. apply vec_In in I; [|exact HM]. destruct I as (k & Hk & ->). destruct (ZM k Hk) as (z1 & z2). split; [exact z1|lra].
  - rewrite RS. apply bpow_ge_0.
  - apply LZ; [exact S1|]. rewrite RS in S2. lra.
Qed.

Definition K (pre : list instr) (messages : nat -> nat -> f32) : Prop :=
  forall v, (v < V)%nat -> (In (I OP_UP v 0 0) pre -> tiny (messages v)) /\ (~ In (I OP_UP v 0 0) pre -> messages v = s3_vert s v).

Lemma loop_underflows suf : forall pre messages lp, s3_prog s = pre ++ suf -> (exists p c e, In (I OP_IN p c e) suf) ->
  In (I OP_ROOT root 0 0) suf -> K pre messages ->
  exists x, logprob_loop32 lib s row suf messages lp = Ok x /\ fin32 x = false.
Proof.
  induction suf as [|[op v a e] suf IH]; intros pre messages lp E II IR J1; [destruct IR|].
  assert (IN : In (I op v a e) (s3_prog s)) by (rewrite E; apply in_app_iff; right; now left).
  assert (E' : s3_prog s = (pre ++ [I op v a e]) ++ suf) by (rewrite E, <- app_assoc; reflexivity).
  assert (IR' : op <> OP_ROOT -> In (I OP_ROOT root 0 0) suf) by (intros NE; destruct IR as [H|H]; [inversion H; congruence|exact H]).
  assert (II' : op <> OP_IN -> exists p c e, In (I OP_IN p c e) suf) by (intros NE; destruct II as (p & c & e' & [H|H]); [inversion H; congruence|eauto]).
  destruct (PB _ _ _ _ IN) as (Hv & HB). pose proof (vp_nodup _ _ _ _ VPG) as NDP.
  cbn [logprob_loop32]. rewrite (t3_V _ _ _ _ _ _ TB), (t3_M _ _ _ _ _ _ TB). unfold index at 1. rewrite (proj2 (Nat.ltb_lt v V) Hv). cbn [bind].
  destruct (J1 v Hv) as (Gv & Fv).
  assert (KEEP : op <> OP_UP -> K (pre ++ [I op v a e]) messages).
  { intros NE u Hu. destruct (J1 u Hu) as (K1 & K2). split.
    - intros H. apply K1. apply in_app_iff in H. destruct H as [H|[H|[]]]; [exact H|inversion H; congruence].
    - intros H. apply K2. intros H'. apply H. apply in_app_iff. now left. }
  destruct op.
  - (* UP *)
    destruct (proj1 (vp_up _ _ _ _ VPG v a e) IN) as (_ & -> & ->).
    assert (NP : ~ In (I OP_UP v 0 0) pre).
    { rewrite E in NDP. apply NoDup_remove_2 in NDP. intros H. apply NDP. apply in_app_iff. now left. }
    rewrite (Fv NP), observe_middle by auto. cbn [bind].
    apply (IH (pre ++ [I OP_UP v 0 0])); [exact E'|apply II'; discriminate|apply IR'; discriminate|]. intros u Hu.
    destruct (Nat.eq_dec u v) as [->|NE].
    + rewrite set1_same. split; [intros _; now apply observe_tiny|]. intros H. destruct H. apply in_app_iff. right. now left.
    + rewrite set1_other by auto. destruct (J1 u Hu) as (K1 & K2). split.
      * intros H. apply K1. apply in_app_iff in H. destruct H as [H|[H|[]]]; [exact H|inversion H; congruence].
      * intros H. apply K2. intros H'. apply H. apply in_app_iff. now left.
  - (* IN *)
    destruct HB as (Ha & He). rewrite (proj2 (Nat.ltb_lt a V) Ha), (proj2 (Nat.ltb_lt e (V - 1)) He). cbn [andb index bind].
    destruct (vp_in_up _ _ _ _ VPG _ _ _ IN) as (U1 & U2). rewrite E in NDP, U1, U2.
    apply before_in in U1; auto. apply before_in in U2; auto.
    rewrite (in_zero v a e (messages v) (messages a)); auto; [|now apply (J1 a Ha)].
    apply loop_dead; [intros i Hi; rewrite E'; apply in_app_iff; now right| |apply fadd_inf].
    exists root, 0%nat, 0%nat. apply IR'. discriminate.
  - (* ROOT *)
    destruct (proj1 (vp_root _ _ _ _ VPG v a e) IN) as (-> & -> & ->).
    destruct II as (p & c & e' & [H|H]); [discriminate|].
    assert (IP : In (I OP_IN p c e') (s3_prog s)) by (rewrite E; apply in_app_iff; right; now right).
    pose proof (vp_root_after_in _ _ _ _ VPG _ _ _ IP) as R1. rewrite E in R1, NDP. apply before_in in R1; auto.
    exfalso. replace (pre ++ I OP_ROOT root 0 0 :: suf) with ((pre ++ [I OP_ROOT root 0 0]) ++ suf) in NDP by (rewrite <- app_assoc; reflexivity).
    apply in_split in H. destruct H as (s1 & s2 & ->). rewrite app_assoc in NDP. apply NoDup_remove_2 in NDP. apply NDP.
    rewrite !in_app_iff. auto.
  - apply (IH (pre ++ [I OP_OUT v a e])); [exact E'|apply II'; discriminate|apply IR'; discriminate|apply KEEP; discriminate].
  - apply (IH (pre ++ [I OP_DOWN v a e])); [exact E'|apply II'; discriminate|apply IR'; discriminate|apply KEEP; discriminate].
Qed.
End LOOP.
End DEAD.
