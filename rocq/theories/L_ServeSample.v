(** The float32 draws of TreeCatServer.sample are usable. *)
From Coq Require Import List Arith Bool ZArith Reals Lra Lia.
From Flocq Require Import Core IEEE754.BinarySingleNaN.
From Verif Require Import Base L_Base Spec_Graph L_Graph Spec_Sum L_Sum M_Structure L_Pairing L_MakeTree L_Program L_ProgramValid Spec_Program L_Center L_Prop1 M_Util L_Quantize Spec_Ragged L_Ragged M_Array M_Training Spec_Stats L_Stats L_Trainer Spec_Conditional L_Asg L_BP L_BPVec L_AddRow
  M_Float32 M_Train32 Spec_Float32 L_Float32 L_Sample32 L_Train32 L_Train32c L_Train32d L_Train32i M_Serving Spec_Serving L_Server L_SampleCounts M_Serving32 Spec_Serving32 L_Serving32a L_Serving32b L_Serving32c L_Serving32d M_Sample32.
Import ListNotations.
Open Scope R_scope.

Lemma total_put l q x y : NoDup l -> In q l -> total l (set1 x q y) = (total l x + (y - x q))%Z.
Proof.
  induction l as [|b l IH]; intros ND I; [destruct I|]. inversion ND; subst. rewrite !total_cons. destruct I as [-> |I].
  - rewrite set1_same. rewrite (total_ext l _ x); [lia|]. intros n Hn. apply set1_other. intro; subst; auto.
  - rewrite IH by auto. rewrite set1_other; [lia|]. intro; subst; auto.
Qed.

Lemma has_more ws v k x q : In q (block ws v) -> (k < 127)%Z -> has ws v k x -> has ws v (k + 1) (set1 x q (int8 (x q + 1))).
Proof.
  intros Hq Hk (A & B). pose proof (A q Hq) as Aq. rewrite int8_id by lia. split.
  - intros q' H'. unfold set1. destruct (Nat.eqb_spec q' q) as [->|]; [lia|]. specialize (A q' H'). lia.
  - rewrite total_put; auto; [lia|]. apply seq_NoDup.
Qed.

Section RUN.
Variables (lib : numlib) (ws : list nat) (V M N0 : nat) (m : smodel) (A L : Z) (s : server32) (N : nat) (counts data : list Z) (obs : observe_fun).
Hypothesis LIB : lib_ok lib.
Hypothesis C : consistent ws V M N0 m.
Hypothesis CBL : counts_below A ws N0 m.
Hypothesis HA : (6 <= A <= 16)%Z.
Hypothesis HL0 : (A + 3 <= L)%Z.
Hypothesis HL : (2 * L + A + 11 <= 149)%Z.
Hypothesis TB : tables32 ws V M A m s.
Hypothesis CL : length counts = V.
Hypothesis CB : forall v, (v < V)%nat -> (0 <= nth v counts 0 <= 127)%Z.
Hypothesis CW : forall v, (v < V)%nat -> (0 < nth v counts 0%Z)%Z -> (1 <= nth v ws 0)%nat.

Let HM : (1 <= M <= 128)%nat.
Proof. apply (cm_M _ _ _ _ _ C). Qed.
Notation off v := (list_sum (firstn v ws)).

Definition mg (f : nat -> f32) : Prop :=
  (forall k, (k < M)%nat -> fin32 (f k) = true /\ 0 <= val (f k) <= 1) /\ exists k, (k < M)%nat /\ bp (- L) <= val (f k).

Hypothesis OBS : forall v, (v < V)%nat -> exists msg', obs s data v (s3_vert s v) = Ok msg' /\ mg msg'.

Lemma mg_vert v : (v < V)%nat -> mg (s3_vert s v).
Proof.
  intros Hv. split.
  - intros k Hk. destruct (t3_vert _ _ _ _ _ _ TB v k Hv Hk) as (F & B). split; [exact F|]. pose proof (bp_pos (- (A + 3))). lra.
  - exists 0%nat. split; [lia|]. destruct (t3_vert _ _ _ _ _ _ TB v 0%nat Hv ltac:(lia)) as (F & B). eapply Rle_trans; [|apply B]. apply bpow_le. lia.
Qed.

Lemma mg_usable f : mg f -> usable (vec M f).
Proof.
  intros (F & k & Hk & P). split; [rewrite len_vec; lia|]. split.
  - apply Forall_forall. intros x Ix. apply vec_In in Ix; [|exact HM]. destruct Ix as (j & Hj & ->). destruct (F j Hj) as (F1 & F2). split; [exact F1|].
    split; [tauto|]. apply Rle_trans with (bp 0); [cbn; tauto|apply bpow_le; lia].
  - exists (f k). split; [now apply In_vec|]. pose proof (bp_pos (- L)). lra.
Qed.

Lemma mg_rescaled f q : (q <= 127)%Z -> (forall k, (k < M)%nat -> fin32 (f k) = true /\ 0 <= val (f k) <= bp q) -> (exists k, (k < M)%nat /\ 0 < val (f k)) ->
  mg (rescaled M f).
Proof.
  intros Hq F P. destruct (largest_good M 0 f q HM ltac:(lia) Hq F P) as (G1 & k & Hk & G2). split; [exact G1|].
  exists k. split; [exact Hk|]. eapply Rle_trans; [|exact G2]. apply bpow_le. lia.
Qed.

Lemma trans_range (c : bool) e k j : (e < V - 1)%nat -> (k < M)%nat -> (j < M)%nat ->
  let trans := if c then transpose (s3_trans s e) else s3_trans s e in
  fin32 (trans k j) = true /\ bp (- (A + 11)) <= val (trans k j) <= bp (2 * A + 6).
Proof. intros He Hk Hj. destruct c; cbn; [unfold transpose|]; apply (t3_trans _ _ _ _ _ _ TB); auto. Qed.

Lemma mg_in (c : bool) e f g : (e < V - 1)%nat -> mg f -> mg g ->
  mg (rescaled M (fun k => fmul (f k) (l_dot lib (vec M ((if c then transpose (s3_trans s e) else s3_trans s e) k)) (vec M g)))).
Proof.
  intros He (F1 & k0 & Hk0 & F2) (G1 & j0 & Hj0 & G2). set (trans := if c then transpose (s3_trans s e) else s3_trans s e).
  assert (TR : forall k j, (k < M)%nat -> (j < M)%nat -> fin32 (trans k j) = true /\ bp (- (A + 11)) <= val (trans k j) <= bp (2 * A + 6)).
  { intros. now apply trans_range. }
  assert (D : forall k, (k < M)%nat -> fin32 (l_dot lib (vec M (trans k)) (vec M g)) = true /\
    0 <= val (l_dot lib (vec M (trans k)) (vec M g)) <= bp (2 * A + 6 + 0 + 7) /\ bp (- (A + 11) + - L) <= val (l_dot lib (vec M (trans k)) (vec M g))).
  { intros k Hk. destruct (proj1 LIB (vec M (trans k)) (vec M g) (2 * A + 6)%Z 0%Z 7%Z) as (D1 & D2 & D3); try lia.
    - now rewrite !len_vec.
    - rewrite len_vec. change (2 ^ 7)%Z with 128%Z. lia.
    - apply Forall_forall. intros x I. apply vec_In in I; [|exact HM]. destruct I as (j & Hj & ->). destruct (TR k j Hk Hj) as (T1 & T2). split; [exact T1|].
      pose proof (bp_pos (- (A + 11))). lra.
    - apply Forall_forall. intros x I. apply vec_In in I; [|exact HM]. destruct I as (j & Hj & ->). exact (G1 j Hj).
    - split; [exact D1|]. split; [exact D2|]. apply (D3 j0); [now rewrite len_vec|lia| |].
      + rewrite nth_vec_lt by auto. apply (TR k j0 Hk Hj0).
      + rewrite nth_vec_lt by auto. exact G2. }
  apply (mg_rescaled _ (0 + (2 * A + 6 + 0 + 7))); [lia| |].
  - intros k Hk. destruct (F1 k Hk) as (f1 & f2). destruct (D k Hk) as (d1 & d2 & _).
    destruct (mul_pow M HM (f k) (l_dot lib (vec M (trans k)) (vec M g)) 0 (2 * A + 6 + 0 + 7) 0 0 f1 d1 f2 d2 ltac:(lia)) as (x1 & x2 & _). auto.
  - exists k0. split; [exact Hk0|]. destruct (F1 k0 Hk0) as (f1 & f2). destruct (D k0 Hk0) as (d1 & d2 & d3).
    destruct (mul_pow M HM (f k0) (l_dot lib (vec M (trans k0)) (vec M g)) 0 (2 * A + 6 + 0 + 7) (- L) (- (A + 11) + - L) f1 d1 f2 d2 ltac:(lia)) as (_ & _ & x3).
    eapply Rlt_le_trans; [|apply x3; [lia|exact F2|exact d3]]. apply bp_pos.
Qed.

Lemma mg_out (c : bool) e f j : (e < V - 1)%nat -> (j < M)%nat -> mg f ->
  mg (rescaled M (fun k => fmul (f k) ((if c then transpose (s3_trans s e) else s3_trans s e) j k))).
Proof.
  intros He Hj (F1 & k0 & Hk0 & F2).
  apply (mg_rescaled _ (0 + (2 * A + 6))); [lia| |].
  - intros k Hk. destruct (F1 k Hk) as (f1 & f2). destruct (trans_range c e j k He Hj Hk) as (t1 & t2). cbv zeta in t1, t2. pose proof (bp_pos (- (A + 11))).
    destruct (mul_pow M HM (f k) _ 0 (2 * A + 6) 0 0 f1 t1 f2 ltac:(lra) ltac:(lia)) as (x1 & x2 & _). auto.
  - exists k0. split; [exact Hk0|]. destruct (F1 k0 Hk0) as (f1 & f2). destruct (trans_range c e j k0 He Hj Hk0) as (t1 & t2). cbv zeta in t1, t2. pose proof (bp_pos (- (A + 11))).
    destruct (mul_pow M HM (f k0) _ 0 (2 * A + 6) (- L) (- (A + 11)) f1 t1 f2 ltac:(lra) ltac:(lia)) as (_ & _ & x3).
    eapply Rlt_le_trans; [|apply x3; [lia|exact F2|apply t2]]. apply bp_pos.
Qed.

(** ** Drawing cells *)
Lemma lenws : length ws = V.
Proof. apply (cm_width _ _ _ _ _ C). Qed.

Lemma off_block v : (v < V)%nat -> seq (off v) (off (v + 1) - off v) = block ws v.
Proof. intros Hv. pose proof lenws. unfold block. rewrite Nat.add_1_r, sum_firstn_S by lia. f_equal. lia. Qed.

Lemma feats_usable v k : (v < V)%nat -> (1 <= nth v ws 0)%nat -> (k < M)%nat -> usable (map (fun r => s3_feat s r k) (block ws v)).
Proof.
  intros Hv W Hk.
  assert (F : forall q, In q (block ws v) -> fin32 (s3_feat s q k) = true /\ 0 < val (s3_feat s q k) <= 1).
  { intros q Iq. destruct (t3_feat _ _ _ _ _ _ TB v q k Hv Iq Hk) as (a1 & a2 & _). auto. }
  split; [|split].
  - rewrite map_length. unfold block. rewrite seq_length.
    destruct CBL as (_ & K). destruct (K v k) as (K1 & _); [rewrite lenws; exact Hv|rewrite (proj1 (cm_M _ _ _ _ _ C)); exact Hk|].
    assert (2 ^ A <= 2 ^ 16)%Z by (apply Z.pow_le_mono_r; lia). lia.
  - apply Forall_forall. intros x Ix. apply in_map_iff in Ix. destruct Ix as (q & <- & Iq). destruct (F q Iq) as (a1 & a2). split; [exact a1|].
    split; [lra|]. apply Rle_trans with (bp 0); [cbn; lra|apply bpow_le; lia].
  - exists (s3_feat s (off v) k). assert (Iq : In (off v) (block ws v)) by (unfold block; apply in_seq; lia).
    split; [exact (in_map (fun r => s3_feat s r k) _ _ Iq)|]. apply (F _ Iq).
Qed.

(** Induction over a range. *)
Lemma draws_fold_seq {T} (f : T -> nat -> fprog T) (J : nat -> T -> Prop) n : forall a x,
  J a x -> (forall i y, (a <= i < a + n)%nat -> J i y -> draws_usable (J (i + 1)%nat) (f y i)) ->
  draws_usable (J (a + n)%nat) (ffold f (seq a n) x).
Proof.
  induction n as [|n IH]; intros a x J0 ST; cbn [seq ffold].
  - rewrite Nat.add_0_r. exact J0.
  - apply draws_bind with (Q := J (a + 1)%nat); [apply ST; [lia|exact J0]|]. intros y Jy.
    replace (a + Datatypes.S n)%nat with (Datatypes.S a + n)%nat by lia. apply IH.
    + now rewrite Nat.add_1_r in Jy.
    + intros i z Hi. apply ST. lia.
Qed.

Lemma draw_cells_ok v cls fs k : (v < V)%nat -> (1 <= nth v ws 0)%nat -> (0 <= k < 127)%Z -> (forall n, (n < N)%nat -> cls n < M)%nat ->
  (forall n, (n < N)%nat -> has ws v k (fs n)) ->
  draws_usable (fun fs' => forall n, (n < N)%nat -> has ws v (k + 1) (fs' n) /\ forall q, ~ In q (block ws v) -> fs' n q = fs n q)
    (draw_cells32 s N (off v) (off (v + 1)) cls fs).
Proof.
  intros Hv W Hk HC H0. unfold draw_cells32.
  pose proof (draws_fold_seq (fun (fs : nat -> nat -> Z) n => FCat (map (fun r0 => s3_feat s r0 (cls n)) (seq (off v) (off (v + 1) - off v)))
      (fun i => FRet (set2 fs n (off v + i) (int8 (fs n (off v + i)%nat + 1)))))
    (fun j (fs' : nat -> nat -> Z) => (forall n, (n < N)%nat -> has ws v (if (n <? j)%nat then k + 1 else k)%Z (fs' n) /\ forall q, ~ In q (block ws v) -> fs' n q = fs n q)) N 0 fs) as AR.
  cbn [Nat.add] in AR. eapply draws_mono; [|apply AR].
  - intros fs' H n Hn. specialize (H n Hn). rewrite (proj2 (Nat.ltb_lt n N)) in H by auto. exact H.
  - intros n Hn. split; [|auto]. cbn. auto.
  - intros i fs1 Hi H. cbn [draws_usable]. rewrite off_block by auto. split; [apply feats_usable; auto; apply HC; lia|].
    intros c Hc _. rewrite map_length in Hc. unfold block in Hc. rewrite seq_length in Hc.
    assert (IB : In (off v + c)%nat (block ws v)) by (unfold block; apply in_seq; lia).
    intros n Hn. destruct (H n Hn) as (H1 & H2). unfold set2.
    destruct (Nat.eq_dec n i) as [->|NI].
    + rewrite Nat.eqb_refl. cbn [andb]. rewrite (proj2 (Nat.ltb_lt i (i + 1))) by lia. rewrite (proj2 (Nat.ltb_ge i i)) in H1 by lia. split.
      * apply (has_more ws v k (fs1 i) (off v + c)%nat IB); auto. lia.
      * intros q Hq. destruct (Nat.eqb_spec q (off v + c)) as [->|]; [tauto|auto].
    + rewrite (proj2 (Nat.eqb_neq n i)) by auto. cbn [andb].
      replace (n <? i + 1)%nat with (n <? i)%nat; [auto|]. destruct (Nat.ltb_spec n i), (Nat.ltb_spec n (i + 1)); auto; lia.
Qed.

Lemma cells_ok v cls fs : (v < V)%nat -> (forall n, (n < N)%nat -> cls n < M)%nat -> (forall n, (n < N)%nat -> has ws v 0 (fs n)) ->
  draws_usable (fun fs' => forall n, (n < N)%nat -> has ws v (nth v counts 0%Z) (fs' n) /\ forall q, ~ In q (block ws v) -> fs' n q = fs n q)
    (ffold (fun fs (_ : nat) => draw_cells32 s N (off v) (off (v + 1)) cls fs) (seq 0 (Z.to_nat (nth v counts 0%Z))) fs).
Proof.
  intros Hv HC H0. pose proof (CB v Hv).
  pose proof (draws_fold_seq (fun fs (_ : nat) => draw_cells32 s N (off v) (off (v + 1)) cls fs)
    (fun j (fs' : nat -> nat -> Z) => (forall n, (n < N)%nat -> has ws v (Z.of_nat j) (fs' n) /\ forall q, ~ In q (block ws v) -> fs' n q = fs n q)) (Z.to_nat (nth v counts 0%Z)) 0 fs) as AR.
  cbn [Nat.add] in AR. eapply draws_mono; [|apply AR].
  - intros fs' HH n Hn. rewrite <- (Z2Nat.id (nth v counts 0%Z)) by lia. auto.
  - intros n Hn. split; auto.
  - intros j fs1 Hj H1. eapply draws_mono; [|apply (draw_cells_ok v cls fs1 (Z.of_nat j))]; auto.
    + intros fs' H2 n Hn. destruct (H2 n Hn) as (a1 & a2). split.
      * replace (Z.of_nat (j + 1)) with (Z.of_nat j + 1)%Z by lia. auto.
      * intros q Hq. rewrite a2 by auto. now apply H1.
    + apply CW; auto. lia.
    + lia.
    + intros n Hn. now apply H1.
Qed.

Lemma has_apart u v k x x' : (u < V)%nat -> (v < V)%nat -> u <> v -> (forall q, ~ In q (block ws v) -> x' q = x q) -> has ws u k x -> has ws u k x'.
Proof.
  intros Hu Hv NE E. apply has_ext. intros q Hq. symmetry. apply E. intros Hq'. pose proof lenws as LW.
  unfold block in Hq, Hq'. apply in_seq in Hq, Hq'. apply NE. apply (owns_unique ws u v q); split; lia.
Qed.

(** ** The program *)
Section LOOP.
Variables (es : list (nat * nat)) (root : nat).
Hypothesis VPG : valid_program V es root (s3_prog s).
Hypothesis PB : forall op v a e, In (I op v a e) (s3_prog s) -> (v < V)%nat /\ match op with OP_IN | OP_OUT => (a < V)%nat /\ (e < V - 1)%nat | _ => True end.

Definition SJ (pre : list instr) (st : sstate32) : Prop :=
  let '(min, mout, vs, fs) := st in
  (forall v, (v < V)%nat -> mg (min v) /\ (~ In (I OP_UP v 0 0) pre -> min v = s3_vert s v)) /\
  (forall v n, (v < V)%nat -> (n < N)%nat -> mg (mout v n)) /\
  (forall v n, vs v n < M)%nat /\
  (forall v n, (v < V)%nat -> (n < N)%nat ->
    (In (I OP_DOWN v 0 0) pre -> has ws v (nth v counts 0%Z) (fs n)) /\ (~ In (I OP_DOWN v 0 0) pre -> has ws v 0 (fs n))).

Lemma step_ok pre i suf st : s3_prog s = pre ++ i :: suf -> SJ pre st -> draws_usable (SJ (pre ++ [i])) (sample_instr32_with lib obs s N counts data st i).
Proof.
  destruct st as [[[min mout] vs] fs]. destruct i as [op v a e]. intros E (J1 & J2 & J3 & J4).
  assert (IN : In (I op v a e) (s3_prog s)) by (rewrite E; apply in_app_iff; right; now left).
  assert (KEEP : forall o u, o <> op -> (In (I o u 0 0) (pre ++ [I op v a e]) <-> In (I o u 0 0) pre)).
  { intros o u NE. rewrite in_app_iff. split; [intros [K|[K|[]]]; [exact K|inversion K; congruence]|now left]. }
  assert (NEW : ~ In (I op v a e) pre).
  { pose proof (vp_nodup _ _ _ _ VPG) as NDP. rewrite E in NDP. apply NoDup_remove_2 in NDP. intros K. apply NDP. apply in_app_iff. now left. }
  assert (J4' : op <> OP_DOWN -> forall u n, (u < V)%nat -> (n < N)%nat ->
    (In (I OP_DOWN u 0 0) (pre ++ [I op v a e]) -> has ws u (nth u counts 0%Z) (fs n)) /\ (~ In (I OP_DOWN u 0 0) (pre ++ [I op v a e]) -> has ws u 0 (fs n))).
  { intros NE u n Hu Hn. rewrite KEEP by congruence. apply J4; auto. }
  destruct (PB _ _ _ _ IN) as (Hv & HB). cbn [sample_instr32_with]. rewrite (t3_V _ _ _ _ _ _ TB), (t3_M _ _ _ _ _ _ TB).
  unfold index at 1. rewrite (proj2 (Nat.ltb_lt v V) Hv). cbn [flift fbind]. destruct (J1 v Hv) as (Gv & Fv). destruct op.
  - destruct (proj1 (vp_up _ _ _ _ VPG v a e) IN) as (_ & -> & ->). rewrite (Fv NEW).
    destruct (OBS v Hv) as (msg' & EO & GO). rewrite EO. cbn [flift fbind draws_usable]. split; [|split; [exact J2|split; [exact J3|apply J4'; discriminate]]].
    intros u Hu. destruct (Nat.eq_dec u v) as [->|NE].
    + rewrite set1_same. split; [exact GO|]. intros K. destruct K. apply in_app_iff. right. now left.
    + rewrite set1_other by auto. destruct (J1 u Hu) as (K1 & K2). split; [exact K1|]. intros K. apply K2. intros K'. apply K. apply in_app_iff. now left.
  - destruct HB as (Ha & He). rewrite (proj2 (Nat.ltb_lt a V) Ha), (proj2 (Nat.ltb_lt e (V - 1)) He). cbn [andb index flift fbind draws_usable].
    split; [|split; [exact J2|split; [exact J3|apply J4'; discriminate]]]. intros u Hu. destruct (Nat.eq_dec u v) as [->|NE].
    + rewrite set1_same. split; [apply (mg_in (a <? v)%nat e (min v) (min a)); auto; apply (J1 a Ha)|]. intros K. destruct K. apply KEEP; [discriminate|].
      destruct (vp_in_up _ _ _ _ VPG _ _ _ IN) as (_ & U2). pose proof (vp_nodup _ _ _ _ VPG) as NDP. rewrite E in NDP, U2. now apply before_in in U2.
    + rewrite set1_other by auto. destruct (J1 u Hu) as (K1 & K2). split; [exact K1|]. intros K. apply K2. intros K'. apply K. apply in_app_iff. now left.
  - cbn [draws_usable]. split; [|split; [|split; [exact J3|apply J4'; discriminate]]].
    + intros u Hu. rewrite KEEP by discriminate. apply J1; auto.
    + intros u n Hu Hn. destruct (Nat.eq_dec u v) as [->|NE]; [rewrite set1_same; exact Gv|rewrite set1_other by auto; now apply J2].
  - destruct HB as (Ha & He). rewrite (proj2 (Nat.ltb_lt a V) Ha), (proj2 (Nat.ltb_lt e (V - 1)) He).
    assert (FB : forallb (fun n => vs a n <? M)%nat (seq 0 N) = true) by (apply forallb_forall; intros n _; apply Nat.ltb_lt; apply J3).
    rewrite FB. cbn [andb index flift fbind draws_usable]. split; [|split; [|split; [exact J3|apply J4'; discriminate]]].
    + intros u Hu. rewrite KEEP by discriminate. apply J1; auto.
    + intros u n Hu Hn. destruct (Nat.eq_dec u v) as [->|NE]; [|rewrite set1_other by auto; now apply J2].
      rewrite set1_same. apply (mg_out (v <? a)%nat e (min v) (vs a n)); auto.
  - destruct (proj1 (vp_down _ _ _ _ VPG v a e) IN) as (_ & -> & ->).
    apply draws_bind with (Q := fun vs' => forall u n, (vs' u n < M)%nat).
    { unfold draw_classes32.
      pose proof (draws_fold_seq (fun (vs : nat -> nat -> nat) n => FCat (vec M (mout v n)) (fun k => FRet (set2 vs v n k))) (fun _ (vs' : nat -> nat -> nat) => forall u n, (vs' u n < M)%nat) N 0 vs) as AR.
      apply AR; [exact J3|]. intros n vs' Hn Jn. cbn [draws_usable]. split; [apply mg_usable, J2; auto; lia|].
      intros k Hk _ u n'. rewrite len_vec in Hk. unfold set2. destruct ((u =? v)%nat && (n' =? n)%nat); auto. }
    intros vs' C'. rewrite (t3_ri _ _ _ _ _ _ TB). pose proof lenws as LW. rewrite !mri_get by lia. cbn [flift fbind].
    rewrite (get_Ok _ IndexError counts v 0%Z) by lia. cbn [flift fbind]. unfold index.
    assert (FB : forallb (fun n => vs' v n <? M)%nat (seq 0 N) = true) by (apply forallb_forall; intros n _; apply Nat.ltb_lt; apply C').
    rewrite FB. cbn [flift fbind].
    eapply draws_bind; [apply (cells_ok v (vs' v) fs Hv); [intros; apply C'|]|].
    + intros n Hn. apply (J4 v n Hv Hn). exact NEW.
    + intros fs' H. cbn [draws_usable]. split; [|split; [exact J2|split; [exact C'|]]].
      * intros u Hu. rewrite KEEP by discriminate. apply J1; auto.
      * intros u n Hu Hn. destruct (H n Hn) as (a1 & a2). destruct (Nat.eq_dec u v) as [->|NE].
        { split; [intros _; exact a1|]. intros K. destruct K. apply in_app_iff. right. now left. }
        assert (KD : In (I OP_DOWN u 0 0) (pre ++ [I OP_DOWN v 0 0]) <-> In (I OP_DOWN u 0 0) pre).
        { rewrite in_app_iff. split; [intros [K|[K|[]]]; [exact K|inversion K; congruence]|now left]. }
        rewrite KD. destruct (J4 u n Hu Hn) as (K1 & K2). split; intros K; (apply (has_apart u v _ (fs n)); auto).
Qed.

Hypothesis DL : length data = list_sum ws.

Lemma sample_ok : draws_usable (fun X => length X = N /\ forall x, In x X -> legal_row ws counts x) (sample32_with lib obs s N counts (Some data)).
Proof.
  unfold sample32_with. pose proof lenws as LW. rewrite (t3_R _ _ _ _ _ _ TB), (t3_V _ _ _ _ _ _ TB), DL, CL, !Nat.eqb_refl. cbn [assert_ flift fbind].
  eapply draws_bind; [apply (draws_fold _ _ _ SJ)|].
  - split; [intros v Hv; split; [now apply mg_vert|auto]|]. split; [intros v n Hv Hn; now apply mg_vert|]. split; [intros; lia|].
    intros v n Hv Hn. split; [intros []|]. intros _. split; [intros; lia|]. apply total_zero. auto.
  - intros pre i suf st. apply step_ok.
  - intros [[[mi mo] vs] fs] (_ & _ & _ & J4). cbn [draws_usable]. split; [now rewrite map_length, seq_length|].
    assert (F : forall v n, (v < V)%nat -> (n < N)%nat -> has ws v (nth v counts 0%Z) (fs n)).
    { intros v n Hv Hn. apply (J4 v n Hv Hn). apply (vp_down _ _ _ _ VPG). auto. }
    intros x Hx. apply in_map_iff in Hx. destruct Hx as (n & <- & Hn). apply in_seq in Hn.
    assert (NTH : forall q, (q < list_sum ws)%nat -> nth q (map (fs n) (seq 0 (list_sum ws))) 0%Z = fs n q).
    { intros q Hq. rewrite nth_indep with (d' := fs n 0%nat) by (rewrite map_length, seq_length; lia). rewrite map_nth, seq_nth by lia. reflexivity. }
    split; [now rewrite map_length, seq_length|]. split.
    + intros y Hy. apply in_map_iff in Hy. destruct Hy as (q & <- & Hq). apply in_seq in Hq.
      destruct (proj1 (owns_exists ws q) ltac:(lia)) as (v & Hv & O). destruct (F v n ltac:(lia) ltac:(lia)) as (B & _). apply B.
      unfold block. apply in_seq. lia.
    + intros v Hv. destruct (F v n ltac:(lia) ltac:(lia)) as (_ & T). rewrite <- T. apply total_ext. intros q Hq. apply NTH.
      apply (block_lt ws V M N0 m C v q); auto. lia.
Qed.
End LOOP.
End RUN.
