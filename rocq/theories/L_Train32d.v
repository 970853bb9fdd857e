(** The instructions of the float32 sampler keep every message usable. *)
From Coq Require Import List Arith Bool ZArith Reals Lra Lia.
From Flocq Require Import Core IEEE754.BinarySingleNaN.
From Verif Require Import Base Spec_Graph Spec_Ragged M_Structure Spec_Program M_Array M_Util M_Training Spec_Stats Spec_Conditional M_Float32 M_Train32 Spec_Float32
  L_Float32 L_Sample32 L_Train32 L_Train32b L_Train32c L_Ragged L_Stats.
Import ListNotations.
Open Scope R_scope.

Lemma fmtb k : (-149 <= k <= 127)%Z -> fmt32 (bp k).
Proof. intros. apply fmt_bpow; [reflexivity|lia]. Qed.
Lemma bp128 k : (k <= 127)%Z -> bp k < bp 128.
Proof. intros. apply bpow_lt. lia. Qed.

Section INSTR.
Variables (dot : list f32 -> list f32 -> f32) (M : nat) (A lo hi : Z).
Hypothesis DOT : dot_ok dot.
Hypothesis HM : (1 <= M <= 128)%nat.
Hypothesis HA : (1 <= A <= 16)%Z.
Hypothesis HL : (-149 <= 2 * lo - 2 * A - 8)%Z.
Hypothesis HL0 : (lo <= 0)%Z.
Hypothesis HH : (2 * hi + A + 10 <= 127)%Z.
Hypothesis HH0 : (0 <= hi)%Z.

(** A message all of whose entries are in range, one of them not too small. *)
Definition vgood (f : nat -> f32) : Prop :=
  (forall m, (m < M)%nat -> fin32 (f m) = true /\ 0 <= val (f m) <= bp hi) /\ exists m, (m < M)%nat /\ bp lo <= val (f m).

Definition vrange (f : nat -> f32) : Prop := forall m, (m < M)%nat -> fin32 (f m) = true /\ bp (-1) <= val (f m) <= bp A.
Definition erange (f : nat -> f32) : Prop := forall m, (m < M)%nat -> fin32 (f m) = true /\ bp (-8) <= val (f m) <= bp A.

(** Products and quotients by tables, in powers of two. *)
Lemma mul_pow (x y : f32) q b p d : fin32 x = true -> fin32 y = true -> 0 <= val x <= bp q -> 0 <= val y <= bp b -> (-149 <= q + b <= 127)%Z ->
  fin32 (fmul x y) = true /\ 0 <= val (fmul x y) <= bp (q + b) /\
  ((-149 <= p + d)%Z -> bp p <= val x -> bp d <= val y -> bp (p + d) <= val (fmul x y)).
Proof.
  intros Fx Fy Bx By H.
  assert (U : val x * val y <= bp (q + b)) by (rewrite bpow_plus; apply Rmult_le_compat; lra).
  assert (L : 0 <= val x * val y) by (apply Rmult_le_pos; lra).
  assert (F0 : fmt32 0) by apply fmt_0.
  destruct (fmul_bounds x y 0 (bp (q + b)) Fx Fy F0 (fmtb _ H) ltac:(lra) ltac:(lra) (bp128 (q + b) ltac:(lia))) as (F & B).
  split; [exact F|]. split; [exact B|]. intros Hp Lx Ly.
  assert (L1 : bp (p + d) <= val x * val y).
  { rewrite bpow_plus. pose proof (bp_pos p). pose proof (bp_pos d). apply Rmult_le_compat; lra. }
  assert (P : (p + d <= q + b)%Z) by (apply (le_bpow radix2); lra).
  destruct (fmul_bounds x y (bp (p + d)) (bp (q + b)) Fx Fy (fmtb (p + d) ltac:(lia)) (fmtb _ H) ltac:(lra) (bpow_ge_0 _ _) (bp128 (q + b) ltac:(lia))) as (_ & B2). lra.
Qed.

Lemma div_vert (x y : f32) q p : fin32 x = true -> 0 <= val x <= bp q -> bp (-1) <= val y <= bp A -> (-149 <= q + 1 <= 127)%Z ->
  fin32 (fdiv x y) = true /\ 0 <= val (fdiv x y) <= bp (q + 1) /\
  ((-149 <= p - A)%Z -> bp p <= val x -> bp (p - A) <= val (fdiv x y)).
Proof.
  intros Fx Bx By H. pose proof (bp_pos (-1)) as P1. pose proof (bp_pos A) as PA.
  assert (U : val x / val y <= bp (q + 1)).
  { apply Rmult_le_reg_r with (val y); [lra|]. unfold Rdiv. rewrite Rmult_assoc, Rinv_l, Rmult_1_r by lra.
    apply Rle_trans with (bp (q + 1) * bp (-1)); [rewrite <- bpow_plus; replace (q + 1 + -1)%Z with q by lia; lra|].
    apply Rmult_le_compat_l; [apply bpow_ge_0|lra]. }
  assert (L : 0 <= val x / val y) by (apply Rmult_le_pos; [lra|left; apply Rinv_0_lt_compat; lra]).
  destruct (fdiv_bounds x y 0 (bp (q + 1)) Fx ltac:(lra) (fmt_0 24 128) (fmtb _ H) ltac:(lra) ltac:(lra) (bp128 (q + 1) ltac:(lia))) as (F & B).
  split; [exact F|]. split; [exact B|]. intros Hp Lx.
  assert (L1 : bp (p - A) <= val x / val y).
  { apply Rmult_le_reg_r with (val y); [lra|]. unfold Rdiv. rewrite (Rmult_assoc (val x)), Rinv_l, Rmult_1_r by lra.
    apply Rle_trans with (bp (p - A) * bp A); [apply Rmult_le_compat_l; [apply bpow_ge_0|lra]|].
    rewrite <- bpow_plus. replace (p - A + A)%Z with p by lia. lra. }
  assert (P : (p - A <= q + 1)%Z) by (apply (le_bpow radix2); lra).
  destruct (fdiv_bounds x y (bp (p - A)) (bp (q + 1)) Fx ltac:(lra) (fmtb (p - A) ltac:(lia)) (fmtb _ H) ltac:(lra) (bpow_ge_0 _ _) (bp128 (q + 1) ltac:(lia))) as (_ & B2). lra.
Qed.

Lemma vec_In {T} (f : nat -> T) x : In x (vec M f) -> exists m, (m < M)%nat /\ x = f m.
Proof. unfold vec. intros H. apply in_map_iff in H. destruct H as (m & <- & I). apply in_seq in I. exists m. split; [lia|reflexivity]. Qed.
Lemma In_vec {T} (f : nat -> T) m : (m < M)%nat -> In (f m) (vec M f).
Proof. intros. unfold vec. apply in_map. apply in_seq. lia. Qed.
Lemma len_vec {T} (f : nat -> T) : length (vec M f) = M.
Proof. unfold vec. now rewrite map_length, seq_length. Qed.
Lemma nth_vec_lt {T} (f : nat -> T) d m : (m < M)%nat -> nth m (vec M f) d = f m.
Proof. intros H. unfold vec. rewrite (nth_indep _ d (f 0%nat)) by (rewrite map_length, seq_length; lia). rewrite map_nth, seq_nth by lia. reflexivity. Qed.

Lemma good_usable f k : (k <= 100)%Z -> (forall m, (m < M)%nat -> fin32 (f m) = true /\ 0 <= val (f m) <= bp k) ->
  (exists m, (m < M)%nat /\ 0 < val (f m)) -> usable (vec M f).
Proof.
  intros Hk H (m & Hm & P). split; [rewrite len_vec; lia|]. split.
  - apply Forall_forall. intros x I. apply vec_In in I. destruct I as (k' & Hk' & ->). destruct (H k' Hk') as (F & B).
    split; [exact F|]. split; [lra|]. apply Rle_trans with (bp k); [lra|]. apply bpow_le. lia.
  - exists (f m). split; [now apply In_vec|exact P].
Qed.

(** IN *)
Lemma in_good f g vp vq tr : vgood f -> vgood g -> vrange vp -> vrange vq -> (forall m, (m < M)%nat -> erange (tr m)) ->
  let below := vec M (fun m2 => fdiv (g m2) (vq m2)) in
  let message := fun m => fdiv (fmul (f m) (dot (vec M (tr m)) below)) (vp m) in
  let top := match vec M message with [] => fzero | x :: l => fmax x l end in
  vgood (fun m => fdiv (message m) top).
Proof.
  intros (F1 & m0 & Hm0 & F2) (G1 & k0 & Hk0 & G2) VP VQ TR below message top.
  assert (BL : forall m, (m < M)%nat -> fin32 (fdiv (g m) (vq m)) = true /\ 0 <= val (fdiv (g m) (vq m)) <= bp (hi + 1) /\
    ((-149 <= lo - A)%Z -> bp lo <= val (g m) -> bp (lo - A) <= val (fdiv (g m) (vq m)))).
  { intros m Hm. destruct (G1 m Hm). destruct (VQ m Hm). apply div_vert; auto. lia. }
  assert (D : forall m, (m < M)%nat -> fin32 (dot (vec M (tr m)) below) = true /\ 0 <= val (dot (vec M (tr m)) below) <= bp (A + (hi + 1) + 7) /\
    bp (-8 + (lo - A)) <= val (dot (vec M (tr m)) below)).
  { intros m Hm. destruct (DOT (vec M (tr m)) below A (hi + 1)%Z 7%Z) as (D1 & D2 & D3); try lia.
    - unfold below. now rewrite !len_vec.
    - rewrite len_vec. change (2 ^ 7)%Z with 128%Z. lia.
    - apply Forall_forall. intros x I. apply vec_In in I. destruct I as (k & Hk & ->). destruct (TR m Hm k Hk) as (T1 & T2). split; [exact T1|].
      pose proof (bp_pos (-8)). lra.
    - apply Forall_forall. intros x I. apply vec_In in I. destruct I as (k & Hk & ->). destruct (BL k Hk) as (B1 & B2 & _). auto.
    - split; [exact D1|]. split; [exact D2|]. apply (D3 k0); [now rewrite len_vec|lia| |].
      + rewrite nth_vec_lt by auto. destruct (TR m Hm k0 Hk0) as (_ & T2). apply T2.
      + unfold below. rewrite nth_vec_lt by auto. destruct (BL k0 Hk0) as (_ & _ & B3). apply B3; [lia|exact G2]. }
  assert (MS : forall m, (m < M)%nat -> fin32 (message m) = true /\ 0 <= val (message m) <= bp (2 * hi + A + 9) /\
    (bp lo <= val (f m) -> bp (2 * lo - 2 * A - 8) <= val (message m))).
  { intros m Hm. destruct (F1 m Hm) as (f1 & f2). destruct (D m Hm) as (d1 & d2 & d3). destruct (VP m Hm) as (v1 & v2).
    destruct (mul_pow (f m) (dot (vec M (tr m)) below) hi (A + (hi + 1) + 7) lo (-8 + (lo - A)) f1 d1 f2 d2 ltac:(lia)) as (x1 & x2 & x3).
    destruct (div_vert (fmul (f m) (dot (vec M (tr m)) below)) (vp m) (hi + (A + (hi + 1) + 7)) (lo + (-8 + (lo - A))) x1 x2 v2 ltac:(lia)) as (y1 & y2 & y3).
    split; [exact y1|]. split; [replace (2 * hi + A + 9)%Z with (hi + (A + (hi + 1) + 7) + 1)%Z by lia; exact y2|].
    intros L. replace (2 * lo - 2 * A - 8)%Z with (lo + (-8 + (lo - A)) - A)%Z by lia. apply y3; [lia|]. apply x3; auto. lia. }
  assert (TP : (exists k, (k < M)%nat /\ top = message k) /\ forall m, (m < M)%nat -> val (message m) <= val top).
  { unfold top. destruct (vec M message) as [|x l] eqn:E; [pose proof (len_vec message) as L; rewrite E in L; cbn in L; lia|].
    destruct (fmax_spec l x) as (T1 & T2).
    - rewrite <- E. apply Forall_forall. intros z I. apply vec_In in I. destruct I as (k & Hk & ->). apply MS; auto.
    - rewrite <- E in T1, T2. split; [now apply vec_In|]. intros m Hm. apply T2. now apply In_vec. }
  destruct TP as ((kt & Hkt & ET) & TM).
  assert (PT : 0 < val top).
  { apply Rlt_le_trans with (bp (2 * lo - 2 * A - 8)); [apply bp_pos|]. apply Rle_trans with (val (message m0)); [apply (MS m0 Hm0); exact F2|]. now apply TM. }
  assert (E1 : bp 0 = 1) by reflexivity.
  assert (Q : forall m, (m < M)%nat -> fin32 (fdiv (message m) top) = true /\ 0 <= val (fdiv (message m) top) <= bp 0).
  { intros m Hm. destruct (MS m Hm) as (a1 & a2 & _). apply fdiv_bounds; auto; [apply fmt_0|apply fmtb; lia| |lra|apply bp128; lia].
    split; [apply Rmult_le_pos; [lra|left; now apply Rinv_0_lt_compat]|]. rewrite E1.
    apply Rmult_le_reg_r with (val top); [lra|]. unfold Rdiv. rewrite Rmult_assoc, Rinv_l by lra. specialize (TM m Hm). lra. }
  split.
  - intros m Hm. destruct (Q m Hm) as (a1 & a2). split; [exact a1|]. split; [lra|]. apply Rle_trans with (bp 0); [lra|]. apply bpow_le. lia.
  - exists kt. split; [exact Hkt|]. apply Rle_trans with (bp 0); [apply bpow_le; lia|]. rewrite <- ET.
    destruct (fdiv_bounds top top (bp 0) (bp 0)) as (_ & B); auto; try (apply fmtb; lia); try (apply bp128; lia); [rewrite ET; apply MS; auto| |apply bpow_ge_0|lra].
    unfold Rdiv. rewrite Rinv_r by lra. rewrite E1. lra.
Qed.

(** ROOT *)
Lemma root_usable f : vgood f -> usable (vec M f).
Proof.
  intros (F1 & m & Hm & L). apply (good_usable f hi); auto; [lia|]. exists m. split; auto. pose proof (bp_pos lo). lra.
Qed.

(** OUT *)
Lemma out_usable f vp tr : vgood f -> vrange vp -> erange tr -> usable (vec M (fun m => fdiv (fmul (f m) (tr m)) (vp m))).
Proof.
  intros (F1 & m0 & Hm0 & L) VP TR.
  assert (MS : forall m, (m < M)%nat -> fin32 (fdiv (fmul (f m) (tr m)) (vp m)) = true /\ 0 <= val (fdiv (fmul (f m) (tr m)) (vp m)) <= bp (hi + A + 1) /\
    (bp lo <= val (f m) -> bp (lo + -8 - A) <= val (fdiv (fmul (f m) (tr m)) (vp m)))).
  { intros m Hm. destruct (F1 m Hm) as (f1 & f2). destruct (TR m Hm) as (d1 & d2). destruct (VP m Hm) as (v1 & v2). pose proof (bp_pos (-8)).
    destruct (mul_pow (f m) (tr m) hi A lo (-8) f1 d1 f2 ltac:(lra) ltac:(lia)) as (x1 & x2 & x3).
    destruct (div_vert (fmul (f m) (tr m)) (vp m) (hi + A) (lo + -8) x1 x2 v2 ltac:(lia)) as (y1 & y2 & y3).
    split; [exact y1|]. split; [exact y2|]. intros L'. apply y3; [lia|]. apply x3; auto; [lia|apply d2]. }
  apply (good_usable _ (hi + A + 1)); [lia| |].
  - intros m Hm. destruct (MS m Hm) as (a & b & _). auto.
  - exists m0. split; [exact Hm0|]. apply Rlt_le_trans with (bp (lo + -8 - A)); [apply bp_pos|]. now apply (MS m0 Hm0).
Qed.
End INSTR.
