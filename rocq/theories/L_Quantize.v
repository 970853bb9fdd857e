(** quantize_from_probs2 is exact in total and L1-optimal. *)
From Coq Require Import List Arith Lia ZArith Reals Lra.
From Verif Require Import Base L_Base Spec_Sum L_Sum M_Util.
Import ListNotations.
Open Scope R_scope.

Lemma argmax_from_spec : forall l best ib i, exists v,
  (forall x, In x (best :: l) -> x <= v) /\
  ((argmax_from best ib i l = ib /\ v = best) \/
   exists j, argmax_from best ib i l = (i + j)%nat /\ nth_error l j = Some v).
Proof.
  induction l as [|x l IH]; intros best ib i.
  - exists best. split. intros y [<-|[]]; lra. left. auto.
  - simpl argmax_from. destruct (Rlt_dec best x).
    + destruct (IH x i (S i)) as (v & M & C). exists v. split.
      * intros y [<-|I]; [|auto]. specialize (M x (or_introl eq_refl)). lra.
      * right. destruct C as [[E ->]|(j & E & N)].
        -- exists 0%nat. split; [rewrite E; lia|reflexivity].
        -- exists (S j). split; [rewrite E; lia|exact N].
    + destruct (IH best ib (S i)) as (v & M & C). exists v. split.
      * intros y [<-|[<-|I]]; [apply M; now left| |apply M; now right]. specialize (M best (or_introl eq_refl)). lra.
      * destruct C as [[E ->]|(j & E & N)]; [left; auto|right]. exists (S j). split; [rewrite E; lia|exact N].
Qed.

Lemma argmax_spec : forall l, l <> [] -> exists i, argmax l = Ok i /\ (i < length l)%nat /\
  forall j, (j < length l)%nat -> nth j l 0 <= nth i l 0.
Proof.
  intros [|x l] NE; [congruence|]. destruct (argmax_from_spec l x 0%nat 1%nat) as (v & M & C).
  exists (argmax_from x 0 1 l). split; auto.
  assert (N : nth_error (x :: l) (argmax_from x 0 1 l) = Some v).
  { destruct C as [[-> ->]|(j & -> & N)]; auto. }
  assert (L : (argmax_from x 0 1 l < length (x :: l))%nat) by (apply nth_error_Some; congruence).
  split; auto. intros j LJ. rewrite (nth_error_nth _ _ 0 N). apply M. now apply nth_In.
Qed.

Lemma nth_map_lt : forall A B (f : A -> B) l i d d', (i < length l)%nat -> nth i (map f l) d' = f (nth i l d).
Proof. intros. rewrite (nth_indep _ d' (f d)) by (rewrite map_length; auto). apply map_nth. Qed.

Definition zs (c : list Z) : Z := zsum c.

Lemma zsum_upd : forall c i x, (i < length c)%nat -> zsum (upd c i x) = (zsum c - nth i c 0 + x)%Z.
Proof. induction c; intros [|i] x H; simpl in *; try lia. rewrite IHc; lia. Qed.

Lemma zsum_nonneg : forall c, (forall x, In x c -> (0 <= x)%Z) -> (0 <= zsum c)%Z.
Proof. induction c; simpl; intros. lia. pose proof (H a (or_introl eq_refl)). pose proof (IHc (fun x I => H x (or_intror I))). lia. Qed.

Lemma zsum_le : forall c i, (forall x, In x c -> (0 <= x)%Z) -> (i < length c)%nat -> (nth i c 0 <= zsum c)%Z.
Proof.
  induction c; intros [|i] NN H; simpl in *; try lia.
  - pose proof (zsum_nonneg c (fun x I => NN x (or_intror I))). lia.
  - pose proof (NN a (or_introl eq_refl)). pose proof (IHc i (fun x I => NN x (or_intror I)) ltac:(lia)). lia.
Qed.

Lemma int8_id : forall z, (-128 <= z < 128)%Z -> int8 z = z.
Proof. intros. unfold int8. rewrite Z.mod_small by lia. lia. Qed.

(** difference between target and count *)
Definition df (t : list R) (c : list Z) (i : nat) : R := nth i t 0 - IZR (nth i c 0%Z).

Lemma sum_df : forall t c, length t = length c -> sumf (seq 0 (length t)) (df t c) = rsum t - IZR (zsum c).
Proof.
  intros t c L. unfold df. rewrite sumf_minus, sumf_seq_nth. f_equal. rewrite L. clear L.
  induction c. reflexivity. simpl length. simpl seq. rewrite sumf_cons, <- seq_shift, sumf_map.
  simpl zsum. rewrite plus_IZR, <- IHc. reflexivity.
Qed.

Lemma nth_upd : forall A (l : list A) i j x d, (i < length l)%nat -> nth j (upd l i x) d = if Nat.eq_dec i j then x else nth j l d.
Proof. intros. destruct (Nat.eq_dec i j) as [<-|N]. now apply nth_upd_same. now apply nth_upd_other. Qed.

Section Loop.
Variables (resolution : nat) (t : list R).
Hypothesis RP : (0 < resolution <= 127)%nat.
Hypothesis TN : forall x, In x t -> 0 <= x.
Hypothesis TS : rsum t = INR resolution.

Notation M := (length t).

Record inv (k : nat) (probs : list R) (c : list Z) : Prop := {
  i_lp : length probs = M; i_lc : length c = M;
  i_p : forall i, (i < M)%nat -> nth i probs 0 = df t c i / INR resolution;
  i_nn : forall x, In x c -> (0 <= x)%Z;
  i_sum : zsum c = (Z.of_nat resolution - Z.of_nat k)%Z;
  i_up : forall i, (i < M)%nat -> -1 < df t c i;
  i_ex : forall i j, (i < M)%nat -> (j < M)%nat -> (0 < nth j c 0)%Z -> df t c i <= df t c j + 1
}.

Lemma IRP : 0 < INR resolution.
Proof. apply lt_0_INR. lia. Qed.

Lemma M_pos : (0 < M)%nat.
Proof.
  pose proof IRP. destruct t; simpl; [|lia]. unfold rsum, sumf in TS. simpl in TS. lra.
Qed.

Lemma exists_pos : forall (f : nat -> R) n, 0 < sumf (seq 0 n) f -> exists i, (i < n)%nat /\ 0 < f i.
Proof.
  intros f n H. destruct (List.Exists_dec (fun i => 0 < f i) (seq 0 n)) as [E|E].
  - intros x. apply Rlt_dec.
  - apply Exists_exists in E. destruct E as (i & I & P). apply in_seq in I. exists i. split; auto. lia.
  - exfalso. assert (sumf (seq 0 n) f <= sumf (seq 0 n) (fun _ => 0)).
    { apply sumf_le. intros x I. destruct (Rle_dec (f x) 0); auto. exfalso. apply E. apply Exists_exists. exists x. split; auto. lra. }
    rewrite (sumf_zero _ (fun _ => 0)) in H0 by auto. lra.
Qed.

Lemma exists_neg : forall (f : nat -> R) n, sumf (seq 0 n) f < 0 -> exists i, (i < n)%nat /\ f i < 0.
Proof.
  intros f n H. destruct (exists_pos (fun i => -1 * f i) n) as (i & L & P).
  - rewrite sumf_scal. lra.
  - exists i. split; auto. lra.
Qed.

Lemma loop_Ok : forall k probs c, (k <= resolution)%nat -> inv k probs c ->
  exists c', quantize_loop k resolution probs c = Ok c' /\ exists probs', inv 0 probs' c'.
Proof.
  induction k; intros probs c LK I.
  - exists c. split; auto. exists probs. auto.
  - cbn [quantize_loop]. destruct I as [LP LC IP NN SUM UP EX]. pose proof M_pos as MP. pose proof IRP as RR.
    destruct (argmax_spec probs) as (s & ES & LS & MAX). { destruct probs; [simpl in LP; lia|discriminate]. }
    rewrite LP in *. rewrite ES. cbn [bind]. rewrite (get_Ok _ _ _ _ 0%Z) by lia. cbn [bind].
    rewrite put_Ok by lia. cbn [bind]. rewrite (get_Ok _ _ _ _ 0) by lia. cbn [bind]. rewrite put_Ok by lia. cbn [bind].
    assert (DM : forall j, (j < M)%nat -> df t c j <= df t c s).
    { intros j LJ. pose proof (MAX j LJ) as X. rewrite !IP in X by auto.
      apply (Rmult_le_compat_r (INR resolution)) in X; [|lra]. unfold Rdiv in X. rewrite !Rmult_assoc, Rinv_l in X by lra. lra. }
    assert (POS : 0 < df t c s).
    { destruct (exists_pos (df t c) M) as (i & LI & P).
      - rewrite sum_df by (symmetry; auto). rewrite TS, SUM, minus_IZR, <- !INR_IZR_INZ, S_INR.
        pose proof (pos_INR k). lra.
      - specialize (DM i LI). lra. }
    assert (C0 : (0 <= nth s c 0)%Z) by (apply NN, nth_In; lia).
    assert (C1 : (nth s c 0 <= zsum c)%Z) by (apply zsum_le; auto; lia).
    rewrite int8_id by lia.
    assert (DF : forall j, df t (upd c s (nth s c 0 + 1)%Z) j = if Nat.eq_dec s j then df t c j - 1 else df t c j).
    { intros j. unfold df. rewrite nth_upd by lia. destruct (Nat.eq_dec s j) as [<-|]; auto. rewrite plus_IZR. lra. }
    apply IHk; [lia|]. constructor; rewrite ?upd_length; auto.
    + intros i LI. rewrite nth_upd by lia. rewrite DF. destruct (Nat.eq_dec s i) as [<-|]; [|auto]. rewrite IP by auto. field. lra.
    + intros x I. apply In_nth_error in I. destruct I as [j E].
      assert (LJ : (j < length (upd c s (nth s c 0 + 1)%Z))%nat) by (apply nth_error_Some; congruence). rewrite upd_length in LJ.
      apply (nth_error_nth _ _ 0%Z) in E. subst x. rewrite nth_upd by lia. destruct (Nat.eq_dec s j). lia. apply NN, nth_In. lia.
    + rewrite zsum_upd by lia. lia.
    + intros i LI. rewrite DF. destruct (Nat.eq_dec s i) as [<-|]; auto. lra.
    + intros i j LI LJ. rewrite !DF, nth_upd by lia. intros P. destruct (Nat.eq_dec s j) as [<-|].
      * pose proof (DM i LI). destruct (Nat.eq_dec s i); lra.
      * pose proof (EX i j LI LJ P). destruct (Nat.eq_dec s i); lra.
Qed.

Lemma init_inv : forall probs, length probs = M -> (forall i, (i < M)%nat -> nth i probs 0 = nth i t 0 / INR resolution) ->
  inv resolution probs (repeat 0%Z M).
Proof.
  intros probs L E.
  assert (N0 : forall i, nth i (repeat 0%Z M) 0%Z = 0%Z) by (intros; apply nth_repeat).
  assert (D0 : forall i, df t (repeat 0%Z M) i = nth i t 0) by (intros; unfold df; rewrite N0; lra).
  constructor; auto.
  - apply repeat_length.
  - intros i LI. rewrite D0. auto.
  - intros x I. apply repeat_spec in I. lia.
  - assert (Z0 : forall n, zsum (repeat 0%Z n) = 0%Z) by (induction n; simpl; lia). rewrite Z0. lia.
  - intros i LI. rewrite D0. pose proof (TN (nth i t 0) (nth_In t 0 LI)). lra.
  - intros i j _ _ X. rewrite N0 in X. lia.
Qed.

Lemma final : forall probs c, inv 0 probs c ->
  (forall i, (i < M)%nat -> -1 < df t c i < 1) /\
  (forall i j, (i < M)%nat -> (j < M)%nat -> df t c i <= df t c j + 1).
Proof.
  intros probs c [LP LC IP NN SUM UP EX].
  assert (S0 : sumf (seq 0 M) (df t c) = 0).
  { rewrite sum_df by (symmetry; auto). rewrite TS, SUM, minus_IZR, <- !INR_IZR_INZ. simpl. lra. }
  assert (LO : forall i, (i < M)%nat -> df t c i < 1).
  { intros i LI. destruct (Rlt_dec (df t c i) 1); auto. exfalso.
    destruct (exists_neg (fun k => if Nat.eq_dec i k then 0 else df t c k) M) as (j & LJ & NJ).
    - assert (Q : sumf (seq 0 M) (fun k => if Nat.eq_dec i k then 0 else df t c k) = sumf (seq 0 M) (df t c) - df t c i).
      { destruct (in_split i (seq 0 M)) as (a & b & E). apply in_seq; lia.
        assert (ND : ~ In i (a ++ b)). { apply NoDup_remove_2. rewrite <- E. apply seq_NoDup. }
        rewrite E, !sumf_app, !sumf_cons. destruct (Nat.eq_dec i i); [|congruence].
        rewrite (sumf_ext a _ (df t c)), (sumf_ext b _ (df t c)). lra.
        - intros x I. destruct (Nat.eq_dec i x); auto. subst. exfalso. apply ND. apply in_or_app; auto.
        - intros x I. destruct (Nat.eq_dec i x); auto. subst. exfalso. apply ND. apply in_or_app; auto. }
      rewrite Q, S0. lra.
    - destruct (Nat.eq_dec i j); [lra|].
      assert (PC : (0 < nth j c 0)%Z).
      { unfold df in NJ. pose proof (TN (nth j t 0) (nth_In t 0 LJ)). apply lt_IZR. lra. }
      pose proof (EX i j LI LJ PC). lra. }
  split. { intros; split; auto. }
  intros i j LI LJ. destruct (Z_lt_le_dec 0 (nth j c 0%Z)) as [P|P].
  - auto.
  - assert (nth j c 0 = 0)%Z. { assert (LJ2 : (j < length c)%nat) by lia. pose proof (NN _ (nth_In c 0%Z LJ2)). lia. }
    pose proof (LO i LI). assert (0 <= df t c j). { unfold df. rewrite H. pose proof (TN (nth j t 0) (nth_In t 0 LJ)). lra. } lra.
Qed.

Lemma exists_max : forall (f : nat -> R) n, (0 < n)%nat -> exists i, (i < n)%nat /\ forall j, (j < n)%nat -> f j <= f i.
Proof.
  induction n; intros H; [lia|]. destruct n.
  - exists 0%nat. split; auto. intros j LJ. replace j with 0%nat by lia. lra.
  - destruct IHn as (i & LI & MX); [lia|]. destruct (Rle_dec (f i) (f (S n))).
    + exists (S n). split; [lia|]. intros j LJ. destruct (Nat.eq_dec j (S n)) as [->|]; [lra|]. specialize (MX j ltac:(lia)). lra.
    + exists i. split; [lia|]. intros j LJ. destruct (Nat.eq_dec j (S n)) as [->|]; [lra|]. apply MX. lia.
Qed.

(** one-coordinate optimality *)
Lemma step_cost : forall d l (k : Z), -1 < d < 1 -> 0 <= l < 1 -> d <= l -> l <= d + 1 ->
  Rabs d + IZR k * (1 - 2 * l) <= Rabs (d - IZR k).
Proof.
  intros d l k D L1 L2 L3. destruct (Z.lt_trichotomy k 0) as [N|[->|P]].
  - assert (K : IZR k <= -1) by (apply IZR_le; lia). rewrite (Rabs_right (d - IZR k)) by lra.
    unfold Rabs. destruct (Rcase_abs d); nra.
  - rewrite Rminus_0_r. lra.
  - assert (K : 1 <= IZR k) by (apply IZR_le; lia). rewrite (Rabs_left1 (d - IZR k)) by lra.
    unfold Rabs. destruct (Rcase_abs d); nra.
Qed.

Lemma optimal : forall probs c z, inv 0 probs c -> length z = M -> zsum z = Z.of_nat resolution ->
  sumf (seq 0 M) (fun i => Rabs (nth i t 0 - IZR (nth i c 0%Z))) <= sumf (seq 0 M) (fun i => Rabs (nth i t 0 - IZR (nth i z 0%Z))).
Proof.
  intros probs c z I LZ SZ. pose proof (final _ _ I) as [B1 B2]. destruct I as [LP LC IP NN SUM UP EX].
  destruct (exists_max (df t c) M M_pos) as (m & LM & MX). set (l := df t c m) in *.
  assert (L0 : 0 <= l).
  { destruct (Rle_dec 0 l); auto. exfalso.
    assert (S0 : sumf (seq 0 M) (df t c) = 0).
    { rewrite sum_df by (symmetry; auto). rewrite TS, SUM, minus_IZR, <- !INR_IZR_INZ. simpl. lra. }
    assert (sumf (seq 0 M) (df t c) <= sumf (seq 0 M) (fun _ => l)).
    { apply sumf_le. intros x Ix. apply in_seq in Ix. apply MX. lia. }
    rewrite sumf_const, seq_length in H. pose proof M_pos. assert (1 <= INR M) by (apply (le_INR 1); lia). nra. }
  assert (SK : sumf (seq 0 M) (fun i => IZR (nth i z 0%Z) - IZR (nth i c 0%Z)) = 0).
  { pose proof (sum_df t z ltac:(symmetry; exact LZ)) as S1. pose proof (sum_df t c ltac:(symmetry; exact LC)) as S2.
    fold M in S1, S2. rewrite SZ in S1. rewrite SUM in S2. simpl Z.of_nat in S2. rewrite Z.sub_0_r in S2.
    rewrite (sumf_ext _ _ (fun i => df t c i - df t z i)) by (intros; unfold df; lra). rewrite sumf_minus, S1, S2. lra. }
  apply Rle_trans with (sumf (seq 0 M) (fun i => Rabs (df t c i) + (IZR (nth i z 0%Z) - IZR (nth i c 0%Z)) * (1 - 2 * l))).
  - rewrite sumf_plus, sumf_scal_r, SK. unfold df. lra.
  - apply sumf_le. intros i Ii. apply in_seq in Ii. assert (LI : (i < M)%nat) by lia.
    pose proof (step_cost (df t c i) l (nth i z 0 - nth i c 0)%Z) as SC. rewrite minus_IZR in SC.
    replace (nth i t 0 - IZR (nth i z 0%Z)) with (df t c i - (IZR (nth i z 0%Z) - IZR (nth i c 0%Z))) by (unfold df; lra).
    apply SC; auto. { pose proof (B1 m LM). fold l in H. lra. } apply B2; auto.
Qed.
End Loop.

Lemma quantize_row_Ok : forall resolution row, (resolution <= 127)%nat -> (forall x, In x row -> 0 <= x) -> 0 < rsum row ->
  exists c, quantize_row resolution row = Ok c /\ length c = length row /\
    (forall x, In x c -> (0 <= x)%Z) /\ zsum c = Z.of_nat resolution /\
    let target i := nth i row 0 * INR resolution / rsum row in
    (forall i, (i < length row)%nat -> Rabs (IZR (nth i c 0%Z) - target i) < 1) /\
    forall z, length z = length row -> zsum z = Z.of_nat resolution ->
      sumf (seq 0 (length row)) (fun i => Rabs (IZR (nth i c 0%Z) - target i)) <=
      sumf (seq 0 (length row)) (fun i => Rabs (IZR (nth i z 0%Z) - target i)).
Proof.
  intros resolution row RB NN P. unfold quantize_row.
  destruct resolution as [|n].
  - exists (repeat 0%Z (length row)). cbn [quantize_loop]. split; auto. split; [apply repeat_length|].
    split; [intros x I; apply repeat_spec in I; lia|].
    split; [induction (length row); simpl; auto; lia|]. simpl.
    assert (T : forall i, Rabs (IZR (nth i (repeat 0%Z (length row)) 0%Z) - nth i row 0 * 0 / rsum row) = 0).
    { intros. rewrite nth_repeat. unfold Rdiv. rewrite Rmult_0_r, Rmult_0_l, Rminus_0_r. apply Rabs_R0. }
    split. intros i _. rewrite T. lra. intros z _ _. apply sumf_le. intros i _. rewrite T. apply Rabs_pos.
  - set (r := S n) in *. set (t := map (fun x => x * INR r / rsum row) row).
    assert (RP : (0 < r <= 127)%nat) by (unfold r in *; lia).
    assert (RR : 0 < INR r) by (apply lt_0_INR; lia).
    assert (LT : length t = length row) by (unfold t; apply map_length).
    assert (NT : forall i, nth i t 0 = nth i row 0 * INR r / rsum row).
    { intros. unfold t. destruct (lt_dec i (length row)).
      - now rewrite (nth_map_lt _ _ (fun x => x * INR r / rsum row) row i 0 0).
      - rewrite !nth_overflow; rewrite ?map_length; try lia. unfold Rdiv. lra. }
    assert (TN : forall x, In x t -> 0 <= x).
    { intros x I. apply in_map_iff in I. destruct I as (y & <- & I). apply NN in I.
      assert (0 < / rsum row) by now apply Rinv_0_lt_compat. unfold Rdiv. apply Rmult_le_pos; [|lra]. apply Rmult_le_pos; lra. }
    assert (TS : rsum t = INR r).
    { unfold rsum, t. rewrite sumf_map. rewrite sumf_div, sumf_scal_r. fold (rsum row). field. lra. }
    destruct (loop_Ok r t RP TN TS r (map (fun x => x / rsum row) row) (repeat 0%Z (length row)) (le_n _)) as (c & E & probs' & I).
    { rewrite <- LT. apply init_inv; auto.
      - rewrite map_length. auto.
      - intros i LI. rewrite NT. rewrite LT in LI.
        rewrite (nth_map_lt _ _ (fun x => x / rsum row) row i 0 0) by auto. field. lra. }
    exists c. split; auto. pose proof (final r t RP TN TS _ _ I) as [B1 B2]. pose proof (fun z => optimal r t RP TN TS probs' c z I) as OPT.
    pose proof I as [LP LC IP NNc SUM UP EX]. rewrite <- LT. split; auto. split; auto. split; [rewrite SUM; simpl; lia|].
    cbv zeta. split.
    + intros i LI. specialize (B1 i LI). unfold df in B1. rewrite NT in B1. apply Rabs_def1; lra.
    + intros z LZ SZ. specialize (OPT z LZ SZ).
      rewrite (sumf_ext _ _ (fun i => Rabs (nth i t 0 - IZR (nth i c 0%Z)))) by (intros; rewrite NT; apply Rabs_minus_sym).
      rewrite (sumf_ext _ (fun i => Rabs (IZR (nth i z 0%Z) - _)) (fun i => Rabs (nth i t 0 - IZR (nth i z 0%Z)))) by (intros; rewrite NT; apply Rabs_minus_sym).
      exact OPT.
Qed.

Definition good_quant (resolution : nat) (row : list R) (c : list Z) : Prop :=
  length c = length row /\
    (forall x, In x c -> (0 <= x)%Z) /\ zsum c = Z.of_nat resolution /\
    let target i := nth i row 0 * INR resolution / rsum row in
    (forall i, (i < length row)%nat -> Rabs (IZR (nth i c 0%Z) - target i) < 1) /\
    forall z, length z = length row -> zsum z = Z.of_nat resolution ->
      sumf (seq 0 (length row)) (fun i => Rabs (IZR (nth i c 0%Z) - target i)) <=
      sumf (seq 0 (length row)) (fun i => Rabs (IZR (nth i z 0%Z) - target i)).

Lemma quantize_Ok : forall resolution rows, (resolution <= 127)%nat ->
  (forall row, In row rows -> (forall x, In x row -> 0 <= x) /\ 0 < rsum row) ->
  exists out, quantize_from_probs2 rows resolution = Ok out /\ Forall2 (good_quant resolution) rows out.
Proof.
  intros resolution rows RB. unfold quantize_from_probs2. induction rows as [|row rows IH]; intros H.
  - exists []. split; auto.
  - destruct (H row) as [NN P]; [now left|]. destruct (quantize_row_Ok resolution row RB NN P) as (c & E & G).
    destruct IH as (out & EO & F). { intros; apply H; now right. }
    exists (c :: out). simpl. rewrite E. cbn [bind]. rewrite EO. cbn [bind]. split; auto.
Qed.
