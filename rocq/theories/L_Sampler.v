(** sample_from_probs draws index i for an interval of u of length w_i / sum. *)
From Coq Require Import List Arith Lia Reals Lra.
From Verif Require Import Base L_Base Spec_Sum L_Sum M_Rand.
Import ListNotations.
Open Scope R_scope.

Lemma rsum_cons : forall x w, rsum (x :: w) = x + rsum w.
Proof. reflexivity. Qed.
Lemma rsum_app : forall a b, rsum (a ++ b) = rsum a + rsum b.
Proof. intros. apply sumf_app. Qed.

(** [first_above] finds the first partial sum above [t] *)
Lemma first_above_spec : forall w t acc k, (forall x, In x w -> 0 <= x) -> acc <= t -> t < acc + rsum w ->
  exists i, first_above t acc w k = Some (k + i)%nat /\ (i < length w)%nat /\
    acc + rsum (firstn i w) <= t < acc + rsum (firstn (S i) w).
Proof.
  induction w as [|x w IH]; intros t acc k NN L U.
  - unfold rsum, sumf in U. simpl in U. lra.
  - simpl first_above. destruct (Rlt_dec t (acc + x)).
    + exists 0%nat. split. f_equal; lia. split. simpl; lia. unfold rsum, sumf; simpl. lra.
    + rewrite rsum_cons in U. destruct (IH t (acc + x) (S k)) as (i & E & LI & B).
      * intros; apply NN; now right.
      * lra.
      * lra.
      * exists (S i). split. rewrite E. f_equal. lia. split. simpl; lia.
        change (firstn (S i) (x :: w)) with (x :: firstn i w).
        change (firstn (S (S i)) (x :: w)) with (x :: firstn (S i) w). rewrite !rsum_cons. lra.
Qed.

Lemma rsum_firstn_S : forall w i, (i < length w)%nat -> rsum (firstn (S i) w) = rsum (firstn i w) + nth i w 0.
Proof.
  induction w; intros [|i] H; simpl in H; try lia.
  - unfold rsum, sumf; simpl. lra.
  - change (firstn (S (S i)) (a :: w)) with (a :: firstn (S i) w).
    change (firstn (S i) (a :: w)) with (a :: firstn i w). rewrite !rsum_cons, IHw by lia. simpl nth. lra.
Qed.

Lemma rsum_firstn_mono : forall w i j, (forall x, In x w -> 0 <= x) -> (i <= j)%nat -> rsum (firstn i w) <= rsum (firstn j w).
Proof.
  intros w i j NN H. induction H. lra.
  destruct (le_lt_dec (length w) m) as [L|L].
  - rewrite (firstn_all2 w (n := S m)) by lia. rewrite (firstn_all2 w (n := m)) in IHle by lia. auto.
  - rewrite rsum_firstn_S by auto. pose proof (NN (nth m w 0) (nth_In w 0 L)). lra.
Qed.

Lemma sample_spec : forall w u, (forall x, In x w -> 0 <= x) -> 0 < rsum w -> 0 <= u < 1 ->
  exists i, sample_from_probs u w = Ok i /\ (i < length w)%nat /\ 0 < nth i w 0 /\
  forall j, (j < length w)%nat ->
    (j = i <-> rsum (firstn j w) / rsum w <= u < rsum (firstn j w) / rsum w + nth j w 0 / rsum w).
Proof.
  intros w u NN P U.
  destruct (first_above_spec w (u * rsum w) 0 0 NN) as (i & E & LI & B).
  - nra.
  - nra.
  - exists i. split. { unfold sample_from_probs. destruct w; [unfold rsum, sumf in P; simpl in P; lra|]. now rewrite E. }
    split; auto. rewrite (rsum_firstn_S w i LI) in B. split; [lra|].
    intros j LJ.
    assert (Q : rsum (firstn j w) / rsum w <= u < rsum (firstn j w) / rsum w + nth j w 0 / rsum w <->
                rsum (firstn j w) <= u * rsum w < rsum (firstn (S j) w)).
    { rewrite (rsum_firstn_S w j LJ). replace (rsum (firstn j w) / rsum w + nth j w 0 / rsum w)
        with ((rsum (firstn j w) + nth j w 0) / rsum w) by (field; lra).
      assert (IP : 0 < / rsum w) by now apply Rinv_0_lt_compat. assert (IM : rsum w * / rsum w = 1) by (field; lra).
      assert (G : forall a, a / rsum w * rsum w = a) by (intros; field; lra).
      split; intros [X Y]; split.
      - apply (Rmult_le_compat_r (rsum w)) in X; [|lra]. now rewrite G in X.
      - apply (Rmult_lt_compat_r (rsum w)) in Y; [|lra]. now rewrite G in Y.
      - apply (Rmult_le_reg_r (rsum w)); auto. now rewrite G.
      - apply (Rmult_lt_reg_r (rsum w)); auto. now rewrite G. }
    rewrite Q. rewrite <- (rsum_firstn_S w i LI) in B. split.
    + intros ->. lra.
    + intros C. destruct (lt_eq_lt_dec i j) as [[L|L]|L]; auto; exfalso.
      * pose proof (rsum_firstn_mono w (S i) j NN L). lra.
      * pose proof (rsum_firstn_mono w (S j) i NN L). lra.
Qed.

Lemma sample2_spec : forall rows us, length us = length rows ->
  (forall w, In w rows -> (forall x, In x w -> 0 <= x) /\ 0 < rsum w) -> (forall u, In u us -> 0 <= u < 1) ->
  exists out, sample_from_probs2 us rows = Ok out /\ length out = length rows /\
    forall n u w i, nth_error us n = Some u -> nth_error rows n = Some w -> nth_error out n = Some i ->
      sample_from_probs u w = Ok i.
Proof.
  induction rows as [|w rows IH]; intros [|u us] L H U; try discriminate.
  - exists []. split; auto. split; auto. intros [|n] ? ? ?; discriminate.
  - destruct (H w) as [NN P]; [now left|]. destruct (sample_spec w u NN P (U u (or_introl eq_refl))) as (i & E & _).
    destruct (IH us) as (out & EO & LO & HO). { simpl in L. lia. } { intros; apply H; now right. } { intros; apply U; now right. }
    exists (i :: out). unfold sample_from_probs2 in *. simpl combine. cbn [mapM]. rewrite E. cbn [bind]. rewrite EO. cbn [bind].
    split; auto. split; [simpl; lia|]. intros [|n] u0 w0 i0 A B C; simpl in A, B, C.
    + inversion A; inversion B; inversion C; subst; auto.
    + eapply HO; eauto.
Qed.

(** For every weights and [u], the outcome is one the model allows. *)
Lemma first_above_pos : forall w t acc k i, acc <= t -> first_above t acc w k = Some i ->
  (k <= i < k + length w)%nat /\ 0 < nth (i - k) w 0.
Proof.
  induction w as [|x w IH]; intros t acc k i L E; [discriminate|]. cbn [first_above] in E.
  destruct (Rlt_dec t (acc + x)) as [H|H].
  - inversion E; subst. split; [cbn; lia|]. rewrite Nat.sub_diag. cbn. lra.
  - destruct (IH t (acc + x) (S k) i) as (A & B); [lra|exact E|]. split; [cbn; lia|].
    replace (i - k)%nat with (S (i - S k)) by lia. exact B.
Qed.

Lemma first_above_any : forall w t acc k i, first_above t acc w k = Some i ->
  (k <= i < k + length w)%nat /\ (i = k \/ 0 < nth (i - k) w 0).
Proof.
  intros [|x w] t acc k i E; [discriminate|]. cbn [first_above] in E.
  destruct (Rlt_dec t (acc + x)) as [H|H].
  - inversion E; subst. split; [cbn; lia|]. now left.
  - destruct (first_above_pos w t (acc + x) (S k) i) as (A & B); [lra|exact E|]. split; [cbn; lia|]. right.
    replace (i - k)%nat with (S (i - S k)) by lia. exact B.
Qed.

Lemma classic_dec w : ((forall x, In x w -> 0 <= x) /\ 0 < rsum w) \/ ~ ((forall x, In x w -> 0 <= x) /\ 0 < rsum w).
Proof.
  destruct (Rlt_dec 0 (rsum w)) as [P|P]; [|right; tauto].
  assert (D : (forall x, In x w -> 0 <= x) \/ ~ (forall x, In x w -> 0 <= x)).
  { clear. induction w as [|x w [IH|IH]]; [left; intros y []| |right; intros H; apply IH; intros; apply H; now right].
    destruct (Rle_dec 0 x); [left; intros y [->|Hy]; auto|right; intros H; apply n, H; now left]. }
  tauto.
Qed.

Lemma sample_outcome : forall w u, w <> [] -> 0 <= u < 1 ->
  exists i, sample_from_probs u w = Ok i /\ cat_outcome w i.
Proof.
  intros w u NE U. destruct (classic_dec w) as [(NN & P)|N].
  - destruct (sample_spec w u NN P U) as (i & E & L & Q & _). exists i. split; [exact E|]. split; auto.
  - unfold sample_from_probs. destruct w as [|x w]; [congruence|]. eexists. split; [reflexivity|].
    destruct (first_above _ _ _ _) as [i|] eqn:E.
    + destruct (first_above_any _ _ _ _ _ E) as (A & B). split; [cbn in *; lia|].
      destruct B as [->|B]; [right; auto|]. left. now rewrite Nat.sub_0_r in B.
    + split; [cbn; lia|]. right. auto.
Qed.
