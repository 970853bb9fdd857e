(** Entropy and mutual information of finite distributions. *)
From Coq Require Import List Arith Lia Bool ZArith Reals Lra.
From Verif Require Import Base L_Base Spec_Sum L_Sum M_Util M_Array M_Training Spec_Stats L_Train M_Serving.
Import ListNotations.
Open Scope R_scope.

Definition plp (x : R) : R := - (x * ln x).

Lemma entr_plp x : entr x = plp x.
Proof. unfold entr, plp. destruct (Req_EM_T x 0) as [-> |]; [ring|reflexivity]. Qed.

Lemma entropy_one pk : rsum pk = 1 -> entropy pk = sumf pk plp.
Proof. intros E. unfold entropy. rewrite sumf_map, E. apply sumf_ext. intros x _. rewrite entr_plp. f_equal. field. Qed.

Lemma ln_le_sub x : 0 < x -> ln x <= x - 1.
Proof.
  intros H. assert (E : exp (ln x) = x) by now apply exp_ln. pose proof (exp_ineq1_le (ln x)). lra.
Qed.

Lemma ln_mono x y : 0 < x -> x <= y -> ln x <= ln y.
Proof. intros H [L | ->]; [left; now apply ln_increasing|right; reflexivity]. Qed.

Lemma plp_bounds x : 0 <= x <= 1 -> 0 <= plp x.
Proof.
  intros (A & B). unfold plp. destruct (Req_dec x 0) as [-> | N]; [lra|].
  assert (ln x <= 0) by (pose proof (ln_le_sub x); lra). nra.
Qed.

(** ln x >= - (1/x - 1) in the form used below *)
Lemma gibbs_term p q : 0 <= p -> 0 < q -> p - q <= p * ln (p / q).
Proof.
  intros Hp Hq. destruct (Req_dec p 0) as [-> | N]; [rewrite Rmult_0_l; lra|].
  assert (0 < p) by lra. replace (p / q) with (/ (q / p)) by (field; lra). rewrite ln_Rinv by (apply Rdiv_lt_0_compat; lra).
  pose proof (ln_le_sub (q / p) ltac:(apply Rdiv_lt_0_compat; lra)) as L.
  apply Rmult_le_compat_l with (r := p) in L; [|lra]. replace (p * (q / p - 1)) with (q - p) in L by (field; lra). lra.
Qed.

Lemma entropy_bounds (l : list R) : (forall x, In x l -> 0 <= x) -> sumf l (fun x => x) = 1 ->
  0 <= sumf l plp <= ln (INR (length l)).
Proof.
  intros NN ONE. split.
  - apply sumf_nonneg. intros x I. apply plp_bounds. split; [auto|]. rewrite <- ONE. apply (sumf_member_le l (fun x => x)); auto.
  - assert (LP : (0 < length l)%nat). { destruct l; [rewrite sumf_nil in ONE; lra|simpl; lia]. }
    pose proof (lt_0_INR _ LP) as NP. set (n := INR (length l)) in *.
    assert (H : sumf l (fun x => plp x) <= sumf l (fun x => x * ln n + (/ n - x))).
    { apply sumf_le. intros x I. pose proof (gibbs_term x (/ n) (NN x I) (Rinv_0_lt_compat _ NP)) as G.
      destruct (Req_dec x 0) as [-> | N]; [unfold plp; rewrite !Rmult_0_l; pose proof (Rinv_0_lt_compat _ NP); lra|].
      assert (0 < x) by (pose proof (NN x I); lra). unfold plp. unfold Rdiv in G. rewrite Rinv_inv in G. rewrite ln_mult in G by auto. lra. }
    eapply Rle_trans; [exact H|]. rewrite sumf_plus, sumf_scal_r, sumf_minus, sumf_const, ONE. fold n. right. field. lra.
Qed.

Section MI.
Variables (M : nat) (J : nat -> nat -> R).
Hypothesis NN : forall i j, (i < M)%nat -> (j < M)%nat -> 0 <= J i j.
Hypothesis ONE : sumf (seq 0 M) (fun i => sumf (seq 0 M) (J i)) = 1.
Let S1 i := sumf (seq 0 M) (J i).
Let S2 j := sumf (seq 0 M) (fun i => J i j).

Definition minfo : R := sumf (seq 0 M) (fun i => sumf (seq 0 M) (fun j => J i j * ln (J i j / (S1 i * S2 j)))).

Lemma le1 i j : (i < M)%nat -> (j < M)%nat -> J i j <= S1 i.
Proof. intros Hi Hj. apply (sumf_member_le (seq 0 M) (J i)); [|apply in_seq; lia]. intros y I. apply in_seq in I. apply NN; lia. Qed.
Lemma le2 i j : (i < M)%nat -> (j < M)%nat -> J i j <= S2 j.
Proof. intros Hi Hj. apply (sumf_member_le (seq 0 M) (fun i => J i j)); [|apply in_seq; lia]. intros y I. apply in_seq in I. apply NN; lia. Qed.

Lemma minfo_entropies : sumf (seq 0 M) (fun j => plp (S2 j)) + sumf (seq 0 M) (fun i => plp (S1 i)) -
  sumf (seq 0 M) (fun i => sumf (seq 0 M) (fun j => plp (J i j))) = minfo.
Proof.
  unfold minfo.
  assert (E1 : sumf (seq 0 M) (fun i => plp (S1 i)) = sumf (seq 0 M) (fun i => sumf (seq 0 M) (fun j => - (J i j * ln (S1 i))))).
  { apply sumf_ext. intros i _. unfold plp. rewrite (sumf_ext _ (fun j => - (J i j * ln (S1 i))) (fun j => J i j * - ln (S1 i))) by (intros; ring).
    rewrite sumf_scal_r. fold (S1 i). ring. }
  assert (E2 : sumf (seq 0 M) (fun j => plp (S2 j)) = sumf (seq 0 M) (fun i => sumf (seq 0 M) (fun j => - (J i j * ln (S2 j))))).
  { rewrite sumf_swap. apply sumf_ext. intros j _. unfold plp. rewrite (sumf_ext _ (fun i => - (J i j * ln (S2 j))) (fun i => J i j * - ln (S2 j))) by (intros; ring).
    rewrite sumf_scal_r. fold (S2 j). ring. }
  rewrite E1, E2, <- sumf_plus, <- sumf_minus. apply sumf_ext. intros i Ii. rewrite <- sumf_plus, <- sumf_minus. apply sumf_ext. intros j Ij.
  apply in_seq in Ii, Ij. unfold plp. destruct (Req_dec (J i j) 0) as [-> | N]; [ring|].
  pose proof (NN i j ltac:(lia) ltac:(lia)). pose proof (le1 i j ltac:(lia) ltac:(lia)). pose proof (le2 i j ltac:(lia) ltac:(lia)).
  unfold Rdiv. rewrite ln_mult, ln_Rinv, ln_mult; try lra; try nra. apply Rinv_0_lt_compat. nra.
Qed.

Lemma minfo_nonneg : 0 <= minfo.
Proof.
  unfold minfo. replace 0 with (sumf (seq 0 M) (fun i => sumf (seq 0 M) (fun j => J i j - S1 i * S2 j))).
  - apply sumf_le. intros i Ii. apply sumf_le. intros j Ij. apply in_seq in Ii, Ij.
    pose proof (NN i j ltac:(lia) ltac:(lia)). pose proof (le1 i j ltac:(lia) ltac:(lia)). pose proof (le2 i j ltac:(lia) ltac:(lia)).
    destruct (Req_dec (S1 i * S2 j) 0) as [E | N].
    + assert (J i j = 0). { destruct (Rmult_integral _ _ E); lra. } rewrite H2, E. lra.
    + apply gibbs_term; [auto|]. nra.
  - assert (T2 : sumf (seq 0 M) S2 = 1) by (unfold S2; rewrite sumf_swap; exact ONE).
    rewrite (sumf_ext _ _ (fun i => S1 i - S1 i * 1)).
    + rewrite sumf_minus. rewrite sumf_scal_r. fold S1. lra.
    + intros i _. rewrite sumf_minus, sumf_scal, T2. reflexivity.
Qed.

Lemma minfo_le_entropy : minfo <= sumf (seq 0 M) (fun j => plp (S2 j)).
Proof.
  apply Rle_trans with (sumf (seq 0 M) (fun i => sumf (seq 0 M) (fun j => - (J i j * ln (S2 j))))).
  - apply sumf_le. intros i Ii. apply sumf_le. intros j Ij. apply in_seq in Ii, Ij.
    pose proof (NN i j ltac:(lia) ltac:(lia)). pose proof (le1 i j ltac:(lia) ltac:(lia)). pose proof (le2 i j ltac:(lia) ltac:(lia)).
    destruct (Req_dec (J i j) 0) as [-> | N]; [rewrite !Rmult_0_l; lra|].
    assert (L : ln (J i j / (S1 i * S2 j)) <= ln (/ S2 j)).
    { apply ln_mono; [apply Rdiv_lt_0_compat; nra|]. 
      replace (J i j / (S1 i * S2 j)) with (J i j / S1 i * / S2 j) by (field; lra).
      assert (0 < / S2 j) by (apply Rinv_0_lt_compat; lra).
      assert (J i j / S1 i <= 1). { apply Rmult_le_reg_r with (S1 i); [lra|]. unfold Rdiv. rewrite Rmult_assoc, Rinv_l by lra. lra. }
      nra. }
    rewrite ln_Rinv in L by lra. nra.
  - rewrite sumf_swap. right. apply sumf_ext. intros j _. unfold plp. rewrite (sumf_ext _ (fun i => - (J i j * ln (S2 j))) (fun i => J i j * - ln (S2 j))) by (intros; ring).
    rewrite sumf_scal_r. fold (S2 j). ring.
Qed.

Lemma correlation_minfo : correlation M J = sqrt (1 - exp (-2 * minfo)).
Proof.
  unfold correlation. do 3 f_equal. f_equal. rewrite <- minfo_entropies. 
  assert (T2 : sumf (seq 0 M) S2 = 1) by (unfold S2; rewrite sumf_swap; exact ONE).
  rewrite !entropy_one.
  - unfold vec. rewrite !sumf_map. f_equal; [f_equal|].
    + apply sumf_ext. intros j _. unfold rsum. rewrite sumf_map. reflexivity.
    + apply sumf_ext. intros j _. unfold rsum. rewrite sumf_map. reflexivity.
    + rewrite sumf_flat_map. apply sumf_ext. intros i _. now rewrite sumf_map.
  - unfold rsum, vec. rewrite sumf_flat_map. rewrite <- ONE. apply sumf_ext. intros i _. rewrite sumf_map. reflexivity.
  - unfold rsum, vec. rewrite sumf_map. rewrite <- ONE. apply sumf_ext. intros i _. unfold rsum. rewrite sumf_map. reflexivity.
  - unfold rsum, vec. rewrite sumf_map. rewrite <- T2. apply sumf_ext. intros i _. unfold rsum. rewrite sumf_map. reflexivity.
Qed.
End MI.

Lemma minfo_swap M J : minfo M (fun i j => J j i) = minfo M J.
Proof.
  unfold minfo. rewrite sumf_swap. apply sumf_ext. intros i _. apply sumf_ext. intros j _. rewrite (Rmult_comm (sumf (seq 0 M) (fun j0 => J j0 j))). reflexivity.
Qed.

Lemma minfo_ext M J J' : (forall i j, (i < M)%nat -> (j < M)%nat -> J i j = J' i j) -> minfo M J = minfo M J'.
Proof.
  intros E. unfold minfo. apply sumf_ext. intros i Ii. apply sumf_ext. intros j Ij. apply in_seq in Ii, Ij.
  rewrite E by lia. f_equal. f_equal. f_equal. f_equal; apply sumf_ext; intros k Ik; apply in_seq in Ik; apply E; lia.
Qed.

Lemma corr_range I : 0 <= I -> 0 <= sqrt (1 - exp (-2 * I)) < 1.
Proof.
  intros H. split; [apply sqrt_pos|]. rewrite <- sqrt_1 at 2. pose proof (exp_pos (-2 * I)).
  apply sqrt_lt_1_alt. assert (exp (-2 * I) <= exp 0). { destruct (Req_dec I 0) as [-> |]; [right; f_equal; ring|]. left. apply exp_increasing. lra. }
  rewrite exp_0 in *. lra.
Qed.

Lemma corr_mono I J : 0 <= I <= J -> sqrt (1 - exp (-2 * I)) <= sqrt (1 - exp (-2 * J)).
Proof.
  intros H. apply sqrt_le_1_alt. assert (exp (-2 * J) <= exp (-2 * I)). { destruct (Req_dec I J) as [-> |]; [lra|]. left. apply exp_increasing. lra. }
  lra.
Qed.
