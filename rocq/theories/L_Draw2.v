(** Multinomial outcomes, and what multinomial_entropy computes. *)
From Coq Require Import List Arith Lia Bool ZArith Reals Lra Permutation.
From Verif Require Import Base L_Base Spec_Sum L_Sum M_Util M_Array M_Training Spec_Stats L_Train M_Serving L_Entropy Spec_Summary.
Import ListNotations.
Open Scope R_scope.

Lemma draws_prob_cons p ps n k ks : (k <= n)%nat ->
  draws_prob (p :: ps) n (k :: ks) = C n k * p ^ k * draws_prob ps (n - k) ks.
Proof.
  intros H. unfold draws_prob, C. cbn [combine]. rewrite prodf_cons. field. repeat split; apply INR_fact_neq_0.
Qed.

Lemma binomial_sum a b n : sumf (seq 0 (S n)) (fun k => C n k * a ^ k * b ^ (n - k)) = (a + b) ^ n.
Proof.
  rewrite (binomial a b n). generalize (fun k => C n k * a ^ k * b ^ (n - k)). intros f.
  induction n as [|n IH]; [unfold sumf; cbn; ring|].
  rewrite seq_S, sumf_app, IH. cbn [Nat.add sum_f_R0]. rewrite sumf_cons, sumf_nil. ring.
Qed.

(** The multinomial theorem. *)
Lemma draws_total ps : forall n, sumf (draws_of (length ps) n) (draws_prob ps n) = rsum ps ^ n.
Proof.
  induction ps as [|p ps IH]; intros n.
  - destruct n; unfold sumf, draws_prob, rsum, prodf, sumf; cbn; ring.
  - cbn [length draws_of]. rewrite sumf_flat_map.
    rewrite (sumf_ext _ _ (fun k => C n k * p ^ k * rsum ps ^ (n - k))).
    + rewrite binomial_sum. unfold rsum. now rewrite sumf_cons.
    + intros k I. apply in_seq in I. rewrite sumf_map. rewrite (sumf_ext _ _ (fun ks => C n k * p ^ k * draws_prob ps (n - k) ks)) by (intros; apply draws_prob_cons; lia).
      rewrite sumf_scal, IH. reflexivity.
Qed.

Lemma draws_nonneg ps n ks : (forall x, In x ps -> 0 <= x) -> 0 <= draws_prob ps n ks.
Proof.
  intros NN. unfold draws_prob. apply Rmult_le_pos; [apply pos_INR|]. revert ks. induction ps as [|p ps IH]; intros ks; [unfold prodf; cbn; lra|].
  destruct ks as [|k ks]; [unfold prodf; cbn; lra|]. cbn [combine]. rewrite prodf_cons. apply Rmult_le_pos.
  - apply Rmult_le_pos; [apply pow_le; apply NN; now left|]. apply Rlt_le, Rinv_0_lt_compat, INR_fact_lt_0.
  - apply IH. intros. apply NN. now right.
Qed.

Lemma draws_entropy_bounds ps n : (forall x, In x ps -> 0 <= x) -> rsum ps = 1 ->
  0 <= draws_entropy ps n <= ln (INR (length (draws_of (length ps) n))).
Proof.
  intros NN ONE. unfold draws_entropy, shannon.
  pose proof (entropy_bounds (map (draws_prob ps n) (draws_of (length ps) n))) as B. rewrite map_length, !sumf_map in B. apply B.
  - intros x I. apply in_map_iff in I. destruct I as (ks & <- & _). now apply draws_nonneg.
  - rewrite draws_total, ONE. apply pow1.
Qed.

(** One draw. *)
Lemma draws_of_0 w : draws_of w 0 = [repeat 0%nat w].
Proof. induction w; [reflexivity|]. cbn [draws_of seq flat_map Nat.sub map repeat app]. rewrite IHw. reflexivity. Qed.

Lemma draws_prob_0 ps : draws_prob ps 0 (repeat 0%nat (length ps)) = 1.
Proof.
  unfold draws_prob. cbn [fact INR]. rewrite Rmult_1_l. induction ps as [|p ps IH]; [reflexivity|]. cbn [length repeat combine]. rewrite prodf_cons, IH. cbn. field.
Qed.

Lemma one_draw ps : draws_entropy ps 1 = sumf ps plp.
Proof.
  unfold draws_entropy, shannon. induction ps as [|p ps IH]; [reflexivity|].
  cbn [length draws_of]. cbn [seq flat_map Nat.sub]. rewrite app_nil_r, sumf_app, !sumf_map, draws_of_0, sumf_cons, sumf_cons, sumf_nil.
  rewrite (sumf_ext _ _ (fun x => - (draws_prob ps 1 x * ln (draws_prob ps 1 x)))).
  - rewrite IH. rewrite draws_prob_cons by lia. cbn [Nat.sub]. rewrite draws_prob_0. unfold C. cbn [fact Nat.mul Nat.add Nat.sub INR pow].
    unfold plp. replace (1 / (1 * 1) * (p * 1) * 1) with p by field. ring.
  - intros ks _. rewrite draws_prob_cons by lia. unfold C. cbn [fact Nat.mul Nat.add Nat.sub INR pow]. replace (1 / (1 * 1) * 1 * draws_prob ps 1 ks) with (draws_prob ps 1 ks) by field. reflexivity.
Qed.

(** Two categories. *)
Definition binom (a b : R) (n : nat) : list R := map (fun j => C n j * a ^ (n - j) * b ^ j) (seq 0 (S n)).

Lemma binom_entropy a b n : draws_entropy [a; b] n = sumf (binom a b n) plp.
Proof.
  unfold draws_entropy, shannon, binom. cbn [length]. rewrite sumf_map.
  assert (D1 : forall j, draws_of 1 j = [[j]]).
  { intros j. cbn [draws_of]. assert (G : forall b n, (b + n = S j)%nat -> (0 < n)%nat -> flat_map (fun k => map (cons k) match (j - k)%nat with 0%nat => [[]] | S _ => [] end) (seq b n) = [[j]]).
    { intros b0 n0; revert b0. induction n0 as [|n0 IH]; intros b0 E P; [lia|]. cbn [seq flat_map]. destruct n0.
      - cbn [seq flat_map]. replace (j - b0)%nat with 0%nat by lia. cbn. f_equal. f_equal. lia.
      - replace (j - b0)%nat with (S (j - S b0)) by lia. cbn [map app]. apply IH; lia. }
    apply G; lia. }
  change (draws_of 2 n) with (flat_map (fun k => map (cons k) (draws_of 1 (n - k))) (seq 0 (S n))). rewrite sumf_flat_map.
  transitivity (sumf (map (fun j => n - j)%nat (seq 0 (S n))) (fun j => plp (C n j * a ^ (n - j) * b ^ j))).
  - rewrite sumf_map. apply sumf_ext. intros k I. apply in_seq in I. rewrite D1. cbn [map]. rewrite sumf_cons, sumf_nil, Rplus_0_r.
    unfold plp. assert (E : draws_prob [a; b] n [k; (n - k)%nat] = C n (n - k) * a ^ (n - (n - k)) * b ^ (n - k)).
    { rewrite draws_prob_cons by lia. rewrite <- pascal_step1 by lia. replace (n - (n - k))%nat with k by lia.
      unfold draws_prob, C. cbn [combine]. rewrite prodf_cons. unfold prodf. cbn [fold_right]. field. repeat split; apply INR_fact_neq_0. }
    rewrite E. reflexivity.
  - apply sumf_perm. assert (G : map (fun j => n - j)%nat (seq 0 (S n)) = rev (seq 0 (S n))).
    { apply nth_ext with (d := 0%nat) (d' := 0%nat); [now rewrite map_length, rev_length|]. intros i Hi. rewrite map_length, seq_length in Hi.
      rewrite (nth_indep _ 0%nat (n - 0)%nat) by (rewrite map_length, seq_length; auto). rewrite (map_nth (fun j => n - j)%nat), seq_nth by auto.
      rewrite rev_nth by (now rewrite seq_length). rewrite seq_length, seq_nth by lia. lia. }
    rewrite G. apply Permutation_sym, Permutation_rev.
Qed.

Lemma convolve2 a b : forall m, m <> [] -> length (convolve m [a; b]) = S (length m) /\
  forall j, nth j (convolve m [a; b]) 0 = nth j m 0 * a + match j with O => 0 | S j => nth j m 0 * b end.
Proof.
  induction m as [|x m IH]; intros NE; [congruence|]. destruct m as [|y m].
  - split; [reflexivity|]. intros [|[|j]]; cbn; try ring. destruct j; ring.
  - destruct IH as (L & H); [discriminate|].
    change (convolve (x :: y :: m) [a; b]) with (vadd (map (Rmult x) [a; b]) (0 :: convolve (y :: m) [a; b])).
    destruct (convolve (y :: m) [a; b]) as [|c cs] eqn:E; [discriminate L|]. cbn [map vadd].
    split; [cbn [length] in *; lia|]. intros [|[|j]].
    + cbn [nth]. ring.
    + specialize (H 0%nat). cbn [nth] in *. lra.
    + specialize (H (S j)). cbn [nth] in *. lra.
Qed.

Lemma binom_nth a b n j : (j <= n)%nat -> nth j (binom a b n) 0 = C n j * a ^ (n - j) * b ^ j.
Proof.
  intros H. unfold binom. set (f := fun j => C n j * a ^ (n - j) * b ^ j). rewrite (nth_indep _ 0 (f 0%nat)) by (rewrite map_length, seq_length; lia).
  rewrite map_nth, seq_nth by lia. reflexivity.
Qed.

Lemma binom_step a b n : convolve (binom a b n) [a; b] = binom a b (S n).
Proof.
  assert (LB : forall n, length (binom a b n) = S n) by (intros; unfold binom; now rewrite map_length, seq_length).
  destruct (convolve2 a b (binom a b n)) as (L & H). { intros E. pose proof (LB n) as X. rewrite E in X. discriminate X. }
  apply nth_ext with (d := 0) (d' := 0); [rewrite L, !LB; reflexivity|]. intros j Hj. rewrite L, LB in Hj. rewrite H, (binom_nth a b (S n)) by lia.
  assert (C0 : forall n, C n 0 = 1). { intros k. unfold C. rewrite Nat.sub_0_r. cbn [fact INR]. field. apply INR_fact_neq_0. }
  assert (CN : forall n, C n n = 1). { intros k. unfold C. rewrite Nat.sub_diag. cbn [fact INR]. field. apply INR_fact_neq_0. }
  destruct j as [|j].
  - rewrite binom_nth by lia. rewrite !C0, !Nat.sub_0_r. cbn [pow]. ring.
  - destruct (Nat.eq_dec j n) as [-> | N].
    + rewrite nth_overflow by (rewrite LB; lia). rewrite binom_nth by lia. rewrite !CN, Nat.sub_diag. cbn [pow Nat.sub]. rewrite Nat.sub_diag. cbn [pow]. ring.
    + rewrite !binom_nth by lia. rewrite <- pascal by lia. cbn [Nat.sub]. replace (n - j)%nat with (S (n - S j)) by lia. cbn [pow]. ring.
Qed.

Lemma multi_two a b k : forall n, multi_loop k [a; b] (binom a b n) = Ok (binom a b (k + n)).
Proof.
  induction k as [|k IH]; intros n; [reflexivity|]. cbn [multi_loop length Nat.ltb Nat.leb]. rewrite binom_step, IH. f_equal. f_equal. lia.
Qed.

Lemma binom_1 a b : binom a b 1 = [a; b].
Proof. unfold binom, C. cbn. f_equal; [field|f_equal; field]. Qed.

Lemma multi_one k : forall q : R, multi_loop k [1] [q] = Ok [q].
Proof.
  induction k as [|k IH]; intros q; [reflexivity|]. cbn [multi_loop length Nat.ltb Nat.leb convolve map]. rewrite Rmult_1_r. apply IH.
Qed.

Lemma rsum_one_draws_1 n : draws_entropy [1] n = 0.
Proof.
  pose proof (draws_entropy_bounds [1] n) as B. assert (L : length (draws_of (length [1]) n) = 1%nat).
  { cbn [length]. assert (G : forall b k, (b + k = S n)%nat -> (0 < k)%nat -> length (flat_map (fun k => map (cons k) match (n - k)%nat with 0%nat => [[]] | S _ => [] end) (seq b k)) = 1%nat).
    { intros b k; revert b. induction k as [|k IH]; intros b E P; [lia|]. cbn [seq flat_map]. rewrite app_length, map_length. destruct k.
      - cbn [seq flat_map length]. replace (n - b)%nat with 0%nat by lia. reflexivity.
      - replace (n - b)%nat with (S (n - S b)) by lia. cbn [length Nat.add]. apply IH; lia. }
    apply G; lia. }
  rewrite L in B. cbn [INR] in B. rewrite ln_1 in B. assert (0 <= draws_entropy [1] n <= 0); [|lra]. apply B.
  - intros x [<-|[]]. lra.
  - unfold rsum, sumf. cbn. ring.
Qed.

Lemma multinomial_exact probs count : (forall x, In x probs -> 0 <= x) -> rsum probs = 1 -> (0 < count)%Z ->
  (length probs <= 2)%nat \/ count = 1%Z ->
  multinomial_entropy probs count = Ok (draws_entropy probs (Z.to_nat count)).
Proof.
  intros NN ONE CP [L | ->].
  - unfold multinomial_entropy. rewrite (proj2 (Z.ltb_lt 0 count) CP). cbn [assert_ bind].
    destruct probs as [|a [|b [|]]]; [unfold rsum, sumf in ONE; cbn in ONE; lra| | |cbn in L; lia].
    + assert (a = 1) as -> by (unfold rsum, sumf in ONE; cbn in ONE; lra). rewrite multi_one. cbn [bind]. rewrite rsum_one_draws_1.
      rewrite entropy_one by exact ONE. unfold sumf, plp. cbn [fold_right]. rewrite ln_1. f_equal. ring.
    + rewrite <- (binom_1 a b) at 2. rewrite multi_two. cbn [bind]. replace (Z.to_nat count - 1 + 1)%nat with (Z.to_nat count) by lia.
      rewrite binom_entropy. rewrite entropy_one; [reflexivity|].
      unfold rsum, binom. rewrite sumf_map. rewrite (sumf_ext _ _ (fun j => C (Z.to_nat count) j * b ^ j * a ^ (Z.to_nat count - j))) by (intros; ring).
      rewrite binomial_sum. replace (b + a) with 1 by (unfold rsum, sumf in ONE; cbn in ONE; lra). apply pow1.
  - unfold multinomial_entropy. cbn [Z.ltb Z.compare assert_ bind]. change (Z.to_nat 1 - 1)%nat with 0%nat. cbn [multi_loop bind].
    rewrite entropy_one by auto. change (Z.to_nat 1) with 1%nat. now rewrite one_draw.
Qed.

Lemma multinomial_fails probs count : (2 < length probs)%nat -> (1 < count)%Z -> multinomial_entropy probs count = Raise NotImplementedError.
Proof.
  intros L H. unfold multinomial_entropy. rewrite (proj2 (Z.ltb_lt 0 count)) by lia. cbn [assert_ bind].
  destruct (Z.to_nat count - 1)%nat eqn:E; [lia|]. cbn [multi_loop]. rewrite (proj2 (Nat.ltb_lt _ _) L). reflexivity.
Qed.
