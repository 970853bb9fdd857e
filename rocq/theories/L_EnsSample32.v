(** Sampling from an ensemble with float32 weights. *)
From Coq Require Import List Arith Lia Bool ZArith Reals Lra Permutation.
From Flocq Require Import Core IEEE754.BinarySingleNaN.
From Verif Require Import Base L_Base Spec_Graph Spec_Sum L_Sum M_Structure M_Rand L_Rand M_Util Spec_Ragged Spec_Trees Spec_MST M_Training Spec_Stats Spec_Joint Spec_Conditional L_Asg M_Serving Spec_Serving L_Server L_Logprob L_Serve2 L_ServeSample
  M_EnsembleServer L_Shuffle L_EnsServe L_EnsServe2 L_Repaired2 M_Float32 M_Train32 L_Float32 L_Ensemble32c M_EnsSample32 Spec_EnsSample32.
Import ListNotations.
Open Scope R_scope.

Section Weights.
Variable n : nat.
Hypothesis HN : (1 <= n)%nat.
Hypothesis HN2 : (Z.of_nat n <= 2 ^ 23)%Z.
Let p : R := val (fdiv fone (f32_of (Z.of_nat n) 0)).

Lemma size_range : 1 <= INR n <= 8388608.
Proof. split; [change 1 with (INR 1); now apply le_INR|]. rewrite INR_IZR_INZ. now apply IZR_le in HN2. Qed.

Lemma small_term : 0 < bp (-150) /\ INR n * INR n * bp (-150) <= bp (-24).
Proof.
  split; [apply bpow_gt_0|]. apply Rle_trans with (bp 23 * bp 23 * bp (-150)); [|rewrite <- !bpow_plus; apply bpow_le; lia].
  apply Rmult_le_compat_r; [apply bpow_ge_0|]. pose proof size_range. change (bp 23) with 8388608. nra.
Qed.

Lemma weight_near : Rabs (p - 1 / INR n) <= bp (-24) / INR n + bp (-150).
Proof.
  pose proof size_range as SR. destruct (f32_int (Z.of_nat n)) as (FN & VN); [lia|]. rewrite <- INR_IZR_INZ in VN.
  assert (F1 : fin32 fone = true /\ val fone = 1) by (split; [reflexivity|apply (proj2 (f32_int 1 ltac:(lia)))]).
  assert (Q : 0 < 1 / INR n <= 1). { unfold Rdiv. rewrite Rmult_1_l. split; [apply Rinv_0_lt_compat; lra|]. rewrite <- Rinv_1. apply Rinv_le_contravar; lra. }
  destruct (fdiv_near fone (f32_of (Z.of_nat n) 0) (proj1 F1)) as (_ & D).
  - rewrite VN. lra.
  - rewrite VN, (proj2 F1), Rabs_pos_eq by lra. apply Rle_trans with (bp 0); [change (bp 0) with 1; lra|apply bpow_le; lia].
  - rewrite VN, (proj2 F1), (Rabs_pos_eq (1 / INR n)) in D by lra. fold p in D. unfold Rdiv in *. lra.
Qed.

Lemma weight_off : INR (n - 1) * Rabs (p - 1 / INR n) <= bp (-24).
Proof.
  pose proof size_range as SR. pose proof small_term as (S0 & S1). rewrite minus_INR by exact HN. change (INR 1) with 1.
  apply Rle_trans with ((INR n - 1) * (bp (-24) / INR n + bp (-150))); [apply Rmult_le_compat_l; [lra|exact weight_near]|].
  apply Rmult_le_reg_r with (INR n); [lra|]. replace ((INR n - 1) * (bp (-24) / INR n + bp (-150)) * INR n) with ((INR n - 1) * bp (-24) + (INR n * INR n * bp (-150) - INR n * bp (-150))) by (field; lra). nra.
Qed.

Lemma weight_each : Rabs (p - 1 / INR n) <= bp (-24).
Proof.
  pose proof size_range as SR. pose proof small_term as (S0 & S1). pose proof weight_off as W. rewrite minus_INR in W by exact HN. change (INR 1) with 1 in W.
  destruct (Nat.eq_dec n 1) as [E|N].
  - (* one member *)
    assert (E1 : p = 1).
    { unfold p. rewrite E. rewrite <- SF2R_B2SF. assert (Q : B2SF (fdiv fone (f32_of (Z.of_nat 1) 0)) = SpecFloat.S754_finite false 8388608 (-23)) by (vm_compute; reflexivity).
      rewrite Q. unfold SF2R, F2R. cbn. lra. }
    rewrite E1, E. change (INR 1) with 1. replace (1 - 1 / 1) with 0 by field. rewrite Rabs_R0. apply bpow_ge_0.
  - assert (2 <= INR n) by (change 2 with (INR 2); apply le_INR; lia). pose proof (Rabs_pos (p - 1 / INR n)). nra.
Qed.

Lemma weight_nonneg : 0 <= p /\ INR (n - 1) * p <= 1.
Proof.
  pose proof size_range as SR. pose proof weight_each as E. pose proof weight_off as W. apply Rabs_le_inv in E.
  assert (Q : bp (-24) <= 1 / INR n).
  { apply Rmult_le_reg_r with (INR n); [lra|]. replace (1 / INR n * INR n) with 1 by (field; lra). change (bp (-24)) with (/ 16777216). lra. }
  split; [lra|]. assert (p - 1 / INR n <= Rabs (p - 1 / INR n)) by apply Rle_abs. pose proof (pos_INR (n - 1)).
  assert (INR (n - 1) * p <= INR (n - 1) * (1 / INR n) + bp (-24)) by nra.
  assert (INR (n - 1) * (1 / INR n) = 1 - 1 / INR n) by (rewrite minus_INR by exact HN; change (INR 1) with 1; field; lra). lra.
Qed.

Definition probs32 : list R := repeat p (n - 1) ++ [1 - INR (n - 1) * p].

Lemma rsum_repeat (x : R) k : rsum (repeat x k) = INR k * x.
Proof. induction k as [|k IH]; [unfold rsum; cbn; ring|]. cbn [repeat]. change (rsum (x :: repeat x k)) with (x + rsum (repeat x k)). rewrite IH, S_INR. ring. Qed.

Lemma multinomial32_eq kahan k : kahan_ok kahan -> multinomial32 kahan k (weights32 n) = multinomial k probs32.
Proof.
  intros KO. unfold multinomial32.
  assert (E : map (@B2R 24 128) (removelast (weights32 n)) = repeat p (n - 1)).
  { assert (G : forall (x : f32) k, removelast (repeat x (S k)) = repeat x k) by (intros x; induction k0 as [|k0 IH]; [reflexivity|]; cbn [repeat] in *; change (removelast (x :: x :: repeat x k0)) with (x :: removelast (x :: repeat x k0)); now rewrite IH).
    unfold weights32. assert (R : forall (x : f32) a k, map (fun _ : nat => x) (seq a k) = repeat x k) by (intros x a k0; revert a; induction k0 as [|k0 IH]; intros a; [reflexivity|]; cbn [seq map repeat]; now rewrite IH).
    rewrite R. destruct n as [|n']; [lia|]. rewrite G. replace (S n' - 1)%nat with n' by lia. rewrite map_repeat. reflexivity. }
  cbv zeta. rewrite E. destruct weight_nonneg as (P0 & P1).
  destruct (Rlt_dec (1 + / 10 ^ 12) (kahan (repeat p (n - 1)))) as [C|_].
  - exfalso. specialize (KO (repeat p (n - 1))). rewrite rsum_repeat in KO.
    assert (F : Forall (fun x => 0 <= x) (repeat p (n - 1))) by (apply Forall_forall; intros x I; apply repeat_spec in I; now subst). specialize (KO F). apply Rabs_le_inv in KO.
    change (bp (-50)) with (/ 1125899906842624) in KO. assert (0 <= INR (n - 1) * p) by (apply Rmult_le_pos; [apply pos_INR|exact P0]). lra.
  - now rewrite rsum_repeat.
Qed.

Lemma probs32_facts : length probs32 = n /\ rsum probs32 = 1 /\ Forall (fun x => 0 <= x /\ Rabs (x - 1 / INR n) <= bp (-24)) probs32 /\
  sumf (seq 0 n) (fun k => Rabs (nth k probs32 0 - 1 / INR n)) <= 2 * bp (-24).
Proof.
  destruct weight_nonneg as (P0 & P1). pose proof size_range as SR. pose proof weight_off as W. pose proof weight_each as WE.
  assert (L : length probs32 = n) by (unfold probs32; rewrite app_length, repeat_length; cbn; lia).
  assert (LAST : Rabs (1 - INR (n - 1) * p - 1 / INR n) <= bp (-24)).
  { replace (1 - INR (n - 1) * p - 1 / INR n) with (- (INR (n - 1) * (p - 1 / INR n))) by (rewrite minus_INR by exact HN; change (INR 1) with 1; field; lra).
    rewrite Rabs_Ropp, Rabs_mult, (Rabs_pos_eq (INR (n - 1))) by apply pos_INR. exact W. }
  split; [exact L|]. split.
  { unfold probs32, rsum. rewrite sumf_app. fold (rsum (repeat p (n - 1))). rewrite rsum_repeat. cbn. ring. }
  split.
  { unfold probs32. apply Forall_app. split; [apply Forall_forall; intros x I; apply repeat_spec in I; subst; auto|]. constructor; [|constructor]. split; [lra|exact LAST]. }
  assert (E : sumf (seq 0 n) (fun k => Rabs (nth k probs32 0 - 1 / INR n)) = sumf probs32 (fun x => Rabs (x - 1 / INR n))).
  { rewrite <- L at 1. generalize probs32 as l. clear. intros l. induction l as [|x l IH]; [reflexivity|]. cbn [length seq]. rewrite <- seq_shift, !sumf_cons, sumf_map. cbn [nth]. f_equal. exact IH. }
  rewrite E. unfold probs32. rewrite sumf_app.
  assert (R : forall k, sumf (repeat p k) (fun x => Rabs (x - 1 / INR n)) = INR k * Rabs (p - 1 / INR n)).
  { induction k as [|k IH]; [cbn; ring|]. cbn [repeat]. rewrite sumf_cons, IH, S_INR. ring. }
  rewrite R. unfold sumf at 1. cbn [fold_right]. lra.
Qed.
End Weights.

(** Two product laws. *)
Lemma laws_near K (w u : list R) e : length w = K -> length u = K -> rsum w = 1 -> rsum u = 1 -> Forall (fun x => 0 <= x) w -> Forall (fun x => 0 <= x) u ->
  sumf (seq 0 K) (fun k => Rabs (nth k w 0 - nth k u 0)) <= 2 * e ->
  forall n (F : list nat -> R), (forall l, 0 <= F l <= 1) ->
  0 <= sumf (vectors n K) (fun l => weigh w l * F l) <= 1 /\
  Rabs (sumf (vectors n K) (fun l => weigh w l * F l) - sumf (vectors n K) (fun l => weigh u l * F l)) <= INR n * e.
Proof.
  intros LW LU SW SU PW PU D. rewrite Forall_forall in PW, PU.
  assert (NW : forall k, 0 <= nth k w 0) by (intros k; destruct (Nat.lt_ge_cases k (length w)); [apply PW, nth_In; lia|rewrite nth_overflow by lia; lra]).
  assert (NU : forall k, 0 <= nth k u 0) by (intros k; destruct (Nat.lt_ge_cases k (length u)); [apply PU, nth_In; lia|rewrite nth_overflow by lia; lra]).
  assert (TW : sumf (seq 0 K) (fun k => nth k w 0) = 1) by (rewrite <- LW, sumf_seq_nth; exact SW).
  assert (TU : sumf (seq 0 K) (fun k => nth k u 0) = 1) by (rewrite <- LU, sumf_seq_nth; exact SU).
  assert (ST : forall v n (F : list nat -> R), sumf (vectors (S n) K) (fun l => weigh v l * F l) = sumf (seq 0 K) (fun k => nth k v 0 * sumf (vectors n K) (fun l => weigh v l * F (k :: l)))).
  { intros v n F. cbn [vectors]. rewrite sumf_flat_map. apply sumf_ext. intros k _. rewrite sumf_map, <- sumf_scal. apply sumf_ext. intros l _. unfold weigh. rewrite prodf_cons. ring. }
  induction n as [|n IH]; intros F HF.
  - cbn [vectors]. unfold sumf, weigh, prodf. cbn [fold_right INR]. specialize (HF []). split; [lra|]. rewrite Rminus_eq_0, Rabs_R0. lra.
  - rewrite !ST. set (G := fun v k => sumf (vectors n K) (fun l => weigh v l * F (k :: l))).
    assert (I1 : forall k, 0 <= G w k <= 1) by (intros k; apply (IH (fun l => F (k :: l))); intros; apply HF).
    assert (I2 : forall k, Rabs (G w k - G u k) <= INR n * e) by (intros k; apply (IH (fun l => F (k :: l))); intros; apply HF).
    change (0 <= sumf (seq 0 K) (fun k => nth k w 0 * G w k) <= 1 /\ Rabs (sumf (seq 0 K) (fun k => nth k w 0 * G w k) - sumf (seq 0 K) (fun k => nth k u 0 * G u k)) <= INR (S n) * e).
    split.
    { split; [apply sumf_nonneg; intros; apply Rmult_le_pos; [apply NW|apply I1]|]. rewrite <- TW. apply sumf_le. intros k _. specialize (NW k). specialize (I1 k). nra. }
    replace (sumf (seq 0 K) (fun k => nth k w 0 * G w k) - sumf (seq 0 K) (fun k => nth k u 0 * G u k)) with
      (sumf (seq 0 K) (fun k => (nth k w 0 - nth k u 0) * (G w k - 1 / 2)) + sumf (seq 0 K) (fun k => nth k u 0 * (G w k - G u k))).
    2:{ rewrite <- sumf_minus, <- sumf_plus. transitivity (sumf (seq 0 K) (fun k => nth k w 0 * G w k - nth k u 0 * G u k) + - (1 / 2) * (sumf (seq 0 K) (fun k => nth k w 0) - sumf (seq 0 K) (fun k => nth k u 0))).
        - rewrite <- sumf_minus, <- sumf_scal, <- sumf_plus. apply sumf_ext. intros. ring.
        - rewrite TW, TU. ring. }
    eapply Rle_trans; [apply Rabs_triang|]. rewrite S_INR. apply Rle_trans with (e + INR n * e); [|lra]. apply Rplus_le_compat.
    + eapply Rle_trans; [apply L_Logits32b.sumf_abs_le|]. apply Rle_trans with (sumf (seq 0 K) (fun k => Rabs (nth k w 0 - nth k u 0) * (1 / 2))).
      * apply sumf_le. intros k _. rewrite Rabs_mult. apply Rmult_le_compat_l; [apply Rabs_pos|]. specialize (I1 k). apply Rabs_le. lra.
      * rewrite sumf_scal_r. lra.
    + eapply Rle_trans; [apply L_Logits32b.sumf_abs_le|]. rewrite <- (Rmult_1_l (INR n * e)), <- TU, <- sumf_scal_r. apply sumf_le. intros k _.
      rewrite Rabs_mult, (Rabs_pos_eq (nth k u 0)) by apply NU. apply Rmult_le_compat_l; [apply NU|apply I2].
Qed.

Lemma C91_split_proof : forall kahan es k f, kahan_ok kahan -> (1 <= length (es_members es))%nat -> (Z.of_nat (length (es_members es)) <= 2 ^ 23)%Z ->
  (forall r, 0 <= f r <= 1) ->
  Rabs (expect (split_samples32 kahan es k) f - expect (split_samples es k) f) <= INR k * bp (-24).
Proof.
  intros kahan es k f KO H1 H2 HF. unfold split_samples32, split_samples. set (n := length (es_members es)) in *. pose proof (size_range n H1 H2) as SR.
  rewrite multinomial32_eq by auto. destruct (probs32_facts n H1 H2) as (L & SS & FP & D).
  set (u := map (fun _ : nat => 1 / INR n) (seq 0 n)).
  assert (LU : length u = n) by (unfold u; now rewrite map_length, seq_length).
  assert (NU : forall k, (k < n)%nat -> nth k u 0 = 1 / INR n).
  { intros i Hi. unfold u. rewrite nth_indep with (d' := (fun _ : nat => 1 / INR n) 0%nat) by (rewrite map_length, seq_length; lia). now rewrite (map_nth (fun _ : nat => 1 / INR n)). }
  assert (SU : rsum u = 1) by (unfold u, rsum; rewrite sumf_map, sumf_const, seq_length; field; lra).
  rewrite !expect_multinomial_w; auto; try (intros E; apply (f_equal (@length R)) in E; cbn in E; lia).
  rewrite L, LU.
  apply (laws_near n (probs32 n) u (bp (-24)) L LU SS SU) with (n := k) (F := fun l => f (Ok (add_labels (repeat 0%nat n) l))).
  - eapply Forall_impl; [|exact FP]. intros x (G & _). exact G.
  - unfold u. apply Forall_forall. intros x I. apply in_map_iff in I. destruct I as (? & <- & _). unfold Rdiv. rewrite Rmult_1_l. left. apply Rinv_0_lt_compat. lra.
  - eapply Rle_trans; [|exact D]. apply Req_le, sumf_ext. intros i Hi. apply in_seq in Hi. rewrite NU by lia. reflexivity.
  - intros l. apply HF.
Qed.

Lemma prodf_between {A} (l : list A) (f g : A -> R) lo hi : 0 <= lo -> 0 <= hi -> (forall x, In x l -> 0 <= g x /\ lo * g x <= f x <= hi * g x) ->
  0 <= prodf l g /\ lo ^ length l * prodf l g <= prodf l f <= hi ^ length l * prodf l g.
Proof.
  intros L0 H0. induction l as [|x l IH]; intros H; [cbn; lra|]. rewrite !prodf_cons. cbn [length pow].
  destruct (H x (or_introl eq_refl)) as (G & L & U). destruct IH as (P & PL & PU); [intros; apply H; now right|].
  assert (A1 : 0 <= lo ^ length l) by (now apply pow_le). assert (A2 : 0 <= lo * g x) by (now apply Rmult_le_pos). assert (A3 : 0 <= lo ^ length l * prodf l g) by (now apply Rmult_le_pos).
  split; [now apply Rmult_le_pos|]. split.
  - replace (lo * lo ^ length l * (g x * prodf l g)) with (lo * g x * (lo ^ length l * prodf l g)) by ring. apply Rmult_le_compat; auto.
  - replace (hi * hi ^ length l * (g x * prodf l g)) with (hi * g x * (hi ^ length l * prodf l g)) by ring. apply Rmult_le_compat; auto; lra.
Qed.

Lemma arrangements_nonneg ws counts x : 0 <= arrangements ws counts x.
Proof.
  unfold arrangements. apply prodf_nonneg. intros v _. apply Rmult_le_pos; [apply pos_INR|]. left. apply Rinv_0_lt_compat. apply prodf_pos. intros q _. apply lt_0_INR, lt_O_fact.
Qed.

Lemma weighted_mean {A} (w : list R) (l : list A) (q : A -> R) n d : length w = length l -> Forall (fun a => 0 <= a /\ Rabs (a - 1 / n) <= d) w -> 0 < n -> (forall x, In x l -> 0 <= q x) ->
  (1 - n * d) * (sumf l q / n) <= sumf (combine w (map q l)) (fun '(a, y) => a * y) <= (1 + n * d) * (sumf l q / n).
Proof.
  intros L F Pn. revert l L. induction F as [|a w (P0 & H) F IH]; intros [|x l] L Q; try discriminate; [unfold sumf; cbn; split; right; unfold Rdiv; ring|].
  cbn [map combine]. rewrite !sumf_cons. injection L as L. specialize (IH l L ltac:(intros; apply Q; now right)). apply Rabs_le_inv in H.
  pose proof (Q x (or_introl eq_refl)) as Qx.
  replace ((1 - n * d) * ((q x + sumf l q) / n)) with ((1 / n - d) * q x + (1 - n * d) * (sumf l q / n)) by (field; lra).
  replace ((1 + n * d) * ((q x + sumf l q) / n)) with ((1 / n + d) * q x + (1 + n * d) * (sumf l q / n)) by (field; lra). nra.
Qed.

Lemma C91_rows_proof : forall kahan ws V M N mst ms es counts data X, kahan_ok kahan -> (Z.of_nat (length ms) <= 2 ^ 23)%Z ->
  ms <> [] -> (forall m, In m ms -> consistent ws V M N m) -> mst_contract mst -> ensemble_server mst ms = Ok es ->
  length counts = V -> (forall v, (v < V)%nat -> (0 <= nth v counts 0 <= 127)%Z) ->
  (forall v, (v < V)%nat -> (0 < nth v counts 0)%Z -> (1 <= nth v ws 0)%nat) ->
  (forall d, data = Some d -> length d = list_sum ws) -> (forall x, In x X -> legal_row ws counts x) ->
  let e := INR (length ms) * bp (-24) in
  (1 - e) ^ length X * prob_of (ens_sample es (length X) counts data) X <= prob_of (ens_sample32 kahan es (length X) counts data) X /\
  prob_of (ens_sample32 kahan es (length X) counts data) X <= (1 + e) ^ length X * prob_of (ens_sample es (length X) counts data) X.
Proof.
  intros kahan ws V M N mst ms es counts data X KO HS NE0 C MC E CL CB CW DL LR e. assert (O : ens_ok ws V M N ms) by (split; auto).
  destruct (members_nonempty ws V M N mst ms es O MC E) as (NE & LM).
  assert (H1 : (1 <= length ms)%nat) by (destruct ms; [congruence|cbn; lia]). pose proof (size_range (length ms) H1 HS) as SR.
  rewrite (ens_law ws V M N mst ms es counts data X O MC E CL CB CW DL LR).
  pose proof (members_of ws V M N mst ms es O MC E) as F.
  set (q := fun m x => arrangements ws counts x * (row_prob ws m (merge (evidence ws data) x) / row_prob ws m (evidence ws data))).
  assert (RP : forall m row, In m ms -> length row = list_sum ws -> 0 < row_prob ws m row).
  { intros m row Im Lr. destruct (build_server ws V M N m (C m Im) mst MC) as (sx & edges & EX & SF & ST & SV & SE & SFe & _). eapply row_prob_pos; eauto. apply (C m Im). }
  assert (FF : Forall2 (follows (list_eq_dec Z.eq_dec) (fun s n => sample s n counts data) (legal_row ws counts)) (es_members es) (map q ms)).
  { clear E NE LM O H1 SR e HS NE0 RP. induction F as [|m s ms members Es F IH]; [constructor|]. cbn [map]. constructor.
    - intros Y LY. transitivity (prob_of (sample s (length Y) counts data) Y);
        [|exact (law ws V M N m mst s (length Y) counts data Y (C m (or_introl eq_refl)) MC Es CL CB CW DL eq_refl LY)].
      unfold prob_of, prob. apply expect_ext. intros [a|err]; [|reflexivity]. unfold hits, is_. destruct (list_eq_dec _ _ _); reflexivity.
    - apply IH. intros; apply C; now right. }
  destruct (probs32_facts (length ms) H1 HS) as (LP & SP & FP & _).
  assert (EQ : prob_of (ens_sample32 kahan es (length X) counts data) X = prodf X (fun x => sumf (combine (probs32 (length ms)) (map q ms)) (fun '(a, f) => a * f x))).
  { unfold prob_of, prob, ens_sample32, split_samples32. rewrite LM, multinomial32_eq by auto.
    rewrite (expect_ext _ _ _ (hits (list_eq_dec Z.eq_dec) X)).
    2: { intros [a|err]; [|reflexivity]. unfold hits, is_. destruct (list_eq_dec _ _ _); reflexivity. }
    apply (mixture_law_w [] (list_eq_dec Z.eq_dec) (fun s n => sample s n counts data) (legal_row ws counts)
      (fun s n f g => sample_shape s n counts data f g) (es_members es) (map q ms) (probs32 (length ms)) X NE); auto. now rewrite LP. }
  assert (LE : length (evidence ws data) = list_sum ws) by (destruct data; [now apply DL|apply repeat_length]).
  assert (QP : forall m x, In m ms -> In x X -> 0 <= q m x).
  { intros m x Im Ix. unfold q. apply Rmult_le_pos; [apply arrangements_nonneg|]. left. apply Rdiv_lt_0_compat; apply RP; auto.
    unfold merge. rewrite map_length, combine_length, LE, (proj1 (LR x Ix)). apply Nat.min_id. }
  assert (E0 : 0 <= 1 - e).
  { unfold e. change (bp (-24)) with (/ 16777216). lra. }
  assert (E1 : 0 <= e) by (unfold e; apply Rmult_le_pos; [lra|apply bpow_ge_0]).
  rewrite EQ. apply (prodf_between X _ (fun x => arrangements ws counts x * (sumf ms (fun m => row_prob ws m (merge (evidence ws data) x) / row_prob ws m (evidence ws data)) / INR (length ms))) (1 - e) (1 + e)); [lra|lra|].
  intros x Ix.
  assert (EM : arrangements ws counts x * (sumf ms (fun m => row_prob ws m (merge (evidence ws data) x) / row_prob ws m (evidence ws data)) / INR (length ms)) = sumf ms (fun m => q m x) / INR (length ms)).
  { unfold q. rewrite sumf_scal. unfold Rdiv. ring. }
  rewrite EM. split; [apply Rmult_le_pos; [apply sumf_nonneg; intros; now apply QP|left; apply Rinv_0_lt_compat; lra]|].
  pose proof (weighted_mean (probs32 (length ms)) ms (fun m => q m x) (INR (length ms)) (bp (-24)) LP FP ltac:(lra) ltac:(intros; now apply QP)) as WM. fold e in WM.
  replace (sumf (combine (probs32 (length ms)) (map q ms)) (fun '(a, f) => a * f x)) with (sumf (combine (probs32 (length ms)) (map (fun m => q m x) ms)) (fun '(a, y) => a * y)); [exact WM|].
  generalize (probs32 (length ms)) as w. generalize ms as l. clear. induction l as [|m l IH]; intros [|a w]; try reflexivity. cbn [map combine]. now rewrite !sumf_cons, IH.
Qed.

Lemma C91_trees_proof : forall kahan ws V M N mst ms es n, kahan_ok kahan -> (Z.of_nat (length ms) <= 2 ^ 23)%Z ->
  ms <> [] -> (forall m, In m ms -> consistent ws V M N m) -> mst_contract mst -> ensemble_server mst ms = Ok es ->
  always (fun l => length l = n /\ forall T, In T l -> spanning_tree V T) (ens_sample_tree32 kahan es n).
Proof.
  intros kahan ws V M N mst ms es n KO HS NE0 C MC E. assert (O : ens_ok ws V M N ms) by (split; auto).
  destruct (members_nonempty ws V M N mst ms es O MC E) as (NE & LM).
  assert (H1 : (1 <= length ms)%nat) by (destruct ms; [congruence|cbn; lia]). destruct (probs32_facts (length ms) H1 HS) as (LP & _).
  unfold ens_sample_tree32, split_samples32. rewrite LM, multinomial32_eq by auto.
  apply always_bind. eapply always_mono; [|apply (multinomial_always (length ms) n (probs32 (length ms)) LP)].
  - intros nums (L & SN). apply always_bind.
    eapply always_mono; [|apply (rmap_always server_sample_tree (spanning_tree V) (es_members es))].
    + intros parts (LPa & PP). apply shuffled_always; [congruence|exact PP].
    + intros s k I. destruct (members_in ws V M N mst ms es s O MC E I) as (m & _ & Cm & Es). apply (server_trees ws V M N m mst s k); auto.
    + now rewrite LM.
  - intros E0. rewrite E0 in LP. cbn in LP. lia.
Qed.

Lemma C91_case_proof : kahan_ok rsum /\ [lumped; split_; lumped] <> [] /\ (forall m, In m [lumped; split_; lumped] -> consistent [2]%nat 1 2 2 m) /\
  legal_row [2]%nat [3]%Z [1; 2]%Z /\ val (nth 0 (weights32 3) fzero) = 11184811 / 33554432 /\
  (forall mst, mst_contract mst -> exists es, ensemble_server mst [lumped; split_; lumped] = Ok es).
Proof.
  split. { intros l F. rewrite Rminus_eq_0, Rabs_R0. apply Rmult_le_pos; [apply bpow_ge_0|]. unfold rsum. apply sumf_nonneg. rewrite Forall_forall in F. exact F. }
  split; [discriminate|]. assert (C : forall m, In m [lumped; split_; lumped] -> consistent [2]%nat 1 2 2 m) by (intros m I; apply pair_consistent; cbn [In] in *; tauto).
  split; [exact C|]. split. { split; [reflexivity|]. split; [cbn; intuition lia|]. intros [|v] Hv; [reflexivity|cbn in Hv; lia]. }
  split. { rewrite <- SF2R_B2SF. assert (Q : B2SF (nth 0 (weights32 3) fzero) = SpecFloat.S754_finite false 11184811 (-25)) by (vm_compute; reflexivity). rewrite Q. unfold SF2R, F2R. cbn. lra. }
  intros mst MC. destruct (ens_build [2]%nat 1 2 2 mst [lumped; split_; lumped] ltac:(split; [discriminate|exact C]) MC) as (es & E & _). exists es. exact E.
Qed.
