(** One draw of [sample_from_probs] on float32 weights, with the generator's outputs. *)
From Coq Require Import List Arith Bool ZArith Reals Lra Lia.
From Flocq Require Import Core Relative IEEE754.BinarySingleNaN.
From Verif Require Import Base L_Base Spec_Sum L_Sum Spec_Stats M_Rand M_Float32 M_Train32 Spec_Float32 L_Float32 L_Sample32 L_Serving32a L_Acc1 Spec_Law.
Import ListNotations.
Open Scope R_scope.

(** ** Counting *)
Definition count (P : nat -> bool) (K : nat) : R := INR (length (filter P (seq 0 K))).
Lemma count_S P K : count P (Datatypes.S K) = count P K + (if P K then 1 else 0).
Proof.
  unfold count. rewrite seq_S, filter_app, app_length, plus_INR. cbn [Nat.add filter]. destruct (P K); cbn [length INR]; lra.
Qed.
Lemma count_low P y K : (forall k, (k < K)%nat -> INR k < y -> P k = true) -> y <= INR K -> y <= count P K.
Proof.
  intros H. assert (G : y <= count P K \/ INR K <= count P K).
  { induction K as [|K IH]; [right; unfold count; cbn; lra|]. rewrite count_S, S_INR.
    assert (0 <= if P K then 1 else 0) by (destruct (P K); lra).
    destruct IH as [I|I]; [intros; apply H; auto|left; lra|]. destruct (Rlt_dec (INR K) y) as [L|NL]; [rewrite (H K) by (auto; lia); right; lra|left; lra]. }
  lra.
Qed.
Lemma count_high P z K : 0 <= z -> (forall k, (k < K)%nat -> P k = true -> INR k < z) -> count P K <= z + 1.
Proof.
  intros Hz H. assert (G : count P K <= z + 1 /\ count P K <= INR K); [|lra].
  induction K as [|K IH]; [unfold count; cbn; lra|]. rewrite count_S, S_INR. destruct IH as (I1 & I2); [intros; apply H; auto|].
  destruct (P K) eqn:E; [|lra]. specialize (H K ltac:(lia) E). lra.
Qed.
Lemma count_ext P Q K : (forall k, (k < K)%nat -> P k = Q k) -> count P K = count Q K.
Proof. induction K as [|K IH]; intros H; [reflexivity|]. rewrite !count_S, H, IH by auto. reflexivity. Qed.
Lemma count_sub P Q K : (forall k, (k < K)%nat -> P k = true -> Q k = true) ->
  count (fun k => Q k && negb (P k)) K = count Q K - count P K.
Proof.
  induction K as [|K IH]; intros H; [unfold count; cbn; lra|]. rewrite !count_S, IH by auto. specialize (H K ltac:(lia)).
  destruct (P K), (Q K); cbn [andb negb]; try lra; now discriminate H.
Qed.

(** ** The generator *)
Notation two53 := (IZR (2 ^ 53)).
Lemma rand_ok k : (Z.of_nat k < 2 ^ 53)%Z -> uniform01 (rand_of k) /\ B2R (rand_of k) = INR k / two53.
Proof.
  intros Hk. unfold rand_of, f64_of.
  assert (E : IZR (Z.of_nat k) * bp (-53) = INR k / two53) by (rewrite <- INR_IZR_INZ; reflexivity).
  assert (F : fmt64 (IZR (Z.of_nat k) * bp (-53))) by (apply fmt_int; [reflexivity|lia|lia]).
  assert (B : 0 <= INR k / two53 < 1).
  { rewrite INR_IZR_INZ. split.
    - apply Rmult_le_pos; [apply IZR_le; lia|]. left. apply Rinv_0_lt_compat. apply IZR_lt. lia.
    - apply Rmult_lt_reg_r with two53; [apply IZR_lt; lia|]. unfold Rdiv. rewrite Rmult_assoc, Rinv_l, Rmult_1_r, Rmult_1_l by (apply Rgt_not_eq, IZR_lt; lia). apply IZR_lt. lia. }
  destruct (normalize_bounds 53 1024 p53 e1024 (Z.of_nat k) (-53) false _ _ F F) as (N1 & N2); [lra| | |].
  - rewrite E. pose proof (bp_pos 1024). lra.
  - rewrite E. apply Rlt_le_trans with 1; [lra|]. change 1 with (bp 0). apply bpow_le. lia.
  - rewrite E in N2. split; [split; [exact N1|]|]; lra.
Qed.

(** The threshold [np.random.rand() * cdf[-1]]. *)
Lemma threshold k (T : f32) : (Z.of_nat k < 2 ^ 53)%Z -> fin32 T = true -> 0 < val T ->
  let t := dmul (rand_of k) (to64 T) in
  is_finite t = true /\ 0 <= B2R t < val T /\ Rabs (B2R t - INR k / two53 * val T) <= bp (-53) * (INR k / two53 * val T).
Proof.
  intros Hk FT PT t. destruct (rand_ok k Hk) as (U & EU). destruct (dmul_lt (rand_of k) T U FT PT) as (D1 & D2). split; [exact D1|]. split; [exact D2|].
  destruct (to64_exact _ FT) as (T1 & T2). destruct U as (Fu & Bu). unfold t.
  assert (BT : val T < bp 128) by apply (B2R_lt 24 128 T).
  assert (FV : fmt64 (val T)) by (apply f32_in_f64, fmt_B2R).
  pose proof (Bmult_correct 53 1024 p53 e1024 mode_NE (rand_of k) (to64 T)) as C. cbn [round_mode] in C. rewrite T2 in C.
  fold (rnd 53 1024 (B2R (rand_of k) * val T)) in C.
  assert (UB : 0 <= B2R (rand_of k) * val T <= val T).
  { split; [apply Rmult_le_pos; lra|]. rewrite <- (Rmult_1_l (val T)) at 2. apply Rmult_le_compat_r; lra. }
  assert (H128 : bp 128 < bp 1024) by (apply bpow_lt; lia).
  rewrite (small 53 1024 p53 0 (val T)) in C; [|apply fmt_0|exact FV|exact UB|pose proof (bp_pos 1024); lra|lra].
  destruct C as (C1 & _). fold (dmul (rand_of k) (to64 T)) in C1. rewrite C1, EU.
  destruct k as [|k].
  - cbn [INR]. unfold Rdiv. rewrite !Rmult_0_l, Rmult_0_r, Rminus_0_r. rewrite (rnd_fmt 53 1024) by apply fmt_0. rewrite Rabs_R0. lra.
  - set (z := INR (Datatypes.S k) / two53 * val T).
    assert (GE : bp (-149) <= val T).
    { apply (generic_format_ge_bpow radix2 (SpecFloat.fexp 24 128)); [|exact PT|apply fmt_B2R]. intros e. unfold SpecFloat.fexp, SpecFloat.emin. lia. }
    assert (Z1 : bp (-1022) <= z).
    { apply Rle_trans with (bp (-53) * bp (-149)); [rewrite <- bpow_plus; apply bpow_le; lia|]. unfold z. apply Rmult_le_compat; try apply bpow_ge_0; auto.
      change (bp (-53)) with (/ two53). unfold Rdiv. rewrite <- (Rmult_1_l (/ two53)) at 1. apply Rmult_le_compat_r; [left; apply Rinv_0_lt_compat, IZR_lt; lia|].
      rewrite S_INR. pose proof (pos_INR k). lra. }
    pose proof (bp_pos (-1022)). unfold rnd.
    pose proof (relative_error_N_FLT radix2 (3 - 1024 - 53) 53 p53 (fun x => negb (Z.even x)) z) as E.
    change (round radix2 (SpecFloat.fexp 53 1024) ZnearestE z) with (round radix2 (FLT_exp (3 - 1024 - 53) 53) (Znearest (fun x => negb (Z.even x))) z).
    change (3 - 1024 - 53 + 53 - 1)%Z with (-1022)%Z in E. rewrite (Rabs_pos_eq z) in E by lra.
    specialize (E ltac:(lra)). eapply Rle_trans; [exact E|]. apply Rmult_le_compat_r; [lra|].
    replace (- (53) + 1)%Z with (-53 + 1)%Z by lia. rewrite bpow_plus. change (bp 1) with 2. lra.
Qed.

(** How many outputs of the generator give a threshold below [c]. *)
Lemma below_count (K : nat) (T : f32) c : Z.of_nat K = (2 ^ 53)%Z -> fin32 T = true -> 0 < val T -> 0 <= c <= val T ->
  Rabs (count (fun k => Rlt_bool (B2R (dmul (rand_of k) (to64 T))) c) K - two53 * (c / val T)) <= 3.
Proof.
  intros HK FT PT Hc. set (q := c / val T).
  assert (Q : 0 <= q <= 1).
  { unfold q. split; [apply Rmult_le_pos; [lra|left; now apply Rinv_0_lt_compat]|]. apply Rmult_le_reg_r with (val T); [exact PT|]. unfold Rdiv. rewrite Rmult_assoc, Rinv_l by lra. lra. }
  assert (EC : c = q * val T) by (unfold q; field; lra).
  assert (P53 : 0 < two53) by (apply IZR_lt; lia). assert (KK : INR K = two53) by (rewrite INR_IZR_INZ, HK; reflexivity).
  assert (EB : bp (-53) = / two53) by reflexivity.
  assert (SC : forall k, INR k / two53 * val T = INR k * (val T / two53)) by (intros; field; lra).
  assert (UT : 0 < val T / two53) by (now apply Rdiv_lt_0_compat).
  apply Rabs_le. split.
  - assert (L : two53 * q - 1 <= count (fun k => Rlt_bool (B2R (dmul (rand_of k) (to64 T))) c) K); [|lra].
    apply count_low; [|rewrite KK; nra]. intros k Hk L. apply Rlt_bool_true.
    destruct (threshold k T ltac:(lia) FT PT) as (_ & _ & E). apply Rabs_le_inv in E. rewrite EB, SC in E.
    assert (X : INR k * (val T / two53) < q * val T - val T / two53).
    { replace (q * val T - val T / two53) with ((two53 * q - 1) * (val T / two53)) by (field; lra). apply Rmult_lt_compat_r; auto. }
    assert (Y : / two53 * (INR k * (val T / two53)) <= val T / two53).
    { replace (val T / two53) with (/ two53 * val T) at 2 by (unfold Rdiv; ring). apply Rmult_le_compat_l; [left; now apply Rinv_0_lt_compat|]. nra. }
    rewrite EC. lra.
  - assert (H : count (fun k => Rlt_bool (B2R (dmul (rand_of k) (to64 T))) c) K <= two53 * q + 2 + 1); [|lra].
    apply count_high; [nra|]. intros k Hk L. revert L. case Rlt_bool_spec; [|discriminate]. intros L _.
    destruct (threshold k T ltac:(lia) FT PT) as (_ & _ & E). apply Rabs_le_inv in E. rewrite EB, SC in E.
    assert (KB : INR k <= two53) by (rewrite <- KK; apply le_INR; lia).
    assert (Y : / two53 * (INR k * (val T / two53)) <= val T / two53).
    { replace (/ two53 * (INR k * (val T / two53))) with (INR k / two53 * (val T / two53)) by (unfold Rdiv; ring). rewrite <- (Rmult_1_l (val T / two53)) at 2.
      apply Rmult_le_compat_r; [lra|]. apply Rmult_le_reg_r with two53; [exact P53|]. unfold Rdiv. rewrite Rmult_assoc, Rinv_l by lra. lra. }
    assert (X : INR k * (val T / two53) < (two53 * q + 2) * (val T / two53)).
    { replace ((two53 * q + 2) * (val T / two53)) with (q * val T + 2 * (val T / two53)) by (field; lra). lra. }
    apply Rmult_lt_reg_r in X; auto.
Qed.

(** ** The cumulative sums *)
Section CUM.
Variable w : list f32.
Hypothesis U : usable w.
Let n := length w.
Definition cuts : list f32 := fzero :: fcumsum fzero w.
Definition cut (i : nat) : f32 := nth i cuts fzero.

Lemma fcumsum_len l : forall acc, length (fcumsum acc l) = length l.
Proof. induction l as [|x l IH]; intros acc; cbn; auto. Qed.
Lemma cum_nth l : forall acc i, (i < length l)%nat -> nth (Datatypes.S i) (acc :: fcumsum acc l) fzero = fadd (nth i (acc :: fcumsum acc l) fzero) (nth i l fzero).
Proof.
  induction l as [|x l IH]; intros acc i Hi; [cbn in Hi; lia|]. cbn [fcumsum]. destruct i as [|i]; [reflexivity|].
  cbn [length] in Hi. specialize (IH (fadd acc x) i ltac:(lia)). cbn [nth] in *. exact IH.
Qed.
Lemma last_nth l : forall acc : f32, last l acc = nth (length l) (acc :: l) fzero.
Proof.
  assert (H : forall (x acc : f32), last (x :: l) acc = nth (length l) (x :: l) fzero).
  { induction l as [|y l' IH]; intros x acc; [reflexivity|]. change (last (x :: y :: l') acc) with (last (y :: l') acc). rewrite IH. reflexivity. }
  destruct l as [|x l']; [reflexivity|]. intros acc. specialize (H x acc). change (last (x :: x :: l') acc) with (last (x :: l') acc) in H.
  rewrite H. cbn [length nth]. reflexivity.
Qed.

Lemma cut_ok i : fin32 (cut i) = true /\ 0 <= val (cut i) <= bp 116.
Proof.
  destruct U as (HL & F & _).
  destruct (cumsum_spec 100 w ltac:(lia) F fzero 0 ltac:(reflexivity) ltac:(cbn; lra) ltac:(lia) ltac:(lia)) as (C1 & _ & _).
  unfold cut, cuts. destruct i as [|i]; [cbn; split; [reflexivity|]; pose proof (bp_pos 116); lra|]. cbn [nth].
  destruct (Nat.lt_ge_cases i (length (fcumsum fzero w))) as [L|L].
  - rewrite Forall_forall in C1. destruct (C1 _ (nth_In _ fzero L)) as (A & B). split; [exact A|]. cbn [B2R fzero] in B. split; [cbn in *; lra|].
    eapply Rle_trans; [apply B|]. change 116%Z with (16 + 100)%Z. rewrite bpow_plus. change (bp 16) with (IZR (2 ^ 16)). apply Rmult_le_compat_r; [apply bpow_ge_0|]. apply IZR_le. lia.
  - rewrite nth_overflow by exact L. cbn. split; [reflexivity|]. pose proof (bp_pos 116). lra.
Qed.
Lemma weight_ok i : fin32 (nth i w fzero) = true /\ 0 <= val (nth i w fzero) <= bp 100.
Proof.
  destruct U as (_ & F & _). destruct (Nat.lt_ge_cases i (length w)) as [L|L].
  - rewrite Forall_forall in F. exact (F _ (nth_In _ fzero L)).
  - rewrite nth_overflow by exact L. cbn. split; [reflexivity|]. pose proof (bp_pos 100). lra.
Qed.
Lemma cut_step i : (i < n)%nat -> val (cut i) <= val (cut (i + 1)) /\
  Rabs (val (cut (i + 1)) - val (cut i) - val (nth i w fzero)) <= bp (-23) * val (cut (i + 1)).
Proof.
  intros Hi. destruct (cut_ok i) as (A1 & A2), (weight_ok i) as (B1 & B2).
  assert (E : cut (i + 1) = fadd (cut i) (nth i w fzero)) by (rewrite Nat.add_1_r; apply cum_nth; exact Hi). rewrite E.
  assert (X1 : bp 116 <= bp 125) by (apply bpow_le; lia). assert (X2 : bp 100 <= bp 125) by (apply bpow_le; lia).
  assert (X3 : bp 126 = 2 * bp 125) by (change 126%Z with (1 + 125)%Z; rewrite bpow_plus; reflexivity).
  destruct (fadd_rel _ _ A1 B1) as (_ & R1 & _ & R3); [tauto|tauto|lra|]. split; [exact R1|]. change (bp (-24)) with (/ 16777216) in R3. change (bp (-23)) with (/ 8388608).
  apply Rabs_le. lra.
Qed.
Lemma cut_mono i j : (i <= j <= n)%nat -> val (cut i) <= val (cut j).
Proof.
  intros (A & B). induction A as [|j A IH]; [lra|]. specialize (IH ltac:(lia)). destruct (cut_step j ltac:(lia)) as (C & _). rewrite Nat.add_1_r in C. lra.
Qed.

Definition top : f32 := last (fcumsum fzero w) fzero.
Lemma top_cut : top = cut n.
Proof. unfold top, cut, cuts, n. rewrite last_nth, fcumsum_len. reflexivity. Qed.
Lemma top_pos : 0 < val top.
Proof.
  destruct U as (HL & F & x & Ix & Px).
  destruct (cumsum_spec 100 w ltac:(lia) F fzero 0 ltac:(reflexivity) ltac:(cbn; lra) ltac:(lia) ltac:(lia)) as (_ & C2 & _). specialize (C2 x Ix). unfold top. lra.
Qed.

Lemma below_first t (Ft : is_finite t = true) l i0 : (forall z, In z l -> fin32 z = true) ->
  (exists z, In z l /\ B2R t < val z) -> (forall a b, (a <= b < length l)%nat -> val (nth a l fzero) <= val (nth b l fzero)) ->
  exists m, first_below t l i0 = Some (i0 + m)%nat /\ (m < length l)%nat /\ forall j, (j < length l)%nat -> ((m <= j)%nat <-> B2R t < val (nth j l fzero)).
Proof.
  revert i0. induction l as [|x l IH]; intros i0 F (z & Iz & Hz) M; [destruct Iz|]. cbn [first_below].
  destruct (to64_exact x (F _ (or_introl eq_refl))) as (T1 & T2). unfold dltb. rewrite Bltb_correct by auto. rewrite T2. case Rlt_bool_spec; intros L.
  - exists 0%nat. split; [f_equal; lia|]. split; [cbn; lia|]. intros j Hj. split; [intros _|lia]. specialize (M 0%nat j ltac:(lia)). change (nth 0 (x :: l) fzero) with x in M. lra.
  - destruct (IH (Datatypes.S i0)) as (m & E & Lm & J); [intros; apply F; now right| | |].
    + destruct Iz as [<-|Iz]; [lra|]. eauto.
    + intros a b Hab. apply (M (Datatypes.S a) (Datatypes.S b)). cbn [length]. lia.
    + exists (Datatypes.S m). split; [rewrite E; f_equal; lia|]. split; [cbn; lia|]. intros [|j] Hj; cbn [nth]; [split; [lia|lra]|].
      rewrite <- (J j) by (cbn in Hj; lia). lia.
Qed.

(** Which outputs of the generator give entry [i]. *)
Lemma draws_entry k i : (Z.of_nat k < 2 ^ 53)%Z -> (i < n)%nat ->
  match sample_from_probs32 (rand_of k) w with Ok j => (j =? i)%nat | Raise _ => false end =
  Rlt_bool (B2R (dmul (rand_of k) (to64 top))) (val (cut (i + 1))) && negb (Rlt_bool (B2R (dmul (rand_of k) (to64 top))) (val (cut i))).
Proof.
  intros Hk Hi. assert (FT : fin32 top = true) by (rewrite top_cut; apply cut_ok).
  destruct (threshold k top Hk FT top_pos) as (T1 & T2 & _). set (t := dmul (rand_of k) (to64 top)) in *.
  assert (LE : length (fcumsum fzero w) = n) by apply fcumsum_len.
  assert (CN : forall j, nth j (fcumsum fzero w) fzero = cut (j + 1)) by (intros j; rewrite Nat.add_1_r; reflexivity).
  destruct (below_first t T1 (fcumsum fzero w) 0) as (m & E & Lm & J).
  - intros z Iz. destruct (In_nth _ _ fzero Iz) as (j & _ & <-). rewrite CN. apply cut_ok.
  - exists top. split; [|tauto]. rewrite top_cut. replace n with (n - 1 + 1)%nat by lia. rewrite <- CN. apply nth_In. lia.
  - intros a b Hab. rewrite !CN. apply cut_mono. lia.
  - unfold sample_from_probs32. destruct w as [|x l] eqn:EW; [cbn in Hi; unfold n in Hi; cbn in Hi; lia|]. rewrite <- EW in *. fold top t. rewrite E. cbn [Nat.add].
    rewrite LE in *. pose proof (J i Hi) as Ji. rewrite CN in Ji.
    destruct i as [|i].
    + assert (Rlt_bool (B2R t) (val (cut 0)) = false) as -> by (apply Rlt_bool_false; cbn; lra). rewrite andb_true_r.
      case Rlt_bool_spec; intros L; [apply Nat.eqb_eq|apply Nat.eqb_neq]; [apply Ji in L; lia|]. intros ->. assert (B2R t < val (cut (0 + 1))) by (apply Ji; lia). lra.
    + pose proof (J i ltac:(lia)) as Jp. rewrite CN, Nat.add_1_r in Jp.
      case Rlt_bool_spec; intros L; case Rlt_bool_spec; intros L'; cbn [andb negb]; [apply Nat.eqb_neq|apply Nat.eqb_eq|apply Nat.eqb_neq|apply Nat.eqb_neq].
      * apply Jp in L'. lia.
      * apply Ji in L. destruct (Nat.le_gt_cases m i) as [X|X]; [apply Jp in X; lra|lia].
      * apply Jp in L'. assert (X : (m <= Datatypes.S i)%nat) by lia. apply Ji in X. lra.
      * intros ->. assert (X : (Datatypes.S i <= Datatypes.S i)%nat) by lia. apply Ji in X. lra.
Qed.

Lemma filter_map_len A B (f : A -> B) P l : length (filter P (map f l)) = length (filter (fun x => P (f x)) l).
Proof. induction l as [|x l IH]; [reflexivity|]. cbn. destruct (P (f x)); cbn; rewrite IH; reflexivity. Qed.

Lemma draw_prob_count (K : nat) i : Z.of_nat K = (2 ^ 53)%Z -> (i < n)%nat ->
  draw_prob w i = (count (fun k => Rlt_bool (B2R (dmul (rand_of k) (to64 top))) (val (cut (i + 1)))) K -
                   count (fun k => Rlt_bool (B2R (dmul (rand_of k) (to64 top))) (val (cut i))) K) / two53.
Proof.
  intros HK Hi. unfold draw_prob, all_rands. replace (Z.to_nat (2 ^ 53)) with K by lia. rewrite filter_map_len. f_equal.
  rewrite <- count_sub.
  - apply count_ext. intros k Hk. apply draws_entry; [lia|exact Hi].
  - intros k _. destruct (cut_step i Hi) as (M & _). case Rlt_bool_spec; [|discriminate]. intros L _. apply Rlt_bool_true. lra.
Qed.

(** The total of the weights. *)
Definition total : R := rsum (map (fun x : f32 => val x) w).
Lemma total_seq : total = sumf (seq 0 n) (fun i => val (nth i w fzero)).
Proof.
  unfold total. rewrite <- sumf_seq_nth, map_length. apply sumf_ext. intros i Hi. apply in_seq in Hi.
  rewrite (nth_indep _ 0 (val fzero)) by (rewrite map_length; unfold n in Hi; lia). apply map_nth with (f := fun x : f32 => val x).
Qed.
Lemma sumf_abs A (l : list A) f : Rabs (sumf l f) <= sumf l (fun x => Rabs (f x)).
Proof. induction l as [|x l IH]; [cbn; rewrite Rabs_R0; lra|]. rewrite !sumf_cons. eapply Rle_trans; [apply Rabs_triang|]. lra. Qed.
Lemma telescope (f : nat -> R) m : sumf (seq 0 m) (fun i => f (i + 1)%nat - f i) = f m - f 0%nat.
Proof. induction m as [|m IH]; [cbn; lra|]. rewrite seq_S, sumf_app, IH, sumf_cons, sumf_nil. cbn [Nat.add]. rewrite Nat.add_1_r. lra. Qed.

Lemma step_errs : sumf (seq 0 n) (fun i => Rabs (val (cut (i + 1)) - val (cut i) - val (nth i w fzero))) <= INR n * (bp (-23) * val top).
Proof.
  eapply Rle_trans; [apply sumf_le with (g := fun _ => bp (-23) * val top)|rewrite sumf_const, seq_length; lra].
  intros i Hi. apply in_seq in Hi. eapply Rle_trans; [apply cut_step; lia|]. apply Rmult_le_compat_l; [apply bpow_ge_0|]. rewrite top_cut. apply cut_mono. lia.
Qed.
Lemma total_near : Rabs (val top - total) <= INR n * (bp (-23) * val top).
Proof.
  eapply Rle_trans; [|apply step_errs]. eapply Rle_trans; [|apply sumf_abs]. right. f_equal. rewrite sumf_minus, <- total_seq.
  rewrite (telescope (fun i => val (cut i))), <- top_cut. cbn [cut cuts nth B2R fzero]. change (val (cut 0)) with 0. lra.
Qed.
Lemma total_pos : 0 < total.
Proof.
  destruct U as (_ & F & x & Ix & Px). unfold total, rsum. rewrite sumf_map. apply sumf_pos; [|eauto]. rewrite Forall_forall in F. intros y Iy. apply (F y Iy).
Qed.

(** The probabilities of the draws add up to 1, and are near the shares of the weights. *)
Lemma draw_prob_sum : sumf (seq 0 n) (draw_prob w) = 1.
Proof.
  assert (EK : exists K, Z.of_nat K = (2 ^ 53)%Z) by (exists (Z.to_nat (2 ^ 53)); lia). destruct EK as (K & HK).
  assert (DC : forall i, In i (seq 0 n) -> draw_prob w i = (count (fun k => Rlt_bool (B2R (dmul (rand_of k) (to64 top))) (val (cut (i + 1)))) K -
                   count (fun k => Rlt_bool (B2R (dmul (rand_of k) (to64 top))) (val (cut i))) K) / two53).
  { intros i Hi. apply in_seq in Hi. apply draw_prob_count; [exact HK|lia]. }
  rewrite (sumf_ext _ _ _ DC), sumf_div.
  rewrite (telescope (fun i => count (fun k => Rlt_bool (B2R (dmul (rand_of k) (to64 top))) (val (cut i))) K)).
  assert (FT : fin32 top = true) by (rewrite top_cut; apply cut_ok).
  assert (A : forall i, (forall k, (k < K)%nat -> Rlt_bool (B2R (dmul (rand_of k) (to64 top))) (val (cut i)) = true) ->
    count (fun k => Rlt_bool (B2R (dmul (rand_of k) (to64 top))) (val (cut i))) K = two53).
  { intros i H. rewrite (count_ext _ (fun _ => true)) by exact H. unfold count.
    assert (FA : forall l : list nat, filter (fun _ => true) l = l) by (clear; induction l as [|x l IH]; [reflexivity|]; cbn; now rewrite IH).
    rewrite FA, seq_length, INR_IZR_INZ, HK. reflexivity. }
  rewrite A.
  - assert (count (fun k => Rlt_bool (B2R (dmul (rand_of k) (to64 top))) (val (cut 0))) K = 0) as ->.
    { rewrite (count_ext _ (fun _ => false)); [unfold count|].
      - assert (FA : forall l : list nat, filter (fun _ => false) l = []) by (clear; induction l as [|x l IH]; [reflexivity|]; cbn; now rewrite IH). now rewrite FA.
      - intros k Hk. apply Rlt_bool_false. destruct (threshold k top ltac:(lia) FT top_pos) as (_ & B & _). cbn. lra. }
    rewrite Rminus_0_r. unfold Rdiv. apply Rinv_r. apply Rgt_not_eq, IZR_lt. lia.
  - intros k Hk. apply Rlt_bool_true. rewrite <- top_cut. apply (threshold k top ltac:(lia) FT top_pos).
Qed.
Lemma draw_prob_nonneg i : 0 <= draw_prob w i.
Proof. unfold draw_prob. apply Rmult_le_pos; [apply pos_INR|]. left. apply Rinv_0_lt_compat, IZR_lt. lia. Qed.

Lemma draw_prob_near : sumf (seq 0 n) (fun i => Rabs (draw_prob w i - val (nth i w fzero) / total)) <= INR n * bp (-21).
Proof.
  assert (EK : exists K, Z.of_nat K = (2 ^ 53)%Z) by (exists (Z.to_nat (2 ^ 53)); lia). destruct EK as (K & HK).
  assert (FT : fin32 top = true) by (rewrite top_cut; apply cut_ok). pose proof top_pos as PT. pose proof total_pos as PS.
  assert (P53 : 0 < two53) by (apply IZR_lt; lia).
  assert (STEP : forall i, (i < n)%nat -> Rabs (draw_prob w i - val (nth i w fzero) / total) <=
    6 / two53 + Rabs (val (cut (i + 1)) - val (cut i) - val (nth i w fzero)) / val top + val (nth i w fzero) * Rabs (/ val top - / total)).
  { intros i Hi. rewrite (draw_prob_count K i HK Hi).
    assert (C : forall j, (j <= n)%nat -> Rabs (count (fun k => Rlt_bool (B2R (dmul (rand_of k) (to64 top))) (val (cut j))) K - two53 * (val (cut j) / val top)) <= 3).
    { intros j Hj. apply below_count; auto. split; [apply cut_ok|]. rewrite top_cut. apply cut_mono. lia. }
    pose proof (C i ltac:(lia)) as C1. pose proof (C (i + 1)%nat ltac:(lia)) as C2.
    set (c1 := count (fun k => Rlt_bool (B2R (dmul (rand_of k) (to64 top))) (val (cut i))) K) in *.
    set (c2 := count (fun k => Rlt_bool (B2R (dmul (rand_of k) (to64 top))) (val (cut (i + 1)))) K) in *.
    set (wi := val (nth i w fzero)) in *. set (a := val (cut i)) in *. set (b := val (cut (i + 1))) in *.
    replace ((c2 - c1) / two53 - wi / total) with
      (((c2 - two53 * (b / val top)) - (c1 - two53 * (a / val top))) / two53 + (b - a - wi) / val top + wi * (/ val top - / total)) by (field; repeat split; lra).
    eapply Rle_trans; [apply Rabs_triang|]. apply Rplus_le_compat; [eapply Rle_trans; [apply Rabs_triang|]; apply Rplus_le_compat|].
    - unfold Rdiv. rewrite Rabs_mult, (Rabs_pos_eq (/ two53)) by (left; now apply Rinv_0_lt_compat). apply Rmult_le_compat_r; [left; now apply Rinv_0_lt_compat|].
      apply Rabs_le. apply Rabs_le_inv in C1, C2. lra.
    - unfold Rdiv. rewrite Rabs_mult, (Rabs_pos_eq (/ val top)) by (left; now apply Rinv_0_lt_compat). lra.
    - rewrite Rabs_mult, (Rabs_pos_eq wi) by apply weight_ok. lra. }
  eapply Rle_trans; [apply sumf_le; intros i Hi; apply in_seq in Hi; apply STEP; lia|].
  rewrite !sumf_plus, sumf_const, seq_length, sumf_scal_r, <- total_seq, sumf_div.
  assert (X1 : sumf (seq 0 n) (fun i => Rabs (val (cut (i + 1)) - val (cut i) - val (nth i w fzero))) / val top <= INR n * bp (-23)).
  { apply Rmult_le_reg_r with (val top); [exact PT|]. unfold Rdiv. rewrite Rmult_assoc, Rinv_l, Rmult_1_r by lra. pose proof step_errs. lra. }
  assert (X2 : total * Rabs (/ val top - / total) <= INR n * bp (-23)).
  { replace (/ val top - / total) with ((total - val top) * (/ val top * / total)) by (field; split; lra).
    rewrite Rabs_mult, (Rabs_pos_eq (/ val top * / total)) by (apply Rmult_le_pos; left; apply Rinv_0_lt_compat; lra).
    rewrite Rabs_minus_sym. replace (total * (Rabs (val top - total) * (/ val top * / total))) with (Rabs (val top - total) / val top) by (field; split; lra).
    apply Rmult_le_reg_r with (val top); [exact PT|]. unfold Rdiv. rewrite Rmult_assoc, Rinv_l, Rmult_1_r by lra. pose proof total_near. lra. }
  assert (X3 : 6 / two53 <= bp (-23)) by (change two53 with 9007199254740992; change (bp (-23)) with (/ 8388608); lra).
  pose proof (pos_INR n). assert (INR n * (6 / two53) <= INR n * bp (-23)) by now apply Rmult_le_compat_l.
  assert (bp (-21) = 4 * bp (-23)) by (change (-21)%Z with (2 + -23)%Z; rewrite bpow_plus; reflexivity).
  pose proof (bp_pos (-23)). nra.
Qed.
End CUM.
