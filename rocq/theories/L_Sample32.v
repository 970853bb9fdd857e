(** Draws from usable float32 weights; [np.dot] from left to right. *)
From Coq Require Import List Arith Bool ZArith Reals Lra Lia.
From Flocq Require Import Core IEEE754.BinarySingleNaN.
From Verif Require Import Base M_Structure M_Training Spec_Stats M_Float32 M_Train32 Spec_Float32 L_Float32.
Import ListNotations.
Open Scope R_scope.

Lemma bp_pos e : 0 < bp e.
Proof. apply bpow_gt_0. Qed.

Lemma cum_step (acc x : f32) j a : fin32 acc = true -> 0 <= val acc <= IZR j * bp a -> (0 <= j < 2 ^ 24)%Z ->
  (-149 <= a <= 103)%Z -> fin32 x = true -> 0 <= val x <= bp a ->
  fin32 (fadd acc x) = true /\ val acc <= val (fadd acc x) <= IZR (j + 1) * bp a /\
  (val x = 0 -> val (fadd acc x) = val acc) /\ val x <= val (fadd acc x).
Proof.
  intros Fa Ba Hj Ha Fx Bx.
  assert (F1 : fmt32 (IZR (j + 1) * bp a)) by (apply fmt_int; [reflexivity|lia|lia]).
  assert (H : IZR (j + 1) * bp a < bp 128).
  { assert (IZR (j + 1) <= bp 24) by (change (bp 24) with (IZR (2 ^ 24)); apply IZR_le; lia).
    assert (IZR (j + 1) * bp a <= bp 24 * bp a) by (apply Rmult_le_compat_r; [pose proof (bp_pos a); lra|lra]).
    rewrite <- bpow_plus in H0. assert (bp (24 + a) < bp 128) by (apply bpow_lt; lia). lra. }
  assert (S : val acc + val x <= IZR (j + 1) * bp a) by (rewrite plus_IZR; lra).
  destruct (fadd_bounds acc x (val acc) (IZR (j + 1) * bp a) Fa Fx (fmt_B2R _ _ _) F1) as (A1 & A2); [lra|tauto|exact H|].
  split; [exact A1|]. split; [exact A2|]. split.
  - intros Z. destruct (fadd_bounds acc x (val acc) (val acc) Fa Fx (fmt_B2R _ _ _) (fmt_B2R _ _ _)) as (B1 & B2); [lra|tauto| |lra].
    apply (B2R_lt 24 128 acc).
  - destruct (fadd_bounds acc x (val x) (IZR (j + 1) * bp a) Fa Fx (fmt_B2R _ _ _) F1) as (B1 & B2); [lra|tauto|exact H|]. tauto.
Qed.

(** Cumulative sums are finite, increase, and increase only at positive weights. *)
Lemma cumsum_spec a w : (-149 <= a <= 103)%Z -> Forall (fun x => fin32 x = true /\ 0 <= val x <= bp a) w ->
  forall acc j, fin32 acc = true -> 0 <= val acc <= IZR j * bp a -> (0 <= j)%Z -> (j + Z.of_nat (length w) < 2 ^ 24)%Z ->
  Forall (fun z => fin32 z = true /\ val acc <= val z <= IZR (j + Z.of_nat (length w)) * bp a) (fcumsum acc w) /\
  (forall x, In x w -> val x <= val (last (fcumsum acc w) acc)) /\
  forall t i, first_below t (fcumsum acc w) i = None \/
    exists k, (k < length w)%nat /\ first_below t (fcumsum acc w) i = Some (i + k)%nat /\
      (is_finite t = true -> val acc <= B2R t -> 0 < val (nth k w fzero)).
Proof.
  intros Ha F. induction F as [|x w (Fx & Bx) F IH]; intros acc j Fa Ba Hj HL.
  - cbn. split; [constructor|]. split; [tauto|]. intros; now left.
  - cbn [length] in *. rewrite Nat2Z.inj_succ in *.
    destruct (cum_step acc x j a Fa Ba) as (S1 & S2 & S3 & S4); try lia; auto.
    destruct (IH (fadd acc x) (j + 1)%Z) as (I1 & I2 & I3); [exact S1|lra|lia|lia|].
    cbn [fcumsum]. assert (MX : IZR (j + 1) * bp a <= IZR (j + Z.succ (Z.of_nat (length w))) * bp a).
    { apply Rmult_le_compat_r; [pose proof (bp_pos a); lra|]. apply IZR_le. lia. }
    split; [|split].
    + constructor; [split; [exact S1|lra]|]. eapply Forall_impl; [|exact I1]. intros z (Z1 & Z2). split; [exact Z1|].
      replace (j + Z.succ (Z.of_nat (length w)))%Z with (j + 1 + Z.of_nat (length w))%Z by lia. lra.
    + assert (LE : val (fadd acc x) <= val (last (fadd acc x :: fcumsum (fadd acc x) w) acc)).
      { destruct w as [|x' w']; [cbn; lra|]. cbn [fcumsum] in *.
        assert (In (last (fadd (fadd acc x) x' :: fcumsum (fadd (fadd acc x) x') w') acc) (fadd (fadd acc x) x' :: fcumsum (fadd (fadd acc x) x') w')).
        { destruct (exists_last (l := fadd (fadd acc x) x' :: fcumsum (fadd (fadd acc x) x') w')) as (p & q & E); [discriminate|].
          rewrite E, last_last. apply in_app_iff. right. now left. }
        rewrite Forall_forall in I1. destruct (I1 _ H) as (_ & H1). cbn [last] in *. lra. }
      intros z [->|Hz]; [lra|]. destruct w as [|x' w']; [destruct Hz|]. specialize (I2 z Hz). cbn [fcumsum] in *.
      cbn [last] in *. 
      assert (LD : forall (l : list f32) d d', l <> [] -> last l d = last l d').
      { intros l d d'. induction l as [|u l IHl]; [congruence|]. intros _. destruct l; [reflexivity|]. cbn [last]. apply IHl. discriminate. }
      destruct (fcumsum (fadd (fadd acc x) x') w') eqn:EC; [exact I2|]. rewrite (LD _ acc (fadd acc x)) by discriminate. exact I2.
    + intros t i. cbn [first_below]. destruct (dltb t (to64 (fadd acc x))) eqn:EB.
      * right. exists 0%nat. split; [lia|]. split; [f_equal; lia|]. intros Ft Lt. cbn [nth].
        destruct (to64_exact _ S1) as (T1 & T2). unfold dltb in EB. rewrite Bltb_correct in EB by auto.
        rewrite T2 in EB. revert EB. case Rlt_bool_spec; [|discriminate]. intros Hlt _.
        destruct (Req_dec (val x) 0) as [Z|N]; [specialize (S3 Z); lra|lra].
      * destruct (I3 t (S i)) as [E|(k & K1 & K2 & K3)]; [now left|]. right. exists (S k). split; [lia|].
        split; [rewrite K2; f_equal; lia|]. intros Ft Lt. cbn [nth]. apply K3; [exact Ft|].
        destruct (to64_exact _ S1) as (T1 & T2). unfold dltb in EB. rewrite Bltb_correct in EB by auto.
        rewrite T2 in EB. revert EB. case Rlt_bool_spec; [discriminate|]. intros Hle _. exact Hle.
Qed.

(** A product with a number below 1 is smaller. *)
Lemma dmul_lt (u : f64) (T : f32) : uniform01 u -> fin32 T = true -> 0 < val T ->
  is_finite (dmul u (to64 T)) = true /\ 0 <= B2R (dmul u (to64 T)) < val T.
Proof.
  intros (Fu & Bu) FT PT. destruct (to64_exact _ FT) as (T1 & T2).
  assert (FV : fmt64 (val T)) by (apply f32_in_f64, fmt_B2R).
  assert (V1 : Valid_exp (SpecFloat.fexp 53 1024)) by (apply fexp_correct; reflexivity).
  assert (BT : val T < bp 128) by apply (B2R_lt 24 128 T).
  assert (B1 : bp 128 < bp 1024) by (apply bpow_lt; lia).
  assert (GE : bp (-149) <= val T).
  { apply (generic_format_ge_bpow radix2 (SpecFloat.fexp 24 128)); [|exact PT|apply fmt_B2R].
    intros e. unfold SpecFloat.fexp, SpecFloat.emin. lia. }
  set (fx := SpecFloat.fexp 53 1024). set (e := mag_val radix2 (val T) (mag radix2 (val T))).
  assert (HE : (-149 < e)%Z) by (apply mag_gt_bpow; rewrite Rabs_right by lra; exact GE).
  assert (BE : bp (e - 1) <= val T < bp e).
  { pose proof (bpow_mag_gt radix2 (val T)) as G. pose proof (bpow_mag_le radix2 (val T) ltac:(lra)) as G2.
    rewrite Rabs_right in G, G2 by lra. split; assumption. }
  assert (UL : B2R u <= 1 - bp (-53)).
  { assert (P1 : pred radix2 fx 1 = 1 - bp (-53)).
    { change 1 with (bp 0). unfold fx. rewrite pred_bpow. reflexivity. }
    rewrite <- P1. apply pred_ge_gt; [exact V1|apply fmt_B2R| |tauto].
    change 1 with (bp 0). apply fmt_bpow; [reflexivity|lia]. }
  assert (MID : B2R u * val T < (pred radix2 fx (val T) + val T) / 2).
  { assert (UT : B2R u * val T <= val T - bp (-53) * val T).
    { replace (val T - bp (-53) * val T) with ((1 - bp (-53)) * val T) by ring. apply Rmult_le_compat_r; lra. }
    rewrite pred_eq_pos by lra. unfold pred_pos. fold e.
    assert (Q : bp (-53) * val T >= bp (e - 54)).
    { replace (e - 54)%Z with (-53 + (e - 1))%Z by lia. rewrite bpow_plus. apply Rle_ge, Rmult_le_compat_l; [pose proof (bp_pos (-53)); lra|tauto]. }
    case Req_bool_spec; intros D.
    - assert (fx (e - 1)%Z = (e - 54)%Z) as -> by (unfold fx, SpecFloat.fexp, SpecFloat.emin; lia).
      pose proof (bp_pos (e - 54)). lra.
    - rewrite ulp_neq_0 by lra. unfold cexp. fold e. assert (fx e = (e - 53)%Z) as -> by (unfold fx, SpecFloat.fexp, SpecFloat.emin; lia).
      assert (Q2 : bp (-53) * val T > bp (-53) * bp (e - 1)) by (apply Rmult_lt_compat_l; [apply bp_pos|lra]).
      rewrite <- bpow_plus in Q2. replace (-53 + (e - 1))%Z with (e - 54)%Z in Q2 by lia.
      assert (bp (e - 53) = 2 * bp (e - 54)).
      { replace (e - 53)%Z with (1 + (e - 54))%Z by lia. rewrite bpow_plus. cbn [bpow]. f_equal. }
      lra. }
  assert (UP : 0 <= B2R u * val T < bp 1024).
  { split; [apply Rmult_le_pos; lra|]. apply Rle_lt_trans with (1 * val T); [apply Rmult_le_compat_r; lra|lra]. }
  pose proof (Bmult_correct 53 1024 p53 e1024 mode_NE u (to64 T)) as C. cbn [round_mode] in C. rewrite T2 in C.
  fold (rnd 53 1024 (B2R u * val T)) in C.
  rewrite (small 53 1024 p53 0 (val T)) in C; [|apply fmt_0|exact FV| |pose proof (bp_pos 1024); lra|lra].
  - destruct C as (C1 & C2 & _). fold (dmul u (to64 T)) in C1, C2. rewrite C2, Fu, T1. split; [reflexivity|]. rewrite C1. split.
    + apply rnd_ge; [reflexivity|apply fmt_0|tauto].
    + apply Rle_lt_trans with (pred radix2 fx (val T)).
      * apply round_N_le_midp; [exact V1|apply generic_format_pred; [exact V1|exact FV]|].
        fold fx. rewrite succ_pred by (try exact V1; exact FV). exact MID.
      * apply pred_lt_id. lra.
  - split; [tauto|]. apply Rle_trans with (1 * val T); [apply Rmult_le_compat_r; lra|lra].
Qed.

(** A draw from usable weights gives an index of positive weight. *)
Lemma sample_usable u w : uniform01 u -> usable w ->
  exists i, sample_from_probs32 u w = Ok i /\ (i < length w)%nat /\ 0 < val (nth i w fzero).
Proof.
  intros Hu (HL & F & x & Ix & Px).
  assert (Z0 : fin32 fzero = true /\ val fzero = 0) by (split; reflexivity).
  destruct (cumsum_spec 100 w ltac:(lia) F fzero 0 ltac:(tauto) ltac:(cbn; lra) ltac:(lia) ltac:(lia)) as (C1 & C2 & C3).
  unfold sample_from_probs32. destruct w as [|w0 w]; [destruct Ix|]. set (ww := w0 :: w) in *. set (cdf := fcumsum fzero ww) in *.
  assert (IL : In (last cdf fzero) cdf).
  { destruct (exists_last (l := cdf)) as (p & q & E); [discriminate|]. rewrite E, last_last. apply in_app_iff. right. now left. }
  rewrite Forall_forall in C1. destruct (C1 _ IL) as (L1 & L2).
  assert (LP : 0 < val (last cdf fzero)) by (specialize (C2 _ Ix); lra).
  destruct (dmul_lt u (last cdf fzero) Hu L1 LP) as (D1 & D2). set (t := dmul u (to64 (last cdf fzero))) in *.
  destruct (C3 t 0%nat) as [E|(k & K1 & K2 & K3)].
  - exfalso. assert (NO : forall l i, first_below t l i = None -> forall z, In z l -> dltb t (to64 z) = false).
    { clear. induction l as [|y l IH]; intros i E z Iz; [destruct Iz|]. cbn [first_below] in E.
      destruct (dltb t (to64 y)) eqn:EY; [discriminate|]. destruct Iz as [<-|Iz]; [exact EY|]. exact (IH _ E z Iz). }
    specialize (NO _ _ E _ IL). destruct (to64_exact _ L1) as (T1 & T2). unfold dltb in NO. rewrite Bltb_correct, T2 in NO by auto.
    revert NO. case Rlt_bool_spec; [discriminate|lra].
  - rewrite K2. exists k. split; [reflexivity|]. split; [exact K1|]. apply K3; [exact D1|]. rewrite (proj2 Z0). tauto.
Qed.

(** Running a program whose draws are usable. *)
Lemma frun_usable A (Q : A -> Prop) p : draws_usable Q p -> forall us, Forall uniform01 us ->
  (exists a, frun us p = Ok a /\ Q a) \/ frun us p = Raise OutOfFuel.
Proof.
  induction p as [a|e|w k IH]; cbn [draws_usable frun]; intros H us Hu.
  - left. exists a. auto.
  - destruct H.
  - destruct H as (U & H). destruct Hu as [|u us Hu Hus]; [now right|].
    destruct (sample_usable u w Hu U) as (i & E & Hi & Pi). rewrite E. cbn [bind]. apply IH; auto.
Qed.

Lemma draws_bind A B (Q : A -> Prop) (R : B -> Prop) p (f : A -> fprog B) : draws_usable Q p ->
  (forall a, Q a -> draws_usable R (f a)) -> draws_usable R (fbind p f).
Proof.
  intros H K. induction p as [a|e|w k IH]; cbn [draws_usable fbind] in *; auto.
  destruct H as (U & H). split; [exact U|]. intros i Hi Pi. apply IH; auto.
Qed.

Lemma draws_mono A (Q Q' : A -> Prop) p : (forall a, Q a -> Q' a) -> draws_usable Q p -> draws_usable Q' p.
Proof. intros K. induction p as [a|e|w k IH]; cbn [draws_usable]; auto. intros (U & H). split; auto. Qed.

(** Induction over the instructions of a program, with what was done before. *)
Lemma draws_fold A S (f : S -> A -> fprog S) (J : list A -> S -> Prop) l : forall s,
  J [] s -> (forall pre i suf s, l = pre ++ i :: suf -> J pre s -> draws_usable (J (pre ++ [i])) (f s i)) ->
  draws_usable (J l) (ffold f l s).
Proof.
  assert (G : forall suf pre s, l = pre ++ suf -> J pre s ->
    (forall pre i suf s, l = pre ++ i :: suf -> J pre s -> draws_usable (J (pre ++ [i])) (f s i)) -> draws_usable (J l) (ffold f suf s)).
  { induction suf as [|i suf IH]; intros pre s E HJ K.
    - rewrite app_nil_r in E. subst. exact HJ.
    - cbn [ffold]. eapply draws_bind; [eapply K; eauto|]. intros s' HJ'. apply (IH (pre ++ [i])); auto. now rewrite <- app_assoc. }
  intros s HJ K. apply (G l [] s); auto.
Qed.

(** Summation from left to right satisfies the contract of [np.dot]. *)
Lemma fdot_spec a b : (-149 <= a + b)%Z -> (a + b <= 127)%Z -> forall l acc j, fin32 acc = true -> 0 <= val acc <= IZR j * bp (a + b) -> (0 <= j)%Z ->
  (j + Z.of_nat (length l) <= 2 ^ 24)%Z -> IZR (j + Z.of_nat (length l)) * bp (a + b) < bp 128 ->
  Forall (fun '(x, y) => (fin32 x = true /\ 0 <= val x <= bp a) /\ (fin32 y = true /\ 0 <= val y <= bp b)) l ->
  fin32 (fdot acc l) = true /\ val acc <= val (fdot acc l) <= IZR (j + Z.of_nat (length l)) * bp (a + b) /\
  forall i c d x y, nth_error l i = Some (x, y) -> (-149 <= c + d)%Z -> bp c <= val x -> bp d <= val y -> bp (c + d) <= val (fdot acc l).
Proof.
  intros Hab1 Hab2. assert (FB : fmt32 (bp (a + b))) by (apply fmt_bpow; [reflexivity|lia]).
  assert (HB : bp (a + b) < bp 128) by (apply bpow_lt; lia).
  induction l as [|[x y] l IH]; intros acc j Fa Ba Hj HL HO F.
  - cbn. rewrite Z.add_0_r. split; [exact Fa|]. split; [lra|]. intros [|i]; discriminate.
  - inversion F as [|? ? Fxy F']; subst. destruct Fxy as ((Fx & Bx) & (Fy & By)). cbn [length fdot] in *. rewrite Nat2Z.inj_succ in *.
    assert (XY : 0 <= val x * val y <= bp (a + b)).
    { split; [apply Rmult_le_pos; lra|]. rewrite bpow_plus. apply Rmult_le_compat; lra. }
    destruct (fmul_bounds x y 0 (bp (a + b)) Fx Fy (fmt_0 _ _) FB XY (Rle_refl 0) HB) as (P1 & P2).
    assert (STEP : IZR (j + 1) * bp (a + b) <= IZR (j + Z.succ (Z.of_nat (length l))) * bp (a + b)).
    { apply Rmult_le_compat_r; [pose proof (bp_pos (a + b)); lra|]. apply IZR_le. lia. }
    assert (F1 : fmt32 (IZR (j + 1) * bp (a + b))) by (apply fmt_int; [reflexivity|lia|lia]).
    assert (S1 : val acc + val (fmul x y) <= IZR (j + 1) * bp (a + b)) by (rewrite plus_IZR; lra).
    destruct (fadd_bounds acc (fmul x y) (val acc) (IZR (j + 1) * bp (a + b)) Fa P1 (fmt_B2R _ _ _) F1) as (A1 & A2); [lra|tauto|lra|].
    destruct (IH (fadd acc (fmul x y)) (j + 1)%Z A1) as (I1 & I2 & I3); [lra|lia|lia| |exact F'|].
    { replace (j + 1 + Z.of_nat (length l))%Z with (j + Z.succ (Z.of_nat (length l)))%Z by lia. exact HO. }
    replace (j + 1 + Z.of_nat (length l))%Z with (j + Z.succ (Z.of_nat (length l)))%Z in I2 by lia.
    split; [exact I1|]. split; [lra|]. intros [|i] c d x' y' E Hcd Hc Hd; cbn [nth_error] in E.
    + inversion E; subst x' y'. assert (FC : fmt32 (bp (c + d))) by (apply fmt_bpow; [reflexivity|lia]).
      assert (GE : bp (c + d) <= val x * val y).
      { rewrite bpow_plus. apply Rmult_le_compat; try lra; pose proof (bp_pos c); pose proof (bp_pos d); lra. }
      destruct (fmul_bounds x y (bp (c + d)) (bp (a + b)) Fx Fy FC FB) as (_ & M2); [lra|pose proof (bp_pos (c + d)); lra|exact HB|].
      destruct (fadd_bounds acc (fmul x y) (val (fmul x y)) (IZR (j + 1) * bp (a + b)) Fa P1 (fmt_B2R _ _ _) F1) as (_ & N2); [lra|lra|lra|].
      lra.
    + eapply I3; eauto.
Qed.

Lemma seq_dot_ok : dot_ok seq_dot.
Proof.
  intros x y a b k EL HL Hk Hab Habk Fx Fy.
  assert (LC : length (combine x y) = length x) by (rewrite combine_length; lia).
  assert (NB : IZR (0 + Z.of_nat (length (combine x y))) * bp (a + b) <= bp (a + b + k)).
  { replace (a + b + k)%Z with (k + (a + b))%Z by lia. rewrite (bpow_plus _ k). apply Rmult_le_compat_r; [pose proof (bp_pos (a + b)); lra|].
    rewrite LC. rewrite <- (IZR_Zpower radix2) by lia. apply IZR_le. exact HL. }
  assert (BB : bp (a + b + k) < bp 128) by (apply bpow_lt; lia).
  assert (H24 : (2 ^ k <= 2 ^ 24)%Z) by (apply Z.pow_le_mono_r; lia).
  destruct (fdot_spec a b Hab ltac:(lia) (combine x y) fzero 0) as (D1 & D2 & D3); try reflexivity; try lia.
  - cbn. lra.
  - lra.
  - rewrite Forall_forall in *. intros [p q] I. split; [apply Fx; eapply in_combine_l; eauto|apply Fy; eapply in_combine_r; eauto].
  - unfold seq_dot. split; [exact D1|]. change (val fzero) with 0 in D2. split; [lra|].
    intros i c d Hi Hcd Hc Hd. apply (D3 i c d (nth i x fzero) (nth i y fzero)); auto.
    rewrite <- (combine_nth x y i fzero fzero EL). apply nth_error_nth'. lia.
Qed.
