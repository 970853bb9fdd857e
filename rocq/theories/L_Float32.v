(** Bounds through float32 and float64 operations: rounding is monotone and
    leaves representable numbers alone. *)
From Coq Require Import List Arith Bool ZArith Reals Lra Lia.
From Flocq Require Import Core IEEE754.BinarySingleNaN.
From Verif Require Import Base M_Float32.
Import ListNotations.
Open Scope R_scope.

Section FMT.
Variables (prec emax : Z).
Context (Hp : Prec_gt_0 prec) (He : Prec_lt_emax prec emax).
Local Notation fexp := (SpecFloat.fexp prec emax).
Local Notation bf := (binary_float prec emax).
Definition fmt (x : R) : Prop := generic_format radix2 fexp x.
Definition rnd (x : R) : R := round radix2 fexp ZnearestE x.

Local Instance vexp : Valid_exp fexp := fexp_correct prec emax Hp.

Lemma rnd_ge lo x : fmt lo -> lo <= x -> lo <= rnd x.
Proof. intros F H. apply round_ge_generic; auto with typeclass_instances. Qed.
Lemma rnd_le hi x : fmt hi -> x <= hi -> rnd x <= hi.
Proof. intros F H. apply round_le_generic; auto with typeclass_instances. Qed.
Lemma rnd_fmt x : fmt x -> rnd x = x.
Proof. intros F. apply round_generic; auto with typeclass_instances. Qed.

Lemma small lo hi x : fmt lo -> fmt hi -> lo <= x <= hi -> - bpow radix2 emax < lo -> hi < bpow radix2 emax ->
  Rlt_bool (Rabs (rnd x)) (bpow radix2 emax) = true.
Proof.
  intros F1 F2 (H1 & H2) L H. apply Rlt_bool_true. apply Rabs_lt. split.
  - eapply Rlt_le_trans; [exact L|]. now apply rnd_ge.
  - eapply Rle_lt_trans; [|exact H]. now apply rnd_le.
Qed.

Lemma mult_bounds (x y : bf) lo hi : is_finite x = true -> is_finite y = true -> fmt lo -> fmt hi ->
  lo <= B2R x * B2R y <= hi -> - bpow radix2 emax < lo -> hi < bpow radix2 emax ->
  is_finite (Bmult (prec_gt_0_ := Hp) (prec_lt_emax_ := He) mode_NE x y) = true /\
  lo <= B2R (Bmult (prec_gt_0_ := Hp) (prec_lt_emax_ := He) mode_NE x y) <= hi.
Proof.
  intros Fx Fy F1 F2 B L H. pose proof (Bmult_correct prec emax Hp He mode_NE x y) as C. cbn [round_mode] in C.
  fold (rnd (B2R x * B2R y)) in C. rewrite (small lo hi) in C by auto. destruct C as (C1 & C2 & _). rewrite C2, Fx, Fy.
  split; [reflexivity|]. rewrite C1. split; [apply rnd_ge|apply rnd_le]; tauto.
Qed.

Lemma div_bounds (x y : bf) lo hi : is_finite x = true -> B2R y <> 0 -> fmt lo -> fmt hi ->
  lo <= B2R x / B2R y <= hi -> - bpow radix2 emax < lo -> hi < bpow radix2 emax ->
  is_finite (Bdiv (prec_gt_0_ := Hp) (prec_lt_emax_ := He) mode_NE x y) = true /\
  lo <= B2R (Bdiv (prec_gt_0_ := Hp) (prec_lt_emax_ := He) mode_NE x y) <= hi.
Proof.
  intros Fx Fy F1 F2 B L H. pose proof (Bdiv_correct prec emax Hp He mode_NE x y Fy) as C. cbn [round_mode] in C.
  fold (rnd (B2R x / B2R y)) in C. rewrite (small lo hi) in C by auto. destruct C as (C1 & C2 & _). rewrite C2, Fx.
  split; [reflexivity|]. rewrite C1. split; [apply rnd_ge|apply rnd_le]; tauto.
Qed.

Lemma plus_bounds (x y : bf) lo hi : is_finite x = true -> is_finite y = true -> fmt lo -> fmt hi ->
  lo <= B2R x + B2R y <= hi -> - bpow radix2 emax < lo -> hi < bpow radix2 emax ->
  is_finite (Bplus (prec_gt_0_ := Hp) (prec_lt_emax_ := He) mode_NE x y) = true /\
  lo <= B2R (Bplus (prec_gt_0_ := Hp) (prec_lt_emax_ := He) mode_NE x y) <= hi.
Proof.
  intros Fx Fy F1 F2 B L H. pose proof (Bplus_correct prec emax Hp He mode_NE x y Fx Fy) as C. cbn [round_mode] in C.
  fold (rnd (B2R x + B2R y)) in C. rewrite (small lo hi) in C by auto. destruct C as (C1 & C2 & _). rewrite C2.
  split; [reflexivity|]. rewrite C1. split; [apply rnd_ge|apply rnd_le]; tauto.
Qed.

Lemma normalize_bounds m e s lo hi : fmt lo -> fmt hi -> lo <= IZR m * bpow radix2 e <= hi ->
  - bpow radix2 emax < lo -> hi < bpow radix2 emax ->
  is_finite (binary_normalize prec emax Hp He mode_NE m e s) = true /\
  lo <= B2R (binary_normalize prec emax Hp He mode_NE m e s) <= hi.
Proof.
  intros F1 F2 B L H. pose proof (binary_normalize_correct prec emax Hp He mode_NE m e s) as C. cbn [round_mode] in C.
  unfold F2R in C. cbn [Fnum Fexp] in C. fold (rnd (IZR m * bpow radix2 e)) in C. cbv zeta in C.
  rewrite (small lo hi) in C by auto. destruct C as (C1 & C2 & _). rewrite C2.
  split; [reflexivity|]. rewrite C1. split; [apply rnd_ge|apply rnd_le]; tauto.
Qed.

Lemma fmt_B2R (x : bf) : fmt (B2R x).
Proof. apply generic_format_B2R. Qed.
Lemma fmt_0 : fmt 0.
Proof. apply generic_format_0. Qed.
Lemma B2R_lt (x : bf) : - bpow radix2 emax < B2R x < bpow radix2 emax.
Proof. pose proof (abs_B2R_lt_emax prec emax x) as H. apply Rabs_lt_inv in H. exact H. Qed.

Lemma fmt_int m e : (Z.abs m <= 2 ^ prec)%Z -> (3 - emax - prec <= e)%Z -> fmt (IZR m * bpow radix2 e).
Proof.
  intros Hm He'. destruct (Z.eq_dec (Z.abs m) (2 ^ prec)) as [E|N].
  - assert (P : (0 < prec)%Z) by exact Hp.
    assert (F : fmt (bpow radix2 (prec + e))).
    { apply generic_format_bpow'; auto with typeclass_instances. unfold SpecFloat.fexp, SpecFloat.emin. lia. }
    assert (E2 : bpow radix2 (prec + e) = IZR (2 ^ prec) * bpow radix2 e).
    { rewrite bpow_plus. f_equal. change 2%Z with (radix_val radix2). rewrite <- IZR_Zpower by lia. reflexivity. }
    destruct (Z.abs_eq_or_opp m) as [A|A]; rewrite A in E.
    + rewrite E, <- E2. exact F.
    + replace m with (- 2 ^ prec)%Z by lia. rewrite opp_IZR, Ropp_mult_distr_l_reverse, <- E2. now apply generic_format_opp.
  - change (IZR m * bpow radix2 e) with (F2R (Float radix2 m e)).
    apply (generic_format_FLT radix2 (3 - emax - prec) prec).
    exists (Float radix2 m e); [reflexivity| |exact He']. cbn [Fnum]. change (radix_val radix2) with 2%Z. lia.
Qed.

Lemma fmt_bpow e : (3 - emax - prec <= e)%Z -> fmt (bpow radix2 e).
Proof. intros H. replace (bpow radix2 e) with (IZR 1 * bpow radix2 e) by ring. apply fmt_int; [|exact H]. cbn. assert (0 < prec)%Z by exact Hp. pose proof (Z.pow_gt_1 2 prec). lia. Qed.

End FMT.

Notation bp := (bpow radix2).
Notation fin32 := (@is_finite 24 128).
Notation val := (@B2R 24 128).
Notation fmt32 := (fmt 24 128).
Notation fmt64 := (fmt 53 1024).

Lemma fmul_bounds (x y : f32) lo hi : fin32 x = true -> fin32 y = true -> fmt32 lo -> fmt32 hi ->
  lo <= val x * val y <= hi -> 0 <= lo -> hi < bp 128 -> fin32 (fmul x y) = true /\ lo <= val (fmul x y) <= hi.
Proof. intros. apply mult_bounds; auto. pose proof (bpow_gt_0 radix2 128). lra. Qed.
Lemma fdiv_bounds (x y : f32) lo hi : fin32 x = true -> 0 < val y -> fmt32 lo -> fmt32 hi ->
  lo <= val x / val y <= hi -> 0 <= lo -> hi < bp 128 -> fin32 (fdiv x y) = true /\ lo <= val (fdiv x y) <= hi.
Proof. intros. apply div_bounds; auto; [lra|]. pose proof (bpow_gt_0 radix2 128). lra. Qed.
Lemma fadd_bounds (x y : f32) lo hi : fin32 x = true -> fin32 y = true -> fmt32 lo -> fmt32 hi ->
  lo <= val x + val y <= hi -> 0 <= lo -> hi < bp 128 -> fin32 (fadd x y) = true /\ lo <= val (fadd x y) <= hi.
Proof. intros. apply plus_bounds; auto. pose proof (bpow_gt_0 radix2 128). lra. Qed.

Lemma f32_in_f64 x : fmt32 x -> fmt64 x.
Proof.
  apply generic_inclusion_mag. intros _. unfold cexp, SpecFloat.fexp, SpecFloat.emin. lia.
Qed.

Lemma cond_opp s m e : IZR (SpecFloat.cond_Zopp s (Zpos m)) * bp e = F2R (Float radix2 (cond_Zopp s (Zpos m)) e).
Proof. destruct s; reflexivity. Qed.

Lemma to64_exact (x : f32) : fin32 x = true -> is_finite (to64 x) = true /\ B2R (to64 x) = val x.
Proof.
  destruct x as [s|s| |s m e Hb]; try discriminate; intros _.
  - split; reflexivity.
  - cbn [to64]. set (r := B2R (B754_finite s m e Hb)).
    assert (E : IZR (SpecFloat.cond_Zopp s (Zpos m)) * bp e = r) by (rewrite cond_opp; reflexivity).
    assert (F : fmt64 r) by (apply f32_in_f64, fmt_B2R).
    assert (B : - bp 1024 < r < bp 1024).
    { pose proof (B2R_lt 24 128 (B754_finite s m e Hb)) as B. fold r in B.
      assert (bp 128 < bp 1024) by (apply bpow_lt; lia). lra. }
    destruct (normalize_bounds 53 1024 p53 e1024 (SpecFloat.cond_Zopp s (Zpos m)) e s r r F F) as (A1 & A2); [lra|tauto|tauto|].
    split; [exact A1|lra].
Qed.

Lemma to32_bounds (x : f64) lo hi : is_finite x = true -> fmt32 lo -> fmt32 hi -> lo <= B2R x <= hi -> 0 <= lo -> hi < bp 128 ->
  fin32 (to32 x) = true /\ lo <= val (to32 x) <= hi.
Proof.
  destruct x as [s|s| |s m e Hb]; try discriminate; intros _ F1 F2 B L H.
  - cbn in *. split; [reflexivity|lra].
  - cbn [to32]. pose proof (bpow_gt_0 radix2 128). apply normalize_bounds; [exact F1|exact F2|rewrite cond_opp; exact B|lra|exact H].
Qed.

Lemma dadd_bounds (x y : f64) lo hi : is_finite x = true -> is_finite y = true -> fmt64 lo -> fmt64 hi ->
  lo <= B2R x + B2R y <= hi -> - bp 1024 < lo -> hi < bp 1024 -> is_finite (dadd x y) = true /\ lo <= B2R (dadd x y) <= hi.
Proof. intros. apply plus_bounds; auto. Qed.

Lemma f64_int (n : Z) : (Z.abs n <= 2 ^ 53)%Z -> is_finite (f64_of n 0) = true /\ B2R (f64_of n 0) = IZR n.
Proof.
  intros H. assert (F : fmt64 (IZR n)).
  { replace (IZR n) with (IZR n * bp 0) by (cbn; ring). apply fmt_int; [reflexivity|exact H|lia]. }
  assert (B : - bp 1024 < IZR n < bp 1024).
  { assert (Rabs (IZR n) < bp 1024).
    { rewrite <- abs_IZR. eapply Rle_lt_trans; [apply IZR_le; exact H|]. change (IZR (2 ^ 53)) with (bp 53). apply bpow_lt. lia. }
    now apply Rabs_lt_inv. }
  destruct (normalize_bounds 53 1024 p53 e1024 n 0 false (IZR n) (IZR n) F F) as (A1 & A2); [cbn; lra|tauto|tauto|].
  split; [exact A1|]. unfold f64_of. lra.
Qed.

Lemma f32_int (n : Z) : (Z.abs n <= 2 ^ 24)%Z -> fin32 (f32_of n 0) = true /\ val (f32_of n 0) = IZR n.
Proof.
  intros H. assert (F : fmt32 (IZR n)).
  { replace (IZR n) with (IZR n * bp 0) by (cbn; ring). apply fmt_int; [reflexivity|exact H|lia]. }
  assert (B : - bp 128 < IZR n < bp 128).
  { assert (Rabs (IZR n) < bp 128).
    { rewrite <- abs_IZR. eapply Rle_lt_trans; [apply IZR_le; exact H|]. change (IZR (2 ^ 24)) with (bp 24). apply bpow_lt. lia. }
    now apply Rabs_lt_inv. }
  destruct (normalize_bounds 24 128 p24 e128 n 0 false (IZR n) (IZR n) F F) as (A1 & A2); [cbn; lra|tauto|tauto|].
  split; [exact A1|]. unfold f32_of. lra.
Qed.

Lemma fltb_spec (x y : f32) : fin32 x = true -> fin32 y = true -> fltb x y = Rlt_bool (val x) (val y).
Proof. intros. now apply Bltb_correct. Qed.

(** ** max *)
Lemma fmax2_spec (x y : f32) : fin32 x = true -> fin32 y = true ->
  fmax2 x y = (if Rlt_bool (val x) (val y) then y else x).
Proof.
  intros Fx Fy. rewrite <- fltb_spec by auto. destruct x, y; try discriminate; reflexivity.
Qed.

Lemma fmax_spec l : forall x, Forall (fun z => fin32 z = true) (x :: l) ->
  In (fmax x l) (x :: l) /\ forall z, In z (x :: l) -> val z <= val (fmax x l).
Proof.
  induction l as [|y l IH]; intros x F.
  - cbn. split; [now left|]. intros z [->|[]]. lra.
  - inversion F as [|? ? Fx F1]; subst. inversion F1 as [|? ? Fy F2]; subst. cbn [fmax].
    assert (FM : fin32 (fmax2 x y) = true) by (rewrite fmax2_spec by auto; destruct (Rlt_bool _ _); auto).
    destruct (IH (fmax2 x y)) as (I1 & I2); [constructor; auto|].
    assert (GE : val x <= val (fmax2 x y) /\ val y <= val (fmax2 x y)).
    { rewrite fmax2_spec by auto. case Rlt_bool_spec; lra. }
    pose proof (I2 _ (or_introl eq_refl)) as TOP. split.
    + destruct I1 as [<-|I1]; [|right; now right]. rewrite fmax2_spec by auto. destruct (Rlt_bool _ _); [right; left|left]; reflexivity.
    + intros z [->|[->|I]]; [lra|lra|]. apply I2. now right.
Qed.
