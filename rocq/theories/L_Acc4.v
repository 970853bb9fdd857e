(** The float32 log probability beside the exact one: the whole program. *)
From Coq Require Import List Arith Bool ZArith Reals Lra Lia.
From Flocq Require Import Core Relative IEEE754.BinarySingleNaN.
From Verif Require Import Base L_Base Spec_Graph L_Graph Spec_Sum L_Sum M_Structure L_Pairing L_MakeTree L_Program L_ProgramValid Spec_Program L_Center L_Prop1 M_Util Spec_Ragged L_Ragged M_Array M_Training Spec_MST Spec_Stats L_Stats L_Trainer Spec_Conditional L_Asg L_BP L_BPVec L_AddRow
  M_Float32 M_Train32 Spec_Float32 L_Float32 L_Sample32 L_Train32 L_Train32c L_Train32d M_Serving Spec_Serving L_Server L_Serve1 M_Serving32 Spec_Serving32 L_Serving32a L_Serving32b L_Serving32c L_Serving32d Spec_Accuracy L_Acc1 L_Acc2 L_Acc3.
Import ListNotations.
Open Scope R_scope.

(** ** Adding a logarithm *)
Lemma rnd32_near z : Rabs (rnd 24 128 z - z) <= bp (-24) * Rabs z + bp (-150).
Proof.
  destruct (error_N_FLT radix2 (-149) 24 ltac:(lia) (fun x => negb (Z.even x)) z) as (ep & et & H1 & H2 & _ & E).
  change (round radix2 (FLT_exp (-149) 24) (Znearest (fun x => negb (Z.even x))) z) with (rnd 24 128 z) in E. rewrite E.
  replace (z * (1 + ep) + et - z) with (ep * z + et) by ring.
  eapply Rle_trans; [apply Rabs_triang|]. rewrite Rabs_mult.
  replace (bp (-24)) with (/ 2 * bp (-24 + 1)) by (rewrite bpow_plus; change (bp 1) with 2; field).
  replace (bp (-150)) with (/ 2 * bp (-149)) by (change (-149)%Z with (-150 + 1)%Z; rewrite bpow_plus; change (bp 1) with 2; field).
  apply Rplus_le_compat; [apply Rmult_le_compat_r; [apply Rabs_pos|exact H1]|exact H2].
Qed.

Lemma add_log_near (x y : f32) (n V : nat) : (Z.of_nat V <= 2 ^ 16)%Z -> (n < V)%nat -> fin32 x = true -> fin32 y = true ->
  Rabs (val x) <= 256 * INR n -> Rabs (val y) <= 128 ->
  fin32 (fadd x y) = true /\ Rabs (val (fadd x y)) <= 256 * INR (n + 1) /\ Rabs (val (fadd x y) - (val x + val y)) <= bp (-16) * INR (V + 1).
Proof.
  intros HV Hn Fx Fy Bx By. rewrite !plus_INR. cbn [INR].
  assert (N1 : 0 <= INR n) by apply pos_INR.
  assert (N2 : INR n + 1 <= INR V) by (rewrite <- S_INR; apply le_INR; lia).
  assert (N3 : INR V <= bp 16) by (rewrite INR_IZR_INZ; change (bp 16) with (IZR (2 ^ 16)); now apply IZR_le).
  assert (X40 : Rabs (val x) <= bp 40).
  { eapply Rle_trans; [exact Bx|]. apply Rle_trans with (bp 8 * bp 16); [change (bp 8) with 256; lra|]. rewrite <- bpow_plus. apply bpow_le. lia. }
  destruct (fadd_log x y Fx Fy X40 By) as (F & F2). split; [exact F|].
  assert (SB : Rabs (val x + val y) <= 256 * INR n + 128) by (eapply Rle_trans; [apply Rabs_triang|lra]).
  assert (E : val (fadd x y) = rnd 24 128 (val x + val y)).
  { pose proof (Bplus_correct 24 128 p24 e128 mode_NE x y Fx Fy) as C. cbn [round_mode] in C. fold (rnd 24 128 (val x + val y)) in C.
    rewrite Rlt_bool_true in C; [apply C|]. pose proof (rnd32_near (val x + val y)) as R.
    assert (bp (-24) <= 1 /\ bp (-150) <= 1) as (? & ?) by (change 1 with (bp 0); split; apply bpow_le; lia).
    pose proof (Rabs_triang (rnd 24 128 (val x + val y) - (val x + val y)) (val x + val y)) as T.
    replace (rnd 24 128 (val x + val y) - (val x + val y) + (val x + val y)) with (rnd 24 128 (val x + val y)) in T by ring.
    apply Rle_lt_trans with (bp 30); [|apply bpow_lt; lia].
    assert (P : 0 <= Rabs (val x + val y)) by apply Rabs_pos.
    assert (Q : Rabs (rnd 24 128 (val x + val y)) <= 2 * Rabs (val x + val y) + 1) by nra.
    assert (Z : 512 * bp 16 + 257 <= bp 30).
    { rewrite <- !(IZR_Zpower radix2) by lia. rewrite <- mult_IZR, <- plus_IZR. apply IZR_le. vm_compute. discriminate. }
    lra. }
  rewrite E. pose proof (rnd32_near (val x + val y)) as R.
  assert (Z : bp (-24) * Rabs (val x + val y) + bp (-150) <= bp (-16) * (INR V + 1)).
  { assert (Z1 : bp (-24) * Rabs (val x + val y) <= bp (-16) * INR V).
    { apply Rle_trans with (bp (-24) * (bp 8 * INR V)).
      - apply Rmult_le_compat_l; [apply bpow_ge_0|]. change (bp 8) with 256. lra.
      - rewrite <- Rmult_assoc, <- bpow_plus. apply Rle_refl. }
    assert (Z2 : bp (-150) <= bp (-16)) by (apply bpow_le; lia). lra. }
  split; [|lra].
  pose proof (Rabs_triang (rnd 24 128 (val x + val y) - (val x + val y)) (val x + val y)) as T.
  replace (rnd 24 128 (val x + val y) - (val x + val y) + (val x + val y)) with (rnd 24 128 (val x + val y)) in T by ring.
  assert (Z3 : bp (-16) * (INR V + 1) <= 2).
  { apply Rle_trans with (bp (-16) * (2 * bp 16)).
    - apply Rmult_le_compat_l; [apply bpow_ge_0|]. assert (1 <= bp 16) by (change 1 with (bp 0); apply bpow_le; lia). lra.
    - replace (bp (-16) * (2 * bp 16)) with (2 * (bp (-16) * bp 16)) by ring. rewrite <- bpow_plus. change (bp (-16 + 16)) with 1. lra. }
  lra.
Qed.

(** ** Sums over vertices *)
Lemma sumf_set1 V (h : nat -> R) v x : (v < V)%nat -> sumf (seq 0 V) (set1 h v x) = sumf (seq 0 V) h - h v + x.
Proof.
  intros Hv. assert (G : forall n b, (b <= v < b + n)%nat -> sumf (seq b n) (set1 h v x) = sumf (seq b n) h - h v + x).
  { induction n as [|n IH]; intros b Hb; [lia|]. cbn [seq]. rewrite !sumf_cons. destruct (Nat.eq_dec b v) as [->|NE].
    - rewrite set1_same. rewrite (sumf_ext (seq (Datatypes.S v) n) (set1 h v x) h); [ring|].
      intros u I. apply in_seq in I. rewrite set1_other by lia. reflexivity.
    - rewrite set1_other by auto. rewrite IH by lia. ring. }
  apply G. lia.
Qed.

(** ** Children *)
Definition is_in (v : nat) (i : instr) : bool := match i with I OP_IN p _ _ => (p =? v)%nat | _ => false end.
Definition kids (pre : list instr) (v : nat) : nat := length (filter (is_in v) pre).

Lemma filter_index {A} (P : A -> bool) d (l : list A) :
  length (filter (fun i => P (nth i l d)) (seq 0 (length l))) = length (filter P l).
Proof.
  induction l as [|x l IH]; [reflexivity|]. cbn [length seq filter nth]. rewrite <- seq_shift.
  assert (E : forall q, filter (fun i => P match i with 0%nat => x | Datatypes.S j => nth j l d end) (map Datatypes.S q) = map Datatypes.S (filter (fun i => P (nth i l d)) q)).
  { induction q as [|i q IHq]; [reflexivity|]. cbn [map filter]. destruct (P (nth i l d)); cbn [map]; now rewrite IHq. }
  destruct (P x); cbn [length]; rewrite E, map_length, IH; reflexivity.
Qed.

Lemma kids_le V es root prog v d : valid_program V es root prog ->
  (length (filter (fun f => (fst f =? v) || (snd f =? v))%nat es) <= d)%nat -> (kids prog v <= d)%nat.
Proof.
  intros VP H. eapply Nat.le_trans; [|exact H]. rewrite <- (filter_index (fun f : nat * nat => (fst f =? v) || (snd f =? v))%nat (0, 0)%nat es).
  set (eof := fun i => match i with I _ _ _ e => e end).
  assert (F : forall i, In i (filter (is_in v) prog) -> exists c e, i = I OP_IN v c e /\ exists f, nth_error es e = Some f /\ same_edge (v, c) f).
  { intros [op p c e] J. apply filter_In in J. destruct J as (J & T). destruct op; try discriminate T. cbn in T. apply Nat.eqb_eq in T. subst p.
    exists c, e. split; [reflexivity|]. apply (vp_in _ _ _ _ VP) in J. apply J. }
  unfold kids. rewrite <- (map_length eof). apply NoDup_incl_length.
  - assert (ND : NoDup (filter (is_in v) prog)) by (apply NoDup_filter, (vp_nodup _ _ _ _ VP)). revert F ND. generalize (filter (is_in v) prog). intros l.
    induction l as [|i l IH]; intros F ND; [constructor|]. cbn [map]. inversion ND as [|? ? NI ND']; subst. constructor.
    + intros J. apply in_map_iff in J. destruct J as (j & EJ & J). apply NI.
      destruct (F i (or_introl eq_refl)) as (c & e & -> & f & N1 & S1). destruct (F j (or_intror J)) as (c' & e' & -> & f' & N2 & S2).
      cbn in EJ. subst e'. rewrite N1 in N2. inversion N2; subst f'. replace c with c'; [exact J|].
      destruct f as [x y]. unfold same_edge in S1, S2. cbn [fst snd] in S1, S2. destruct S1 as [E1|(E1 & E1')], S2 as [E2|(E2 & E2')]; try inversion E1; try inversion E2; subst; congruence.
    + apply IH; auto. intros j J. apply F. now right.
  - intros e J. apply in_map_iff in J. destruct J as (i & EI & J). destruct (F i J) as (c & e' & -> & f & N1 & S1). cbn in EI. subst e'.
    apply filter_In. split; [apply in_seq; split; [lia|]; cbn; apply nth_error_Some; congruence|].
    rewrite (nth_error_nth es e _ N1). destruct f as [x y]. unfold same_edge in S1. cbn [fst snd] in *. apply orb_true_iff.
    destruct S1 as [E1|(E1 & E1')]; [inversion E1; subst; left|subst; right]; apply Nat.eqb_refl.
Qed.
