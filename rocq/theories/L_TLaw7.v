(** The float32 table of edge probabilities: exact for powers of two, drifting otherwise. *)
From Coq Require Import List Arith Bool ZArith Reals Lra Lia.
From Flocq Require Import Core IEEE754.BinarySingleNaN.
From Coq Require Import Floats.SpecFloat.
From Verif Require Import Base L_Base Spec_Graph Spec_Ragged M_Structure Spec_Program Spec_Sum M_Rand M_Array M_Util M_Training Spec_Stats Spec_Conditional M_Float32 M_Train32 Spec_Float32
  L_Float32 L_Sample32 L_Stats L_Trainer L_Train32 L_Train32g Spec_Accuracy L_Acc1 Spec_TrainLaw L_TLaw1.
Import ListNotations.
Open Scope nat_scope.

Lemma table_follows_counts dot ws tb prior M A c delta :
  dot_ok dot -> table_ok ws tb -> nonneg_data tb -> 1 <= M <= 128 -> (1 <= A <= 16)%Z -> 1 <= c -> ((A + 9) * Z.of_nat c + A <= 69)%Z ->
  ((Z.of_nat (num_rows tb) + 1) * Z.of_nat c < 2 ^ A)%Z -> Forall (fun w => (Z.of_nat w <= 2 ^ A)%Z) ws -> at_most c ws tb ->
  drift_bound M A delta ->
  forall t, reachable32 dot tb prior M t -> forall e m1 m2, e < num_cols tb - 1 -> m1 < M -> m2 < M ->
    is_finite (t_eprobs t e m1 m2) = true /\
    agree delta (B2R (t_eprobs t e m1 m2)) (IZR (s_edge (t_state t) e m1 m2) + 1 / 2 / INR M).
Proof.
  intros D TK ND HM HA Hc HAc HN HW AM DB t RT e m1 m2 He H1 H2.
  destruct (eprobs_agree dot ws tb prior M A (Z.of_nat c) delta D TK ND HM HA (inj_le 1 c Hc) HAc HN HW AM DB t RT) as (TI & EP).
  destruct (EP e m1 m2 He H1 H2) as ((F & _) & AG). split; [exact F|exact AG].
Qed.

Lemma table_exact dot ws tb prior a A c :
  dot_ok dot -> table_ok ws tb -> nonneg_data tb -> a <= 7 -> (1 <= A <= 16)%Z -> 1 <= c -> ((A + 9) * Z.of_nat c + A <= 69)%Z ->
  ((Z.of_nat (num_rows tb) + 1) * Z.of_nat c < 2 ^ A)%Z -> Forall (fun w => (Z.of_nat w <= 2 ^ A)%Z) ws -> at_most c ws tb ->
  forall t, reachable32 dot tb prior (2 ^ a) t -> forall e m1 m2, e < num_cols tb - 1 -> m1 < 2 ^ a -> m2 < 2 ^ a ->
    B2R (t_eprobs t e m1 m2) = (IZR (s_edge (t_state t) e m1 m2) + 1 / 2 / INR (2 ^ a))%R.
Proof.
  intros D TK ND Ha HA Hc HAc HN HW AM t RT e m1 m2 He H1 H2.
  assert (P1 : 2 ^ a <= 2 ^ 7) by (apply Nat.pow_le_mono_r; lia). assert (P0 : 2 ^ a <> 0) by (apply Nat.pow_nonzero; lia). change (2 ^ 7) with 128 in P1.
  destruct (table_follows_counts dot ws tb prior (2 ^ a) A c 0 D TK ND ltac:(lia) HA Hc HAc HN HW AM (or_introl (ex_intro _ a (conj eq_refl eq_refl))) t RT e m1 m2 He H1 H2) as (_ & _ & L & U).
  rewrite Ropp_0, exp_0, Rmult_1_r in L. rewrite exp_0, Rmult_1_r in U. lra.
Qed.

(** Three classes: adding a row and removing it again does not restore the table. *)
Definition r0 : trainer32 := ok_of dummy (init_trainer32 tb4 [0%R] 3).
Definition r1 : trainer32 := fst (ok_of (dummy, None) (frun [u1; u0] (add_row32 seq_dot tb4 3 r0 0))).
Definition r2 : trainer32 := fst (ok_of (dummy, None) (remove_row32 tb4 3 r1 0)).

Definition strict (x : f32) : bool := match B2SF x with S754_finite _ _ _ => true | _ => false end.
Definition mant (x : f32) : positive := match B2SF x with S754_finite _ m _ => m | _ => xH end.
Lemma differ (x y : f32) : strict x = true -> strict y = true -> mant x <> mant y -> B2R x <> B2R y.
Proof.
  intros SX SY NE E. apply NE. f_equal. apply B2R_inj; [destruct x| destruct y|exact E]; try discriminate; reflexivity.
Qed.

Lemma C83_exact_refuted_proof : exists t0 t1 t2 us, init_trainer32 tb4 [0%R] 3 = Ok t0 /\ Forall uniform01 us /\
  frun us (add_row32 seq_dot tb4 3 t0 0) = Ok (t1, None) /\ remove_row32 tb4 3 t1 0 = Ok (t2, None) /\
  (forall e m1 m2, e < 1 -> m1 < 3 -> m2 < 3 -> s_edge (t_state t2) e m1 m2 = s_edge (t_state t0) e m1 m2) /\
  B2R (t_eprobs t2 0 2 0) <> B2R (t_eprobs t0 0 2 0).
Proof.
  exists r0, r1, r2, [u1; u0]. split; [apply is_ok_spec; vm_compute; reflexivity|].
  split; [constructor; [exact uni1|constructor; [exact uni0|constructor]]|].
  split; [unfold r1; apply none_ok_spec; vm_compute; reflexivity|]. split; [unfold r2; apply none_ok_spec; vm_compute; reflexivity|]. split.
  - assert (G : forallb (fun m1 => forallb (fun m2 => (s_edge (t_state r2) 0 m1 m2 =? s_edge (t_state r0) 0 m1 m2)%Z) (seq 0 3)) (seq 0 3) = true) by (vm_compute; reflexivity).
    intros e m1 m2 He H1 H2. assert (e = 0) as -> by lia. rewrite forallb_forall in G. specialize (G m1 ltac:(apply in_seq; lia)). rewrite forallb_forall in G.
    specialize (G m2 ltac:(apply in_seq; lia)). now apply Z.eqb_eq.
  - apply differ; [vm_compute; reflexivity|vm_compute; reflexivity|]. assert (N : (mant (t_eprobs r2 0 2 0) =? mant (t_eprobs r0 0 2 0))%positive = false) by (vm_compute; reflexivity).
    apply Pos.eqb_neq. exact N.
Qed.


Lemma C83_case_proof : dot_ok seq_dot /\ table_ok [2; 3] tb4 /\ nonneg_data tb4 /\ at_most 1 [2; 3] tb4 /\ ((3 + 9) * Z.of_nat 1 + 3 <= 69)%Z /\
  ((Z.of_nat (num_rows tb4) + 1) * Z.of_nat 1 < 2 ^ 3)%Z /\ Forall (fun w => (Z.of_nat w <= 2 ^ 3)%Z) [2; 3] /\
  drift_bound 3 3 (INR 3 * bpow radix2 (3 - 21)) /\ (exists t, reachable32 seq_dot tb4 [0%R] 3 t /\ s_added (t_state t) = [0]) /\
  reachable32 seq_dot tb4 [0%R] (2 ^ 1) q1.
Proof.
  destruct tb4_ok as (T1 & T2 & T3). destruct q1_case as (Q1 & Q2).
  split; [exact seq_dot_ok|]. split; [exact T1|]. split; [exact T2|]. split; [exact T3|]. split; [cbn; lia|]. split; [cbn; lia|].
  split; [repeat constructor; cbn; lia|]. split; [right; split; [reflexivity|cbn; lra]|]. split; [|exact Q1].
  exists r1. split; [|vm_compute; reflexivity].
  apply (r32_add _ _ _ _ _ r0 0 [u1; u0] _ None).
  - apply r32_init. apply is_ok_spec. vm_compute. reflexivity.
  - cbn. lia.
  - constructor; [exact uni1|constructor; [exact uni0|constructor]].
  - unfold r1. apply none_ok_spec. vm_compute. reflexivity.
Qed.
