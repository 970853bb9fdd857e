(** A case of C85: two categorical features, one row added, two classes. *)
From Coq Require Import List Arith Bool ZArith Reals Lra Lia Permutation.
From Flocq Require Import Core IEEE754.BinarySingleNaN.
From Coq Require Import Floats.SpecFloat.
From Verif Require Import Base L_Base Spec_Graph Spec_Sum L_Sum Spec_Ragged M_Structure L_Pairing L_MakeTree M_Util M_Rand L_Rand M_SampleTree M_Array M_Training
  Spec_Joint Spec_Stats Spec_Trees L_Stats L_Trainer Spec_Conditional Spec_EdgeLogits L_EdgeLogits
  M_Float32 Spec_Float32 L_Float32 M_Train32 Spec_Law Spec_Serving32 M_SampleTree32 Spec_Tree32 L_Grid2 L_AllTrees L_Tree32c L_Tree32d L_Train32f L_Train32g L_Train32h M_Logits32 Spec_Logits32 L_Serving32a L_Logits32a L_Logits32b L_Logits32c L_Logits32d.
Import ListNotations.
Open Scope R_scope.

(** A function with the recurrence of log-gamma. *)
Definition lg0 (x : R) : R := sumf (seq 0 (Z.to_nat (Zfloor x))) (fun i => ln (x - INR (S i))).
Lemma lg0_rec x : 0 < x -> lg0 (x + 1) = lg0 x + ln x.
Proof.
  intros H. unfold lg0. assert (E : Zfloor (x + 1) = (Zfloor x + 1)%Z).
  { apply Zfloor_imp. rewrite !plus_IZR. pose proof (Zfloor_lb x). pose proof (Zfloor_ub x). lra. }
  assert (Z0 : (0 <= Zfloor x)%Z) by (apply Zfloor_lub; lra). rewrite E. replace (Z.to_nat (Zfloor x + 1)) with (S (Z.to_nat (Zfloor x))) by lia. cbn [seq].
  rewrite sumf_cons, <- seq_shift, sumf_map, Rplus_comm. f_equal; [|f_equal; change (INR 1) with 1; ring]. apply sumf_ext. intros i _. rewrite !S_INR. f_equal. ring.
Qed.

(** The same in float32 with ten fractional bits. *)
Definition g0 (y : f32) : f32 := f32_of (Zfloor (lg0 (B2R y) * bp 10)) (-10).

Lemma ln_small x : 1 / 4 <= x <= 4 -> -3 <= ln x <= 3.
Proof.
  intros H. assert (U : forall y, 0 < y -> ln y <= y - 1).
  { intros y Hy. apply Rnot_lt_le. intros C. apply exp_increasing in C. rewrite exp_ln in C by exact Hy. pose proof (exp_ineq1_le (y - 1)). lra. }
  split; [|pose proof (U x); lra]. pose proof (U (/ x) ltac:(apply Rinv_0_lt_compat; lra)) as U1. rewrite ln_Rinv in U1 by lra.
  assert (/ x <= 4) by (replace 4 with (/ (1 / 4)) by field; apply Rinv_le; lra). lra.
Qed.

Lemma lg0_at c p : (0 <= c <= 3)%Z -> 1 / 4 <= p < 1 -> Rabs (lg0 (IZR c + p)) <= 9.
Proof.
  intros Hc Hp. unfold lg0. assert (E : Zfloor (IZR c + p) = c) by (apply Zfloor_imp; rewrite plus_IZR; lra). rewrite E.
  eapply Rle_trans; [apply sumf_abs_le|]. apply Rle_trans with (INR (Z.to_nat c) * 3).
  - rewrite <- (seq_length (Z.to_nat c) 0) at 2. rewrite <- sumf_const. apply sumf_le. intros i I. apply in_seq in I. apply Rabs_le, ln_small.
    assert (B : (1 <= Z.of_nat (S i) <= c)%Z) by lia. rewrite INR_IZR_INZ. destruct B as (B1 & B2). apply IZR_le in B1, B2. assert (IZR c <= 3) by (apply IZR_le; lia). lra.
  - rewrite INR_IZR_INZ, Z2Nat.id by lia. assert (IZR c <= 3) by (apply IZR_le; lia). lra.
Qed.

Lemma to32_at c : (0 <= c <= 3)%Z -> val (fadd (f32_of c 0) (to32 (prior64 2))) = IZR c + 1 / 4 /\ val (fadd (f32_of c 0) (to32 vert_prior64)) = IZR c + 1 / 2.
Proof.
  intros H. assert (C : c = 0%Z \/ c = 1%Z \/ c = 2%Z \/ c = 3%Z) by lia.
  assert (K : forall (x : f32) y, SF2R radix2 (B2SF x) = y -> val x = y) by (intros x y <-; symmetry; apply SF2R_B2SF).
  destruct C as [->|[->|[->| ->]]]; split; apply K;
    (match goal with |- SF2R radix2 ?t = _ => let v := eval vm_compute in t in replace t with v by (vm_compute; reflexivity) end); cbn [SF2R]; unfold F2R; cbn; lra.
Qed.

Lemma g0_ok : gammaln_ok (bp (-10)) 3 2 lg0 g0.
Proof.
  intros c prior p Hc HP. assert (Hc' : (0 <= c <= 3)%Z) by lia. destruct (to32_at c Hc') as (T1 & T2).
  assert (E : val (fadd (f32_of c 0) (to32 prior)) = IZR c + p /\ 1 / 4 <= p < 1).
  { destruct HP as [(-> & ->)|(-> & ->)]; [|split; [exact T2|lra]]. replace (1 / 2 / INR 2) with (1 / 4) by (cbn [INR]; field). split; [exact T1|lra]. }
  destruct E as (E & Hp). cbv zeta. unfold g0. rewrite E. pose proof (lg0_at c p Hc' Hp) as B. set (y := lg0 (IZR c + p)) in *. apply Rabs_le_inv in B.
  set (n := Zfloor (y * bp 10)). assert (b10 : bp 10 = 1024) by reflexivity.
  pose proof (Zfloor_lb (y * bp 10)) as G1. pose proof (Zfloor_ub (y * bp 10)) as G2. fold n in G1, G2. rewrite b10 in G1, G2.
  assert (NB : (-10000 <= n <= 10000)%Z) by (split; apply le_IZR; lra).
  assert (F : fmt32 (IZR n * bp (-10))) by (apply fmt_int; [reflexivity|change (2 ^ 24)%Z with 16777216%Z; lia|lia]).
  assert (bm10 : bp (-10) = / 1024) by reflexivity.
  assert (BB : - bp 128 < IZR n * bp (-10) < bp 128).
  { assert (1024 < bp 128) by (change 1024 with (bp 10); apply bpow_lt; lia). assert (-10000 <= IZR n <= 10000) by (split; apply IZR_le; lia). rewrite bm10. lra. }
  destruct (normalize_bounds 24 128 p24 e128 n (-10) false _ _ F F) as (Q1 & Q2); [lra|tauto|tauto|]. split; [exact Q1|].
  assert (V : val (f32_of n (-10)) = IZR n * bp (-10)) by (unfold f32_of; lra). rewrite V, bm10. apply Rabs_le. lra.
Qed.

Lemma q1_counts v m1 m2 a b : let s := t_state q1 in
  (0 <= class_count s v m1 <= 3)%Z /\ (0 <= pair_count s a b m1 m2 <= 3)%Z.
Proof.
  cbv zeta. unfold class_count, pair_count. rewrite (proj2 q1_case). rewrite !total_cons.
  change (total [] _) with 0%Z at 1. change (total [] _) with 0%Z.
  destruct (_ =? _)%nat, (_ && _); cbn; lia.
Qed.

Lemma C85_case_proof : dot_ok seq_dot /\ table_ok [2; 3]%nat tb4 /\ nonneg_data tb4 /\ at_most 1 [2; 3]%nat tb4 /\
  (1 <= 16 <= 16)%Z /\ ((16 + 9) * Z.of_nat 1 + 16 <= 69)%Z /\ ((Z.of_nat (num_rows tb4) + 1) * Z.of_nat 1 < 2 ^ 16)%Z /\
  Forall (fun w => (Z.of_nat w <= 2 ^ 16)%Z) [2; 3]%nat /\
  reachable32 seq_dot tb4 (map (fun p => B2R p) [fzero]) 2 q1 /\
  (forall x, 0 < x -> lg0 (x + 1) = lg0 x + ln x) /\
  gammaln_ok (bpow radix2 (-10)) (num_rows tb4) 2 lg0 g0 /\ sum_near seq_sum /\ sum_ok seq_sum /\ exp_ok (bpow radix2 (-23)) exp0 /\
  length (s_added (t_state q1)) <> num_cols tb4 /\
  (forall a b, (a < b)%nat -> (b < num_cols tb4)%nat ->
     score_size lg0 2 (t_state q1) a b + Rabs (B2R (nth (find_complete_edge a b) [fzero] fzero)) <= 72) /\
  logit_error 2 (bpow radix2 (-10)) 72 <= 1 / 100 /\
  enumerates_trees 2 (all_trees 2) /\ num_cols tb4 = 2%nat /\
  0 < sumf (all_trees 2) (tree_mass (exact_logit lg0 2 (t_state q1) [fzero])).
Proof.
  pose proof C66_case_proof as (C1 & C2 & C3 & C4 & C5 & C6 & C7 & C8 & C9 & _).
  repeat (split; [assumption|]). split; [exact lg0_rec|]. split; [exact g0_ok|]. split; [exact seq_sum_near|].
  split; [exact seq_sum_ok|]. split; [exact exp0_ok|]. split; [rewrite (proj2 q1_case); cbn; lia|]. split.
  - intros a b Hab Hb. change (num_cols tb4) with 2%nat in Hb. assert (a = 0%nat /\ b = 1%nat) as (-> & ->) by lia.
    change (nth (find_complete_edge 0 1) [fzero] fzero) with fzero. change (val fzero) with 0. rewrite Rabs_R0. unfold score_size.
    replace (1 / 2 / INR 2) with (1 / 4) by (cbn [INR]; field). set (s := t_state q1).
    assert (P : forall m1 m2, Rabs (lg0 (IZR (pair_count s 0 1 m1 m2) + 1 / 4)) <= 9) by (intros m1 m2; apply lg0_at; [apply (q1_counts 0 m1 m2 0 1)|lra]).
    assert (Q : forall v m, Rabs (lg0 (IZR (class_count s v m) + 1 / 2)) <= 9) by (intros v m; apply lg0_at; [apply (q1_counts v m 0 0 1)|lra]).
    cbn [seq]. rewrite !sumf_cons, !sumf_nil.
    pose proof (P 0 0)%nat. pose proof (P 0 1)%nat. pose proof (P 1 0)%nat. pose proof (P 1 1)%nat.
    pose proof (Q 0 0)%nat. pose proof (Q 0 1)%nat. pose proof (Q 1 0)%nat. pose proof (Q 1 1)%nat. lra.
  - split; [unfold logit_error; change (bp (-10)) with (/ 1024); change (bp (-23)) with (/ 8388608); cbn [Nat.mul Nat.add INR]; lra|].
    split; [apply all_trees_enumerate|]. split; [reflexivity|].
    assert (TR : spanning_tree 2 [(0, 1)]%nat) by (apply (path_spanning 2); lia).
    assert (I : In [(0, 1)]%nat (all_trees 2)).
    { destruct (all_trees_enumerate 2) as (_ & H). apply H. split; [exact TR|]. split; [intros x y [E|[]]; inversion E; lia|]. repeat constructor. }
    apply sumf_pos; [intros; apply mass_nonneg|]. exists [(0, 1)]%nat. split; [exact I|]. unfold tree_mass. rewrite prodf_cons.
    assert (exact_logit lg0 2 (t_state q1) [fzero] 0 1 = Some (edge_score lg0 2 (t_state q1) 0 1 + 0)) as -> by reflexivity.
    cbn [exp_logit]. unfold prodf. cbn [fold_right map]. rewrite Rmult_1_r. apply exp_pos.
Qed.
