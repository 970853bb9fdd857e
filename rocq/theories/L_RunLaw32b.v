(** How the law of [sample_tree] depends on the logits. *)
From Coq Require Import List Reals Lra Lia Arith Bool Permutation Sorted.
From Verif Require Import Base Spec_Graph Spec_Sum Spec_Trees M_Structure M_Rand M_SampleTree
  L_Base L_Graph L_Pairing L_MakeTree L_Program L_JitSet L_RemoveEdge L_Sum L_Rand L_SampleTree L_TreeMCMC L_AllTrees L_TreeReach L_Epoch L_Converge2.
Import ListNotations.
Open Scope R_scope.

Lemma Kstep_mono V L e g g' cur : (forall c, g c <= g' c) -> Kstep V L e g cur <= Kstep V L e g' cur.
Proof.
  intros H. unfold Kstep. destruct (Req_EM_T _ _) as [E|E]; [apply H|]. apply sumf_le. intros p _. apply Rmult_le_compat_l; [|apply H].
  assert (0 <= Wtot V L (removed cur e)) by (apply sumf_nonneg; intros; apply wt_nonneg).
  apply Rmult_le_pos; [apply wt_nonneg|]. left. apply Rinv_0_lt_compat. lra.
Qed.
Lemma Kstep_scal V L e g c cur : Kstep V L e (fun x => c * g x) cur = c * Kstep V L e g cur.
Proof. unfold Kstep. destruct (Req_EM_T _ _); [reflexivity|]. rewrite <- sumf_scal. apply sumf_ext. intros. ring. Qed.

Section Perturb.
Variables (V : nat) (l l' : list R) (eps : R).
Hypothesis LL : length l = length l'.
Hypothesis E0 : 0 <= eps.
Hypothesis NR : forall k, Rabs (nth k l 0 - nth k l' 0) <= eps.
Notation L := (map Some l).
Notation L' := (map Some l').

Lemma wt_near p : wt L p <= exp eps * wt L' p.
Proof.
  unfold wt, logit_of. set (k := find_complete_edge (fst p) (snd p)). destruct (le_lt_dec (length l) k) as [H|H].
  - rewrite !nth_overflow by (rewrite map_length; lia). cbn [weight]. lra.
  - rewrite (nth_indep _ None (Some 0)) by (rewrite map_length; lia). rewrite (nth_indep L' None (Some 0)) by (rewrite map_length; lia). rewrite !map_nth. cbn [weight].
    rewrite <- exp_plus. specialize (NR k). pose proof (Rle_abs (nth k l 0 - nth k l' 0)). destruct (Req_dec (nth k l 0) (eps + nth k l' 0)) as [->|NE]; [lra|]. left. apply exp_increasing. lra.
Qed.
End Perturb.

Lemma Kstep_near V l l' eps e g cur : length l = length l' -> 0 <= eps -> (forall k, Rabs (nth k l 0 - nth k l' 0) <= eps) -> (forall c, 0 <= g c) ->
  Kstep V (map Some l) e g cur <= exp (2 * eps) * Kstep V (map Some l') e g cur.
Proof.
  intros LL E0 NR G. assert (NR' : forall k, Rabs (nth k l' 0 - nth k l 0) <= eps) by (intros; rewrite Rabs_minus_sym; auto).
  pose proof (exp_pos eps) as PE. assert (W1 : Wtot V (map Some l) (removed cur e) <= exp eps * Wtot V (map Some l') (removed cur e)).
  { unfold Wtot. rewrite <- sumf_scal. apply sumf_le. intros p _. apply (wt_near l l' eps LL NR). }
  assert (W2 : Wtot V (map Some l') (removed cur e) <= exp eps * Wtot V (map Some l) (removed cur e)).
  { unfold Wtot. rewrite <- sumf_scal. apply sumf_le. intros p _. apply (wt_near l' l eps (eq_sym LL) NR'). }
  assert (P1 : 0 <= Wtot V (map Some l) (removed cur e)) by (apply sumf_nonneg; intros; apply wt_nonneg).
  assert (P2 : 0 <= Wtot V (map Some l') (removed cur e)) by (apply sumf_nonneg; intros; apply wt_nonneg).
  assert (X1 : 1 <= exp (2 * eps)) by (pose proof (exp_ineq1_le (2 * eps)); lra).
  unfold Kstep. set (W := Wtot V (map Some l) (removed cur e)) in *. set (W' := Wtot V (map Some l') (removed cur e)) in *.
  destruct (Req_EM_T W 0) as [Z|Z], (Req_EM_T W' 0) as [Z'|Z'].
  - specialize (G cur). nra.
  - rewrite Z, Rmult_0_r in W2. exfalso. lra.
  - rewrite Z', Rmult_0_r in W1. exfalso. lra.
  - rewrite <- sumf_scal. apply sumf_le. intros p _. rewrite <- Rmult_assoc. apply Rmult_le_compat_r; [apply G|].
    pose proof (wt_near l l' eps LL NR p) as HW. pose proof (wt_nonneg (map Some l') p) as H0. pose proof (wt_nonneg (map Some l) p) as H1.
    replace (2 * eps) with (eps + eps) by ring. rewrite exp_plus.
    apply Rmult_le_reg_r with (W * W'); [apply Rmult_lt_0_compat; lra|].
    replace (wt (map Some l) p / W * (W * W')) with (wt (map Some l) p * W') by (field; exact Z).
    replace (exp eps * exp eps * (wt (map Some l') p / W') * (W * W')) with ((exp eps * wt (map Some l') p) * (exp eps * W)) by (field; exact Z').
    apply Rmult_le_compat; lra.
Qed.

Lemma Ksweep_near V l l' eps order : length l = length l' -> 0 <= eps -> (forall k, Rabs (nth k l 0 - nth k l' 0) <= eps) -> forall g cur, (forall c, 0 <= g c) ->
  Ksweep V (map Some l) order g cur <= exp (2 * eps * INR (length order)) * Ksweep V (map Some l') order g cur.
Proof.
  intros LL E0 NR. induction order as [|e order IH]; intros g cur G; cbn [Ksweep length].
  - cbn [INR]. rewrite Rmult_0_r, exp_0. lra.
  - eapply Rle_trans; [apply Kstep_mono; intros c; apply (IH g c G)|]. rewrite Kstep_scal.
    pose proof (Kstep_near V l l' eps e (Ksweep V (map Some l') order g) cur LL E0 NR) as H. rewrite S_INR. replace (2 * eps * (INR (length order) + 1)) with (2 * eps * INR (length order) + 2 * eps) by ring. rewrite exp_plus. rewrite (Rmult_assoc (exp _) (exp _)).
    apply Rmult_le_compat_l; [left; apply exp_pos|]. apply H. intros c. now apply Ksweep_nonneg.
Qed.

Lemma sample_tree_near V l l' eps T g : canonical V T -> length l = tri V -> length l' = tri V -> 0 <= eps -> (forall k, Rabs (nth k l 0 - nth k l' 0) <= eps) ->
  (forall T', 0 <= g T') ->
  expect (sample_tree (complete_grid V) (map Some l) T) (fun r => match r with Ok T' => g T' | Raise _ => 0 end) <=
  exp (2 * eps * INR (V - 1)) * expect (sample_tree (complete_grid V) (map Some l') T) (fun r => match r with Ok T' => g T' | Raise _ => 0 end).
Proof.
  intros CT LL LL' E0 NR G. assert (LT : length T = (V - 1)%nat) by (destruct CT as (((H & _) & _) & _); lia).
  destruct (le_lt_dec 2 (length T)) as [H2|H2].
  - rewrite !(sample_tree_expect V); auto; try (now rewrite map_length); try (apply CT).
    unfold Rdiv. rewrite <- Rmult_assoc. apply Rmult_le_compat_r; [left; apply Rinv_0_lt_compat, lt_0_INR, lt_O_fact|].
    unfold Kbar. rewrite <- sumf_scal. apply sumf_le. intros s I. apply perms_Permutation in I. apply Permutation_length in I. rewrite seq_length in I.
    rewrite <- LT, <- I. apply Ksweep_near; auto. congruence.
  - unfold sample_tree. destruct (Nat.leb_spec (length T) 1); [|lia]. cbn [expect].
    assert (X1 : 1 <= exp (2 * eps * INR (V - 1))). { pose proof (exp_ineq1_le (2 * eps * INR (V - 1))). pose proof (pos_INR (V - 1)). nra. }
    specialize (G T). nra.
Qed.

Lemma sample_tree_law_near V l l' eps T g : canonical V T -> length l = tri V -> length l' = tri V -> 0 <= eps -> (forall k, Rabs (nth k l 0 - nth k l' 0) <= eps) ->
  (forall T', 0 <= g T' <= 1) ->
  Rabs (expect (sample_tree (complete_grid V) (map Some l) T) (fun r => match r with Ok T' => g T' | Raise _ => 0 end) -
        expect (sample_tree (complete_grid V) (map Some l') T) (fun r => match r with Ok T' => g T' | Raise _ => 0 end)) <= exp (2 * eps * INR (V - 1)) - 1.
Proof.
  intros CT LL LL' E0 NR G. assert (NR' : forall k, Rabs (nth k l' 0 - nth k l 0) <= eps) by (intros; rewrite Rabs_minus_sym; auto).
  pose proof (sample_tree_near V l l' eps T g CT LL LL' E0 NR (fun T' => proj1 (G T'))) as H1.
  pose proof (sample_tree_near V l' l eps T g CT LL' LL E0 NR' (fun T' => proj1 (G T'))) as H2.
  assert (A : forall L, length L = tri V -> 0 <= expect (sample_tree (complete_grid V) (map Some L) T) (fun r => match r with Ok T' => g T' | Raise _ => 0 end) <= 1).
  { intros L HL. apply (sample_tree_averages V (map Some L) T CT); [now rewrite map_length|]. intros a _. apply G. }
  pose proof (A l LL) as A1. pose proof (A l' LL') as A2. set (x := expect _ _) in *. set (y := expect (sample_tree (complete_grid V) (map Some l') T) _) in *.
  set (c := exp _) in *. assert (1 <= c). { unfold c. pose proof (exp_ineq1_le (2 * eps * INR (V - 1))). pose proof (pos_INR (V - 1)). nra. }
  apply Rabs_le. split; nra.
Qed.
