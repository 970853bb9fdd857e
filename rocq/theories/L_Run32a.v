(** The float32 edge logits are always usable, whichever rows are read; programs that
    are safe. *)
From Coq Require Import List Arith Bool ZArith Reals Lra Lia Permutation.
From Flocq Require Import Core IEEE754.BinarySingleNaN.
From Verif Require Import Base L_Base Spec_Graph Spec_Sum L_Sum Spec_Ragged M_Structure L_Pairing L_Prop1 L_MakeTree M_Util M_Rand L_Rand M_SampleTree M_Array M_Training
  Spec_Joint Spec_Stats L_Asg L_Stats L_Trainer Spec_Conditional L_AddRow L_Conditional Spec_EdgeLogits L_EdgeLogits L_Train
  M_Float32 Spec_Float32 L_Float32 L_Sample32 M_Train32 Spec_Law Spec_Serving32 M_SampleTree32 Spec_Tree32 L_Tree32c L_Tree32d L_Train32f M_Logits32 Spec_Logits32 L_Serving32a L_Logits32a L_Logits32b L_Logits32c
  M_Run32 Spec_Run32.
Import ListNotations.
Open Scope R_scope.

Section Logits.
Variables (ws : list nat) (tb : table) (prior : list f32) (M : nat).
Hypothesis TK : table_ok ws tb.
Hypothesis HM : (1 <= M <= 128)%nat.
Notation V := (num_cols tb).
Notation N := (num_rows tb).
Variables (g : f32 -> f32) (sum : list f32 -> f32) (lg : R -> R) (delta G P : R).
Hypothesis GO : gammaln_ok delta N M lg g.
Hypothesis SN : sum_near sum.
Hypothesis HD : 0 <= delta <= 1.
Hypothesis GB : gammaln_below G N M lg.
Notation W := (INR (M * M + 2 * M) * G + P).
Hypothesis HW : W <= bp 60.
Hypothesis HP : 0 <= P.
Hypothesis GP : Forall (fun p => (fin32 p = true /\ Rabs (val p) <= P) \/ p = B754_infinity true) prior.
Hypothesis LP : length prior = tri V.

Lemma G_nonneg : 0 <= G.
Proof. clear - GB. eapply Rle_trans; [apply Rabs_pos|]. apply (GB 0%Z (1 / 2)); [lia|now right]. Qed.

Lemma total_range (l : list nat) (f : nat -> bool) : (0 <= total l (fun n => one_if (f n)) <= Z.of_nat (length l))%Z.
Proof. induction l; [cbn; lia|]. rewrite total_cons. cbn [length]. destruct (f a); cbn [one_if]; lia. Qed.

Lemma prior_at i : (i < tri V)%nat -> (fin32 (nth i prior fzero) = true /\ Rabs (val (nth i prior fzero)) <= P) \/ nth i prior fzero = B754_infinity true.
Proof. clear - GP LP. intros H. rewrite Forall_forall in GP. apply GP. apply nth_In. now rewrite LP. Qed.

Lemma prior_size i : (i < tri V)%nat -> Rabs (val (nth i prior fzero)) <= P.
Proof. clear - GP LP HP. intros H. destruct (prior_at i H) as [(_ & K)| ->]; [exact K|]. cbn [B2R]. rewrite Rabs_R0. exact HP. Qed.

Section State.
Variable s : tstate.
Hypothesis TI : tinv ws tb M s.

Lemma vert_size v : sumf (seq 0 M) (fun m => Rabs (lg (IZR (class_count s v m) + 1 / 2))) <= INR M * G.
Proof.
  replace (INR M) with (INR (length (seq 0 M))) by now rewrite seq_length. rewrite <- sumf_const. apply sumf_le. intros m _.
  apply GB; [|now right]. pose proof (added_le ws tb M (proj1 HM) s TI) as AL. unfold class_count. pose proof (total_range (s_added s) (fun n => (s_asg s n v =? m)%nat)). cbn beta in *. lia.
Qed.

Lemma score_size_le a b : score_size lg M s a b <= INR (M * M + 2 * M) * G.
Proof.
  unfold score_size. destruct (inr_split M HM) as (I1 & _). rewrite I1. pose proof (vert_size a). pose proof (vert_size b).
  assert (sumf (seq 0 M) (fun m1 => sumf (seq 0 M) (fun m2 => Rabs (lg (IZR (pair_count s a b m1 m2) + 1 / 2 / INR M)))) <= INR (M * M) * G); [|lra].
  rewrite mult_INR, Rmult_assoc. replace (INR M * (INR M * G)) with (INR (length (seq 0 M)) * (INR M * G)) by now rewrite seq_length.
  rewrite <- sumf_const. apply sumf_le. intros m1 _.
  replace (INR M * G) with (INR (length (seq 0 M)) * G) by now rewrite seq_length. rewrite <- sumf_const. apply sumf_le. intros m2 _.
  apply GB; [|now left]. pose proof (added_le ws tb M (proj1 HM) s TI) as AL. unfold pair_count. pose proof (total_range (s_added s) (fun n => ((s_asg s n a =? m1) && (s_asg s n b =? m2))%nat)). cbn beta in *. lia.
Qed.

Lemma SZ_holds a b : (a < b)%nat -> (b < V)%nat -> score_size lg M s a b + Rabs (val (nth (find_complete_edge a b) prior fzero)) <= bp 60.
Proof.
  intros Hab Hb. pose proof (score_size_le a b). pose proof (prior_size (find_complete_edge a b) ltac:(apply fce_range; lia)). lra.
Qed.

Lemma pair_good k a b p : (a < b)%nat -> (b < V)%nat -> Rabs (val p) <= P ->
  exists y, edge_logit_of32 g N M V (map (s_asg s) (read_rows tb s)) (vl M g sum s) (k, a, b) = Ok y /\ fin32 y = true /\
    (fin32 p = true -> fin32 (fadd y p) = true /\ Rabs (val (fadd y p)) <= bp 126).
Proof.
  intros Hab Hb HPp. unfold edge_logit_of32. rewrite (proj2 (Nat.ltb_lt a V)), (proj2 (Nat.ltb_lt b V)) by lia. cbn [andb check bind].
  rewrite map_map. set (pairs := map (fun n => (s_asg s n a, s_asg s n b)) (read_rows tb s)).
  assert (LR : (length (read_rows tb s) <= N)%nat).
  { unfold read_rows. destruct (length (s_added s) =? V)%nat; [rewrite seq_length; lia|]. apply (added_le ws tb M (proj1 HM) s TI). }
  assert (LR' : (length pairs <= N)%nat) by (unfold pairs; now rewrite map_length).
  destruct (sq_bound M (proj2 HM)) as (S1 & S2). destruct (inr_split M HM) as (I1 & I2 & I3 & I4). rewrite I1 in HW. pose proof G_nonneg as G0.
  assert (BIG : bp 60 + 16384 <= bp 100).
  { assert (16384 <= bp 60) by (apply Rle_trans with (bp 14); [cbn; lra|apply bpow_le; lia]). assert (2 * bp 60 <= bp 100) by (change 2 with (bp 1); rewrite <- bpow_plus; apply bpow_le; lia). lra. }
  assert (QD : 0 <= INR (M * M) * delta <= 16384) by nra. assert (MD : 0 <= INR M * delta <= 16384) by nra.
  assert (QG : 0 <= INR (M * M) * G) by nra. assert (MG : 0 <= INR M * G) by nra.
  set (h := fun '(m1, m2) => lg (INR (pcount pairs m1 m2) + 1 / 2 / INR M)).
  assert (EW : sumf (cells M) (fun i => Rabs (h i)) <= INR (M * M) * G).
  { rewrite <- (cells_length M), <- sumf_const. apply sumf_le. intros [m1 m2] _. unfold h. rewrite INR_IZR_INZ. apply GB; [|now left].
    pose proof (pcount_le pairs m1 m2). lia. }
  assert (HT : sumf (cells M) (fun i => Rabs (h i)) + INR (M * M) * delta <= bp 100) by lra.
  destruct (edge_logit32_near tb M HM g lg delta GO HD pairs LR') as (x & E & Fx & EX).
  - intros x y I. apply in_map_iff in I. destruct I as (n & E & I). inversion E; subst. split; apply (ti_all _ _ _ _ TI); auto; lia.
  - exact HT.
  - change (Rabs (val x - sumf (cells M) h) <= INR (M * M) * delta + INR (M * M) * bp (-23) * (sumf (cells M) (fun i => Rabs (h i)) + INR (M * M) * delta)) in EX.
    rewrite E. cbn [bind]. eexists. split; [reflexivity|].
    pose proof (vert_size a) as Va. pose proof (vert_size b) as Vb.
    destruct (vert_near ws tb M HM g sum lg delta GO SN HD s a TI) as (F1 & E1); [lia|lra|].
    destruct (vert_near ws tb M HM g sum lg delta GO SN HD s b TI) as (F2 & E2); [lia|lra|].
    pose proof (sumf_abs_le (cells M) h) as A0.
    pose proof (sumf_abs_le (seq 0 M) (fun m => lg (IZR (class_count s a m) + 1 / 2))) as A1.
    pose proof (sumf_abs_le (seq 0 M) (fun m => lg (IZR (class_count s b m) + 1 / 2))) as A2. cbn beta in A1, A2.
    destruct (combine_near M HM delta HD x (vl M g sum s a) (vl M g sum s b) p _ _ _ _ _ _ Fx F1 F2 A0 A1 A2) as (R1 & R2); [|exact EX|exact E1|exact E2|].
    + lra.
    + split; [exact R1|]. intros Fp. destruct (R2 Fp) as (R3 & R4 & _). auto.
Qed.

Lemma logits_good : exists l, compute_edge_logits32 g sum tb prior M s = Ok l /\ length l = tri V /\ Forall good_logit l.
Proof.
  unfold compute_edge_logits32. rewrite make_complete_graph_Ok. cbn [bind].
  assert (ER : (if (length (s_added s) =? V)%nat then map (s_asg s) (seq 0 N) else map (s_asg s) (s_added s)) = map (s_asg s) (read_rows tb s)).
  { unfold read_rows. destruct (length (s_added s) =? V)%nat; reflexivity. }
  rewrite ER. change (fun v => logprob_dc32 g sum (vec M (s_vert s v)) vert_prior64) with (vl M g sum s).
  set (F := edge_logit_of32 g N M V (map (s_asg s) (read_rows tb s)) (vl M g sum s)).
  set (y := fun c => match F c with Ok y => y | Raise _ => fzero end).
  assert (YS : forall c, In c (complete_grid V) -> F c = Ok (y c) /\ forall p, (fin32 p = true /\ Rabs (val p) <= P) \/ p = B754_infinity true -> good_logit (fadd (y c) p)).
  { intros [[k a] b] I. apply In_nth_error in I. destruct I as (j & E). apply complete_grid_nth in E. destruct E as (Ek & Hab & Hb & Ej). split.
    - destruct (pair_good k a b fzero Hab Hb) as (z & E & _). { cbn [B2R]. change (val fzero) with 0. rewrite Rabs_R0. exact HP. } unfold y, F. now rewrite E.
    - intros p [(Fp & Bp)|Ip].
      + destruct (pair_good k a b p Hab Hb Bp) as (z & E & _ & K). unfold y, F. rewrite E. left. auto.
      + destruct (pair_good k a b fzero Hab Hb) as (z & E & Fz & _). { change (val fzero) with 0. rewrite Rabs_R0. exact HP. } unfold y, F. rewrite E, Ip, (minus_inf z Fz). now right. }
  rewrite (mapM_Ok F y) by (intros c I; apply (YS c I)). cbn [bind].
  eexists. split; [reflexivity|]. split.
  { rewrite map_length, combine_length, map_length, complete_grid_length, LP. lia. }
  apply Forall_forall. intros x I. apply in_map_iff in I. destruct I as ([u p] & <- & I).
  pose proof (in_combine_l _ _ _ _ I) as I1. pose proof (in_combine_r _ _ _ _ I) as I2'. apply in_map_iff in I1. destruct I1 as (c & <- & Ic).
  rewrite Forall_forall in GP. apply (YS c Ic). now apply GP.
Qed.
End State.
End Logits.

(** Safe programs. *)
Lemma gsafe_mono {A} (Q Q' : A -> Prop) p : (forall a, Q a -> Q' a) -> gsafe Q p -> gsafe Q' p.
Proof.
  intros K. induction p as [a|e|w k IH|n k IH]; cbn [gsafe]; auto.
  intros (U & H). split; auto.
Qed.

Lemma gsafe_bind {A B} (R : B -> Prop) p (f : A -> gprog B) : gsafe (fun a => gsafe R (f a)) p -> gsafe R (gbind p f).
Proof.
  induction p as [a|e|w k IH|n k IH]; cbn [gsafe gbind]; auto. intros (U & H). split; auto.
Qed.

Lemma gsafe_of_f {A} (Q : A -> Prop) p : draws_usable Q p -> gsafe Q (of_f p).
Proof. induction p as [a|e|w k IH]; cbn [gsafe draws_usable of_f]; auto. intros (U & H). split; auto. Qed.

Lemma gsafe_fold {A S} (f : S -> A -> gprog S) (J : S -> Prop) l : forall s, J s ->
  (forall s a, J s -> In a l -> gsafe J (f s a)) -> gsafe J (gfold f l s).
Proof.
  induction l as [|a l IH]; intros s HJ K; cbn [gfold]; [exact HJ|]. apply gsafe_bind.
  eapply gsafe_mono; [|apply K; [exact HJ|now left]]. intros s' HJ'. apply IH; auto. intros; apply K; auto. now right.
Qed.

Lemma gsafe_run {A} (Q : A -> Prop) us ps p : generators us ps -> forall i j, gsafe Q p -> exists a, grun us ps i j p = Ok a /\ Q a.
Proof.
  intros (U & PS). induction p as [a|e|w k IH|n k IH]; cbn [gsafe grun]; intros i j H.
  - eauto.
  - destruct H.
  - destruct H as (US & H). destruct (sample_usable (us i) w (U i) US) as (x & E & Hx & Px). rewrite E. cbn [bind]. apply IH. now apply H.
  - apply IH. apply H. apply PS.
Qed.

Lemma gsafe_unless p (P : trainer32 -> Prop) : gsafe (fun '(t, x) => x = None /\ P t) p -> gsafe P (unless_raised32 p).
Proof. intros H. unfold unless_raised32. apply gsafe_bind. eapply gsafe_mono; [|exact H]. intros [t x] (-> & HP). exact HP. Qed.
