(** Training in float32 raises nothing and ends in a valid model. *)
From Coq Require Import List Arith Bool ZArith Reals Lra Lia Permutation QArith.
From Flocq Require Import Core IEEE754.BinarySingleNaN.
From Verif Require Import Base L_Base Spec_Graph L_Graph Spec_Sum L_Sum Spec_Ragged Spec_Trees M_Structure L_Pairing L_Prop1 L_MakeTree M_Util M_Rand L_Rand M_SampleTree L_AllTrees M_Schedule Spec_Schedule L_Schedule M_Array M_Training
  Spec_Joint Spec_Stats L_Asg L_Stats L_Trainer Spec_Conditional L_AddRow L_Conditional Spec_EdgeLogits L_EdgeLogits Spec_Model L_Train
  M_Float32 Spec_Float32 L_Float32 L_Sample32 M_Train32 Spec_Law Spec_Serving32 M_SampleTree32 Spec_Tree32 L_Tree32c L_Tree32d L_Train32e L_Train32f M_Logits32 Spec_Logits32 L_Serving32a L_Logits32a L_Logits32b L_Logits32c L_Logits32f
  M_EstimateTree32 L_EstTree32 M_Run32 Spec_Run32 L_Run32a.
From Verif Require Spec_MST.
Import ListNotations.
Open Scope nat_scope.

Section Run.
Variables (dot : list f32 -> list f32 -> f32) (g exp32 : f32 -> f32) (sum : list f32 -> f32) (mst : list (list R) -> list (nat * nat)).
Variables (ws : list nat) (tb : table) (prior : list f32) (M : nat) (A lo hi : Z) (lg : R -> R) (delta eta G P : R).
Hypothesis D : dot_ok dot.
Hypothesis TK : table_ok ws tb.
Hypothesis HM : 1 <= M <= 128.
Hypothesis HA : (1 <= A <= 16)%Z.
Hypothesis HN : ((Z.of_nat (num_rows tb) + 1) * 1 < 2 ^ A)%Z.
Hypothesis LO : (-149 <= 2 * lo - 2 * A - 8)%Z /\ (lo <= 0)%Z /\ (2 * hi + A + 10 <= 127)%Z /\ (0 <= hi)%Z.
Hypothesis CELL : cell_good treecat_add_cell32 ws tb M lo hi.
Notation V := (num_cols tb).
Notation N := (num_rows tb).
Hypothesis GO : gammaln_ok delta N M lg g.
Hypothesis SN : sum_near sum.
Hypothesis SO : sum_ok sum.
Hypothesis EX : exp_ok eta exp32.
Hypothesis HD : (0 <= delta <= 1)%R.
Hypothesis HE : (0 <= eta <= 1)%R.
Hypothesis GB : gammaln_below G N M lg.
Notation W := (INR (M * M + 2 * M) * G + P)%R.
Hypothesis HW : (W <= bp 59)%R.
Hypothesis HP : (0 <= P)%R.
Hypothesis GP : Forall (fun p => (fin32 p = true /\ (Rabs (val p) <= P)%R) \/ p = B754_infinity true) prior.
Hypothesis LP : length prior = tri V.
Hypothesis KB : (Z.of_nat (tri V) <= 2 ^ 16)%Z.

Notation inv := (inv32 ws tb M).
Notation add t := (s_added (t_state t)).

Let HW60 : (W <= bp 60)%R.
Proof. eapply Rle_trans; [exact HW|]. apply bpow_le. lia. Qed.

Lemma set_edges_safe t T : inv t -> spanning_tree V T ->
  gsafe (fun t' => inv t' /\ add t' = add t /\ s_asg (t_state t') = s_asg (t_state t) /\ s_tree (t_state t') = TS V (make_tree T)) (unless_raised32 (glift (set_edges32 M t T))).
Proof.
  intros I ST. apply gsafe_unless. destruct (set_edges_Ok ws tb M (proj1 HM) (t_state t) T (proj1 I) ST) as (s' & E & TI' & E1 & E2 & E3).
  assert (EE : set_edges32 M t T = Ok (T32 s' (fun e m1 m2 => add_prior (s_edge s' e m1 m2) (prior64 M)), None)).
  { unfold set_edges32. rewrite E. reflexivity. }
  rewrite EE. cbn [glift gsafe]. split; [reflexivity|]. split; [|auto].
  eapply set_edges_inv; eauto. now left.
Qed.

Lemma resample_safe t : inv t -> gsafe (fun t' => inv t' /\ add t' = add t) (resample_tree32 g exp32 sum tb prior M t).
Proof.
  intros I. assert (TI := proj1 I). destruct (tinv_tree ws tb M _ TI) as (EV & ST).
  destruct (logits_good ws tb prior M HM g sum lg delta G P GO SN HD GB HW60 HP GP LP (t_state t) TI) as (l & E & LL & GL).
  assert (LE : length (ts_get_edges (s_tree (t_state t))) = V - 1) by (destruct ST as (H & _); lia).
  unfold resample_tree32. cbn [gsafe]. intros order PO. rewrite LE in PO. apply gsafe_bind.
  assert (TS : trainer_sample_tree32 g sum exp32 tb prior M (t_state t) order = sample_tree32 exp32 sum (complete_grid V) l (ts_get_edges (s_tree (t_state t))) order).
  { unfold trainer_sample_tree32. rewrite EV, make_complete_graph_Ok, E. cbn [flift fbind]. rewrite LL, complete_grid_length, Nat.eqb_refl. reflexivity. }
  rewrite TS. destruct (tree_law_holds exp32 sum eta EX SO HE V (complete_grid V) l (ts_get_edges (s_tree (t_state t))) (fun _ => true) (make_complete_graph_Ok V) ST) as (H1 & _); auto.
  - now rewrite complete_grid_length.
  - now rewrite complete_grid_length.
  - rewrite LE in H1. eapply gsafe_mono; [|apply gsafe_of_f, (H1 order PO)]. intros T HT. cbn beta.
    eapply gsafe_mono; [|apply (set_edges_safe t T I HT)]. tauto.
Qed.

Lemma add_safe t n : inv t -> n < N -> ~ In n (add t) ->
  gsafe (fun t' => inv t' /\ Permutation (add t') (n :: add t)) (unless_raised32 (of_f (add_row32 dot tb M t n))).
Proof.
  intros I Hn NI. apply gsafe_unless. apply gsafe_of_f.
  eapply draws_mono; [|apply (add_row_draws treecat_add_cell32 dot ws tb M A lo hi D TK HM HA HN LO CELL t n I Hn)].
  intros [t' x] (I' & K). destruct (K NI) as (-> & EA). split; [reflexivity|]. split; [exact I'|]. rewrite EA. now apply set_add_perm.
Qed.

Lemma remove_safe t n : inv t -> In n (add t) ->
  gsafe (fun t' => inv t' /\ Permutation (add t) (n :: add t')) (unless_raised32 (glift (remove_row32 tb M t n))).
Proof.
  intros I IN. apply gsafe_unless. destruct (remove_row_Ok ws tb M TK (proj1 HM) (t_state t) n (proj1 I) IN) as (s' & E & TI' & EA & _).
  destruct (remove_row32 tb M t n) as [[t' x]|e] eqn:ER; [|unfold remove_row32 in ER; rewrite E in ER; discriminate].
  assert (I' := remove_row_inv ws tb M A lo hi TK HM HA HN LO t n t' x I ER).
  unfold remove_row32 in ER. rewrite E in ER. cbn [bind] in ER. inversion ER; subst t' x. cbn [glift gsafe]. split; [reflexivity|]. split; [exact I'|].
  cbn [t_state]. rewrite EA. now apply set_remove_perm.
Qed.

Lemma actions_safe acts : forall R R' t, replays N R acts R' -> inv t -> Permutation (add t) R ->
  gsafe (fun t' => inv t' /\ Permutation (add t') R') (gfold (train_action32 dot g exp32 sum tb prior M) acts t).
Proof.
  induction acts as [|a acts IH]; intros R R' t RP I PA.
  - inversion RP; subst. cbn. auto.
  - cbn [gfold]. apply gsafe_bind. inversion RP; subst; cbn [train_action32].
    + eapply gsafe_mono; [|apply add_safe; auto].
      * intros t' (I' & P'). eapply IH; eauto. rewrite P', PA. apply Permutation_cons_append.
      * intros K. apply (Permutation_in _ PA) in K. contradiction.
    + eapply gsafe_mono; [|apply remove_safe; auto].
      * intros t' (I' & P'). eapply IH; eauto. apply (Permutation_cons_inv (a := r)). rewrite <- P', PA.
        symmetry. apply Permutation_middle.
      * apply (Permutation_in _ (Permutation_sym PA)). apply in_or_app. right. now left.
    + eapply gsafe_mono; [|apply resample_safe; auto].
      intros t' (I' & EA). eapply IH; eauto. now rewrite EA.
Qed.

Lemma epoch_safe t : inv t -> Permutation (add t) (seq 0 N) ->
  gsafe (fun t' => inv t' /\ Permutation (add t') (seq 0 N)) (full_epoch32 dot g exp32 sum tb prior M t).
Proof.
  intros I PA. unfold full_epoch32. apply gsafe_bind. eapply gsafe_mono; [|apply resample_safe; auto].
  intros t1 (T1 & E1). apply gsafe_fold; [split; [exact T1|now rewrite E1]|].
  intros t2 n (T2 & P2) IN. apply gsafe_bind.
  eapply gsafe_mono; [|apply remove_safe; auto; apply (Permutation_in _ (Permutation_sym P2)); exact IN].
  intros t3 (T3 & P3). assert (ND : NoDup (n :: add t3)).
  { apply (Permutation_NoDup P3). apply (Permutation_NoDup (Permutation_sym P2)). apply seq_NoDup. }
  inversion ND; subst. eapply gsafe_mono; [|apply add_safe; auto].
  - intros t4 (T4 & P4). split; [exact T4|]. now rewrite P4, <- P3.
  - apply in_seq in IN. lia.
Qed.

Lemma epochs_safe k t : inv t -> Permutation (add t) (seq 0 N) ->
  gsafe (fun t' => inv t' /\ Permutation (add t') (seq 0 N)) (gfold (fun t _ => full_epoch32 dot g exp32 sum tb prior M t) (seq 0 k) t).
Proof. intros I PA. apply gsafe_fold; [auto|]. intros t' i (I' & PA') _. now apply epoch_safe. Qed.

(** The final logits and the estimated tree. *)
Notation eps := (logit_error M delta W).

Lemma eps_mono w : (w <= W)%R -> (logit_error M delta w <= eps)%R.
Proof.
  intros H. unfold logit_error. pose proof (pos_INR (M * M + 3)). pose proof (bpow_gt_0 radix2 (-23)).
  apply Rplus_le_compat_l. apply Rmult_le_compat_l; [nra|]. lra.
Qed.

Lemma eps_small : (0 <= eps /\ W + eps <= bp 60)%R.
Proof.
  pose proof (G_nonneg tb M lg G GB) as G0. destruct (sq_bound M (proj2 HM)) as (S1 & S2). unfold logit_error.
  destruct (inr_split M HM) as (I1 & I2 & I3 & I4). rewrite I2. pose proof (pos_INR (M * M + 2 * M)) as Q0. pose proof (pos_INR (M * M)) as Q1.
  set (Q := INR (M * M + 2 * M)) in *. set (q := INR (M * M)) in *.
  assert (QD : (0 <= Q * delta <= 16640)%R) by nra. assert (W0 : (0 <= Q * G + P)%R) by nra. set (w := (Q * G + P)%R) in *.
  assert (U : bp (-23) = (/ 8388608)%R) by (cbn; lra). rewrite U.
  assert (B1 : (0 <= (q + 3) * / 8388608 <= / 256)%R) by lra.
  assert (B2 : (bp 60 = 2 * bp 59)%R) by (change 2%R with (bp 1); now rewrite <- bpow_plus).
  assert (B3 : (bp 20 <= bp 59)%R) by (apply bpow_le; lia). assert (B4 : bp 20 = 1048576%R) by (cbn; lra). rewrite B4 in B3. rewrite B2.
  split; [nra|]. assert (((q + 3) * / 8388608) * (w + Q * delta) <= / 256 * (bp 59 + 16640))%R by (apply Rmult_le_compat; lra). lra.
Qed.

Lemma edge_score_sym s a b : edge_score lg M s a b = edge_score lg M s b a.
Proof.
  unfold edge_score. rewrite sumf_swap. rewrite (sumf_ext (seq 0 M) (fun y => sumf (seq 0 M) (fun x => lg (IZR (pair_count s a b x y) + 1 / 2 / INR M)))
    (fun m1 => sumf (seq 0 M) (fun m2 => lg (IZR (pair_count s b a m1 m2) + 1 / 2 / INR M)))).
  - unfold Rminus. lra.
  - intros m1 _. apply sumf_ext. intros m2 _. replace (pair_count s b a m1 m2) with (pair_count s a b m2 m1); [reflexivity|]. unfold pair_count. apply total_ext. intros n _. now rewrite andb_comm.
Qed.

Lemma edge_score_le s a b : (Rabs (edge_score lg M s a b) <= score_size lg M s a b)%R.
Proof.
  unfold edge_score, score_size.
  assert (H1 : forall l f, (Rabs (sumf l f) <= sumf l (fun m : nat => Rabs (f m)))%R) by (intros; apply sumf_abs_le).
  pose proof (H1 (seq 0 M) (fun m => lg (IZR (class_count s a m) + 1 / 2)%R)) as Ha.
  pose proof (H1 (seq 0 M) (fun m => lg (IZR (class_count s b m) + 1 / 2)%R)) as Hb.
  assert (Hp : (Rabs (sumf (seq 0 M) (fun m1 => sumf (seq 0 M) (fun m2 => lg (IZR (pair_count s a b m1 m2) + 1 / 2 / INR M)))) <=
    sumf (seq 0 M) (fun m1 => sumf (seq 0 M) (fun m2 => Rabs (lg (IZR (pair_count s a b m1 m2) + 1 / 2 / INR M)))))%R).
  { eapply Rle_trans; [apply H1|]. apply sumf_le. intros. apply H1. }
  cbn beta in Ha, Hb. unfold Rminus. eapply Rle_trans; [apply Rabs_triang|]. rewrite Rabs_Ropp. apply Rplus_le_compat; [|exact Hb].
  eapply Rle_trans; [apply Rabs_triang|]. rewrite Rabs_Ropp. now apply Rplus_le_compat.
Qed.

Definition near_scores (s : tstate) (l : list f32) : Prop :=
  forall a b, a < b -> b < V -> exists x p,
    nth_error l (find_complete_edge a b) = Some x /\ nth_error prior (find_complete_edge a b) = Some p /\
    ((fin32 p = true /\ fin32 x = true /\ (Rabs (val x - (edge_score lg M s a b + val p)) <= eps)%R) \/
     (p = B754_infinity true /\ x = B754_infinity true)).

Lemma final_logits32 s : tinv ws tb M s -> length (s_added s) = N ->
  exists l, compute_edge_logits32 g sum tb prior M s = Ok l /\ length l = tri V /\ near_scores s l /\
    Forall (fun x => (fin32 x = true /\ (Rabs (val x) <= W + eps)%R) \/ x = B754_infinity true) l.
Proof.
  intros TI LN.
  assert (GP' : Forall (fun p => fin32 p = true \/ p = B754_infinity true) prior) by (eapply Forall_impl; [|exact GP]; cbn beta; tauto).
  destruct (logits_near ws tb prior M HM g sum lg delta GO SN HD s TI (or_intror LN) LP GP'
    (SZ_holds ws tb prior M HM lg G P GB HW60 HP GP LP s TI)) as (l & E & LL & GL & NR).
  assert (NS : near_scores s l).
  { intros a b Hab Hb. destruct (NR a b Hab Hb) as (x & p & E1 & E2 & K). exists x, p. split; [exact E1|]. split; [exact E2|].
    destruct K as [(F1 & F2 & K)|K]; [left|now right]. split; [exact F1|]. split; [exact F2|]. eapply Rle_trans; [exact K|]. apply eps_mono.
    pose proof (score_size_le ws tb prior M HM lg G GB LP s TI a b). pose proof (prior_size tb prior P HP GP LP (find_complete_edge a b) ltac:(apply fce_range; lia)) as K2.
    rewrite (nth_error_nth _ _ _ E2) in K2. lra. }
  exists l. split; [exact E|]. split; [exact LL|]. split; [exact NS|].
  apply Forall_forall. intros x IN. apply In_nth_error in IN. destruct IN as (j & Ej).
  destruct (nth_error (complete_grid V) j) as [[[k a] b]|] eqn:EG.
  - apply complete_grid_nth in EG. destruct EG as (_ & Hab & Hb & EJ). destruct (NS a b Hab Hb) as (x' & p & E1 & E2 & K).
    rewrite EJ, Ej in E1. inversion E1; subst x'. destruct K as [(F1 & F2 & K)|(_ & K)]; [left|now right]. split; [exact F2|].
    pose proof (score_size_le ws tb prior M HM lg G GB LP s TI a b). pose proof (edge_score_le s a b).
    pose proof (prior_size tb prior P HP GP LP (find_complete_edge a b) ltac:(apply fce_range; lia)) as K2. rewrite (nth_error_nth _ _ _ E2) in K2.
    replace (val x) with ((val x - (edge_score lg M s a b + val p)) + (edge_score lg M s a b + val p))%R by ring.
    eapply Rle_trans; [apply Rabs_triang|]. pose proof (Rabs_triang (edge_score lg M s a b) (val p)). lra.
  - exfalso. apply nth_error_None in EG. rewrite complete_grid_length in EG. assert (j < length l) by (apply nth_error_Some; congruence). lia.
Qed.

Lemma tree_pair s l T x y : near_scores s l -> length l = tri V -> spanning_tree V T -> In (x, y) T ->
  let q := nth (find_complete_edge x y) l fzero in let p := nth (find_complete_edge x y) prior fzero in
  fin32 q = fin32 p /\ (fin32 p = true -> (Rabs (val q - (edge_score lg M s x y + val p)) <= eps)%R).
Proof.
  intros NS LL ST IN q p. destruct (L_Estimate.tree_neq V T ST x y IN) as (NE & Hx & Hy).
  assert (K : exists a b, a < b /\ b < V /\ find_complete_edge x y = find_complete_edge a b /\ edge_score lg M s x y = edge_score lg M s a b).
  { destruct (lt_dec x y); [exists x, y; auto|]. exists y, x. split; [lia|]. split; [lia|]. split; [apply fce_sym|apply edge_score_sym]. }
  destruct K as (a & b & Hab & Hb & EF & ES). unfold q, p. rewrite EF, ES. destruct (NS a b Hab Hb) as (z & r & E1 & E2 & K).
  rewrite (nth_error_nth _ _ _ E1), (nth_error_nth _ _ _ E2). destruct K as [(F1 & F2 & K)|(-> & ->)]; [rewrite F1, F2; auto|]. split; [reflexivity|discriminate].
Qed.

Lemma allowed_iff s l T : near_scores s l -> length l = tri V -> spanning_tree V T -> (allowed l T <-> allowed_by prior T).
Proof.
  intros NS LL ST. split; intros H x y I; destruct (tree_pair s l T x y NS LL ST I) as (E & _); specialize (H x y I); congruence.
Qed.

Lemma total_near s l T : near_scores s l -> length l = tri V -> spanning_tree V T -> allowed_by prior T ->
  (Rabs (total32 l T - tree_score lg M s prior T) <= INR (V - 1) * eps)%R.
Proof.
  intros NS LL ST AL. assert (LT : length T = V - 1) by (destruct ST; lia). rewrite <- LT. unfold total32, tree_score.
  rewrite <- sumf_minus, <- sumf_const. eapply Rle_trans; [apply sumf_abs_le|]. apply sumf_le. intros [x y] I.
  destruct (tree_pair s l T x y NS LL ST I) as (_ & K). apply K. exact (AL x y I).
Qed.

Lemma tree_score_perm s T T' : Permutation T T' -> tree_score lg M s prior T = tree_score lg M s prior T'.
Proof. intros H. unfold tree_score. now apply sumf_perm. Qed.
End Run.

Section Final.
Variables (dot : list f32 -> list f32 -> f32) (g exp32 : f32 -> f32) (sum : list f32 -> f32) (mst : list (list R) -> list (nat * nat)).
Variables (ws : list nat) (tb : table) (prior : list f32) (cfg : train_config) (A : Z) (c : nat) (t0 : trainer32) (lg : R -> R) (delta eta G P : R).
Notation M := (c_clusters cfg).
Notation V := (num_cols tb).
Notation N := (num_rows tb).
Notation W := (INR (M * M + 2 * M) * G + P)%R.
Notation eps := (logit_error M delta W).

Lemma train32_safe : dot_ok dot -> table_ok ws tb -> nonneg_data tb -> config_ok cfg -> 1 <= c -> at_most c ws tb ->
  (1 <= A <= 16)%Z -> ((A + 9) * Z.of_nat c + A <= 69)%Z ->
  ((Z.of_nat N + 1) * Z.of_nat c < 2 ^ A)%Z -> Forall (fun w => (Z.of_nat w <= 2 ^ A)%Z) ws ->
  Spec_MST.mst_contract mst -> init_trainer32 tb (map (fun p => B2R p) prior) M = Ok t0 ->
  gammaln_ok delta N M lg g -> gammaln_below G N M lg -> sum_near sum -> sum_ok sum -> exp_ok eta exp32 ->
  (0 <= delta <= 1)%R -> (0 <= eta <= 1)%R -> (0 <= P)%R -> (W <= bp 59)%R ->
  Forall (fun p => (fin32 p = true /\ (Rabs (val p) <= P)%R) \/ p = B754_infinity true) prior ->
  (Z.of_nat (V * (V - 1) / 2) <= 2 ^ 16)%Z ->
  (exists T, spanning_tree V T /\ allowed_by prior T) ->
  gsafe (fun '(t, l) => let s := t_state t in let T := ts_get_edges (s_tree s) in
      from_scratch ws tb M s /\ valid_model ws tb M s /\ length l = V * (V - 1) / 2 /\
      (forall a b, a < b -> b < V -> exists x p,
        nth_error l (find_complete_edge a b) = Some x /\ nth_error prior (find_complete_edge a b) = Some p /\
        ((fin32 p = true /\ fin32 x = true /\ (Rabs (val x - (edge_score lg M s a b + val p)) <= eps)%R) \/
         (p = B754_infinity true /\ x = B754_infinity true))) /\
      (c_estimate_tree cfg = true -> allowed_by prior T /\
        forall T', spanning_tree V T' -> allowed_by prior T' ->
          (tree_score lg M s prior T' <= tree_score lg M s prior T + INR (V - 1) * (2 * eps + bp (-20) * (W + eps + 1)))%R))
    (train32 dot g exp32 sum mst tb prior cfg t0).
Proof.
  intros D TK ND ((HM & HM2) & HEp & HRt) Hc AM HA HAc HN HWs MC E0 GO GB SN SO EX HD HE HP HW GP KB EXT.
  assert (HMM : 1 <= M <= 128) by lia.
  unfold init_trainer32 in E0. destruct (init_trainer tb (map (fun p => B2R p) prior) M) as [s0|] eqn:EI; [|discriminate]. cbn [bind] in E0. inversion E0; subst t0. clear E0.
  destruct (init_Ok ws tb M HM _ s0 EI) as (TI0 & A0 & HV).
  assert (LP : length prior = tri V).
  { rewrite <- (map_length (fun p => B2R p)). apply (prior_length tb (map (fun p => B2R p) prior) M s0). exists s0, []. split; [exact EI|]. split; [constructor|reflexivity]. }
  assert (HN1 : ((Z.of_nat N + 1) * 1 < 2 ^ A)%Z) by nia.
  set (lo := (-1 - (A + 9) * Z.of_nat c)%Z). set (hi := (A + 7 * Z.of_nat c)%Z).
  assert (LO := lo_ok ws tb M A (Z.of_nat c) HMM HA (inj_le 1 c Hc) HAc HN AM). fold lo hi in LO.
  assert (CELL := cell_good_old ws tb M A (Z.of_nat c) TK ND HMM HA (inj_le 1 c Hc) HAc HN HWs AM). fold lo hi in CELL.
  set (t0 := T32 s0 (fun e m1 m2 => add_prior (s_edge s0 e m1 m2) (prior64 M))).
  assert (I0 : inv32 ws tb M t0) by (split; [exact TI0|]; cbn [t_state t_eprobs t0]; now apply (fresh_near ws tb M A HMM HA HN1)).
  unfold train32. change (s_added (t_state t0)) with (s_added s0). rewrite A0. cbn [length Nat.eqb assert_ glift gbind gsafe].
  intros ids PI. assert (LI : length ids = N) by (rewrite (Permutation_length PI); apply seq_length).
  destruct (mas_enough _ ids (c_init_epochs cfg) (c_tree_rate cfg) PI HEp HRt) as (acts & EA).
  unfold sched_fuel. rewrite <- LI. unfold qn in EA. rewrite EA. cbn [glift gbind]. rewrite LI.
  destruct (mas_spec _ ids _ _ _ acts PI HEp HRt EA) as ((R & RP & PR) & _).
  apply gsafe_bind. eapply gsafe_mono;
    [|apply (actions_safe dot g exp32 sum ws tb prior M A lo hi lg delta eta G P D TK HMM HA HN1 LO CELL GO SN SO EX HD HE GB HW HP GP LP KB acts [] R t0 RP I0);
      change (s_added (t_state t0)) with (s_added s0); rewrite A0; constructor].
  intros t1 (I1 & P1). rewrite PR in P1.
  rewrite (Permutation_length P1), seq_length, Nat.eqb_refl. cbn [assert_ glift gbind].
  apply gsafe_bind. eapply gsafe_mono; [|apply (epochs_safe dot g exp32 sum ws tb prior M A lo hi lg delta eta G P D TK HMM HA HN1 LO CELL GO SN SO EX HD HE GB HW HP GP LP KB _ t1 I1 P1)].
  intros t2 (I2 & P2).
  assert (L2 : length (s_added (t_state t2)) = N) by (rewrite (Permutation_length P2); apply seq_length).
  rewrite L2, Nat.eqb_refl. cbn [assert_ glift gbind].
  assert (T2 := proj1 I2). destruct (tinv_tree ws tb M _ T2) as (EV & ST). rewrite EV, make_complete_graph_Ok. cbn [glift gbind].
  destruct (final_logits32 g sum ws tb prior M A lo hi lg delta eta G P HMM HA LO GO SN HD HE GB HW HP GP LP (t_state t2) T2 L2) as (l & EL & LL & NS & GLs). rewrite EL. cbn [glift gbind].
  destruct (eps_small tb prior M A lg delta G P HMM HD GB HW HP LP) as (EP0 & EPW).
  assert (W0 : (0 <= W + eps)%R).
  { pose proof (G_nonneg tb M lg G GB). pose proof (pos_INR (M * M + 2 * M)). nra. }
  destruct (estimate_near mst V l (W + eps)%R MC HV LL EPW GLs) as (T & ET & CT & AT & MX); [|exact W0|].
  { destruct EXT as (T & STT & AL). exists T. split; [exact STT|]. now apply (allowed_iff tb prior M A lg delta G P HMM LP (t_state t2)). }
  rewrite ET. cbn [glift gbind].
  assert (STT : spanning_tree V T) by apply CT.
  destruct (c_estimate_tree cfg) eqn:EE.
  - apply gsafe_bind. eapply gsafe_mono; [|apply (set_edges_safe ws tb M A HMM HA HN1 t2 T I2 STT)].
    intros t3 (I3 & A3 & G3 & ET3). cbn [gsafe].
    assert (ES : forall a b, edge_score lg M (t_state t3) a b = edge_score lg M (t_state t2) a b).
    { intros a b. unfold edge_score, pair_count, class_count. now rewrite A3, G3. }
    assert (ETS : forall T, tree_score lg M (t_state t3) prior T = tree_score lg M (t_state t2) prior T).
    { intros T1. unfold tree_score. apply sumf_ext. intros [x y] _. now rewrite ES. }
    split; [apply (proj1 I3)|]. split; [apply (full_valid ws tb (map (fun p => B2R p) prior) M TK HM); [now rewrite map_length|apply I3|now rewrite A3]|]. split; [exact LL|]. split.
    + intros a b Hab Hb. rewrite ES. exact (NS a b Hab Hb).
    + intros _. assert (PT : Permutation (ts_get_edges (s_tree (t_state t3))) T).
      { rewrite ET3. change (ts_get_edges (TS V (make_tree T))) with (grid_edges (make_tree T)). rewrite make_tree_edges.
        rewrite pair_sort_perm. rewrite (map_ext_in norm (fun e => e)); [now rewrite map_id|]. intros [x y] IN. destruct CT as (_ & OR & _). specialize (OR x y IN). unfold norm. cbn [fst snd]. f_equal; lia. }
      split.
      * intros x y IN. apply (Permutation_in _ PT) in IN. apply (proj1 (allowed_iff tb prior M A lg delta G P HMM LP (t_state t2) l T NS LL STT) AT x y IN).
      * intros T' ST' AL'. rewrite !ETS, (tree_score_perm prior M lg _ _ _ PT).
        pose proof (total_near tb prior M A lg delta G P HMM HA LP (t_state t2) l T' NS LL ST' AL') as K1.
        pose proof (total_near tb prior M A lg delta G P HMM HA LP (t_state t2) l T NS LL STT (proj1 (allowed_iff tb prior M A lg delta G P HMM LP (t_state t2) l T NS LL STT) AT)) as K2.
        specialize (MX T' ST' (proj2 (allowed_iff tb prior M A lg delta G P HMM LP (t_state t2) l T' NS LL ST') AL')).
        apply Rabs_le_inv in K1. apply Rabs_le_inv in K2. lra.
  - cbn [gbind gsafe]. split; [apply T2|]. split; [apply (full_valid ws tb (map (fun p => B2R p) prior) M TK HM); auto; now rewrite map_length|]. split; [exact LL|]. split; [exact NS|].
    discriminate.
Qed.
End Final.
