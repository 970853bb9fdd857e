(** The float32 edge logits of all pairs, and resampling the tree with them. *)
From Coq Require Import List Arith Bool ZArith Reals Lra Lia Permutation.
From Flocq Require Import Core IEEE754.BinarySingleNaN.
From Verif Require Import Base L_Base Spec_Graph Spec_Sum L_Sum Spec_Ragged M_Structure L_Pairing L_Prop1 L_MakeTree M_Util M_Rand L_Rand M_SampleTree M_Array M_Training
  Spec_Joint Spec_Stats L_Asg L_Stats L_Trainer Spec_Conditional L_AddRow L_Conditional Spec_EdgeLogits L_EdgeLogits L_Train
  M_Float32 Spec_Float32 L_Float32 M_Train32 Spec_Law Spec_Serving32 M_SampleTree32 Spec_Tree32 L_Tree32c L_Tree32d L_Train32f M_Logits32 Spec_Logits32 L_Serving32a L_Logits32a L_Logits32b.
Import ListNotations.
Open Scope R_scope.

Section Logits.
Variables (ws : list nat) (tb : table) (prior : list f32) (M : nat).
Hypothesis TK : table_ok ws tb.
Hypothesis HM : (1 <= M <= 128)%nat.
Notation V := (num_cols tb).
Notation N := (num_rows tb).
Variables (g : f32 -> f32) (sum : list f32 -> f32) (lg : R -> R) (delta : R).
Hypothesis GO : gammaln_ok delta N M lg g.
Hypothesis SN : sum_near sum.
Hypothesis HD : 0 <= delta <= 1.
Variable s : tstate.
Hypothesis TI : tinv ws tb M s.
Hypothesis RD : length (s_added s) <> V \/ length (s_added s) = N.
Hypothesis LP : length prior = tri V.

Lemma read_perm : Permutation (read_rows tb s) (s_added s).
Proof.
  unfold read_rows. destruct (Nat.eqb_spec (length (s_added s)) V); [|reflexivity].
  destruct RD as [C|C]; [contradiction|]. apply Permutation_sym, (all_added ws tb M); auto. apply HM.
Qed.

(** The logit of one pair, before the prior is added. *)
Definition vl (v : nat) : f32 := logprob_dc32 g sum (vec M (s_vert s v)) vert_prior64.

Lemma pair_near k a b p : (a < b)%nat -> (b < V)%nat -> score_size lg M s a b + Rabs (val p) <= bp 60 ->
  exists y, edge_logit_of32 g N M V (map (s_asg s) (read_rows tb s)) vl (k, a, b) = Ok y /\ fin32 y = true /\
    (fin32 p = true ->
     fin32 (fadd y p) = true /\ Rabs (val (fadd y p)) <= bp 126 /\
     Rabs (val (fadd y p) - (edge_score lg M s a b + val p)) <= logit_error M delta (score_size lg M s a b + Rabs (val p))).
Proof.
  intros Hab Hb HW. unfold edge_logit_of32. rewrite (proj2 (Nat.ltb_lt a V)), (proj2 (Nat.ltb_lt b V)) by lia. cbn [andb check bind].
  rewrite map_map. set (pairs := map (fun n => (s_asg s n a, s_asg s n b)) (read_rows tb s)).
  assert (LR : (length (read_rows tb s) <= N)%nat) by (rewrite (Permutation_length read_perm); apply (added_le ws tb M (proj1 HM) s TI)).
  assert (PC : forall m1 m2, Z.of_nat (pcount pairs m1 m2) = pair_count s a b m1 m2).
  { intros. unfold pairs. rewrite (pcount_total (read_rows tb s) (s_asg s) a b m1 m2). unfold pair_count. now rewrite (total_perm _ _ _ read_perm). }
  unfold score_size in HW |- *. unfold edge_score.
  set (Wp := sumf (seq 0 M) (fun m1 => sumf (seq 0 M) (fun m2 => Rabs (lg (IZR (pair_count s a b m1 m2) + 1 / 2 / INR M))))) in *.
  set (Wa := sumf (seq 0 M) (fun m => Rabs (lg (IZR (class_count s a m) + 1 / 2)))) in *.
  set (Wb := sumf (seq 0 M) (fun m => Rabs (lg (IZR (class_count s b m) + 1 / 2)))) in *.
  assert (P0 : 0 <= Wp /\ 0 <= Wa /\ 0 <= Wb).
  { repeat split; repeat (apply sumf_nonneg; intros); apply Rabs_pos. }
  pose proof (Rabs_pos (val p)).
  destruct (sq_bound M (proj2 HM)) as (S1 & S2). destruct (inr_split M HM) as (I1 & I2 & I3 & I4).
  assert (BIG : bp 60 + 16384 <= bp 100).
  { assert (16384 <= bp 60) by (apply Rle_trans with (bp 14); [cbn; lra|apply bpow_le; lia]). assert (2 * bp 60 <= bp 100) by (change 2 with (bp 1); rewrite <- bpow_plus; apply bpow_le; lia). lra. }
  assert (QD : 0 <= INR (M * M) * delta <= 16384) by nra. assert (MD : 0 <= INR M * delta <= 16384) by nra.
  set (h := fun '(m1, m2) => lg (INR (pcount pairs m1 m2) + 1 / 2 / INR M)).
  assert (EH : forall m1 m2, h (m1, m2) = lg (IZR (pair_count s a b m1 m2) + 1 / 2 / INR M)).
  { intros. unfold h. now rewrite INR_IZR_INZ, PC. }
  assert (EW : sumf (cells M) (fun i => Rabs (h i)) = Wp).
  { rewrite cells_sum. apply sumf_ext. intros m1 _. apply sumf_ext. intros m2 _. now rewrite EH. }
  assert (HT : sumf (cells M) (fun i => Rabs (h i)) + INR (M * M) * delta <= bp 100) by (rewrite EW; lra).
  destruct (edge_logit32_near tb M HM g lg delta GO HD pairs) as (x & E & Fx & EX).
  - unfold pairs. now rewrite map_length.
  - intros x y I. apply in_map_iff in I. destruct I as (n & E & I). inversion E; subst. split; apply (ti_all _ _ _ _ TI); auto; lia.
  - exact HT.
  - change (Rabs (val x - sumf (cells M) h) <= INR (M * M) * delta + INR (M * M) * bp (-23) * (sumf (cells M) (fun i => Rabs (h i)) + INR (M * M) * delta)) in EX. rewrite EW in EX. rewrite E. cbn [bind]. eexists. split; [reflexivity|].
    destruct (vert_near ws tb M HM g sum lg delta GO SN HD s a TI) as (F1 & E1); [lia|fold Wa; lra|].
    destruct (vert_near ws tb M HM g sum lg delta GO SN HD s b TI) as (F2 & E2); [lia|fold Wb; lra|].
    replace (sumf (seq 0 M) (fun m1 => sumf (seq 0 M) (fun m2 => lg (IZR (pair_count s a b m1 m2) + 1 / 2 / INR M)))) with (sumf (cells M) h).
    2: { rewrite cells_sum. apply sumf_ext. intros m1 _. apply sumf_ext. intros m2 _. now rewrite EH. }
    apply (combine_near M HM delta HD x (vl a) (vl b) p _ _ _ Wp Wa Wb Fx F1 F2); auto.
    + rewrite <- EW. apply sumf_abs_le.
    + apply sumf_abs_le.
    + apply sumf_abs_le.
Qed.

Hypothesis GP : Forall (fun p => fin32 p = true \/ p = B754_infinity true) prior.
Hypothesis SZ : forall a b, (a < b)%nat -> (b < V)%nat -> score_size lg M s a b + Rabs (val (nth (find_complete_edge a b) prior fzero)) <= bp 60.

Lemma logits_near : exists l, compute_edge_logits32 g sum tb prior M s = Ok l /\ length l = tri V /\ Forall good_logit l /\
  forall a b, (a < b)%nat -> (b < V)%nat -> exists x p,
    nth_error l (find_complete_edge a b) = Some x /\ nth_error prior (find_complete_edge a b) = Some p /\
    ((fin32 p = true /\ fin32 x = true /\
      Rabs (val x - (edge_score lg M s a b + val p)) <= logit_error M delta (score_size lg M s a b + Rabs (val p))) \/
     (p = B754_infinity true /\ x = B754_infinity true)).
Proof.
  unfold compute_edge_logits32. rewrite make_complete_graph_Ok. cbn [bind].
  assert (ER : (if (length (s_added s) =? V)%nat then map (s_asg s) (seq 0 N) else map (s_asg s) (s_added s)) = map (s_asg s) (read_rows tb s)).
  { unfold read_rows. destruct (length (s_added s) =? V)%nat; reflexivity. }
  rewrite ER. change (fun v => logprob_dc32 g sum (vec M (s_vert s v)) vert_prior64) with vl.
  set (F := edge_logit_of32 g N M V (map (s_asg s) (read_rows tb s)) vl).
  set (y := fun c => match F c with Ok y => y | Raise _ => fzero end).
  assert (YS : forall c, In c (complete_grid V) -> exists a b, c = (find_complete_edge a b, a, b) /\ (a < b)%nat /\ (b < V)%nat /\ F c = Ok (y c)).
  { intros [[k a] b] I. apply In_nth_error in I. destruct I as (j & E). apply complete_grid_nth in E. destruct E as (Ek & Hab & Hb & Ej).
    exists a, b. split; [f_equal; f_equal; lia|]. split; [exact Hab|]. split; [exact Hb|].
    destruct (pair_near k a b (nth (find_complete_edge a b) prior fzero) Hab Hb (SZ a b Hab Hb)) as (z & E & _). unfold y, F. now rewrite E. }
  rewrite (mapM_Ok F y) by (intros c I; destruct (YS c I) as (_ & _ & _ & _ & _ & E); exact E). cbn [bind].
  eexists. split; [reflexivity|]. split.
  { rewrite map_length, combine_length, map_length, complete_grid_length, LP. lia. }
  assert (AT : forall a b, (a < b)%nat -> (b < V)%nat -> exists x p,
    nth_error (map (fun '(x, p) => fadd x p) (combine (map y (complete_grid V)) prior)) (find_complete_edge a b) = Some x /\ nth_error prior (find_complete_edge a b) = Some p /\
    good_logit x /\
    ((fin32 p = true /\ fin32 x = true /\
      Rabs (val x - (edge_score lg M s a b + val p)) <= logit_error M delta (score_size lg M s a b + Rabs (val p))) \/
     (p = B754_infinity true /\ x = B754_infinity true))).
  { intros a b Hab Hb. assert (RNG : (find_complete_edge a b < tri V)%nat) by (apply fce_range; lia).
    set (p := nth (find_complete_edge a b) prior fzero).
    assert (EP : nth_error prior (find_complete_edge a b) = Some p) by (apply nth_error_nth'; lia).
    assert (EC : forall X Y (l : list X) (l' : list Y) i x y, nth_error l i = Some x -> nth_error l' i = Some y -> nth_error (combine l l') i = Some (x, y)).
    { induction l; destruct l', i; simpl; intros; try discriminate; auto. congruence. }
    pose proof (complete_grid_fce V a b Hab Hb) as EG.
    exists (fadd (y (find_complete_edge a b, a, b)) p), p. split.
    { rewrite nth_error_map. erewrite EC; [reflexivity| |exact EP]. rewrite nth_error_map, EG. reflexivity. }
    split; [exact EP|]. destruct (pair_near (find_complete_edge a b) a b p Hab Hb (SZ a b Hab Hb)) as (z & E & Fz & HZ).
    assert (EY : y (find_complete_edge a b, a, b) = z) by (unfold y, F; now rewrite E). rewrite EY.
    assert (GPp : fin32 p = true \/ p = B754_infinity true) by (rewrite Forall_forall in GP; apply GP; eapply nth_error_In; eauto).
    destruct GPp as [Fp|Ip].
    - destruct (HZ Fp) as (H1 & H2 & H3). split; [left; auto|]. left. auto.
    - rewrite Ip. rewrite (minus_inf z Fz). split; [right; reflexivity|]. right. auto. }
  split.
  - apply Forall_forall. intros x I. apply In_nth_error in I. destruct I as (j & E).
    destruct (nth_error (complete_grid V) j) as [[[k a] b]|] eqn:EG.
    + apply complete_grid_nth in EG. destruct EG as (_ & Hab & Hb & Ej). destruct (AT a b Hab Hb) as (x' & p & E' & _ & GL & _).
      rewrite Ej, E in E'. now inversion E'; subst.
    + exfalso. apply nth_error_None in EG. assert (j < length (complete_grid V))%nat; [|lia].
      assert (j < length (map (fun '(x, p) => fadd x p) (combine (map y (complete_grid V)) prior)))%nat by (apply nth_error_Some; congruence).
      rewrite map_length, combine_length, map_length in H. lia.
  - intros a b Hab Hb. destruct (AT a b Hab Hb) as (x & p & E1 & E2 & _ & H). exists x, p. auto.
Qed.

(** Resampling the tree. *)
Lemma resample_law exp32 eta bset l : exp_ok eta exp32 -> sum_ok sum -> 0 <= eta <= 1 -> (Z.of_nat (tri V) <= 2 ^ 16)%Z ->
  compute_edge_logits32 g sum tb prior M s = Ok l ->
  (forall order, Permutation order (seq 0 (V - 1)) -> draws_usable (spanning_tree V) (trainer_sample_tree32 g sum exp32 tb prior M s order)) /\
  Rabs (resample_prob32 g sum exp32 tb prior M s bset - prob (sample_tree (complete_grid V) (map logit_of l) (ts_get_edges (s_tree s))) bset)
    <= INR (V - 1) * INR (tri V) * (2 * eta + bp (-20)).
Proof.
  intros EX SO ET KB E. destruct logits_near as (l' & E' & LL & GL & _). rewrite E in E'. inversion E'; subst l'.
  destruct (tinv_tree ws tb M s TI) as (EV & ST).
  assert (LE : length (ts_get_edges (s_tree s)) = (V - 1)%nat) by (destruct ST as (H & _); lia).
  assert (TS : forall order, trainer_sample_tree32 g sum exp32 tb prior M s order = sample_tree32 exp32 sum (complete_grid V) l (ts_get_edges (s_tree s)) order).
  { intros order. unfold trainer_sample_tree32. rewrite EV, make_complete_graph_Ok, E. cbn [flift fbind].
    rewrite LL, complete_grid_length, Nat.eqb_refl. reflexivity. }
  destruct (tree_law_holds exp32 sum eta EX SO ET V (complete_grid V) l (ts_get_edges (s_tree s)) bset (make_complete_graph_Ok V) ST) as (H1 & H2); auto.
  - now rewrite complete_grid_length.
  - now rewrite complete_grid_length.
  - rewrite LE in H1, H2. split.
    + intros order P. rewrite TS. now apply H1.
    + rewrite complete_grid_length in H2. replace (resample_prob32 g sum exp32 tb prior M s bset) with (tree_prob32 exp32 sum (complete_grid V) l (ts_get_edges (s_tree s)) bset); [exact H2|].
      unfold tree_prob32, resample_prob32. rewrite LE. f_equal. apply sumf_ext. intros o _. now rewrite TS.
Qed.
End Logits.
