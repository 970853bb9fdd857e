(** The posterior over trees with the exact scores. *)
From Coq Require Import List Arith Bool ZArith Reals Lra Lia Permutation.
From Flocq Require Import Core IEEE754.BinarySingleNaN.
From Coq Require Import Floats.SpecFloat.
From Verif Require Import Base L_Base Spec_Graph Spec_Sum L_Sum Spec_Ragged M_Structure L_Pairing L_Prop1 L_MakeTree M_Util M_Rand L_Rand M_SampleTree M_Array M_Training
  Spec_Joint Spec_Stats Spec_Trees L_Asg L_Stats L_Trainer Spec_Conditional L_AddRow L_Conditional Spec_EdgeLogits L_EdgeLogits L_Train
  M_Float32 Spec_Float32 L_Float32 M_Train32 Spec_Law Spec_Serving32 M_SampleTree32 Spec_Tree32 L_Grid2 L_AllTrees L_Tree32c L_Tree32d L_Train32f L_Train32g L_Train32h M_Logits32 Spec_Logits32 L_Serving32a L_Logits32a L_Logits32b L_Logits32c.
Import ListNotations.
Open Scope R_scope.

Lemma exp_mono a b : a <= b -> exp a <= exp b.
Proof. intros [H| ->]; [left; now apply exp_increasing|lra]. Qed.

(** Masses of logits that differ by at most [eps]. *)
Lemma mass_near (L L' : nat -> nat -> option R) eps (T : list edge) :
  (forall a b, In (a, b) T -> match L a b, L' a b with Some x, Some y => Rabs (y - x) <= eps | None, None => True | _, _ => False end) -> 0 <= eps ->
  exp (- (INR (length T) * eps)) * tree_mass L T <= tree_mass L' T <= exp (INR (length T) * eps) * tree_mass L T.
Proof.
  intros H E0. unfold tree_mass. induction T as [|[a b] T IH].
  - cbn [length INR]. rewrite Rmult_0_l, Ropp_0, exp_0. unfold prodf. cbn. lra.
  - rewrite !prodf_cons. cbn [length]. rewrite S_INR. set (n := INR (length T)) in *.
    destruct IH as (I1 & I2); [intros; apply H; now right|].
    set (X := prodf T _) in *. set (Y := prodf T (fun '(x, y) => exp_logit (L' x y))) in *.
    assert (X0 : 0 <= X) by (apply prodf_nonneg; intros [x y] _; unfold exp_logit; destruct (L x y); [left; apply exp_pos|lra]).
    assert (Y0 : 0 <= Y) by (apply prodf_nonneg; intros [x y] _; unfold exp_logit; destruct (L' x y); [left; apply exp_pos|lra]).
    specialize (H a b (or_introl eq_refl)). destruct (L a b) as [x|], (L' a b) as [y|]; try contradiction; cbn [exp_logit]; [|lra].
    apply Rabs_le_inv in H.
    assert (P1 : exp (- eps) * exp x <= exp y) by (rewrite <- exp_plus; apply exp_mono; lra).
    assert (P2 : exp y <= exp eps * exp x) by (rewrite <- exp_plus; apply exp_mono; lra).
    replace (- ((n + 1) * eps)) with (- (n * eps) + - eps) by ring. replace ((n + 1) * eps) with (n * eps + eps) by ring. rewrite !exp_plus.
    pose proof (exp_pos x). pose proof (exp_pos y). pose proof (exp_pos (- (n * eps))). pose proof (exp_pos (n * eps)). pose proof (exp_pos eps). pose proof (exp_pos (- eps)).
    split.
    + replace (exp (- (n * eps)) * exp (- eps) * (exp x * X)) with ((exp (- eps) * exp x) * (exp (- (n * eps)) * X)) by ring.
      apply Rmult_le_compat; auto; apply Rmult_le_pos; lra.
    + replace (exp (n * eps) * exp eps * (exp x * X)) with ((exp eps * exp x) * (exp (n * eps) * X)) by ring.
      apply Rmult_le_compat; auto; lra.
Qed.

Lemma tree_prob32_01 exp32 sum grid l T b : 0 <= tree_prob32 exp32 sum grid l T b <= 1.
Proof.
  unfold tree_prob32. pose proof (perms_length_pos nat (seq 0 (length T))) as LP. set (o := perms (seq 0 (length T))) in *.
  assert (B0 : 0 <= sumf o (fun order => run_prob (length T) (sample_tree32 exp32 sum grid l T order) b)) by (apply sumf_nonneg; intros; apply run_prob_01).
  assert (B1 : sumf o (fun order => run_prob (length T) (sample_tree32 exp32 sum grid l T order) b) <= INR (length o) * 1) by (rewrite <- sumf_const; apply sumf_le; intros; apply run_prob_01).
  split; [apply Rmult_le_pos; [exact B0|left; now apply Rinv_0_lt_compat]|].
  apply Rmult_le_reg_r with (INR (length o)); [exact LP|]. unfold Rdiv. rewrite Rmult_assoc, Rinv_l by lra. lra.
Qed.

(** Normalising. *)
Lemma normal_near {A} (TT : list A) (m m' : A -> R) x : 0 <= x -> 0 < sumf TT m -> (forall T, In T TT -> 0 <= m T) ->
  (forall T, In T TT -> exp (- x) * m T <= m' T <= exp x * m T) ->
  0 < sumf TT m' /\ forall T, In T TT -> Rabs (m' T / sumf TT m' - m T / sumf TT m) <= (exp (2 * x) - 1) * (m T / sumf TT m).
Proof.
  intros X0 ZP M0 H. set (Z := sumf TT m) in *. set (Z' := sumf TT m').
  assert (L1 : exp (- x) * Z <= Z') by (unfold Z, Z'; rewrite <- sumf_scal; apply sumf_le; intros T I; apply (H T I)).
  assert (L2 : Z' <= exp x * Z) by (unfold Z, Z'; rewrite <- sumf_scal; apply sumf_le; intros T I; apply (H T I)).
  pose proof (exp_pos x) as P1. pose proof (exp_pos (- x)) as P2. assert (EE : exp x * exp (- x) = 1) by (rewrite <- exp_plus, Rplus_opp_r; apply exp_0).
  assert (ZP' : 0 < Z') by (apply Rlt_le_trans with (exp (- x) * Z); [now apply Rmult_lt_0_compat|exact L1]).
  split; [exact ZP'|]. intros T I. destruct (H T I) as (H1 & H2). specialize (M0 T I).
  set (r := m T / Z). assert (R0 : 0 <= r) by (apply Rmult_le_pos; [exact M0|left; now apply Rinv_0_lt_compat]).
  assert (MR : m T = r * Z) by (unfold r; field; lra). set (r' := m' T / Z'). assert (MR' : m' T = r' * Z') by (unfold r'; field; lra).
  rewrite MR, MR' in H1, H2. assert (E2 : exp (2 * x) = exp x * exp x) by (rewrite <- exp_plus; f_equal; ring).
  assert (G1 : 1 <= exp x) by (rewrite <- exp_0; now apply exp_mono). assert (G2 : exp (- x) <= 1) by (rewrite <- exp_0; apply exp_mono; lra).
  assert (U : r' <= exp (2 * x) * r).
  { apply Rmult_le_reg_r with Z'; [exact ZP'|]. rewrite E2. apply Rle_trans with (exp x * (r * Z)); [exact H2|].
    replace (exp x * exp x * r * Z') with (exp x * r * (exp x * Z')) by ring. replace (exp x * (r * Z)) with (exp x * r * Z) by ring.
    apply Rmult_le_compat_l; [apply Rmult_le_pos; lra|]. apply Rle_trans with (exp x * (exp (- x) * Z)); [|apply Rmult_le_compat_l; lra].
    rewrite <- Rmult_assoc, EE. lra. }
  assert (D : exp (- x) * exp (- x) * r <= r').
  { apply Rmult_le_reg_r with Z'; [exact ZP'|]. apply Rle_trans with (exp (- x) * (r * Z)); [|exact H1].
    replace (exp (- x) * exp (- x) * r * Z') with (exp (- x) * r * (exp (- x) * Z')) by ring. replace (exp (- x) * (r * Z)) with (exp (- x) * r * Z) by ring.
    apply Rmult_le_compat_l; [apply Rmult_le_pos; lra|]. apply Rle_trans with (exp (- x) * (exp x * Z)); [apply Rmult_le_compat_l; lra|].
    rewrite <- Rmult_assoc, (Rmult_comm (exp (- x))), EE. lra. }
  assert (Q : 1 - exp (- x) * exp (- x) <= exp (2 * x) - 1).
  { rewrite E2. set (y := exp (- x)) in *. set (z := exp x) in *. assert (z * z * (y * y) = 1) by (replace (z * z * (y * y)) with ((z * y) * (z * y)) by ring; rewrite EE; ring).
    assert (1 <= z * z) by nra. assert (0 < y * y <= 1) by nra. set (p := y * y) in *. set (w := z * z) in *. nra. }
  apply Rabs_le. split.
  - assert ((1 - exp (- x) * exp (- x)) * r <= (exp (2 * x) - 1) * r) by now apply Rmult_le_compat_r. lra.
  - lra.
Qed.

Section Posterior.
Variables (ws : list nat) (tb : table) (prior : list f32) (M : nat).
Hypothesis TK : table_ok ws tb.
Hypothesis HM : (1 <= M <= 128)%nat.
Notation V := (num_cols tb).
Notation N := (num_rows tb).
Variables (g : f32 -> f32) (sum : list f32 -> f32) (lg : R -> R) (delta : R).
Hypothesis GO : gammaln_ok delta N M lg g.
Hypothesis SN : sum_near sum.
Hypothesis HD : 0 <= delta <= 1.
Variable s : tstate.
Hypothesis TI : tinv ws tb M s.
Hypothesis RD : length (s_added s) <> V \/ length (s_added s) = N.
Hypothesis LP : length prior = tri V.
Hypothesis GP : Forall (fun p => fin32 p = true \/ p = B754_infinity true) prior.
Hypothesis SZ : forall a b, (a < b)%nat -> (b < V)%nat -> score_size lg M s a b + Rabs (val (nth (find_complete_edge a b) prior fzero)) <= bp 60.
Variable eps : R.
Hypothesis E0 : 0 <= eps.
Hypothesis HE : forall a b, (a < b)%nat -> (b < V)%nat ->
  logit_error M delta (score_size lg M s a b + Rabs (val (nth (find_complete_edge a b) prior fzero))) <= eps.

Lemma posterior_near exp32 eta l TT : exp_ok eta exp32 -> sum_ok sum -> 0 <= eta <= 1 -> (Z.of_nat (tri V) <= 2 ^ 16)%Z ->
  compute_edge_logits32 g sum tb prior M s = Ok l -> enumerates_trees V TT ->
  let mass := tree_mass (exact_logit lg M s prior) in
  0 < sumf TT mass -> forall T', In T' TT ->
  Rabs (sumf TT (fun T => mass T / sumf TT mass * tree_prob32 exp32 sum (complete_grid V) l T (fun T1 => if edge_list_eq_dec T1 T' then true else false))
        - mass T' / sumf TT mass)
    <= 2 * (exp (2 * INR (V - 1) * eps) - 1) + INR (V - 1) * INR (tri V) * (2 * eta + bp (-20)).
Proof.
  intros EX SO ET KB E EN mass ZP T' I.
  destruct (logits_near ws tb prior M HM g sum lg delta GO SN HD s TI RD LP GP SZ) as (l' & E' & LL & GL & AT). rewrite E in E'. inversion E'; subst l'. clear E'.
  set (mass' := tree_mass (fun x y => nth (find_complete_edge x y) (map logit_of l) None)).
  assert (MN : forall T, In T TT -> exp (- (INR (V - 1) * eps)) * mass T <= mass' T <= exp (INR (V - 1) * eps) * mass T).
  { intros T IT. apply EN in IT. destruct IT as ((LT & IR & _) & CA & _). replace (INR (V - 1)) with (INR (length T)) by (f_equal; lia).
    apply mass_near; [|exact E0]. intros a b IN. pose proof (CA a b IN) as Hab. assert (Hb : (b < V)%nat) by (apply (IR a b IN)).
    destruct (AT a b Hab Hb) as (x & p & X1 & X2 & H).
    assert (EP : nth (find_complete_edge a b) prior fzero = p) by (now apply nth_error_nth).
    assert (EXX : nth (find_complete_edge a b) (map logit_of l) None = logit_of x).
    { apply nth_error_nth. now rewrite nth_error_map, X1. }
    rewrite EXX. unfold exact_logit. rewrite EP. specialize (HE a b Hab Hb). rewrite EP in HE. unfold logit_of.
    destruct H as [(F1 & F2 & H)|(-> & ->)]; [rewrite F1, F2; eapply Rle_trans; [exact H|exact HE]|exact Logic.I]. }
  assert (V1 : (1 <= V)%nat) by (apply EN in I; destruct I as ((LT & _) & _); lia).
  assert (X0 : 0 <= INR (V - 1) * eps) by (apply Rmult_le_pos; [apply pos_INR|exact E0]).
  destruct (normal_near TT mass mass' (INR (V - 1) * eps) X0 ZP) as (ZP' & NR); [intros; apply mass_nonneg|exact MN|].
  replace (2 * INR (V - 1) * eps) with (2 * (INR (V - 1) * eps)) by ring. set (k := exp (2 * (INR (V - 1) * eps)) - 1) in *.
  set (P := fun T => tree_prob32 exp32 sum (complete_grid V) l T (fun T1 => if edge_list_eq_dec T1 T' then true else false)).
  pose proof (tree_law_invariant exp32 sum eta V (complete_grid V) l TT EX SO ET V1 (make_complete_graph_Ok V)) as INV.
  rewrite complete_grid_length in INV. specialize (INV LL GL KB EN). cbv zeta in INV. fold mass' in INV. specialize (INV ZP' T' I).
  change (Rabs (sumf TT (fun T => mass' T / sumf TT mass' * P T) - mass' T' / sumf TT mass') <= INR (V - 1) * INR (tri V) * (2 * eta + bp (-20))) in INV.
  change (Rabs (sumf TT (fun T => mass T / sumf TT mass * P T) - mass T' / sumf TT mass) <= 2 * k + INR (V - 1) * INR (tri V) * (2 * eta + bp (-20))).
  assert (K0 : 0 <= k) by (unfold k; assert (exp 0 <= exp (2 * (INR (V - 1) * eps))) by (apply exp_mono; lra); rewrite exp_0 in H; lra).
  assert (S1 : Rabs (sumf TT (fun T => mass T / sumf TT mass * P T) - sumf TT (fun T => mass' T / sumf TT mass' * P T)) <= k).
  { rewrite <- sumf_minus. eapply Rle_trans; [apply sumf_abs_le|]. apply Rle_trans with (sumf TT (fun T => k / sumf TT mass * mass T)).
    - apply sumf_le. intros T IT. specialize (NR T IT). destruct (tree_prob32_01 exp32 sum (complete_grid V) l T (fun T1 => if edge_list_eq_dec T1 T' then true else false)) as (P0 & P1). fold (P T) in P0, P1.
      rewrite <- Rmult_minus_distr_r, Rabs_mult, (Rabs_pos_eq (P T)) by exact P0. rewrite Rabs_minus_sym.
      replace (k / sumf TT mass * mass T) with (k * (mass T / sumf TT mass)) by (unfold Rdiv; ring).
      apply Rle_trans with (Rabs (mass' T / sumf TT mass' - mass T / sumf TT mass) * 1); [apply Rmult_le_compat_l; [apply Rabs_pos|exact P1]|lra].
    - rewrite sumf_scal. right. field. lra. }
  assert (S2 : Rabs (mass' T' / sumf TT mass' - mass T' / sumf TT mass) <= k).
  { eapply Rle_trans; [apply (NR T' I)|]. assert (mass T' / sumf TT mass <= 1); [|nra].
    apply Rmult_le_reg_r with (sumf TT mass); [exact ZP|]. unfold Rdiv. rewrite Rmult_assoc, Rinv_l by lra.
    rewrite Rmult_1_r, Rmult_1_l. apply sumf_member_le; [intros; apply mass_nonneg|exact I]. }
  apply Rabs_le_inv in S1, S2, INV. apply Rabs_le. lra.
Qed.
End Posterior.
