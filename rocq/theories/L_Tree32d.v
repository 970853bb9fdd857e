(** Consequences of the law of [sample_tree] in float32, and an instance. *)
From Coq Require Import List Arith Bool ZArith Reals Lra Lia Permutation.
From Flocq Require Import Core IEEE754.BinarySingleNaN.
From Verif Require Import Base L_Base Spec_Sum L_Sum Spec_Graph Spec_Trees M_Structure M_Rand L_Rand M_SampleTree L_Pairing L_MakeTree L_SampleTree L_AllTrees M_Float32 M_Train32 Spec_Float32 L_Float32 L_Sample32 Spec_Serving32 L_Serving32a Spec_Law L_Grid L_Grid2 M_SampleTree32 Spec_Tree32 L_Tree32a L_Tree32b L_Tree32c.
Import ListNotations.
Open Scope R_scope.

Lemma mass_nonneg logit T : 0 <= tree_mass logit T.
Proof.
  unfold tree_mass. induction T as [|(x, y) T IH]; [cbn; lra|]. rewrite prodf_cons. apply Rmult_le_pos; [|exact IH].
  destruct (logit x y); cbn; [left; apply exp_pos|lra].
Qed.

Lemma tree_law_invariant exp32 sum eta V grid logits TT : exp_ok eta exp32 -> sum_ok sum -> 0 <= eta <= 1 ->
  (1 <= V)%nat -> make_complete_graph V = Ok grid -> length logits = length grid -> Forall good_logit logits -> (Z.of_nat (length grid) <= 2 ^ 16)%Z ->
  enumerates_trees V TT ->
  let mass := tree_mass (fun x y => nth (find_complete_edge x y) (map logit_of logits) None) in
  0 < sumf TT mass ->
  forall T', In T' TT ->
  Rabs (sumf TT (fun T => mass T / sumf TT mass * tree_prob32 exp32 sum grid logits T (fun T1 => if edge_list_eq_dec T1 T' then true else false)) - mass T' / sumf TT mass)
  <= INR (V - 1) * INR (length grid) * (2 * eta + bpow radix2 (-20)).
Proof.
  intros EX SM ET HV MG LL GL KB EN mass HP T' I.
  destruct (sample_tree_leaves_invariant V grid (map logit_of logits) TT HV MG ltac:(rewrite map_length; exact LL) EN) as (INV & _). fold mass in INV.
  set (b := fun T1 => if edge_list_eq_dec T1 T' then true else false) in *. set (Z := sumf TT mass) in *. specialize (INV T' I). fold b in INV.
  assert (E1 : mass T' / Z = sumf TT (fun T => mass T / Z * prob (sample_tree grid (map logit_of logits) T) b)).
  { rewrite <- INV. unfold Rdiv. rewrite <- sumf_scal_r. apply sumf_ext. intros T _. ring. }
  rewrite E1, <- sumf_minus. eapply Rle_trans; [apply sumf_abs|]. set (err := INR (V - 1) * INR (length grid) * (2 * eta + bp (-20))).
  apply Rle_trans with (sumf TT (fun T => mass T * (err / Z))).
  - apply sumf_le. intros T IT. rewrite <- Rmult_minus_distr_l, Rabs_mult. assert (0 < / Z) by now apply Rinv_0_lt_compat. pose proof (mass_nonneg (fun x y => nth (find_complete_edge x y) (map logit_of logits) None) T) as M0. fold mass in M0.
    unfold Rdiv. rewrite Rabs_pos_eq by (apply Rmult_le_pos; lra).
    destruct EN as (_ & EN). apply EN in IT. destruct IT as (ST & _).
    destruct (tree_law_holds exp32 sum eta EX SM ET V grid logits T b MG ST LL GL KB) as (_ & HL). destruct ST as (EV & _).
    replace (INR (length T)) with (INR (V - 1)) in HL by (f_equal; lia). fold err in HL.
    replace (mass T * (err * / Z)) with (mass T * / Z * err) by ring. apply Rmult_le_compat_l; [apply Rmult_le_pos; lra|exact HL].
  - rewrite sumf_scal_r. fold Z. right. field. lra.
Qed.

(** An exponential with 23 fractional bits. *)
Definition exp0 (x : f32) : f32 :=
  match x with
  | B754_nan => B754_nan
  | B754_infinity _ => fzero
  | _ => f32_of (Zfloor (exp (B2R x) * bp 23)) (-23)
  end.
Lemma exp0_ok : exp_ok (bp (-23)) exp0.
Proof.
  assert (V : forall x, fin32 x = true -> val x <= 0 -> fin32 (exp0 x) = true /\ val (exp0 x) = IZR (Zfloor (exp (val x) * bp 23)) * bp (-23) /\ (0 <= Zfloor (exp (val x) * bp 23) <= 8388608)%Z).
  { intros x Fx Lx. assert (E : exp0 x = f32_of (Zfloor (exp (val x) * bp 23)) (-23)) by (destruct x; try discriminate; reflexivity).
    set (n := Zfloor (exp (val x) * bp 23)) in *.
    assert (X1 : exp (val x) <= 1) by (rewrite <- exp_0; destruct Lx as [Lx| ->]; [left; now apply exp_increasing|lra]). pose proof (exp_pos (val x)) as X0.
    assert (b23 : bp 23 = 8388608) by reflexivity.
    assert (NB : (0 <= n <= 8388608)%Z).
    { split; [apply Zfloor_lub; rewrite b23; lra|]. apply le_IZR. eapply Rle_trans; [apply Zfloor_lb|]. rewrite b23. lra. }
    assert (F : fmt32 (IZR n * bp (-23))) by (apply fmt_int; [reflexivity|change (2 ^ 24)%Z with 16777216%Z; lia|lia]).
    assert (BB : - bp 128 < IZR n * bp (-23) < bp 128).
    { assert (B : 0 <= IZR n <= 8388608) by (split; apply IZR_le; lia). assert (8388608 < bp 128) by (change 8388608 with (bp 23); apply bpow_lt; lia).
      assert (0 < bp (-23) <= 1) by (split; [apply bp_pos|change 1 with (bp 0); apply bpow_le; lia]). split; nra. }
    rewrite E. destruct (normalize_bounds 24 128 p24 e128 n (-23) false _ _ F F) as (Q1 & Q2); [lra|tauto|tauto|].
    split; [exact Q1|]. split; [unfold f32_of; lra|exact NB]. }
  assert (E23 : bp 23 * bp (-23) = 1) by (rewrite <- bpow_plus; reflexivity). pose proof (bp_pos (-23)) as P23.
  split; [|split; [|split; reflexivity]].
  - intros x Fx Lx. destruct (V x Fx Lx) as (V1 & V2 & V3). split; [exact V1|]. rewrite V2. split; [apply Rmult_le_pos; [apply IZR_le; lia|lra]|].
    pose proof (Zfloor_lb (exp (val x) * bp 23)) as G1. pose proof (Zfloor_ub (exp (val x) * bp 23)) as G2.
    set (y := exp (val x)) in *. assert (EY : y = y * bp 23 * bp (-23)) by (rewrite Rmult_assoc, E23; ring). apply Rabs_le. 
    set (n := Zfloor _) in *. assert (IZR n * bp (-23) <= y * bp 23 * bp (-23)) by (apply Rmult_le_compat_r; lra).
    assert (y * bp 23 * bp (-23) <= (IZR n + 1) * bp (-23)) by (apply Rmult_le_compat_r; lra). lra.
  - intros x Fx E. destruct (V x Fx ltac:(lra)) as (_ & V2 & _). rewrite V2, E, exp_0, Rmult_1_l.
    change (bp 23) with (IZR 8388608) at 1. rewrite Zfloor_IZR. change (IZR 8388608) with (bp 23). exact E23.
Qed.
Lemma exp_instance : exp_ok (bpow radix2 (-23)) exp0 /\ sum_ok seq_sum.
Proof. split; [exact exp0_ok|exact seq_sum_ok]. Qed.

Lemma C84_proof exp32 sum eta V grid logits edges b : exp_ok eta exp32 -> sum_ok sum -> 0 <= eta <= 1 ->
  make_complete_graph V = Ok grid -> spanning_tree V edges -> length logits = length grid ->
  Forall good_logit logits -> (Z.of_nat (length grid) <= 2 ^ 16)%Z ->
  (forall order, Permutation order (seq 0 (length edges)) ->
     draws_usable (spanning_tree V) (sample_tree32 exp32 sum grid logits edges order)) /\
  Rabs (tree_prob32 exp32 sum grid logits edges b - prob (sample_tree grid (map logit_of logits) edges) b)
    <= INR (length edges) * INR (length grid) * (2 * eta + bpow radix2 (-20)).
Proof. intros EX SM ET. exact (tree_law_holds exp32 sum eta EX SM ET V grid logits edges b). Qed.

Lemma C84_case : exp_ok (bpow radix2 (-23)) exp0 /\ sum_ok seq_sum /\ 0 <= bpow radix2 (-23) <= 1 /\
  exists grid logits, make_complete_graph 3 = Ok grid /\ length logits = length grid /\ Forall good_logit logits /\
    map logit_of logits = [Some (3 / 2); None; Some (-3)] /\ (Z.of_nat (length grid) <= 2 ^ 16)%Z /\
    spanning_tree 3 [(0, 1); (1, 2)]%nat /\
    enumerates_trees 3 (all_trees 3) /\
    0 < sumf (all_trees 3) (tree_mass (fun x y => nth (find_complete_edge x y) (map logit_of logits) None)).
Proof.
  split; [exact exp0_ok|]. split; [exact seq_sum_ok|]. split; [split; [apply bpow_ge_0|change 1 with (bp 0); apply bpow_le; lia]|].
  exists [(0, 0, 1); (1, 0, 2); (2, 1, 2)]%nat, [f32_of 3 (-1); B754_infinity true; f32_of (-3) 0].
  assert (A : forall n e, (Z.abs n < 2 ^ 24)%Z -> (-149 <= e <= 0)%Z -> fin32 (f32_of n e) = true /\ val (f32_of n e) = IZR n * bp e).
  { intros n e Hn He. assert (F : fmt32 (IZR n * bp e)) by (apply fmt_int; [reflexivity|lia|lia]).
    assert (BB : - bp 128 < IZR n * bp e < bp 128).
    { assert (B : -16777216 <= IZR n <= 16777216) by (split; apply IZR_le; change (2 ^ 24)%Z with 16777216%Z in Hn; lia). assert (16777216 < bp 128) by (change 16777216 with (bp 24); apply bpow_lt; lia).
      assert (0 < bp e <= 1) by (split; [apply bp_pos|change 1 with (bp 0); apply bpow_le; lia]). split; nra. }
    destruct (normalize_bounds 24 128 p24 e128 n e false _ _ F F) as (Q1 & Q2); [lra|tauto|tauto|]. split; [exact Q1|]. unfold f32_of. lra. }
  assert (b126 : 4 <= bp 126) by (change 4 with (bp 2); apply bpow_le; lia).
  destruct (A 3%Z (-1)%Z ltac:(reflexivity) ltac:(lia)) as (F1 & V1). destruct (A (-3)%Z 0%Z ltac:(reflexivity) ltac:(lia)) as (F2 & V2).
  assert (V1' : val (f32_of 3 (-1)) = 3 / 2) by (rewrite V1; cbn; lra). assert (V2' : val (f32_of (-3) 0) = -3) by (rewrite V2; cbn; lra).
  assert (LO : map logit_of [f32_of 3 (-1); B754_infinity true; f32_of (-3) 0] = [Some (3 / 2); None; Some (-3)]).
  { cbn [map]. unfold logit_of at 1 3. rewrite F1, F2, V1', V2'. reflexivity. }
  assert (TR : spanning_tree 3 [(0, 1); (1, 2)]%nat) by (apply (path_spanning 3); lia).
  split; [reflexivity|]. split; [reflexivity|]. split; [|split; [exact LO|]].
  - apply Forall_cons; [|apply Forall_cons; [|apply Forall_cons; [|constructor]]]; [left; split; [exact F1|rewrite V1', Rabs_pos_eq; lra]|right; reflexivity|left; split; [exact F2|rewrite V2', Rabs_left1; lra]].
  - split; [cbn; lia|]. split; [exact TR|]. split; [apply all_trees_enumerate|]. rewrite LO.
    set (m := tree_mass _).
    assert (I : In [(0, 1); (1, 2)]%nat (all_trees 3)).
    { destruct (all_trees_enumerate 3) as (_ & H). apply H. split; [exact TR|]. split; [intros x y [E|[E|[]]]; inversion E; lia|]. repeat constructor. }
    assert (P : 0 < m [(0, 1); (1, 2)]%nat).
    { unfold m, tree_mass, prodf. cbn. pose proof (exp_pos (3 / 2)). pose proof (exp_pos (-3)). nra. }
    assert (G : forall l, (forall T, 0 <= m T) -> In [(0, 1); (1, 2)]%nat l -> 0 < sumf l m).
    { induction l as [|T l IH]; intros M0 J; [destruct J|]. rewrite sumf_cons. destruct J as [->|J].
      - assert (0 <= sumf l m) by (apply sumf_nonneg; auto). lra.
      - specialize (IH M0 J). specialize (M0 T). lra. }
    apply G; [apply mass_nonneg|exact I].
Qed.
