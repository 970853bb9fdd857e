(** [estimate_tree] in float32: the tree is nearly the best. *)
From Coq Require Import List Arith Lia Bool Permutation Sorted Reals Lra ZArith.
From Flocq Require Import Core IEEE754.BinarySingleNaN.
From Verif Require Spec_Run32.
From Verif Require Import Base L_Base Spec_Graph Spec_Sum Spec_Trees Spec_MST L_Graph L_Sum M_Structure L_Pairing L_MakeTree
  M_EstimateTree L_SampleTree L_AllTrees L_Estimate M_Float32 L_Float32 M_SampleTree32 M_EstimateTree32 L_Logits32a L_Logits32b.
Import ListNotations.
Open Scope R_scope.

Lemma neg_one : fin32 (f32_of (-1) 0) = true /\ val (f32_of (-1) 0) = -1.
Proof. split; [reflexivity|]. rewrite <- SF2R_B2SF. assert (E : B2SF (f32_of (-1) 0) = SpecFloat.S754_finite true 8388608 (-23)) by (vm_compute; reflexivity). rewrite E. unfold SF2R, F2R. cbn. lra. Qed.

Lemma one_val : fin32 fone = true /\ val fone = 1.
Proof. split; [reflexivity|]. rewrite <- SF2R_B2SF. assert (E : B2SF fone = SpecFloat.S754_finite false 8388608 (-23)) by (vm_compute; reflexivity). rewrite E. unfold SF2R, F2R. cbn. lra. Qed.

Lemma fneg_exact (x : f32) : fin32 x = true -> Rabs (val x) <= bp 60 ->
  fin32 (fmul x (f32_of (-1) 0)) = true /\ val (fmul x (f32_of (-1) 0)) = - val x.
Proof.
  intros F B. destruct neg_one as (F1 & V1). apply Rabs_le_inv in B.
  assert (bp 60 < bp 128) by (apply bpow_lt; lia).
  pose proof (Bmult_correct 24 128 p24 e128 mode_NE x (f32_of (-1) 0)) as C. cbn [round_mode] in C. fold (rnd 24 128 (val x * val (f32_of (-1) 0))) in C.
  assert (E : rnd 24 128 (val x * val (f32_of (-1) 0)) = - val x).
  { rewrite V1. replace (val x * -1) with (- val x) by ring. apply (rnd_fmt 24 128). apply generic_format_opp, val_fmt. }
  rewrite E in C. rewrite Rlt_bool_true in C by (rewrite Rabs_Ropp; apply Rabs_lt; lra).
  destruct C as (C1 & C2 & _). unfold fmul. rewrite C2, F, F1. auto.
Qed.

Definition finite_or_inf (x : f32) : Prop := fin32 x = true \/ x = B754_infinity false.

Lemma fmin_spec l : forall x, fin32 x = true -> Forall finite_or_inf l ->
  fin32 (fmin x l) = true /\ val (fmin x l) <= val x /\ In (fmin x l) (x :: l) /\
  (forall y, In y l -> fin32 y = true -> val (fmin x l) <= val y).
Proof.
  induction l as [|y l IH]; intros x Fx G; cbn [fmin].
  - split; [exact Fx|]. split; [lra|]. split; [now left|]. intros y [].
  - inversion G as [|? ? Gy Gl]; subst. destruct Gy as [Fy|Iy].
    + rewrite (fltb_spec y x Fy Fx). destruct (Rlt_bool_spec (val y) (val x)) as [L|L].
      * destruct (IH y Fy Gl) as (H1 & H2 & H3 & H4). split; [exact H1|]. split; [lra|]. split; [now right|]. intros z [<-|I] Fz; [lra|auto].
      * destruct (IH x Fx Gl) as (H1 & H2 & H3 & H4). split; [exact H1|]. split; [exact H2|]. split; [destruct H3; [now left|right; now right]|]. intros z [<-|I] Fz; [lra|auto].
    + replace (fltb y x) with false by (subst y; destruct x as [s|s| |s m e H]; try discriminate; reflexivity).
      destruct (IH x Fx Gl) as (H1 & H2 & H3 & H4). split; [exact H1|]. split; [exact H2|]. split; [destruct H3; [now left|right; now right]|]. intros z [<-|I] Fz; [subst y; discriminate|auto].
Qed.

(** A list with a number in it. *)
Lemma fmin_inf l : forall x, finite_or_inf x -> Forall finite_or_inf l -> (exists y, In y (x :: l) /\ fin32 y = true) ->
  fin32 (fmin x l) = true /\ In (fmin x l) (x :: l) /\ forall y, In y (x :: l) -> fin32 y = true -> val (fmin x l) <= val y.
Proof.
  induction l as [|z l IH]; intros x Gx G EX.
  - destruct EX as (y & [<-|[]] & F). cbn [fmin]. split; [exact F|]. split; [now left|]. intros y [<-|[]] _. lra.
  - destruct Gx as [F|I].
    + destruct (fmin_spec (z :: l) x F G) as (H1 & H2 & H3 & H4). split; [exact H1|]. split; [exact H3|]. intros y [<-|J] Fy; auto.
    + inversion G as [|? ? Gz Gl]; subst. cbn [fmin].
      assert (EZ : (if fltb z (B754_infinity false) then z else B754_infinity false) = z).
      { destruct Gz as [F|I]; [|subst z; reflexivity]. replace (fltb z (B754_infinity false)) with true; [reflexivity|]. destruct z as [s|s| |s m e H]; try discriminate; try destruct s; reflexivity. }
      rewrite EZ. destruct EX as (y & [E|J] & F); [subst y; discriminate|].
      destruct (IH z Gz Gl (ex_intro _ y (conj J F))) as (H1 & H2 & H3). split; [exact H1|]. split; [now right|]. intros w [E|K] Fw; [subst w; discriminate|auto].
Qed.

Lemma at2_map {A B} (za : A) (zb : B) V w (f : A -> B) x y : sq V w -> (x < V)%nat -> (y < V)%nat -> at2 zb (map (map f) w) x y = f (at2 za w x y).
Proof.
  intros SQ Hx Hy. unfold at2. rewrite (nth_indep _ [] (map f [])) by (rewrite map_length; destruct SQ; lia). rewrite map_nth.
  rewrite (nth_indep _ zb (f za)) by (rewrite map_length, (sq_row V w x SQ Hx); lia). now rewrite map_nth.
Qed.

Lemma sqm {A B} V w (f : A -> B) : sq V w -> sq V (map (map f) w).
Proof. intros [L H]. split; [now rewrite map_length|]. intros row I. apply in_map_iff in I. destruct I as (r & <- & I). rewrite map_length. auto. Qed.

(** One weight. *)
Lemma weight_near (x m : f32) B : fin32 x = true -> fin32 m = true -> Rabs (val x) <= B -> Rabs (val m) <= B -> val m <= val x -> B <= bp 60 ->
  let w := fadd (fsub x m) fone in
  fin32 w = true /\ 0 < val w /\ Rabs (val w - (val x - val m + 1)) <= bp (-21) * (B + 1).
Proof.
  intros Fx Fm Bx Bm L HB w. apply Rabs_le_inv in Bx. apply Rabs_le_inv in Bm. destruct one_val as (F1 & V1).
  assert (P : 0 <= B) by lra. assert (B120 : 4 * bp 60 + 4 <= bp 120).
  { assert (1 <= bp 60) by (change 1 with (bp 0); apply bpow_le; lia). assert (8 * bp 60 <= bp 120) by (change 8 with (bp 3); rewrite <- bpow_plus; apply bpow_le; lia). lra. }
  set (d := val x - val m) in *. assert (D : 0 <= d <= 2 * B) by (unfold d; lra).
  destruct (fsub_near x m Fx Fm) as (G1 & G2). { fold d. rewrite Rabs_pos_eq by lra. lra. }
  fold d in G2. rewrite (Rabs_pos_eq d) in G2 by lra. assert (U : 0 < bp (-24) <= / 16) by (cbn; lra).
  apply Rabs_le_inv in G2. set (w2 := fsub x m) in *. assert (W2 : 0 <= val w2 <= d + bp (-24) * d) by nra.
  destruct (fadd_near w2 fone G1 F1) as (H1 & H2). { rewrite V1. rewrite Rabs_pos_eq by lra. nra. }
  rewrite V1 in H2. rewrite (Rabs_pos_eq (val w2 + 1)) in H2 by lra. fold w in H1, H2. apply Rabs_le_inv in H2.
  split; [exact H1|]. split; [nra|].
  assert (E8 : bp (-21) = 8 * bp (-24)) by (cbn; lra). rewrite E8. set (u := bp (-24)) in *. assert (UD : 0 <= u * d) by nra. assert (UDB : u * d <= u * (2 * B)) by nra.
  assert (UW : u * (val w2 + 1) <= u * (d + d + 1)) by nra. apply Rabs_le. nra.
Qed.

Section Estimate.
Variables (mst : list (list R) -> list edge) (V : nat) (logits : list f32) (B : R).
Hypothesis MC : mst_contract mst.
Hypothesis HV : (1 <= V)%nat.
Hypothesis LL : length logits = tri V.
Hypothesis HB : B <= bp 60.
Hypothesis GL : Forall (fun x => (fin32 x = true /\ Rabs (val x) <= B) \/ x = B754_infinity true) logits.

(** The logit of a pair, and the trees that use no logit of minus infinity. *)
Notation lgt x y := (nth (find_complete_edge x y) logits fzero).
Definition allowed (T : list edge) : Prop := forall x y, In (x, y) T -> fin32 (lgt x y) = true.
Definition total32 (T : list edge) : R := sumf T (fun '(x, y) => val (lgt x y)).
Hypothesis EXT : exists T, spanning_tree V T /\ allowed T.
Hypothesis HB0 : 0 <= B.

Lemma lgt_good x y : (x < V)%nat -> (y < V)%nat -> x <> y -> (fin32 (lgt x y) = true /\ Rabs (val (lgt x y)) <= B) \/ lgt x y = B754_infinity true.
Proof.
  intros Hx Hy N. rewrite Forall_forall in GL. apply GL. apply nth_In. rewrite LL.
  destruct (lt_dec x y); [apply fce_range; lia|rewrite fce_sym; apply fce_range; lia].
Qed.

Lemma estimate_prep : exists w mn, sym_matrix V w /\
  (estimate_tree32 mst (complete_grid V) logits = (let edges := pair_sort (map sort_pair (mst w)) in _ <- assert_ (length edges + 1 =? V)%nat ;; Ok edges)%res) /\
  (forall T, spanning_tree V T -> (uses_present_edges w T <-> allowed T)) /\
  (forall T, spanning_tree V T -> allowed T -> Rabs (total w T - (INR (V - 1) * (1 - val mn) - total32 T)) <= INR (V - 1) * (bp (-21) * (B + 1))).
Proof.
  assert (EG := make_complete_graph_Ok V). unfold estimate_tree32. rewrite complete_grid_length, LL, Nat.eqb_refl. cbn [assert_ bind].
  destruct (triangular_to_square_Ok fzero V _ logits HV EG LL) as (m & E & SQ & D & O). rewrite E. cbn [bind].
  set (w1 := map (map (fun x => fmul x (f32_of (-1) 0))) m). assert (SQ1 : sq V w1) by now apply sqm.
  assert (A1 : forall x y, (x < V)%nat -> (y < V)%nat ->
    (fin32 (at2 fzero w1 x y) = true /\ val (at2 fzero w1 x y) = - val (at2 fzero m x y) /\ Rabs (val (at2 fzero m x y)) <= B /\ (x <> y -> fin32 (lgt x y) = true)) \/
    (at2 fzero w1 x y = B754_infinity false /\ x <> y /\ fin32 (lgt x y) = false)).
  { intros x y Hx Hy. unfold w1. rewrite (at2_map fzero fzero V) by auto. destruct (Nat.eq_dec x y) as [<-|N].
    - left. rewrite (D x Hx). split; [reflexivity|]. change (val fzero) with 0. rewrite Rabs_R0. split; [change (0 = - 0); lra|]. split; [exact HB0|congruence].
    - rewrite (O x y Hx Hy N). destruct (lgt_good x y Hx Hy N) as [(F & Bd)|I].
      + left. destruct (fneg_exact (lgt x y) F) as (H1 & H2); [lra|]. auto.
      + right. rewrite I. split; [reflexivity|]. auto. }
  assert (IN1 : forall z, In z (concat w1) -> exists x y, (x < V)%nat /\ (y < V)%nat /\ z = at2 fzero w1 x y).
  { intros z I. apply in_concat in I. destruct I as (row & I & J). apply (In_nth _ _ []) in I. destruct I as (x & Hx & <-).
    apply (In_nth _ _ fzero) in J. destruct J as (y & Hy & <-). destruct SQ1 as (L1 & _). exists x, y. rewrite L1 in Hx.
    rewrite (sq_row V w1 x) in Hy by (auto; now apply sqm). auto. }
  assert (IN2 : forall x y, (x < V)%nat -> (y < V)%nat -> In (at2 fzero w1 x y) (concat w1)).
  { intros x y Hx Hy. apply in_concat. exists (nth x w1 []). split; [apply nth_In; destruct SQ1; lia|]. apply nth_In. rewrite (sq_row V w1 x SQ1 Hx). exact Hy. }
  unfold fmat_min. destruct (concat w1) as [|z0 l0] eqn:EC; [destruct (IN2 0%nat 0%nat ltac:(lia) ltac:(lia))|]. cbn [bind].
  assert (FO : forall z, In z (z0 :: l0) -> finite_or_inf z).
  { intros z I. destruct (IN1 z I) as (x & y & Hx & Hy & ->). destruct (A1 x y Hx Hy) as [(F & _)|(I' & _)]; [left|right]; auto. }
  destruct (fmin_inf l0 z0) as (FM & IM & LM).
  { apply FO. now left. } { apply Forall_forall. intros z I. apply FO. now right. }
  { exists (at2 fzero w1 0 0). split; [apply IN2; lia|]. destruct (A1 0%nat 0%nat ltac:(lia) ltac:(lia)) as [(F & _)|(_ & N & _)]; [exact F|congruence]. }
  set (mn := fmin z0 l0) in *.
  assert (BM : Rabs (val mn) <= B).
  { destruct (IN1 mn IM) as (x & y & Hx & Hy & EMN). rewrite EMN in *. destruct (A1 x y Hx Hy) as [(_ & E1 & Bd & _)|(I & _)].
    - rewrite E1, Rabs_Ropp. exact Bd.
    - rewrite I in FM. discriminate. }
  set (w2 := map (map (fun x => fsub x mn)) w1). assert (SQ2 : sq V w2) by now apply sqm.
  set (w3 := map (map (fun x => fadd x fone)) w2). assert (SQ3 : sq V w3) by now apply sqm.
  set (w := map (map (fun x => B2R x)) w3). assert (SQw : sq V w) by now apply sqm.
  assert (EW : forall x y, (x < V)%nat -> (y < V)%nat -> entry w x y = val (fadd (fsub (at2 fzero w1 x y) mn) fone)).
  { intros x y Hx Hy. rewrite entry_at2. unfold w. rewrite (at2_map fzero 0 V) by auto. unfold w3. rewrite (at2_map fzero fzero V) by auto.
    unfold w2. rewrite (at2_map fzero fzero V) by auto. reflexivity. }
  assert (NR : forall x y, (x < V)%nat -> (y < V)%nat -> x <> y -> fin32 (lgt x y) = true ->
    0 < entry w x y /\ Rabs (entry w x y - (- val (lgt x y) - val mn + 1)) <= bp (-21) * (B + 1)).
  { intros x y Hx Hy N F. rewrite EW by auto. destruct (A1 x y Hx Hy) as [(F1 & E1 & Bd & _)|(_ & _ & C)]; [|congruence].
    destruct (weight_near (at2 fzero w1 x y) mn B F1 FM) as (_ & G2 & G3); auto.
    - rewrite E1, Rabs_Ropp. exact Bd.
    - split; [exact G2|]. rewrite E1, (O x y Hx Hy N) in G3. exact G3. }
  assert (ZR : forall x y, (x < V)%nat -> (y < V)%nat -> x <> y -> fin32 (lgt x y) = false -> entry w x y = 0).
  { intros x y Hx Hy N F. rewrite EW by auto. destruct (A1 x y Hx Hy) as [(_ & _ & _ & K)|(I & _)]; [rewrite K in F by auto; discriminate|].
    rewrite I. replace (fsub (B754_infinity false) mn) with (B754_infinity false : f32); [reflexivity|]. destruct mn as [s|s| |s mm e H]; try discriminate; reflexivity. }
  assert (US : forall T, spanning_tree V T -> (uses_present_edges w T <-> allowed T)).
  { intros T ST. split; intros H x y I; destruct (tree_neq V T ST x y I) as (N & Hx & Hy).
    - specialize (H x y I). destruct (fin32 (lgt x y)) eqn:F; [reflexivity|]. destruct H. now apply ZR.
    - specialize (H x y I). destruct (NR x y Hx Hy N H). lra. }
  assert (SYM : sym_matrix V w).
  { split; [apply SQw|]. split; [apply SQw|]. intros x y Hx Hy. rewrite !EW by auto. destruct (Nat.eq_dec x y) as [->|N]; [reflexivity|].
    do 3 f_equal. unfold w1. rewrite !(at2_map fzero fzero V) by auto. rewrite !O by auto. now rewrite fce_sym. }
  assert (TOT : forall T, spanning_tree V T -> allowed T -> Rabs (total w T - (INR (V - 1) * (1 - val mn) - total32 T)) <= INR (V - 1) * (bp (-21) * (B + 1))).
  { intros T ST AT. assert (LT : length T = (V - 1)%nat) by (destruct ST; lia). rewrite <- LT. unfold total, total32. rewrite <- !sumf_const, <- !sumf_minus.
    eapply Rle_trans; [apply sumf_abs_le|]. apply sumf_le. intros [x y] I. destruct (tree_neq V T ST x y I) as (N & Hx & Hy).
    destruct (NR x y Hx Hy N (AT x y I)) as (_ & K). replace (entry w x y - (1 - val mn - val (lgt x y))) with (entry w x y - (- val (lgt x y) - val mn + 1)) by ring. exact K. }
  exists w, mn. split; [exact SYM|]. split; [|auto]. cbv zeta. fold w2. fold w3. fold w. now rewrite (proj1 SQ3).
Qed.

Lemma estimate_near : exists T, estimate_tree32 mst (complete_grid V) logits = Ok T /\ canonical_tree V T /\ allowed T /\
  forall T', spanning_tree V T' -> allowed T' -> total32 T' <= total32 T + INR (V - 1) * (bp (-20) * (B + 1)).
Proof.
  destruct estimate_prep as (w & mn & SYM & EQ & US & TOT). rewrite EQ. cbv zeta.
  destruct EXT as (T0 & ST0 & AT0).
  destruct (MC V w SYM) as (ST & UP & MIN). { exists T0. split; [exact ST0|]. now apply US. }
  assert (AM := proj1 (US _ ST) UP).
  set (T := pair_sort (map sort_pair (mst w))).
  assert (P : Permutation T (map norm (mst w))).
  { unfold T. rewrite pair_sort_perm. rewrite (map_ext _ _ sort_pair_norm). reflexivity. }
  assert (CT : canonical_tree V T).
  { assert (SN : spanning_tree V (map norm (mst w))) by now apply spanning_tree_norm.
    assert (ST' : spanning_tree V T) by (eapply spanning_tree_perm; [symmetry; exact P|auto]).
    split; auto. split; [|apply pair_sort_sorted].
    intros x y I. destruct (tree_neq V T ST' x y I) as (N & _). apply (Permutation_in _ P) in I.
    apply in_map_iff in I. destruct I as ([a b] & X & _). unfold norm in X. inversion X; subst. lia. }
  assert (LT : (length T + 1 = V)%nat) by (destruct CT as ((L & _) & _); lia).
  fold T. rewrite LT, Nat.eqb_refl.
  cbn [assert_ bind]. exists T. split; [reflexivity|]. split; [exact CT|].
  assert (NM : forall a b, lgt (fst (norm (a, b))) (snd (norm (a, b))) = lgt a b).
  { intros a b. unfold norm. cbn [fst snd]. destruct (le_dec a b); [rewrite Nat.min_l, Nat.max_r by lia; reflexivity|]. rewrite Nat.min_r, Nat.max_l by lia. now rewrite fce_sym. }
  split.
  { intros x y I. apply (Permutation_in _ P) in I. apply in_map_iff in I. destruct I as ([a b] & X & I). specialize (NM a b). rewrite X in NM. cbn [fst snd] in NM. rewrite NM. now apply AM. }
  assert (ET : total32 T = total32 (mst w)).
  { unfold total32. rewrite (sumf_perm _ _ _ P), sumf_map. apply sumf_ext. intros [a b] _. specialize (NM a b). destruct (norm (a, b)) as [x y]. cbn [fst snd] in NM. now rewrite NM. }
  intros T' ST' AT'. rewrite ET. pose proof (MIN T' ST' (proj2 (US T' ST') AT')) as M.
  pose proof (TOT T' ST' AT') as K1. pose proof (TOT (mst w) ST AM) as K2. apply Rabs_le_inv in K1. apply Rabs_le_inv in K2.
  replace (bp (-20)) with (2 * bp (-21)) by (cbn; lra). lra.
Qed.

(** Without such a tree the final assertion fails. *)
Lemma estimate_none : Spec_Run32.mst_forest mst -> ~ (exists T, spanning_tree V T /\ allowed T) ->
  estimate_tree32 mst (complete_grid V) logits = Raise AssertionError.
Proof.
  intros MF NT. destruct estimate_prep as (w & mn & SYM & EQ & US & _). rewrite EQ. cbv zeta.
  destruct (MF V w HV SYM) as (UP & rest & ST). destruct (Nat.eqb_spec (length (pair_sort (map sort_pair (mst w))) + 1) V) as [E|]; [|reflexivity].
  exfalso. apply NT. assert (L := Permutation_length (pair_sort_perm (map sort_pair (mst w)))). rewrite map_length in L.
  destruct rest as [|e rest]; [|destruct ST as (L2 & _); rewrite app_length in L2; cbn [length] in L2; lia].
  rewrite app_nil_r in ST. exists (mst w). split; [exact ST|]. now apply US.
Qed.

End Estimate.
