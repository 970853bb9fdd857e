(** Epochs and whole runs of the float32 trainer approach the joint posterior. *)
From Coq Require Import List Arith Bool ZArith Reals Lra Lia Permutation.
From Flocq Require Import Core IEEE754.BinarySingleNaN.
From Verif Require Import Base L_Base Spec_Graph L_Graph Spec_Sum L_Sum Spec_Ragged Spec_Trees M_Structure L_Pairing L_Prop1 L_MakeTree M_Schedule Spec_Schedule L_Schedule M_Array M_Util M_Rand L_Rand M_SampleTree L_SampleTree Spec_Joint M_Training Spec_Stats L_Asg L_Stats L_Trainer Spec_Conditional
  Spec_EdgeLogits L_EdgeLogits Spec_Gibbs L_Gibbs L_Train Spec_Epoch L_Epoch L_Shuffle L_Doeblin L_Converge L_Converge2
  M_Float32 M_Train32 Spec_Float32 L_Float32 L_Train32e L_Train32f L_Train32h Spec_Law Spec_Serving32 Spec_TrainLaw M_SampleTree32 Spec_Tree32 L_Tree32a L_Tree32c M_Logits32 Spec_Logits32 L_Logits32c M_EstimateTree32
  M_Run32 Spec_Run32 L_EstTree32 L_Run32a L_Run32b Spec_RunLaw32 L_RunLaw32a L_RunLaw32b L_RunLaw32c L_RunLaw32d L_RunLaw32e.
Import ListNotations.
Open Scope R_scope.

Section Epochs.
Variables (dot : list f32 -> list f32 -> f32) (g32 exp32 : f32 -> f32) (sum : list f32 -> f32).
Variables (ws : list nat) (tb : table) (prior : list f32) (M : nat) (A : BinNums.Z) (c : nat) (etaD drift : R) (lg : R -> R) (delta eta G P : R).
Notation RP := (map (fun p : f32 => val p) prior).
Notation reach := (reachable32 dot tb RP M).
Notation V := (num_cols tb).
Notation N := (num_rows tb).
Hypothesis D : dot_ok dot.
Hypothesis DA : dot_accurate (BinInt.Z.of_nat M) etaD dot.
Hypothesis HED : bp (-23) <= etaD.
Hypothesis DB : drift_bound M A drift.
Hypothesis TK : table_ok ws tb.
Hypothesis ND : nonneg_data tb.
Hypothesis HM : (1 <= M <= 128)%nat.
Hypothesis HA : (1 <= A <= 16)%Z.
Hypothesis Hc : (1 <= c)%nat.
Hypothesis HAc : ((A + 9) * BinInt.Z.of_nat c + A <= 69)%Z.
Hypothesis HN : ((BinInt.Z.of_nat (num_rows tb) + 1) * BinInt.Z.of_nat c < 2 ^ A)%Z.
Hypothesis HWs : Forall (fun w => (BinInt.Z.of_nat w <= 2 ^ A)%Z) ws.
Hypothesis AM : at_most c ws tb.
Hypothesis HL : (3 * A + 2 * ((A + 9) * BinInt.Z.of_nat c) + (A + 8) * BinInt.Z.of_nat (V - 1) + 12 <= 126)%Z.
Hypothesis SM : row_error tb c etaD drift <= 1 / 4.
Hypothesis GO : gammaln_ok delta N M lg g32.
Hypothesis SN : sum_near sum.
Hypothesis SO : sum_ok sum.
Hypothesis EX : exp_ok eta exp32.
Hypothesis HD : 0 <= delta <= 1.
Hypothesis HE : 0 <= eta <= 1.
Hypothesis GB : gammaln_below G N M lg.
Notation W := (INR (M * M + 2 * M) * G + P).
Hypothesis HW : W <= bp 59.
Hypothesis HP : 0 <= P.
Hypothesis GP : Forall (fun p => fin32 p = true /\ Rabs (val p) <= P) prior.
Hypothesis LP : length prior = tri V.
Hypothesis KB : (BinInt.Z.of_nat (tri V) <= 2 ^ 16)%Z.
Variable TT : list (list edge).
Hypothesis ET : enumerates_trees V TT.
Notation gf := (fun T A s => gfull ws tb M (with_tree tb T) A s).
Notation "'mats'" := (matrices N V M).
Variable St : list edge -> list (list nat) -> tstate.
Hypothesis SG : forall T A, In T TT -> In A mats -> gf T A (St T A).
Notation e1 := (exp (row_error tb c etaD drift) - 1 + INR V * (INR M * bp (-21))).
Notation e2 := (INR (V - 1) * INR (tri V) * (2 * eta + bp (-20)) + (exp (2 * logit_error M delta W * INR (V - 1)) - 1)).
Notation ek' := (ek lg tb RP M St).
Notation full t := (exists T B, In T TT /\ gf T B (t_state t)).

Lemma HMe : (1 <= M)%nat. Proof. clear - HM. lia. Qed.
Lemma HNe : ((BinInt.Z.of_nat (num_rows tb) + 1) * 1 < 2 ^ A)%Z. Proof. clear - HN Hc. nia. Qed.
Lemma LPe : length RP = tri V. Proof. now rewrite map_length. Qed.
Lemma RIe t : reach t -> inv32 ws tb M t.
Proof. exact (reach_inv dot ws tb RP M A c D TK ND HM HA Hc HAc HN HWs AM t). Qed.

Lemma epoch_law T B t F g : In T TT -> gf T B (t_state t) -> reach t ->
  (forall t' T' C, In T' TT -> reach t' -> gf T' C (t_state t') -> F t' = g (T', C)) -> (forall y, In y (states tb M TT) -> 0 <= g y <= 1) ->
  gok (fun t' => reach t' /\ full t') (full_epoch32 dot g32 exp32 sum tb prior M t) /\
  Rabs (gexpect (full_epoch32 dot g32 exp32 sum tb prior M t) F - sumf (states tb M TT) (fun y => ek' (T, B) y * g y)) <= INR N * e1 + e2.
Proof.
  intros IT GF RT HF Hg. assert (IB : In B mats) by (refine (gfull_in ws tb M HMe (with_tree tb T) B (t_state t) GF)).
  set (sw := gfold (row_step dot tb M) (seq 0 N)).
  change (full_epoch32 dot g32 exp32 sum tb prior M t) with (gbind (resample_tree32 g32 exp32 sum tb prior M t) sw).
  set (g1 := fun T' => sumf mats (fun C => sk tb M St T' (seq 0 N) B C * g (T', C))).
  set (g2 := fun T' => if in_dec edge_list_eq_dec T' TT then g1 T' else 0).
  assert (RW : forall n, In n (seq 0 N) -> (n < N)%nat) by (intros n I; apply in_seq in I; lia).
  assert (G1 : forall T', In T' TT -> 0 <= g1 T' <= 1).
  { intros T' IT'. apply (sk_between ws tb RP M A TK ND HM HA LPe TT St SG); auto. intros C IC. apply Hg. unfold states. now apply in_prod. }
  assert (G2 : forall T', 0 <= g2 T' <= 1) by (intros T'; unfold g2; destruct (in_dec _ _ _); [now apply G1|lra]).
  assert (SWL : forall t' T', In T' TT -> reach t' -> gf T' B (t_state t') ->
     gok (fun t' => reach t' /\ full t') (sw t') /\ Rabs (gexpect (sw t') F - g1 T') <= INR N * e1).
  { intros t' T' IT' R' GF'.
    destruct (sweep_law dot ws tb RP M A c etaD drift lg D DA HED DB TK ND HM HA Hc HAc HN HWs AM HL SM LPe TT St SG T' (seq 0 N) F (fun C => g (T', C)) IT' RW) with (t := t') (B := B) as (K1 & K2); auto.
    - intros C IC. apply Hg. unfold states. now apply in_prod.
    - rewrite seq_length in K2. split; [|exact K2]. eapply gok_mono; [|exact K1]. intros t2 (R2 & C & GC). split; [exact R2|]. exists T', C. auto. }
  destruct (tree_step dot g32 exp32 sum ws tb prior M A lg delta eta G P RIe TK HM HA HNe GO SN SO EX HD HE GB HW HP GP LP KB TT ET St SG T B t
    (fun t' => g2 (ts_get_edges (s_tree (t_state t')))) g2 IT GF RT) as (GK & LAW).
  { intros t' T' IT' _ (_ & E & _). rewrite E. f_equal. apply (canon_in tb TT ET T' IT'). }
  { exact G2. }
  split.
  - apply gok_bind. eapply gok_mono; [|exact GK]. intros t' (R' & T' & IT' & GF'). now apply (SWL t' T').
  - rewrite gexpect_bind.
    assert (NR : Rabs (gexpect (resample_tree32 g32 exp32 sum tb prior M t) (fun t' => gexpect (sw t') F) - gexpect (resample_tree32 g32 exp32 sum tb prior M t) (fun t' => g2 (ts_get_edges (s_tree (t_state t'))))) <= INR N * e1).
    { eapply gexpect_near; [exact GK|]. intros t' (R' & T' & IT' & GF'). assert (E : ts_get_edges (s_tree (t_state t')) = T') by (destruct GF' as (_ & E & _); rewrite E; apply (canon_in tb TT ET T' IT')).
      rewrite E. unfold g2. destruct (in_dec _ _ _); [|contradiction]. now apply SWL. }
    assert (EQ : sumf (states tb M TT) (fun y => ek' (T, B) y * g y) = sumf TT (fun T' => tk lg tb RP M St B T T' * g2 T')).
    { rewrite sumf_states. apply sumf_ext. intros T' IT'. unfold g2. destruct (in_dec _ _ _); [|contradiction]. unfold g1. rewrite <- sumf_scal. apply sumf_ext. intros C _. unfold ek. cbn [fst snd]. ring. }
    rewrite EQ.
    match goal with |- Rabs (?x - ?z) <= _ => match type of NR with Rabs (_ - ?y) <= _ => replace (x - z) with ((x - y) + (y - z)) by ring end end.
    eapply Rle_trans; [apply Rabs_triang|]. lra.
Qed.

Lemma iterate_between g k : (forall y, In y (states tb M TT) -> 0 <= g y <= 1) -> forall x, In x (states tb M TT) -> 0 <= iterate (states tb M TT) ek' k g x <= 1.
Proof.
  intros Hg. induction k as [|k IH]; intros x Ix; [now apply Hg|]. cbn [iterate].
  assert (NN : forall y, In y (states tb M TT) -> 0 <= ek' x y) by (intros y Iy; left; now apply (ek_pos lg ws tb RP M TK HMe ND LPe TT ET St SG)). split.
  - apply sumf_nonneg. intros y Iy. apply Rmult_le_pos; [now apply NN|now apply IH].
  - rewrite <- (ek_one lg ws tb RP M TK HMe ND LPe TT ET St SG x Ix). apply sumf_le. intros y Iy. specialize (NN y Iy). destruct (IH y Iy). nra.
Qed.

Lemma epochs_law F g : (forall t' T' C, In T' TT -> reach t' -> gf T' C (t_state t') -> F t' = g (T', C)) -> (forall y, In y (states tb M TT) -> 0 <= g y <= 1) ->
  forall (ks : list nat) t T B, In T TT -> gf T B (t_state t) -> reach t ->
  gok (fun t' => reach t' /\ full t') (gfold (fun t _ => full_epoch32 dot g32 exp32 sum tb prior M t) ks t) /\
  Rabs (gexpect (gfold (fun t _ => full_epoch32 dot g32 exp32 sum tb prior M t) ks t) F - iterate (states tb M TT) ek' (length ks) g (T, B)) <= INR (length ks) * (INR N * e1 + e2).
Proof.
  intros HF Hg. induction ks as [|k ks IH]; intros t T B IT GF RT.
  - cbn [gfold gok gexpect length iterate INR]. split; [split; [exact RT|eauto]|]. rewrite (HF t T B IT RT GF), Rminus_eq_0, Rabs_R0. lra.
  - cbn [gfold length iterate]. set (h := iterate (states tb M TT) ek' (length ks) g).
    destruct (epoch_law T B t (fun t' => h (ts_get_edges (s_tree (t_state t')), class_matrix tb (t_state t'))) h IT GF RT) as (GK & LAW).
    { intros t' T' C IT' _ (_ & E & _ & EC). rewrite E, EC. f_equal. f_equal. apply (canon_in tb TT ET T' IT'). }
    { intros y Iy. now apply iterate_between. }
    split.
    + apply gok_bind. eapply gok_mono; [|exact GK]. intros t' (R' & T' & C & IT' & GF'). now apply (IH t' T' C).
    + rewrite gexpect_bind.
      assert (NR : Rabs (gexpect (full_epoch32 dot g32 exp32 sum tb prior M t) (fun t' => gexpect (gfold (fun t _ => full_epoch32 dot g32 exp32 sum tb prior M t) ks t') F)
         - gexpect (full_epoch32 dot g32 exp32 sum tb prior M t) (fun t' => h (ts_get_edges (s_tree (t_state t')), class_matrix tb (t_state t')))) <= INR (length ks) * (INR N * e1 + e2)).
      { eapply gexpect_near; [exact GK|]. intros t' (R' & T' & C & IT' & GF'). pose proof GF' as (_ & E & _ & EC). rewrite E, EC. replace (ts_get_edges (with_tree tb T')) with T' by (symmetry; apply (canon_in tb TT ET T' IT')).
        now apply IH. }
      rewrite S_INR.
      match goal with |- Rabs (?x - ?z) <= _ => match type of NR with Rabs (_ - ?y) <= _ => replace (x - z) with ((x - y) + (y - z)) by ring end end.
      eapply Rle_trans; [apply Rabs_triang|]. lra.
Qed.
Lemma gexpect_const {X} (Q : X -> Prop) p r : gok Q p -> gexpect p (fun _ => r) = r.
Proof. intros H. destruct (gexpect_between Q p (fun _ => r) r r H ltac:(intros; lra)). lra. Qed.

(* the errors of the epochs do not add up: each later epoch shrinks them by rho *)
Lemma epochs_law_uniform F g p rho : (forall t' T' C, In T' TT -> reach t' -> gf T' C (t_state t') -> F t' = g (T', C)) -> (forall y, In y (states tb M TT) -> 0 <= g y <= 1) ->
  0 < rho < 1 -> (forall j y, In y (states tb M TT) -> Rabs (iterate (states tb M TT) ek' j g y - p) <= rho ^ j) ->
  forall (ks : list nat) t T B, In T TT -> gf T B (t_state t) -> reach t ->
  Rabs (gexpect (gfold (fun t _ => full_epoch32 dot g32 exp32 sum tb prior M t) ks t) F - iterate (states tb M TT) ek' (length ks) g (T, B))
    <= 2 * (INR N * e1 + e2) * ((1 - rho ^ length ks) / (1 - rho)).
Proof.
  intros HF Hg Hr HC. induction ks as [|k ks IH]; intros t T B IT GF RT.
  - cbn [gfold gexpect length iterate pow]. rewrite (HF t T B IT RT GF), Rminus_eq_0, Rabs_R0. unfold Rdiv. rewrite Rminus_eq_0. lra.
  - cbn [gfold length iterate]. set (h := iterate (states tb M TT) ek' (length ks) g). set (n := length ks) in *. set (d := rho ^ n).
    assert (Hd : 0 < d) by (apply pow_lt; lra).
    assert (HH : forall y, In y (states tb M TT) -> - d <= h y - p <= d) by (intros y Iy; apply Rabs_le_inv, (HC n y Iy)).
    set (h' := fun y => / (2 * d) * (h y - (p - d))).
    assert (D2 : 0 < / (2 * d)) by (apply Rinv_0_lt_compat; lra).
    destruct (epoch_law T B t (fun t' => h' (ts_get_edges (s_tree (t_state t')), class_matrix tb (t_state t'))) h' IT GF RT) as (GK & LAW).
    { intros t' T' C IT' _ (_ & E & _ & EC). rewrite E, EC. f_equal. f_equal. apply (canon_in tb TT ET T' IT'). }
    { intros y Iy. specialize (HH y Iy). unfold h'. split; [apply Rmult_le_pos; lra|]. apply Rmult_le_reg_l with (2 * d); [lra|]. rewrite <- Rmult_assoc, Rinv_r by lra. lra. }
    set (H := fun t' : trainer32 => h (ts_get_edges (s_tree (t_state t')), class_matrix tb (t_state t'))).
    assert (E1 : gexpect (full_epoch32 dot g32 exp32 sum tb prior M t) (fun t' => h' (ts_get_edges (s_tree (t_state t')), class_matrix tb (t_state t'))) =
      / (2 * d) * (gexpect (full_epoch32 dot g32 exp32 sum tb prior M t) H - (p - d))).
    { unfold h'. rewrite gexpect_scal. f_equal. rewrite gexpect_minus, (gexpect_const _ _ (p - d) GK). reflexivity. }
    assert (IX : In (T, B) (states tb M TT)) by (apply in_prod; [exact IT|]; refine (gfull_in ws tb M HMe (with_tree tb T) B (t_state t) GF)).
    assert (E2 : sumf (states tb M TT) (fun y => ek' (T, B) y * h' y) = / (2 * d) * (sumf (states tb M TT) (fun y => ek' (T, B) y * h y) - (p - d))).
    { unfold h'. rewrite (sumf_ext _ _ (fun y => / (2 * d) * (ek' (T, B) y * h y - (p - d) * ek' (T, B) y))) by (intros; ring).
      rewrite sumf_scal, sumf_minus, sumf_scal, (ek_one lg ws tb RP M TK HMe ND LPe TT ET St SG (T, B) IX). f_equal. ring. }
    rewrite E1, E2, <- Rmult_minus_distr_l, Rabs_mult, (Rabs_pos_eq (/ (2 * d))) in LAW by lra.
    assert (LAW2 : Rabs (gexpect (full_epoch32 dot g32 exp32 sum tb prior M t) H - sumf (states tb M TT) (fun y => ek' (T, B) y * h y)) <= 2 * d * (INR N * e1 + e2)).
    { apply Rmult_le_compat_l with (r := 2 * d) in LAW; [|lra]. rewrite <- Rmult_assoc, Rinv_r, Rmult_1_l in LAW by lra.
      match type of LAW with Rabs ?x <= _ => match goal with |- Rabs ?y <= _ => replace y with x by ring end end. exact LAW. }
    rewrite gexpect_bind.
    assert (NR : Rabs (gexpect (full_epoch32 dot g32 exp32 sum tb prior M t) (fun t' => gexpect (gfold (fun t _ => full_epoch32 dot g32 exp32 sum tb prior M t) ks t') F)
       - gexpect (full_epoch32 dot g32 exp32 sum tb prior M t) H) <= 2 * (INR N * e1 + e2) * ((1 - rho ^ n) / (1 - rho))).
    { eapply gexpect_near; [exact GK|]. intros t' (R' & T' & C & IT' & GF'). unfold H. pose proof GF' as (_ & E & _ & EC). rewrite E, EC. replace (ts_get_edges (with_tree tb T')) with T' by (symmetry; apply (canon_in tb TT ET T' IT')).
      now apply IH. }
    match goal with |- Rabs (?x - ?z) <= _ => match type of NR with Rabs (_ - ?y) <= _ => replace (x - z) with ((x - y) + (y - z)) by ring end end.
    eapply Rle_trans; [apply Rabs_triang|]. eapply Rle_trans; [apply Rplus_le_compat; [exact NR|exact LAW2]|]. apply Req_le.
    cbn [pow]. fold d. field. lra.
Qed.


(** Annealing keeps the trainer reachable. *)
Lemma resample_reach t : reach t -> gok (fun t' => reach t' /\ s_added (t_state t') = s_added (t_state t)) (resample_tree32 g32 exp32 sum tb prior M t).
Proof.
  intros RT. assert (Iv := RIe t RT). assert (TI := proj1 Iv). destruct (tinv_tree ws tb M _ TI) as (EV & ST).
  assert (HW60 : W <= bp 60) by (eapply Rle_trans; [exact HW|apply bpow_le; lia]).
  destruct (logits_good ws tb prior M HM g32 sum lg delta G P GO SN HD GB HW60 HP (GP' prior P GP) LP (t_state t) TI) as (l & E & LL & GL).
  assert (LE : length (ts_get_edges (s_tree (t_state t))) = (V - 1)%nat) by (destruct ST as (H & _); lia).
  unfold resample_tree32. cbn [gok]. intros order PO. rewrite LE in PO. apply gok_bind.
  assert (TS : trainer_sample_tree32 g32 sum exp32 tb prior M (t_state t) order = sample_tree32 exp32 sum (complete_grid V) l (ts_get_edges (s_tree (t_state t))) order).
  { unfold trainer_sample_tree32. rewrite EV, make_complete_graph_Ok, E. cbn [flift fbind]. rewrite LL, complete_grid_length, Nat.eqb_refl. reflexivity. }
  rewrite TS. destruct (tree_law_holds exp32 sum eta EX SO HE V (complete_grid V) l (ts_get_edges (s_tree (t_state t))) (fun _ => true) (make_complete_graph_Ok V) ST) as (H1 & _); auto.
  - now rewrite complete_grid_length.
  - now rewrite complete_grid_length.
  - rewrite LE in H1. eapply gok_mono; [|apply gok_of_f, (H1 order PO)]. intros E' (SE & _). cbn beta.
    pose proof (set_edges_safe ws tb M A HM HA HNe t E' Iv SE) as S.
    destruct (set_edges32 M t E') as [[t' x]|e] eqn:E32; [|destruct S]. unfold unless_raised32 in *. cbn [glift gbind] in *. destruct x as [e|]; [destruct S|]. cbn [gsafe] in S. cbn [gok].
    split; [|apply S]. eapply r32_edges; [exact RT|left; exact SE|exact E32].
Qed.

Lemma actions_reach acts : forall R R' t, replays N R acts R' -> reach t -> Permutation (s_added (t_state t)) R ->
  gok (fun t' => reach t' /\ Permutation (s_added (t_state t')) R') (gfold (train_action32 dot g32 exp32 sum tb prior M) acts t).
Proof.
  induction acts as [|a acts IH]; intros R R' t RPl RT PA.
  - inversion RPl; subst. cbn. auto.
  - cbn [gfold]. apply gok_bind. inversion RPl; subst; cbn [train_action32].
    + assert (NI : ~ In r (s_added (t_state t))) by (intros K; apply (Permutation_in _ PA) in K; contradiction).
      unfold unless_raised32. apply gok_bind. eapply gok_mono; [|apply gok_of_f, (add_row_more dot ws tb M A c TK ND HM HA Hc HAc HN HWs AM t r D (RIe t RT)); auto].
      intros [t' x] ((-> & I' & EAd & _) & us & HU & ERn). cbn [gok]. eapply IH; eauto.
      * eapply r32_add; [exact RT| |exact HU|exact ERn]. assumption.
      * rewrite EAd, (set_add_perm _ _ NI), PA. apply Permutation_cons_append.
    + assert (IN : In r (s_added (t_state t))) by (apply (Permutation_in _ (Permutation_sym PA)), in_or_app; right; now left).
      pose proof (RIe t RT) as Iv. destruct (remove_row_Ok ws tb M TK HMe (t_state t) r (proj1 Iv) IN) as (s' & E & TI' & EA & _).
      destruct (remove_row32 tb M t r) as [[t' x]|e] eqn:ER; [|unfold remove_row32 in ER; rewrite E in ER; discriminate].
      assert (RT' : reach t') by (eapply r32_remove; [exact RT| |exact ER]; apply (fs_rows _ _ _ _ (ti_fs _ _ _ _ (proj1 Iv))), IN).
      unfold remove_row32 in ER. rewrite E in ER. cbn [bind] in ER. inversion ER; subst x. unfold unless_raised32. cbn [glift gbind gok].
      rewrite H0. eapply IH; [eassumption|exact RT'|]. apply (Permutation_cons_inv (a := r)). rewrite <- (Permutation_middle R2 R3 r) in PA. rewrite <- PA.
      assert (EqA : s_added (t_state t') = set_remove_raw r (s_added (t_state t))) by (rewrite <- EA; now subst t').
      rewrite EqA. symmetry. apply set_remove_perm; auto.
    + eapply gok_mono; [|apply resample_reach; auto]. intros t' (R2 & EA). eapply IH; eauto. now rewrite EA.
Qed.
End Epochs.
