(** Training in float32 approaches the joint posterior: the theorem and a case. *)
From Coq Require Import List Arith Bool ZArith Reals Lra Lia Permutation QArith.
From Flocq Require Import Core IEEE754.BinarySingleNaN.
From Verif Require Import Base L_Base Spec_Graph L_Graph Spec_Sum L_Sum Spec_Ragged Spec_Trees M_Structure L_Pairing L_Prop1 L_MakeTree M_Schedule Spec_Schedule L_Schedule M_Array M_Util M_Rand L_Rand M_SampleTree L_SampleTree L_AllTrees Spec_Joint M_Training Spec_Stats L_Asg L_Stats L_Trainer Spec_Conditional
  Spec_EdgeLogits L_EdgeLogits Spec_Gibbs L_Gibbs L_Train Spec_Epoch L_Epoch L_Shuffle L_Doeblin L_Converge L_Converge2
  M_Float32 M_Train32 Spec_Float32 L_Float32 L_Train32e L_Train32f L_Train32h Spec_Law Spec_Serving32 Spec_TrainLaw M_SampleTree32 Spec_Tree32 L_Tree32a L_Tree32c M_Logits32 Spec_Logits32 L_Logits32c L_Logits32f M_EstimateTree32
  M_Run32 Spec_Run32 L_EstTree32 L_Run32a L_Run32b Spec_RunLaw32 L_RunLaw32a L_RunLaw32f Spec_Model.
From Verif Require Spec_MST.
Import ListNotations.
Open Scope R_scope.

Section Final.
Variables (dot : list f32 -> list f32 -> f32) (g32 exp32 : f32 -> f32) (sum : list f32 -> f32).
Variables (ws : list nat) (tb : table) (prior : list f32) (M : nat) (A : BinNums.Z) (c : nat) (etaD drift : R) (lg : R -> R) (delta eta G P : R) (TT : list (list edge)) (t0 : trainer32).
Notation RP := (map (fun p : f32 => val p) prior).
Notation V := (num_cols tb).
Notation N := (num_rows tb).
Notation W := (INR (M * M + 2 * M) * G + P).
Notation e1 := (exp (row_error tb c etaD drift) - 1 + INR V * (INR M * bp (-21))).
Notation e2 := (INR (V - 1) * INR (V * (V - 1) / 2) * (2 * eta + bp (-20)) + (exp (2 * logit_error M delta W * INR (V - 1)) - 1)).

Lemma C88_proof : (forall x, 0 < x -> lg (x + 1) = lg x + ln x) ->
  dot_ok dot -> dot_accurate (BinInt.Z.of_nat M) etaD dot -> bp (-23) <= etaD -> drift_bound M A drift ->
  table_ok ws tb -> nonneg_data tb -> (1 <= M <= 128)%nat -> (1 <= A <= 16)%Z -> (1 <= c)%nat -> at_most c ws tb ->
  ((BinInt.Z.of_nat N + 1) * BinInt.Z.of_nat c < 2 ^ A)%Z -> Forall (fun w => (BinInt.Z.of_nat w <= 2 ^ A)%Z) ws ->
  (3 * A + 2 * ((A + 9) * BinInt.Z.of_nat c) + (A + 8) * BinInt.Z.of_nat (V - 1) + 12 <= 126)%Z ->
  row_error tb c etaD drift <= 1 / 4 ->
  gammaln_ok delta N M lg g32 -> gammaln_below G N M lg -> sum_near sum -> sum_ok sum -> exp_ok eta exp32 ->
  0 <= delta <= 1 -> 0 <= eta <= 1 -> 0 <= P -> W <= bp 59 ->
  Forall (fun p => fin32 p = true /\ Rabs (val p) <= P) prior -> (BinInt.Z.of_nat (V * (V - 1) / 2) <= 2 ^ 16)%Z ->
  enumerates_trees V TT -> init_trainer32 tb RP M = Ok t0 ->
  exists lp rho, 0 <= rho < 1 /\
  (forall T B s, In T TT -> full_state tb RP M (with_tree tb T) B s -> logprob lg tb M s = Ok (lp T B)) /\
  let mass T B := exp (lp T B + tree_prior_mass RP T) in
  let total b := sumf TT (fun T => sumf (matrices N V M) (fun B => if b T B : bool then mass T B else 0)) in
  let posterior b := total b / total (fun _ _ => true) in
  (forall b t k, reachable32 dot tb RP M t -> length (s_added (t_state t)) = N ->
     Rabs (gprob (epochs32 dot g32 exp32 sum tb prior M k t) (fun t' => b (ts_get_edges (s_tree (t_state t'))) (class_matrix tb (t_state t'))) - posterior b)
       <= rho ^ k + Rmin (INR k) (2 / (1 - rho)) * (INR N * e1 + e2)) /\
  (forall b mst cfg, config_ok cfg -> Spec_MST.mst_contract mst -> c_clusters cfg = M ->
     (c_estimate_tree cfg = false \/ forall T T' B, b T B = b T' B) ->
     Rabs (gprob (train32 dot g32 exp32 sum mst tb prior cfg t0) (fun '(t', _) => b (ts_get_edges (s_tree (t_state t'))) (class_matrix tb (t_state t'))) - posterior b)
       <= rho ^ c_full_epochs cfg + Rmin (INR (c_full_epochs cfg)) (2 / (1 - rho)) * (INR N * e1 + e2)).
Proof.
  intros REC D DA HED DB TK ND HM HA Hc AM HN HWs HL SM GO GB SN SO EX HD HE HP HW GP KB ET EI0.
  assert (HAc : ((A + 9) * BinInt.Z.of_nat c + A <= 69)%Z) by (clear - HL HA; nia).
  assert (RT0 : reachable32 dot tb RP M t0) by (constructor; exact EI0).
  assert (LP : length prior = tri V) by (rewrite <- (map_length (fun p : f32 => val p)); exact (reach_prior _ _ _ _ _ _ RT0)).
  assert (LPR : length RP = tri V) by now rewrite map_length.
  assert (HM1 : (1 <= M)%nat) by lia.
  assert (EI := EI0). unfold init_trainer32 in EI. destruct (init_trainer tb RP M) as [s0|] eqn:E0; [|discriminate]. cbn [bind] in EI.
  destruct (init_Ok ws tb M HM1 RP s0 E0) as (TI0 & A0 & HV).
  assert (AD0 : s_added (t_state t0) = []) by (inversion EI; exact A0).
  destruct (L_Evidence3.C62_states ws tb RP M s0 TT TK ND HM1 E0 ET) as (St & FS).
  assert (SG : forall T B, In T TT -> In B (matrices N V M) -> gfull ws tb M (with_tree tb T) B (St T B)).
  { intros T B IT IB. apply (full_gfull ws tb RP); auto. }
  assert (NE : TT <> []).
  { intros E. destruct (tinv_canonical ws tb M s0 TI0) as (C & _). apply (proj2 ET) in C. rewrite E in C. destruct C. }
  destruct (epochs_converge lg REC ws tb RP M TK HM1 ND LPR TT ET St SG NE) as (rho0 & HR0 & CV0).
  set (rho := Rmax rho0 (1 / 2)). assert (RR : rho0 <= rho) by apply Rmax_l.
  assert (HR1 : 0 < rho < 1) by (split; [apply Rlt_le_trans with (1 / 2); [lra|apply Rmax_r]|apply Rmax_lub_lt; lra]).
  assert (HR : 0 <= rho < 1) by lra.
  assert (CV : forall (b : list edge -> list (list nat) -> bool) F k s T B, (forall s' T' C, In T' TT -> gfull ws tb M (with_tree tb T') C s' -> F (Ok s') = ind (b T' C)) ->
    In T TT -> gfull ws tb M (with_tree tb T) B s ->
    Rabs (expect (epochs lg tb RP M k s) F - sumf (states tb M TT) (fun y => L_Converge.post lg tb RP M TT St y * ind (b (fst y) (snd y)))) <= rho ^ k).
  { intros b F k s T B HF IT GF. eapply Rle_trans; [exact (CV0 b F k s T B HF IT GF)|]. apply pow_incr. lra. }
  exists (fun T B => Lform lg tb M (St T B)), rho. split; [exact HR|]. split.
  { intros T B s IT F. rewrite logprob_Ok by apply F. f_equal. apply (full_gfull ws tb RP) in F; auto.
    apply (gf_Lform lg ws tb RP M TK HM1 LPR TT ET T B); auto. apply SG; auto. refine (gfull_in ws tb M _ (with_tree tb T) B s F). exact HM1. }
  cbv zeta. set (post := fun b : list edge -> list (list nat) -> bool => _ / _).
  assert (PE : forall b, sumf (states tb M TT) (fun y => L_Converge.post lg tb RP M TT St y * ind (b (fst y) (snd y))) = post b).
  { intros b. unfold post, states. unfold L_Converge.post, L_Converge.Z, states.
    rewrite (sumf_ext _ _ (fun y => (if b (fst y) (snd y) then joint lg tb RP M St (fst y) (snd y) else 0) / sumf (list_prod TT (matrices N V M)) (fun y => joint lg tb RP M St (fst y) (snd y)))).
    2: { intros y _. destruct (b (fst y) (snd y)); cbn [ind]; unfold Rdiv; ring. }
    rewrite sumf_div, !sumf_list_prod. reflexivity. }
  set (E := INR N * e1 + e2).
  (* k epochs from a full trainer *)
  assert (KEY : forall b k t F, reachable32 dot tb RP M t -> length (s_added (t_state t)) = N ->
     (forall t' T' C, In T' TT -> reachable32 dot tb RP M t' -> gfull ws tb M (with_tree tb T') C (t_state t') -> F t' = ind (b T' C)) ->
     Rabs (gexpect (gfold (fun t _ => full_epoch32 dot g32 exp32 sum tb prior M t) (seq 0 k) t) F - post b) <= rho ^ k + Rmin (INR k) (2 / (1 - rho)) * E).
  { intros b k t F RT LA HF. pose proof (RIe dot ws tb prior M A c D TK ND HM HA Hc HAc HN HWs AM t RT) as Iv.
    destruct (tinv_canonical ws tb M _ (proj1 Iv)) as (CT & EW). set (T := ts_get_edges (s_tree (t_state t))) in *. set (B := class_matrix tb (t_state t)).
    assert (IT : In T TT) by now apply ET.
    assert (GF : gfull ws tb M (with_tree tb T) B (t_state t)) by (split; [apply Iv|]; split; [exact EW|]; split; [exact LA|reflexivity]).
    destruct (epochs_law dot g32 exp32 sum ws tb prior M A c etaD drift lg delta eta G P D DA HED DB TK ND HM HA Hc HAc HN HWs AM HL SM GO SN SO EX HD HE GB HW HP GP LP KB TT ET St SG
      F (fun y => ind (b (fst y) (snd y))) HF (fun y _ => ind_range _) (seq 0 k) t T B IT GF RT) as (_ & LAW).
    assert (IB : forall j y, In y (states tb M TT) -> Rabs (iterate (states tb M TT) (L_Converge.ek lg tb RP M St) j (fun y => ind (b (fst y) (snd y))) y - post b) <= rho ^ j).
    { intros j [T1 B1] Iy. apply in_prod_iff in Iy. destruct Iy as (I1 & I2).
      pose proof (CV b (fun r => match r with Ok s' => if b (ts_get_edges (s_tree s')) (class_matrix tb s') then 1 else 0 | Raise _ => 0 end) j (St T1 B1) T1 B1 (fun s' T' C IT' G' => gf_event ws tb M TT ET b s' T' C IT' G') I1 (SG T1 B1 I1 I2)) as C.
      unfold epochs in C. rewrite (epochs_iterate lg ws tb RP M TK HM1 ND LPR TT ET St SG _ (fun y => ind (b (fst y) (snd y)))) with (T := T1) (A := B1) in C; auto.
      2:{ intros s' T' C' IT' G'. exact (gf_event ws tb M TT ET b s' T' C' IT' G'). }
      rewrite seq_length, PE in C. exact C. }
    pose proof (epochs_law_uniform dot g32 exp32 sum ws tb prior M A c etaD drift lg delta eta G P D DA HED DB TK ND HM HA Hc HAc HN HWs AM HL SM GO SN SO EX HD HE GB HW HP GP LP KB TT ET St SG
      F (fun y => ind (b (fst y) (snd y))) (post b) rho HF (fun y _ => ind_range _) HR1 IB (seq 0 k) t T B IT GF RT) as LAW2.
    pose proof (epoch_law dot g32 exp32 sum ws tb prior M A c etaD drift lg delta eta G P D DA HED DB TK ND HM HA Hc HAc HN HWs AM HL SM GO SN SO EX HD HE GB HW HP GP LP KB TT ET St SG
      T B t F (fun y => ind (b (fst y) (snd y))) IT GF RT HF (fun y _ => ind_range _)) as (_ & E0').
    rewrite seq_length in LAW, LAW2. unfold tri in LAW, LAW2, E0'. fold E in LAW, LAW2, E0'.
    assert (EN : 0 <= E) by (eapply Rle_trans; [apply Rabs_pos|exact E0']).
    assert (IBk : Rabs (iterate (states tb M TT) (L_Converge.ek lg tb RP M St) k (fun y => ind (b (fst y) (snd y))) (T, B) - post b) <= rho ^ k).
    { apply IB. apply in_prod; [exact IT|]. refine (gfull_in ws tb M _ (with_tree tb T) B (t_state t) GF). exact HM1. }
    assert (LAW3 : 2 * E * ((1 - rho ^ k) / (1 - rho)) <= 2 / (1 - rho) * E).
    { assert (K : (1 - rho ^ k) / (1 - rho) <= 1 / (1 - rho)) by (unfold Rdiv; apply Rmult_le_compat_r; [left; apply Rinv_0_lt_compat; lra|pose proof (pow_le rho k); lra]).
      unfold Rdiv in *. nra. }
    match goal with |- Rabs (?x - ?z) <= _ => match type of LAW with Rabs (_ - ?y) <= _ => replace (x - z) with ((x - y) + (y - z)) by ring end end.
    eapply Rle_trans; [apply Rabs_triang|]. unfold Rmin. destruct (Rle_dec _ _); lra. }
  split.
  - intros b t k RT LA. apply (KEY b k t); auto. intros t' T' C IT' _ G'. exact (gf_event ws tb M TT ET b _ T' C IT' G').
  - intros b mst cfg CO MC EM HB. apply (proj1 (Rabs_between _ _ _)). revert CO. intros (_ & HEp & HRt).
    unfold gprob. set (F := fun a : trainer32 * list f32 => _).
    unfold train32. rewrite EM. rewrite AD0. cbn [length Nat.eqb assert_ glift gbind].
    assert (PG : forall {X} (Q : X -> Prop) n (k : list nat -> gprog X) H lo hi, (forall ids, Permutation ids (seq 0 n) -> lo <= gexpect (k ids) H <= hi) -> lo <= gexpect (GPerm n k) H <= hi).
    { clear. intros X _ n k H lo hi HH. cbn [gexpect]. set (l := perms (seq 0 n)). assert (NP : 0 < INR (length l)) by apply perms_length_pos.
      assert (B : forall ids, In ids l -> lo <= gexpect (k ids) H <= hi) by (intros ids I; apply HH; now apply perms_Permutation).
      pose proof (sumf_const l lo). pose proof (sumf_const l hi).
      assert (sumf l (fun _ => lo) <= sumf l (fun i => gexpect (k i) H)) by (apply sumf_le; intros; now apply B).
      assert (sumf l (fun i => gexpect (k i) H) <= sumf l (fun _ => hi)) by (apply sumf_le; intros; now apply B).
      split; [apply Rmult_le_reg_r with (INR (length l))|apply Rmult_le_reg_r with (INR (length l))]; auto; unfold Rdiv; rewrite Rmult_assoc, Rinv_l, Rmult_1_r by lra; lra. }
    apply (PG _ (fun _ => True)). intros ids PI. assert (LI : length ids = N) by (rewrite (Permutation_length PI); apply seq_length).
    destruct (mas_enough _ ids (c_init_epochs cfg) (c_tree_rate cfg) PI HEp HRt) as (acts & EA).
    unfold sched_fuel. rewrite <- LI. unfold qn in EA. rewrite EA. cbn [glift gbind]. rewrite LI.
    destruct (mas_spec _ ids _ _ _ acts PI HEp HRt EA) as ((Rw & RPl & PR) & _).
    rewrite gexpect_bind.
    eapply gexpect_between;
      [apply (actions_reach dot g32 exp32 sum ws tb prior M A c lg delta eta G P D TK ND HM HA Hc HAc HN HWs AM HL GO SN SO EX HD HE GB HW HP GP LP KB acts [] Rw t0 RPl RT0); rewrite AD0; constructor|].
    intros t1 (R1 & P1). rewrite PR in P1. assert (L1 : length (s_added (t_state t1)) = N) by (rewrite (Permutation_length P1); apply seq_length).
    rewrite L1, Nat.eqb_refl. cbn [assert_ glift gbind]. rewrite gexpect_bind. apply (proj2 (Rabs_between _ _ _)).
    apply (KEY b (c_full_epochs cfg) t1); auto.
    intros t2 T B IT R2 GF. pose proof GF as (T2 & E2 & L2 & C2). cbv beta iota.
    rewrite L2, Nat.eqb_refl. cbn [assert_ glift gbind].
    destruct (tinv_tree ws tb M _ T2) as (EV & ST). rewrite EV, make_complete_graph_Ok. cbn [glift gbind].
    assert (GPI : Forall (fun p => (fin32 p = true /\ Rabs (val p) <= P) \/ p = B754_infinity true) prior) by (eapply Forall_impl; [|exact GP]; intros; now left).
    set (lo := (-1 - (A + 9) * BinInt.Z.of_nat c)%Z). set (hi := (A + 7 * BinInt.Z.of_nat c)%Z).
    assert (Hc' : (1 <= BinInt.Z.of_nat c)%Z) by lia.
    assert (LO := lo_ok ws tb M A (BinInt.Z.of_nat c) HM HA Hc' HAc HN AM). fold lo hi in LO.
    destruct (final_logits32 g32 sum ws tb prior M A lo hi lg delta eta G P HM HA LO GO SN HD HE GB HW HP GPI LP (t_state t2) T2 L2) as (l & EL & LL & NS & GLs). rewrite EL. cbn [glift gbind].
    destruct (eps_small tb prior M A lg delta G P HM HD GB HW HP LP) as (EP0 & EPW).
    assert (W0 : 0 <= W + logit_error M delta W).
    { pose proof (G_nonneg tb M lg G GB). pose proof (pos_INR (M * M + 2 * M)). nra. }
    destruct (estimate_near mst V l (W + logit_error M delta W) MC HV LL EPW GLs) as (T' & ET' & CT' & _); [|exact W0|].
    { exists (ts_get_edges (s_tree (t_state t2))). split; [exact ST|]. apply (allowed_iff tb prior M A lg delta G P HM LP (t_state t2)); auto.
      intros x y IN. destruct ST as (_ & RG & _). 
      rewrite Forall_forall in GP. apply GP. apply nth_In. rewrite LP.
      destruct (tinv_canonical ws tb M _ T2) as ((_ & OR & _) & _). specialize (OR x y IN). destruct (RG x y IN). apply fce_range; lia. }
    rewrite ET'. cbn [glift gbind]. destruct (c_estimate_tree cfg) eqn:EE.
    + destruct HB as [HB|HB]; [discriminate|]. pose proof (RIe dot ws tb prior M A c D TK ND HM HA Hc HAc HN HWs AM t2 R2) as I2.
      assert (HN1 : ((BinInt.Z.of_nat N + 1) * 1 < 2 ^ A)%Z) by (clear - HN Hc; nia).
      pose proof (set_edges_safe ws tb M A HM HA HN1 t2 T' I2 (proj1 CT')) as S.
      destruct (set_edges32 M t2 T') as [[t3 x]|e] eqn:E32; [|destruct S]. unfold unless_raised32 in *. cbn [glift gbind] in *. destruct x as [e|]; [destruct S|]. cbn [gsafe] in S.
      destruct S as (_ & _ & G3 & _). cbn [gbind gexpect]. unfold F. cbv beta iota. rewrite (HB _ T (class_matrix tb (t_state t3))).
      assert (CE : class_matrix tb (t_state t3) = B) by (unfold class_matrix, classes_of; rewrite G3; exact C2). rewrite CE. reflexivity.
    + cbn [gbind gexpect]. unfold F. exact (gf_event ws tb M TT ET b _ T B IT GF).
Qed.
End Final.

From Verif Require Import L_Acc7 L_Serving32a L_Train32g L_TLaw6 L_Tree32d L_Estimate L_Logits32e L_Run32c.

Lemma exp_small x : 0 <= x <= 1 / 2 -> exp x - 1 <= 2 * x.
Proof.
  intros H. assert (E : 1 - x <= exp (- x)) by (destruct (Req_dec x 0) as [->|NE]; [rewrite Ropp_0, exp_0; lra|pose proof (exp_ineq1 (- x)); lra]).
  rewrite exp_Ropp in E. pose proof (exp_pos x) as P. assert (K : (1 - x) * exp x <= 1).
  { apply Rmult_le_compat_r with (r := exp x) in E; [|lra]. rewrite Rinv_l in E by lra. exact E. }
  nra.
Qed.

Lemma C88_case_proof : (forall x, 0 < x -> lg0 (x + 1) = lg0 x + ln x) /\
  dot_ok seq_dot /\ dot_accurate 2 (4 * bp (-23)) seq_dot /\ bp (-23) <= 4 * bp (-23) /\ drift_bound 2 3 0 /\
  table_ok [2; 3]%nat tb4 /\ nonneg_data tb4 /\ at_most 1 [2; 3]%nat tb4 /\
  ((BinInt.Z.of_nat (num_rows tb4) + 1) * BinInt.Z.of_nat 1 < 2 ^ 3)%Z /\ Forall (fun w => (BinInt.Z.of_nat w <= 2 ^ 3)%Z) [2; 3]%nat /\
  (3 * 3 + 2 * ((3 + 9) * BinInt.Z.of_nat 1) + (3 + 8) * BinInt.Z.of_nat (num_cols tb4 - 1) + 12 <= 126)%Z /\
  row_error tb4 1 (4 * bp (-23)) 0 <= 1 / 4 /\
  gammaln_ok (bp (-10)) (num_rows tb4) 2 lg0 g0 /\ gammaln_below 9 (num_rows tb4) 2 lg0 /\ sum_near seq_sum /\ sum_ok seq_sum /\ exp_ok (bp (-23)) exp0 /\
  INR (2 * 2 + 2 * 2) * 9 + 0 <= bp 59 /\ Forall (fun p => fin32 p = true /\ Rabs (val p) <= 0) [fzero] /\
  enumerates_trees (num_cols tb4) (all_trees 2) /\ (exists t0, init_trainer32 tb4 (map (fun p => B2R p) [fzero]) 2 = Ok t0) /\
  (exists t, reachable32 seq_dot tb4 [0] 2 t) /\
  INR 3 * (exp (row_error tb4 1 (4 * bp (-23)) 0) - 1 + INR 2 * (INR 2 * bp (-21))) + (INR 1 * INR 1 * (2 * bp (-23) + bp (-20)) + (exp (2 * logit_error 2 (bp (-10)) 72 * INR 1) - 1)) <= 1 / 20.
Proof.
  pose proof C87_case_proof as (C1 & C2 & C3 & _ & C4 & _ & _ & _ & _ & _ & CI & CG & CB & CS & CO & CX & _ & _ & CW & _).
  pose proof C82_case_proof as (DA & _ & H23 & DB & _ & _ & _ & _ & HN & HW & _ & RT & _ & _ & _ & _ & RE & _).
  split; [exact lg0_rec|]. split; [exact C1|]. split; [exact DA|]. split; [exact H23|]. split; [exact DB|]. split; [exact C2|]. split; [exact C3|]. split; [exact C4|].
  split; [exact HN|]. split; [exact HW|]. split; [cbn; lia|]. split; [exact RE|]. split; [exact CG|]. split; [exact CB|]. split; [exact CS|]. split; [exact CO|]. split; [exact CX|]. split; [exact CW|].
  split. { apply Forall_cons; [|apply Forall_nil]. split; [reflexivity|]. change (val fzero) with 0. rewrite Rabs_R0. lra. }
  split; [exact (all_trees_enumerate 2)|]. split; [exact CI|]. split; [exists q1; exact RT|].
  assert (R0 : row_error tb4 1 (4 * bp (-23)) 0 = 84 * (4 * / 8388608)) by (unfold row_error; change (num_cols tb4) with 2%nat; change (bp (-23)) with (/ 8388608); cbn; lra).
  assert (L0 : logit_error 2 (bp (-10)) 72 <= 1 / 90 /\ 0 <= logit_error 2 (bp (-10)) 72).
  { unfold logit_error. change (bp (-10)) with (/ 1024). change (bp (-23)) with (/ 8388608). cbn [Nat.mul Nat.add INR]. lra. }
  rewrite R0. set (le := logit_error 2 (bp (-10)) 72) in *. cbn [INR].
  pose proof (exp_small (84 * (4 * / 8388608)) ltac:(lra)) as E1. pose proof (exp_small (2 * le * 1) ltac:(lra)) as E2.
  change (bp (-21)) with (/ 2097152). change (bp (-23)) with (/ 8388608). change (bp (-20)) with (/ 1048576). lra.
Qed.
