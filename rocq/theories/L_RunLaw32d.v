(** The rows of an epoch of the float32 trainer, and their law. *)
From Coq Require Import List Arith Bool ZArith Reals Lra Lia Permutation.
From Flocq Require Import Core IEEE754.BinarySingleNaN.
From Verif Require Import Base L_Base Spec_Graph Spec_Sum L_Sum Spec_Ragged Spec_Trees M_Structure L_Pairing M_Array M_Util M_Rand L_Rand M_SampleTree Spec_Joint M_Training Spec_Stats L_Asg L_Stats L_Trainer Spec_Conditional L_AddRow L_Conditional
  Spec_Gibbs L_Gibbs Spec_Epoch L_Epoch L_Converge M_Float32 M_Train32 Spec_Float32 L_Float32 L_Train32e L_Train32f L_Train32h Spec_Law Spec_TrainLaw L_Law2 L_TLaw6 L_Train M_Run32 Spec_Run32 L_Run32a Spec_RunLaw32 L_RunLaw32a L_RunLaw32b L_RunLaw32c.
Import ListNotations.
Open Scope R_scope.

Section Rows.
Variables (dot : list f32 -> list f32 -> f32) (ws : list nat) (tb : table) (RP : list R) (M : nat) (A : BinNums.Z) (c : nat) (etaD drift : R) (lg : R -> R).
Hypothesis D : dot_ok dot.
Hypothesis DA : dot_accurate (Z.of_nat M) etaD dot.
Hypothesis HED : bp (-23) <= etaD.
Hypothesis DB : drift_bound M A drift.
Hypothesis TK : table_ok ws tb.
Hypothesis ND : nonneg_data tb.
Hypothesis HM : (1 <= M <= 128)%nat.
Hypothesis HA : (1 <= A <= 16)%Z.
Hypothesis Hc : (1 <= c)%nat.
Hypothesis HAc : ((A + 9) * Z.of_nat c + A <= 69)%Z.
Hypothesis HN : ((Z.of_nat (num_rows tb) + 1) * Z.of_nat c < 2 ^ A)%Z.
Hypothesis HW : Forall (fun w => (Z.of_nat w <= 2 ^ A)%Z) ws.
Hypothesis AM : at_most c ws tb.
Notation V := (num_cols tb).
Notation N := (num_rows tb).
Hypothesis HL : (3 * A + 2 * ((A + 9) * Z.of_nat c) + (A + 8) * Z.of_nat (V - 1) + 12 <= 126)%Z.
Hypothesis SM : row_error tb c etaD drift <= 1 / 4.
Hypothesis LPR : length RP = tri V.
Variable TT : list (list edge).
Notation gf := (fun T A s => gfull ws tb M (with_tree tb T) A s).
Notation "'mats'" := (matrices N V M).
Variable St : list edge -> list (list nat) -> tstate.
Hypothesis SG : forall T A, In T TT -> In A mats -> gf T A (St T A).

Notation reach := (reachable32 dot tb RP M).
Notation e1 := (exp (row_error tb c etaD drift) - 1 + INR V * (INR M * bp (-21))).

Lemma HM1 : (1 <= M)%nat. Proof. clear - HM. lia. Qed.

Lemma reach_inv t : reach t -> inv32 ws tb M t.
Proof.
  intros RT. assert (Hc' : (1 <= Z.of_nat c)%Z) by (clear - Hc; lia).
  apply (reachable_inv treecat_add_cell32 dot ws tb RP M A (-1 - (A + 9) * Z.of_nat c) (A + 7 * Z.of_nat c) D TK HM HA); auto.
  - clear - HN Hc. nia.
  - exact (lo_ok ws tb M A (Z.of_nat c) HM HA Hc' HAc HN AM).
  - exact (cell_good_old ws tb M A (Z.of_nat c) TK ND HM HA Hc' HAc HN HW AM).
Qed.

Definition row_step (t : trainer32) (n : nat) : gprog trainer32 :=
  gbind (unless_raised32 (glift (remove_row32 tb M t n))) (fun t => unless_raised32 (of_f (add_row32 dot tb M t n))).

Lemma drawn_in_split n Zs a : NoDup Zs -> (if drawn_in tb n Zs a then 1 else 0) = sumf Zs (fun z => if drawn tb n z a then 1 else 0).
Proof.
  intros NZ. unfold drawn_in, drawn. set (l := classes_of tb (t_state (fst a)) n). clearbody l. clear - NZ.
  induction NZ as [|X Xs NI NZ IH]; [reflexivity|]. rewrite sumf_cons, <- IH.
  destruct (in_dec _ l (X :: Xs)) as [I1|I1], (list_eq_dec _ l X) as [->|N1], (in_dec _ _ Xs) as [I2|I2]; try lra; try (exfalso; cbn in I1; tauto).
  - destruct I1 as [<-|I1]; tauto.
Qed.

Lemma row_law T B t n G g : In T TT -> gf T B (t_state t) -> reach t -> (n < N)%nat ->
  (forall t' C, reach t' -> gf T C (t_state t') -> G t' = g C) -> (forall C, In C mats -> 0 <= g C <= 1) ->
  gok (fun t' => reach t' /\ exists C, gf T C (t_state t')) (row_step t n) /\
  Rabs (gexpect (row_step t n) G - sumf mats (fun C => gk tb M St T n B C * g C)) <= e1.
Proof.
  intros IT GF RT Hn HG Hg. pose proof (gfull_added ws tb M HM1 _ _ _ _ GF Hn) as I. assert (IB : In B mats) by (refine (gfull_in ws tb M HM1 (with_tree tb T) B (t_state t) GF)).
  pose proof GF as (TI & EqT & LenA & CB).
  destruct (gibbs_law ws tb M TK HM1 ND (t_state t) n B TI I) as (s0 & ER & T0 & PA & EA & ETr & _).
  destruct (remove_row32 tb M t n) as [[t0 x0]|e] eqn:ER32; [|unfold remove_row32 in ER32; rewrite ER in ER32; discriminate].
  assert (RT0 : reach t0) by (eapply r32_remove; [exact RT|exact Hn|exact ER32]).
  assert (ES0 : t_state t0 = s0 /\ x0 = None) by (unfold remove_row32 in ER32; rewrite ER in ER32; cbn [bind] in ER32; inversion ER32; auto).
  destruct ES0 as (ES0 & ->).
  assert (ERS : row_step t n = unless_raised32 (of_f (add_row32 dot tb M t0 n))) by (unfold row_step; rewrite ER32; reflexivity). rewrite ERS.
  assert (NI : ~ In n (s_added (t_state t0))).
  { rewrite ES0. intro C. destruct (fs_rows _ _ _ _ (ti_fs _ _ _ _ TI)) as (NDa & _). apply (Permutation_NoDup PA) in NDa. now inversion NDa. }
  pose proof (add_row_more dot ws tb M A c TK ND HM HA Hc HAc HN HW AM t0 n D (reach_inv t0 RT0) Hn NI) as US.
  pose proof (gok_of_f _ _ US) as GK.
  set (p := add_row32 dot tb M t0 n) in *.
  set (Q := fun a : trainer32 * option exn => snd a = None /\ reach (fst a) /\ gf T (upd B n (classes_of tb (t_state (fst a)) n)) (t_state (fst a)) /\ In (classes_of tb (t_state (fst a)) n) (vectors V M)).
  assert (GQ : gok Q (of_f p)).
  { eapply gok_mono; [|exact GK]. intros [t' x] ((-> & I' & EAd & ET' & z & Hz & EAs) & us & HU & ERn). split; [reflexivity|]. cbn [fst snd].
    split; [eapply r32_add; [exact RT0|exact Hn|exact HU|exact ERn]|].
    assert (CL : classes_of tb (t_state t') n = map z (seq 0 V)) by (unfold classes_of; rewrite EAs; apply map_ext; intros v; unfold set1; now rewrite Nat.eqb_refl).
    assert (CV : In (classes_of tb (t_state t') n) (vectors V M)).
    { rewrite CL. apply in_vectors. rewrite map_length, seq_length. split; [reflexivity|]. intros m J. apply in_map_iff in J. destruct J as (v & <- & J). apply in_seq in J. apply Hz. lia. }
    split; [|exact CV]. split; [apply I'|]. split; [rewrite ET', ES0, ETr; exact EqT|]. split.
    - rewrite EAd, ES0. rewrite ES0 in NI. rewrite (Permutation_length (set_add_perm _ _ NI)). rewrite <- LenA, (Permutation_length PA). reflexivity.
    - rewrite (class_matrix_set tb (t_state t0) (t_state t') n z Hn EAs), CL. f_equal. rewrite <- CB. unfold class_matrix, classes_of. rewrite ES0, EA. reflexivity. }
  split.
  { unfold unless_raised32. apply gok_bind. eapply gok_mono; [|exact GQ]. intros [t' x] (E & R' & GC & _). cbn [fst snd] in *. subst x. cbn [gok]. split; [exact R'|eauto]. }
  unfold unless_raised32. rewrite gexpect_bind.
  rewrite (gexpect_same Q (of_f p) _ (fun a => sumf (vectors V M) (fun z => g (upd B n z) * (if drawn tb n z a then 1 else 0))) GQ).
  2:{ intros [t' x] (E & R' & GC & CV). cbn [fst snd] in *. subst x. cbn [gexpect]. rewrite (HG t' _ R' GC).
      rewrite (sumf_single _ _ (classes_of tb (t_state t') n)).
      - unfold drawn. cbn [fst]. destruct (list_eq_dec _ _ _); [ring|congruence].
      - apply vectors_NoDup.
      - exact CV.
      - intros z _ NE. unfold drawn. cbn [fst]. destruct (list_eq_dec _ _ _); [congruence|ring]. }
  rewrite gexpect_sum.
  rewrite (sumf_ext (vectors V M) _ (fun z => gprob (of_f p) (drawn tb n z) * g (upd B n z))) by (intros z _; rewrite gexpect_scal; unfold gprob; ring).
  set (w := conditional_weight ws tb M s0 n).
  assert (EK : sumf mats (fun C => gk tb M St T n B C * g C) = sumf (vectors V M) (fun z => w z / sumf (vectors V M) w * g (upd B n z))).
  { rewrite (sumf_ext mats _ (fun C => sumf (vectors V M) (fun z => w z / sumf (vectors V M) w * (if matrix_eqb (upd B n z) C then 1 else 0) * g C))).
    - rewrite sumf_swap. apply sumf_ext. intros z Hz. rewrite (sumf_single _ _ (upd B n z)).
      + rewrite (proj2 (matrix_eqb_eq _ _) eq_refl). ring.
      + apply matrices_NoDup.
      + now apply (upd_mats tb RP M HM1 LPR).
      + intros C _ NE. destruct (matrix_eqb _ C) eqn:E; [apply matrix_eqb_eq in E; congruence|ring].
    - intros C _. rewrite sumf_scal_r. f_equal. unfold gk. rewrite (gibbs_same lg ws tb M TK HM1 ND _ B (St T B) (t_state t) n C (SG T B IT IB) GF Hn).
      destruct (gibbs_law ws tb M TK HM1 ND (t_state t) n C TI I) as (s1 & ER1 & _ & _ & _ & _ & LAW). rewrite ER in ER1. inversion ER1; subst s1. rewrite LAW, CB. reflexivity. }
  rewrite EK. apply sets_to_functions.
  - apply vectors_NoDup.
  - intros Zs NZ IZ.
    assert (E1 : sumf Zs (fun z => gprob (of_f p) (drawn tb n z)) = run_prob V p (drawn_in tb n Zs)).
    { pose proof (add_row_shape dot ws tb M t0 n (proj1 (reach_inv t0 RT0))) as SH. rewrite <- (gprob_of_f _ M _ _ US V SH). unfold gprob. rewrite <- gexpect_sum.
      apply (gexpect_same Q); [exact GQ|]. intros a _. symmetry. now apply drawn_in_split. }
    rewrite E1. unfold w. rewrite <- ES0.
    apply (reachable_law_generator dot ws tb RP M (V - 1) A c ((A + 9) * Z.of_nat c) etaD drift t0 n); auto.
    + clear - HA Hc. nia.
    + exact (few_neighbours ws tb M A c HM HA Hc _ (proj1 (reach_inv t0 RT0))).
    + intros v m Hv Hm. apply (polya_low ws tb M A c TK ND HM HA Hc HN HW AM); auto. apply (proj1 (reach_inv t0 RT0)).
  - intros z Hz. apply Hg. now apply (upd_mats tb RP M HM1 LPR).
Qed.

Lemma gk_mass T n B : In T TT -> In B mats -> (n < N)%nat -> sumf mats (fun C => gk tb M St T n B C) = 1.
Proof.
  intros IT IB Hn. destruct (gk_form ws tb M TK HM1 ND TT St SG T n B B IT IB Hn) as (w0 & _).
  pose proof (SG T B IT IB) as GF. pose proof (gfull_added ws tb M HM1 _ _ _ _ GF Hn) as I. pose proof GF as (TI & EqT & LenA & CB).
  destruct (gibbs_law ws tb M TK HM1 ND (St T B) n B TI I) as (s0 & ER & T0 & _). clear w0.
  pose proof (vectors_sum_pos tb RP M HM1 LPR (conditional_weight ws tb M s0 n)) as WP.
  set (w := conditional_weight ws tb M s0 n) in *. set (W := sumf (vectors V M) w) in *.
  assert (W0 : 0 < W) by (apply WP; intros z Hz; now apply cond_weight_pos).
  rewrite (sumf_ext mats _ (fun C => sumf (vectors V M) (fun z => w z / W * (if matrix_eqb (upd B n z) C then 1 else 0)))).
  - rewrite sumf_swap. rewrite (sumf_ext _ _ (fun z => w z / W)).
    + rewrite sumf_div. fold W. field. lra.
    + intros z Hz. rewrite (sumf_single _ _ (upd B n z)).
      * rewrite (proj2 (matrix_eqb_eq _ _) eq_refl). ring.
      * apply matrices_NoDup.
      * now apply (upd_mats tb RP M HM1 LPR).
      * intros C _ NE. destruct (matrix_eqb _ C) eqn:E; [apply matrix_eqb_eq in E; congruence|ring].
  - intros C _. unfold gk. destruct (gibbs_law ws tb M TK HM1 ND (St T B) n C TI I) as (s1 & ER1 & _ & _ & _ & _ & LAW). rewrite ER in ER1. inversion ER1; subst s1. rewrite LAW, CB. reflexivity.
Qed.

(** A sweep. *)
Lemma sk_mass T rows : In T TT -> (forall n, In n rows -> (n < N)%nat) -> forall B, In B mats -> sumf mats (fun C => sk tb M St T rows B C) = 1.
Proof.
  intros IT. induction rows as [|n rows IH]; intros HR B IB; cbn [sk].
  - rewrite (sumf_single _ _ B); [rewrite (proj2 (matrix_eqb_eq _ _) eq_refl); reflexivity|apply matrices_NoDup|exact IB|].
    intros C _ NE. destruct (matrix_eqb B C) eqn:E; [apply matrix_eqb_eq in E; congruence|reflexivity].
  - rewrite sumf_swap. rewrite (sumf_ext _ _ (fun C => gk tb M St T n B C)); [apply gk_mass; auto; apply HR; now left|].
    intros C IC. rewrite sumf_scal. rewrite IH; [ring| |exact IC]. intros; apply HR; now right.
Qed.

Lemma sk_between T rows B g : In T TT -> (forall n, In n rows -> (n < N)%nat) -> In B mats -> (forall C, In C mats -> 0 <= g C <= 1) ->
  0 <= sumf mats (fun C => sk tb M St T rows B C * g C) <= 1.
Proof.
  intros IT HR IB Hg. assert (NN : forall C, 0 <= sk tb M St T rows B C) by (intros C; apply (sk_nonneg ws tb RP M TK HM1 ND LPR TT St SG); auto). split.
  - apply sumf_nonneg. intros C IC. apply Rmult_le_pos; [apply NN|now apply Hg].
  - rewrite <- (sk_mass T rows IT HR B IB). apply sumf_le. intros C IC. specialize (NN C). destruct (Hg C IC). nra.
Qed.

Lemma sweep_law T rows G g : In T TT -> (forall n, In n rows -> (n < N)%nat) ->
  (forall t' C, reach t' -> gf T C (t_state t') -> G t' = g C) -> (forall C, In C mats -> 0 <= g C <= 1) ->
  forall t B, gf T B (t_state t) -> reach t ->
  gok (fun t' => reach t' /\ exists C, gf T C (t_state t')) (gfold row_step rows t) /\
  Rabs (gexpect (gfold row_step rows t) G - sumf mats (fun C => sk tb M St T rows B C * g C)) <= INR (length rows) * e1.
Proof.
  intros IT. induction rows as [|n rows IH]; intros HR HG Hg t B GF RT.
  - cbn [gfold gok gexpect length INR]. split; [eauto|]. rewrite (HG t B RT GF). cbn [sk].
    rewrite (sumf_single _ _ B).
    + rewrite (proj2 (matrix_eqb_eq _ _) eq_refl). cbn [ind]. rewrite Rmult_1_l, Rminus_eq_0, Rabs_R0. lra.
    + apply matrices_NoDup.
    + refine (gfull_in ws tb M HM1 (with_tree tb T) B (t_state t) GF).
    + intros C _ NE. destruct (matrix_eqb B C) eqn:E; [apply matrix_eqb_eq in E; congruence|]. cbn. ring.
  - assert (Hn : (n < N)%nat) by (apply HR; now left). assert (HR' : forall k, In k rows -> (k < N)%nat) by (intros; apply HR; now right).
    specialize (IH HR' HG Hg). cbn [gfold].
    set (g' := fun C => sumf mats (fun E => sk tb M St T rows C E * g E)).
    destruct (row_law T B t n (fun t' => g' (class_matrix tb (t_state t'))) g' IT GF RT Hn) as (GK & LAW).
    { intros t' C _ (_ & _ & _ & <-). reflexivity. }
    { intros C IC. now apply sk_between. }
    split.
    + apply gok_bind. eapply gok_mono; [|exact GK]. intros t' (R' & C & GC). apply (IH t' C GC R').
    + rewrite gexpect_bind. cbn [sk].
      assert (EQ : sumf mats (fun C => sumf mats (fun E => gk tb M St T n B E * sk tb M St T rows E C) * g C) = sumf mats (fun E => gk tb M St T n B E * g' E)).
      { rewrite (sumf_ext mats _ (fun C => sumf mats (fun E => gk tb M St T n B E * sk tb M St T rows E C * g C))) by (intros; now rewrite <- sumf_scal_r).
        rewrite sumf_swap. apply sumf_ext. intros E _. unfold g'. rewrite <- sumf_scal. apply sumf_ext. intros C _. ring. }
      rewrite EQ. pose proof (gexpect_near _ (row_step t n) (fun t' => gexpect (gfold row_step rows t') G) (fun t' => g' (class_matrix tb (t_state t'))) (INR (length rows) * e1) GK) as NR.
      assert (NR' : Rabs (gexpect (row_step t n) (fun t' => gexpect (gfold row_step rows t') G) - gexpect (row_step t n) (fun t' => g' (class_matrix tb (t_state t')))) <= INR (length rows) * e1).
      { apply NR. intros t' (R' & C & GC). assert (EC : class_matrix tb (t_state t') = C) by apply GC. rewrite EC. apply (IH t' C GC R'). }
      cbn [length]. rewrite S_INR.
      match goal with |- Rabs (?x - ?z) <= _ => match type of NR' with Rabs (_ - ?y) <= _ => replace (x - z) with ((x - y) + (y - z)) by ring end end.
      eapply Rle_trans; [apply Rabs_triang|]. lra.
Qed.
End Rows.
