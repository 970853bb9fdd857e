(** Epochs leave the joint posterior of trees and classes invariant. *)
From Coq Require Import List Arith Bool ZArith Reals Lia Lra Permutation Sorted.
From Verif Require Import Base L_Base Spec_Graph L_Graph Spec_Sum L_Sum Spec_Trees Spec_Ragged M_Structure L_Pairing L_Prop1 L_MakeTree M_Util
  M_Rand L_Rand M_SampleTree L_SampleTree L_TreeMCMC L_AllTrees M_Array M_Training Spec_Joint Spec_Stats L_Asg L_Stats L_Trainer
  Spec_Conditional L_AddRow L_Conditional Spec_EdgeLogits L_EdgeLogits Spec_Gibbs L_Gibbs L_Train Spec_Epoch.
Import ListNotations.
Open Scope R_scope.

(** ** sample_tree only returns listed trees *)
Lemma sample_tree_expect_ext V logits TT T f g : enumerates_trees V TT -> (1 <= V)%nat -> length logits = tri V -> In T TT ->
  (forall T', In T' TT -> f (Ok T') = g (Ok T')) ->
  expect (sample_tree (complete_grid V) logits T) f = expect (sample_tree (complete_grid V) logits T) g.
Proof.
  intros [ND SP] HV LL I FG. pose proof (proj1 (SP T) I) as (T1 & LT & ST).
  assert (SP' : forall T, In T TT <-> canonical V T).
  { intros. rewrite SP. unfold canonical_tree, canonical, labelled. tauto. }
  destruct (le_lt_dec 2 (length T)) as [H2|H2].
  - rewrite !(sample_tree_expect V logits); auto; [|split; auto|split; auto].
    f_equal. unfold Kbar. apply sumf_ext. intros s Is. apply perms_Permutation in Is.
    assert (KE : forall order g g' l, labelled V l -> (forall e, In e order -> (e < length l)%nat) ->
      (forall l, labelled V l -> g l = g' l) -> Ksweep V logits order g l = Ksweep V logits order g' l).
    { induction order; intros g0 g' l LB HO GG; simpl; auto. unfold Kstep. destruct (Req_EM_T _ _).
      - apply IHorder; auto. intros; apply HO; now right.
      - apply sumf_ext. intros p J. f_equal. apply IHorder; auto.
        + apply labelled_move; auto. apply HO; now left.
        + intros. rewrite upd_length. apply HO; now right. }
    apply KE.
    + split; auto.
    + intros e J. apply (Permutation_in _ Is) in J. apply in_seq in J. lia.
    + intros l LB. apply FG. apply SP'. split; [|apply pair_sort_sorted].
      eapply labelled_perm; [|eauto]. symmetry. apply pair_sort_perm.
  - unfold sample_tree. destruct (Nat.leb_spec (length T) 1); [|lia]. cbn [expect]. now apply FG.
Qed.

Lemma canonical_edges V T : canonical_tree V T -> ts_get_edges (TS V (make_tree T)) = T.
Proof.
  intros (_ & LT & ST). change (grid_edges (make_tree T) = T). rewrite make_tree_edges.
  assert (E : map norm T = T).
  { rewrite <- (map_id T) at 2. apply map_ext_in. intros [x y] I. pose proof (LT _ _ I). unfold norm. cbn [fst snd]. f_equal; lia. }
  rewrite E. now apply pair_sort_id.
Qed.

Lemma nth_edge_list (l : list edge) e p q : In (e, (p, q)) (combine (seq 0 (length l)) l) -> nth_error l e = Some (p, q).
Proof.
  intros I. apply L_Estimate.In_combine_nth in I. destruct I as (k & K1 & K2).
  assert (k = e). { apply nth_error_nth with (d := 0%nat) in K1 as K3. rewrite seq_nth in K3; [lia|]. rewrite <- (seq_length (length l) 0). apply nth_error_Some. congruence. }
  subst; auto.
Qed.

Lemma combine_sumf (l : list edge) (f : edge -> R) : forall b, sumf (combine (seq b (length l)) l) (fun '(_, p) => f p) = sumf l f.
Proof. induction l as [|a l IH]; intros b; [reflexivity|]. cbn [length seq combine]. rewrite !sumf_cons, IH. reflexivity. Qed.

Section Epoch.
Variable lg : R -> R.
Hypothesis REC : forall x, 0 < x -> lg (x + 1) = lg x + ln x.
Variables (ws : list nat) (tb : table) (prior : list R) (M : nat).
Hypothesis TK : table_ok ws tb.
Hypothesis HM : (1 <= M)%nat.
Hypothesis ND : nonneg_data tb.
Notation V := (num_cols tb).
Notation N := (num_rows tb).
Hypothesis LP : length prior = tri V.
Variable TT : list (list edge).
Hypothesis ET : enumerates_trees V TT.
Notation gf := (fun T A s => gfull ws tb M (with_tree tb T) A s).
Notation "'mats'" := (matrices N V M).

Lemma TT_canonical T : In T TT -> canonical_tree V T.
Proof. apply ET. Qed.

Lemma TT_V T : In T TT -> (1 <= V)%nat.
Proof. intros I. destruct (TT_canonical T I) as ((H & _) & _). lia. Qed.

Lemma gf_counts T A s v m : gf T A s -> (v < V)%nat -> (m < M)%nat -> s_vert s v m = class_count s v m.
Proof. intros (TI & _) Hv Hm. now apply (fs_vert _ _ _ _ (ti_fs _ _ _ _ TI)). Qed.

Lemma tree_form T A s : In T TT -> gf T A s ->
  Lform lg tb M s = sumf (seq 0 V) (Lvert lg M s) + sumf T (fun '(a, b) => edge_score lg M s a b) + sumf (seq 0 V) (Lfeat lg ws tb M s).
Proof.
  intros IT GF. pose proof GF as GF0. destruct GF as (TI & ETs & _). pose proof (TT_canonical T IT) as CT.
  pose proof (ti_fs _ _ _ _ TI) as FS. destruct CT as ((LE & RG & _) & CT2). assert (CT : canonical_tree V T) by now apply TT_canonical.
  rewrite (Lform_eq lg ws tb M TK HM s TI). f_equal. f_equal. unfold edge_list. rewrite ETs. unfold with_tree. rewrite (canonical_edges V T CT).
  rewrite <- (combine_sumf T _ 0). apply sumf_ext. intros [e [p q]] I. pose proof (in_combine_r _ _ _ _ I) as I2. destruct (RG _ _ I2) as (R1 & R2).
  apply nth_edge_list in I. assert (EN : nth_error (ts_get_edges (s_tree s)) e = Some (p, q)).
  { rewrite ETs. unfold with_tree. now rewrite (canonical_edges V T CT). }
  unfold edge_score, Ledge, Lvert. f_equal; [f_equal|].
  - apply sumf_ext. intros m1 H1. apply sumf_ext. intros m2 H2. apply in_seq in H1, H2. rewrite (fs_edge _ _ _ _ FS _ _ _ _ _ EN) by lia. reflexivity.
  - apply sumf_ext. intros m H1. apply in_seq in H1. rewrite (gf_counts T A) by (auto; lia). reflexivity.
  - apply sumf_ext. intros m H1. apply in_seq in H1. rewrite (gf_counts T A) by (auto; lia). reflexivity.
Qed.

Lemma same_asg T1 T2 A s1 s2 : gf T1 A s1 -> gf T2 A s2 ->
  Permutation (s_added s1) (s_added s2) /\ forall n v, In n (s_added s1) -> (v < V)%nat -> s_asg s1 n v = s_asg s2 n v.
Proof.
  intros (TI1 & _ & L1 & C1) (TI2 & _ & L2 & C2). split.
  - rewrite (all_added ws tb M HM s1 TI1 L1). symmetry. apply (all_added ws tb M HM s2 TI2 L2).
  - intros n v I Hv. assert (Hn : (n < N)%nat) by (apply (fs_rows _ _ _ _ (ti_fs _ _ _ _ TI1)), I).
    rewrite <- (class_matrix_nth tb s1), <- (class_matrix_nth tb s2) by auto. congruence.
Qed.

Lemma same_counts T1 T2 A s1 s2 : gf T1 A s1 -> gf T2 A s2 ->
  (forall v, (v < V)%nat -> Lvert lg M s1 v = Lvert lg M s2 v) /\
  (forall v, (v < V)%nat -> Lfeat lg ws tb M s1 v = Lfeat lg ws tb M s2 v) /\
  (forall a b, (a < V)%nat -> (b < V)%nat -> edge_score lg M s1 a b = edge_score lg M s2 a b).
Proof.
  intros G1 G2. destruct (same_asg T1 T2 A s1 s2 G1 G2) as (PA & EA).
  pose proof (ti_fs _ _ _ _ (proj1 G1)) as F1. pose proof (ti_fs _ _ _ _ (proj1 G2)) as F2.
  assert (CC : forall v m, (v < V)%nat -> class_count s1 v m = class_count s2 v m).
  { intros v m Hv. unfold class_count. rewrite <- (total_perm _ _ _ PA). apply total_ext. intros n I. now rewrite EA. }
  split; [|split].
  - intros v Hv. unfold Lvert. apply sumf_ext. intros m Hm. apply in_seq in Hm.
    rewrite (gf_counts T1 A s1), (gf_counts T2 A s2), CC by (auto; lia). reflexivity.
  - intros v Hv. unfold Lfeat. f_equal.
    + apply sumf_ext. intros r Hr. apply sumf_ext. intros m Hm. apply in_seq in Hm.
      apply (block_owns ws tb M TK HM) in Hr; auto.
      rewrite (fs_feat _ _ _ _ F1 v), (fs_feat _ _ _ _ F2 v), <- (total_perm _ _ _ PA) by (auto; lia).
      do 3 f_equal. apply total_ext. intros n I. now rewrite EA.
    + apply sumf_ext. intros m Hm. apply in_seq in Hm.
      rewrite (fs_meas _ _ _ _ F1 v), (fs_meas _ _ _ _ F2 v), <- (total_perm _ _ _ PA) by (auto; lia).
      do 3 f_equal. apply total_ext. intros n I. now rewrite EA.
  - intros a b Ha Hb. unfold edge_score. f_equal; [f_equal|].
    + apply sumf_ext. intros m1 _. apply sumf_ext. intros m2 _. do 3 f_equal. unfold pair_count.
      rewrite <- (total_perm _ _ _ PA). apply total_ext. intros n I. now rewrite !EA.
    + apply sumf_ext. intros m _. now rewrite CC.
    + apply sumf_ext. intros m _. now rewrite CC.
Qed.

(** ** The logits only depend on the classes *)
Lemma gf_logits T A s : gf T A s -> exists l, compute_edge_logits lg tb prior M s = Ok l /\ length l = tri V /\
  forall a b, (a < b)%nat -> (b < V)%nat -> nth_error l (find_complete_edge a b) = Some (edge_score lg M s a b + nth (find_complete_edge a b) prior 0).
Proof. intros (TI & _ & L & _). now apply (final_logits ws tb prior M lg HM LP). Qed.

Lemma same_logits T1 T2 A s1 s2 : gf T1 A s1 -> gf T2 A s2 ->
  compute_edge_logits lg tb prior M s1 = compute_edge_logits lg tb prior M s2.
Proof.
  intros G1 G2. destruct (gf_logits T1 A s1 G1) as (l1 & -> & L1 & H1). destruct (gf_logits T2 A s2 G2) as (l2 & -> & L2 & H2).
  destruct (same_counts T1 T2 A s1 s2 G1 G2) as (_ & _ & SE). f_equal.
  apply nth_error_ext. intros k. destruct (le_lt_dec (tri V) k) as [GE|Hk]; [rewrite !(proj2 (nth_error_None _ k)) by lia; reflexivity|].
  destruct (nth_error (complete_grid V) k) as [[[k' a] b]|] eqn:EN.
  - apply complete_grid_nth in EN. destruct EN as (_ & Hab & Hb & HK). rewrite <- HK. rewrite H1, H2 by auto. rewrite SE by lia. reflexivity.
  - apply nth_error_None in EN. rewrite complete_grid_length in EN. lia.
Qed.

(** ** Resampling the tree *)
Lemma resample_expect T A s l G g : In T TT -> gf T A s -> compute_edge_logits lg tb prior M s = Ok l ->
  (forall s' T', In T' TT -> gf T' A s' -> G (Ok s') = g T') ->
  expect (resample_tree lg tb prior M s) G =
  expect (sample_tree (complete_grid V) (map Some l) T) (fun r => match r with Ok T' => g T' | Raise _ => 0 end).
Proof.
  intros IT GF EL HG. destruct (gf_logits T A s GF) as (l' & E' & LL & _). rewrite EL in E'. inversion E'; subst l'.
  pose proof GF as (TI & ETs & LA & CA). destruct (tinv_tree ws tb M s TI) as (EV & _).
  unfold resample_tree, trainer_sample_tree. rewrite EV, make_complete_graph_Ok, EL. cbn [lift rbind].
  rewrite LL, complete_grid_length, Nat.eqb_refl. cbn [assert_ lift rbind].
  rewrite ETs. unfold with_tree. rewrite (canonical_edges V T (TT_canonical T IT)).
  rewrite expect_bind. apply (sample_tree_expect_ext V _ TT); auto.
  - eapply TT_V; eauto.
  - now rewrite map_length.
  - intros T' IT'. destruct (set_edges_Ok ws tb M HM s T' TI) as (s' & ES & TI' & EA & EG & ET').
    + apply TT_canonical, IT'.
    + rewrite ES. cbn [unless_raised lift rbind expect]. apply HG; [exact IT'|].
      split; [exact TI'|]. split; [exact ET'|]. split; [now rewrite EA|]. unfold class_matrix, classes_of. rewrite EG. exact CA.
Qed.

(** ** One epoch *)
Variable St : list edge -> list (list nat) -> tstate.
Hypothesis SG : forall T A, In T TT -> In A mats -> gf T A (St T A).

Definition joint (T : list edge) (A : list (list nat)) : R := exp (Lform lg tb M (St T A) + tree_prior_mass prior T).

Lemma joint_factor A : In A mats -> exists c l, length l = tri V /\
  (forall T, In T TT -> compute_edge_logits lg tb prior M (St T A) = Ok l) /\
  forall T, In T TT -> joint T A = c * L_TreeMCMC.mass (map Some l) T.
Proof.
  intros IA. destruct TT as [|T0 TT'] eqn:ETT.
  { exists 0, (repeat 0 (tri V)). split; [apply repeat_length|]. split; intros T []. }
  rewrite <- ETT in *. assert (I0 : In T0 TT) by (rewrite ETT; now left).
  pose proof (SG T0 A I0 IA) as G0. destruct (gf_logits T0 A _ G0) as (l & EL & LL & HL). set (s0 := St T0 A) in *.
  exists (exp (sumf (seq 0 V) (Lvert lg M s0) + sumf (seq 0 V) (Lfeat lg ws tb M s0))), l.
  split; [exact LL|]. split.
  - intros T IT. rewrite <- EL. apply (same_logits T T0 A); auto.
  - intros T IT. pose proof (SG T A IT IA) as G1. unfold joint. rewrite (tree_form T A) by auto.
    destruct (same_counts T T0 A _ _ G1 G0) as (SV & SF & SE). fold s0 in SV, SF, SE.
    rewrite (sumf_ext (seq 0 V) (Lvert lg M (St T A)) (Lvert lg M s0)) by (intros v Hv; apply in_seq in Hv; apply SV; lia).
    rewrite (sumf_ext (seq 0 V) (Lfeat lg ws tb M (St T A)) (Lfeat lg ws tb M s0)) by (intros v Hv; apply in_seq in Hv; apply SF; lia).
    rewrite mass_tree_mass. unfold tree_mass.
    destruct (TT_canonical T IT) as ((_ & RG & _) & LT & _).
    rewrite (prodf_ext T _ (fun p => exp ((fun '(a, b) => edge_score lg M (St T A) a b) p + (fun '(x, y) => nth (find_complete_edge x y) prior 0) p))).
    + rewrite prodf_exp, sumf_plus. fold (tree_prior_mass prior T). rewrite <- exp_plus. f_equal. lra.
    + intros [a b] I. destruct (RG _ _ I) as (Ra & Rb). pose proof (LT _ _ I) as Hab. cbn beta iota.
      rewrite SE by auto. pose proof (HL a b Hab Rb) as H. rewrite (nth_error_nth (map Some l) _ None (map_nth_error Some _ _ H)). reflexivity.
Qed.

Lemma epoch_expect G g : (forall s' T A, In T TT -> gf T A s' -> G (Ok s') = g T A) ->
  exists h, (forall s T A, In T TT -> gf T A s -> expect (full_epoch lg tb prior M s) G = h T A) /\
  sumf TT (fun T => sumf mats (fun A => joint T A * h T A)) = sumf TT (fun T => sumf mats (fun A => joint T A * g T A)).
Proof.
  intros HG. set (h1 := fun T A => expect (sweep tb M (St T A) (seq 0 N)) G).
  assert (SW : forall T, In T TT -> (forall s A, gf T A s -> expect (sweep tb M s (seq 0 N)) G = h1 T A) /\
  sumf mats (fun A => exp (Lform lg tb M (St T A)) * h1 T A) = sumf mats (fun A => exp (Lform lg tb M (St T A)) * g T A)).
  { intros T IT. destruct (sweep_expect lg REC ws tb M TK HM ND (with_tree tb T) (St T) (fun A IA => SG T A IT IA) (seq 0 N)
       ltac:(intros n Hn; apply in_seq in Hn; lia) G (g T) (fun s' B GB => HG s' T B IT GB)) as (h & H1 & H2).
    assert (EH : forall A, In A mats -> h1 T A = h A) by (intros A IA; apply H1, SG; auto).
    split.
    - intros s A GF. rewrite (H1 s A GF). symmetry. apply EH. eapply gfull_in; eauto.
    - rewrite <- H2. apply sumf_ext. intros A IA. now rewrite EH. }
  assert (EP : forall s T A l, In T TT -> gf T A s -> compute_edge_logits lg tb prior M s = Ok l ->
     expect (full_epoch lg tb prior M s) G =
     expect (sample_tree (complete_grid V) (map Some l) T) (fun r => match r with Ok T' => h1 T' A | Raise _ => 0 end)).
  { intros s T A l IT GF EL. unfold full_epoch. rewrite expect_bind.
    apply (resample_expect T A s l _ (fun T' => h1 T' A)); auto. intros s' T' IT' G'. now apply SW. }
  exists (fun T A => expect (full_epoch lg tb prior M (St T A)) G). split.
  - intros s T A IT GF. assert (IA : In A mats) by (eapply gfull_in; eauto).
    pose proof (SG T A IT IA) as G2. destruct (gf_logits T A s GF) as (l & EL & _).
    rewrite (EP s T A l), (EP (St T A) T A l); auto. rewrite <- EL. apply (same_logits T T A); auto.
  - transitivity (sumf TT (fun T => sumf mats (fun A => joint T A * h1 T A))).
    + rewrite (sumf_swap _ _ TT mats (fun T A => joint T A * expect (full_epoch lg tb prior M (St T A)) G)), (sumf_swap _ _ TT mats (fun T A => joint T A * h1 T A)).
      apply sumf_ext. intros A IA.
      destruct (joint_factor A IA) as (c & l & LL & EL & JF).
      rewrite (sumf_ext TT _ (fun T => c * (L_TreeMCMC.mass (map Some l) T *
         expect (sample_tree (complete_grid V) (map Some l) T) (fun r => match r with Ok T' => h1 T' A | Raise _ => 0 end)))).
      2: { intros T IT. rewrite (EP _ T A l), JF; auto. ring. }
      rewrite (sumf_ext TT (fun T => joint T A * h1 T A) (fun T => c * (L_TreeMCMC.mass (map Some l) T * h1 T A))).
      2: { intros T IT. rewrite JF by auto. ring. }
      rewrite !sumf_scal. f_equal.
      assert (NE : TT = [] \/ exists T0, In T0 TT) by (clear; destruct TT as [|T0 TT']; [now left|right; exists T0; now left]).
      destruct NE as [E0|(T0 & I0)]; [now rewrite E0|]. pose proof (TT_V T0 I0) as HV.
      apply (sample_tree_invariant V (map Some l) TT (proj1 ET)) with (f := fun r => match r with Ok T' => h1 T' A | Raise _ => 0 end); auto.
      * intros T. rewrite (proj2 ET). unfold canonical_tree, canonical, labelled. tauto.
      * now rewrite map_length.
    + apply sumf_ext. intros T IT. destruct (SW T IT) as (_ & H). unfold joint.
      rewrite (sumf_ext mats _ (fun A => exp (tree_prior_mass prior T) * (exp (Lform lg tb M (St T A)) * h1 T A))) by (intros; rewrite exp_plus; ring).
      rewrite (sumf_ext mats (fun A => _ * g T A) (fun A => exp (tree_prior_mass prior T) * (exp (Lform lg tb M (St T A)) * g T A))) by (intros; rewrite exp_plus; ring).
      rewrite !sumf_scal. now rewrite H.
Qed.

Lemma epochs_expect ks G g : (forall s' T A, In T TT -> gf T A s' -> G (Ok s') = g T A) ->
  exists h, (forall s T A, In T TT -> gf T A s -> expect (rfold (fun s (_ : nat) => full_epoch lg tb prior M s) ks s) G = h T A) /\
  sumf TT (fun T => sumf mats (fun A => joint T A * h T A)) = sumf TT (fun T => sumf mats (fun A => joint T A * g T A)).
Proof.
  intros HG. induction ks as [|k ks IH].
  - exists g. split; [|reflexivity]. intros s T A IT GF. cbn [rfold expect]. now apply HG.
  - destruct IH as (h & H1 & H2).
    destruct (epoch_expect (fun r => match r with Ok s => expect (rfold (fun s (_ : nat) => full_epoch lg tb prior M s) ks s) G | Raise e => G (Raise e) end) h) as (h' & H3 & H4).
    + intros s' T A IT GF. now apply H1.
    + exists h'. split; [|congruence]. intros s T A IT GF. cbn [rfold]. rewrite expect_bind. rewrite <- (H3 s T A IT GF).
      apply expect_ext. intros [s'|e]; reflexivity.
Qed.

Lemma is_at_gf T A T' A' s : In T TT -> gf T A s -> is_at tb T' A' s = (if edge_list_eq_dec T T' then true else false) && matrix_eqb A A'.
Proof.
  intros IT (_ & ETs & _ & CA). unfold is_at. rewrite ETs, CA. unfold with_tree. rewrite (canonical_edges V T (TT_canonical T IT)). reflexivity.
Qed.

Lemma epochs_invariant k T' A' : In T' TT -> In A' mats ->
  sumf TT (fun T => sumf mats (fun A => joint T A * prob (epochs lg tb prior M k (St T A)) (is_at tb T' A'))) = joint T' A'.
Proof.
  intros IT' IA'.
  destruct (epochs_expect (seq 0 k) (fun r => match r with Ok s => if is_at tb T' A' s then 1 else 0 | Raise _ => 0 end)
     (fun T A => if (if edge_list_eq_dec T T' then true else false) && matrix_eqb A A' then 1 else 0)) as (h & H1 & H2).
  - intros s' T A IT GF. now rewrite (is_at_gf T A).
  - rewrite (sumf_ext TT _ (fun T => sumf mats (fun A => joint T A * h T A))).
    2: { intros T IT. apply sumf_ext. intros A IA. f_equal. apply H1; auto. }
    rewrite H2. rewrite (sumf_single _ _ T').
    + rewrite (sumf_single _ _ A').
      * destruct (edge_list_eq_dec T' T'); [|congruence]. unfold matrix_eqb. destruct (list_eq_dec _ A' A'); [|congruence]. cbn [andb]. lra.
      * apply matrices_NoDup.
      * exact IA'.
      * intros A _ NE. unfold matrix_eqb. destruct (list_eq_dec _ A A'); [congruence|]. rewrite andb_false_r. lra.
    + apply ET.
    + exact IT'.
    + intros T _ NE. apply sumf_zero. intros A _. destruct (edge_list_eq_dec T T'); [congruence|]. cbn [andb]. lra.
Qed.
End Epoch.

Lemma C62_proof : forall lg, (forall x, 0 < x -> lg (x + 1) = lg x + ln x) ->
  forall ws tb prior M TT (St : list edge -> list (list nat) -> tstate) k, table_ok ws tb -> nonneg_data tb -> (1 <= M)%nat ->
  length prior = (num_cols tb * (num_cols tb - 1) / 2)%nat -> enumerates_trees (num_cols tb) TT ->
  (forall T A, In T TT -> In A (matrices (num_rows tb) (num_cols tb) M) -> full_state tb prior M (with_tree tb T) A (St T A)) ->
  exists lp, (forall T A, In T TT -> In A (matrices (num_rows tb) (num_cols tb) M) -> logprob lg tb M (St T A) = Ok (lp T A)) /\
  let mass T A := exp (lp T A + tree_prior_mass prior T) in
  forall T' A', In T' TT -> In A' (matrices (num_rows tb) (num_cols tb) M) ->
  sumf TT (fun T => sumf (matrices (num_rows tb) (num_cols tb) M) (fun A =>
    mass T A * prob (epochs lg tb prior M k (St T A)) (is_at tb T' A'))) = mass T' A'.
Proof.
  intros lg REC ws tb prior M TT St k TK ND HM LP ET FS.
  exists (fun T A => Lform lg tb M (St T A)). split.
  - intros T A IT IA. apply logprob_Ok. apply FS; auto.
  - cbv zeta. intros T' A' IT' IA'. apply (epochs_invariant lg REC ws tb prior M TK HM ND LP TT ET St); auto.
    intros T A IT IA. apply (full_gfull ws tb prior); auto.
Qed.
