(** Training always ends in a valid model. *)
From Coq Require Import List Arith Bool ZArith Reals Lia Lra Permutation QArith.
From Verif Require Import Base L_Base Spec_Graph Spec_Sum L_Sum Spec_Ragged M_Structure L_Pairing L_Prop1 L_MakeTree M_Util
  M_Rand L_Rand M_SampleTree L_AllTrees M_EstimateTree L_Estimate M_Schedule Spec_Schedule L_Schedule
  M_Array M_Training Spec_Joint Spec_Stats L_Asg L_Stats L_Trainer Spec_Conditional L_AddRow L_Conditional Spec_EdgeLogits L_EdgeLogits
  Spec_Model.
From Verif Require Spec_MST.
Import ListNotations.
Open Scope nat_scope.
Open Scope rprog_scope.

Lemma always_lift_Ok {A B} (P : B -> Prop) (a : A) (k : A -> rprog B) : always P (k a) -> always P (a' <~ lift (Ok a) ;; k a').
Proof. intros H. exact H. Qed.

Section Train.
Variables (ws : list nat) (tb : table) (prior : list R) (M : nat) (lg : R -> R).
Hypothesis TK : table_ok ws tb.
Hypothesis HM : 1 <= M.
Notation V := (num_cols tb).
Notation N := (num_rows tb).
Hypothesis LP : length prior = tri V.

Lemma unless_always p (P : tstate -> Prop) : always (fun '(s, x) => x = None /\ P s) p -> always P (unless_raised p).
Proof.
  intros H. unfold unless_raised. apply always_bind. eapply always_mono; [|exact H].
  intros [s x] (-> & HP). exact HP.
Qed.

Lemma tinv_tree s : tinv ws tb M s -> ts_V (s_tree s) = V /\ spanning_tree V (ts_get_edges (s_tree s)).
Proof. intros TI. apply (fs_tree _ _ _ _ (ti_fs _ _ _ _ TI)). Qed.

Lemma resample_always s : tinv ws tb M s ->
  always (fun s' => tinv ws tb M s' /\ s_added s' = s_added s /\ s_asg s' = s_asg s) (resample_tree lg tb prior M s).
Proof.
  intros TI. destruct (tinv_tree s TI) as (EV & ST). unfold resample_tree. apply always_bind.
  unfold trainer_sample_tree. rewrite EV, make_complete_graph_Ok. apply always_lift_Ok.
  destruct (logits_Ok ws tb prior M HM lg s TI LP) as (l & E & LL & _). rewrite E. apply always_lift_Ok.
  rewrite LL, complete_grid_length, Nat.eqb_refl. cbn [assert_]. apply always_lift_Ok.
  eapply always_mono; [|apply (C05_proof V (complete_grid V)); [apply make_complete_graph_Ok|exact ST|]].
  - intros T (HT & _). destruct (set_edges_Ok ws tb M HM s T TI HT) as (s' & E' & TI' & EA & EG & _).
    rewrite E'. apply unless_always. cbn [lift always]. auto.
  - now rewrite map_length, LL, complete_grid_length.
Qed.

Lemma add_always s n : tinv ws tb M s -> n < N -> ~ In n (s_added s) ->
  always (fun s' => tinv ws tb M s' /\ Permutation (s_added s') (n :: s_added s)) (unless_raised (add_row tb M s n)).
Proof.
  intros TI Hn NI. apply unless_always. eapply always_mono; [|apply (add_row_always ws tb M TK HM s n TI Hn NI)].
  intros [s' x] (-> & TI' & EA & _). split; [reflexivity|]. split; [exact TI'|]. rewrite EA. now apply set_add_perm.
Qed.

Lemma remove_always s n : tinv ws tb M s -> In n (s_added s) ->
  always (fun s' => tinv ws tb M s' /\ Permutation (s_added s) (n :: s_added s')) (unless_raised (lift (remove_row tb M s n))).
Proof.
  intros TI I. destruct (remove_row_Ok ws tb M TK HM s n TI I) as (s' & E & TI' & EA & _). rewrite E.
  apply unless_always. cbn [lift always]. split; [reflexivity|]. split; [exact TI'|]. rewrite EA. now apply set_remove_perm.
Qed.

Lemma actions_always acts : forall R R' s, replays N R acts R' -> tinv ws tb M s -> Permutation (s_added s) R ->
  always (fun s' => tinv ws tb M s' /\ Permutation (s_added s') R') (rfold (train_action lg tb prior M) acts s).
Proof.
  induction acts as [|a acts IH]; intros R R' s RP TI PA.
  - inversion RP; subst. cbn. auto.
  - cbn [rfold]. apply always_bind. inversion RP; subst; cbn [train_action].
    + eapply always_mono; [|apply add_always; auto].
      * intros s' (TI' & P'). eapply IH; eauto. rewrite P', PA. apply Permutation_cons_append.
      * intros I. apply (Permutation_in _ PA) in I. contradiction.
    + eapply always_mono; [|apply remove_always; auto].
      * intros s' (TI' & P'). eapply IH; eauto. apply (Permutation_cons_inv (a := r)). rewrite <- P', PA.
        symmetry. apply Permutation_middle.
      * apply (Permutation_in _ (Permutation_sym PA)). apply in_or_app. right. now left.
    + eapply always_mono; [|apply resample_always; auto].
      intros s' (TI' & EA & _). eapply IH; eauto. now rewrite EA.
Qed.

Lemma epoch_always s : tinv ws tb M s -> Permutation (s_added s) (seq 0 N) ->
  always (fun s' => tinv ws tb M s' /\ Permutation (s_added s') (seq 0 N)) (full_epoch lg tb prior M s).
Proof.
  intros TI PA. unfold full_epoch. apply always_bind. eapply always_mono; [|apply resample_always; auto].
  intros s1 (T1 & E1 & _). apply always_rfold; [split; [exact T1|now rewrite E1]|].
  - intros s2 n (T2 & P2) I. apply always_bind.
    eapply always_mono; [|apply remove_always; auto; apply (Permutation_in _ (Permutation_sym P2)); exact I].
    intros s3 (T3 & P3). assert (ND : NoDup (n :: s_added s3)).
    { apply (Permutation_NoDup P3). apply (Permutation_NoDup (Permutation_sym P2)). apply seq_NoDup. }
    inversion ND; subst. eapply always_mono; [|apply add_always; auto].
    + intros s4 (T4 & P4). split; [exact T4|]. now rewrite P4, <- P3.
    + apply in_seq in I. lia.
Qed.

Lemma sum_classes k : k < M -> total (seq 0 M) (fun m => one_if (k =? m)) = 1%Z.
Proof.
  intros Hk. rewrite (total_single _ k).
  - now rewrite Nat.eqb_refl.
  - apply seq_NoDup.
  - apply in_seq. lia.
  - intros m _ Hm. rewrite (proj2 (Nat.eqb_neq k m)); auto.
Qed.

Lemma full_valid s : tinv ws tb M s -> Permutation (s_added s) (seq 0 N) -> valid_model ws tb M s.
Proof.
  intros TI PA. pose proof (ti_fs _ _ _ _ TI) as FS. pose proof (ti_all _ _ _ _ TI) as AL.
  assert (ED : forall e v1 v2, nth_error (ts_get_edges (s_tree s)) e = Some (v1, v2) -> v1 < V /\ v2 < V).
  { intros e v1 v2 H. apply nth_error_In in H. destruct (tinv_tree s TI) as (_ & _ & RG & _). now apply RG. }
  constructor.
  - exact PA.
  - intros. now apply AL.
  - exact (fs_tree _ _ _ _ FS).
  - exact (fs_prog _ _ _ _ FS).
  - intros v Hv. rewrite (total_ext _ _ (fun m => total (s_added s) (fun n => one_if (s_asg s n v =? m)))).
    + rewrite total_swap. rewrite (total_ext _ _ (fun _ => 1%Z)).
      * rewrite total_const1, (Permutation_length PA), seq_length. reflexivity.
      * intros n _. apply sum_classes. now apply AL.
    + intros m I. apply in_seq in I. apply (fs_vert _ _ _ _ FS); auto; lia.
  - intros e v1 v2 m H Hm. destruct (ED e v1 v2 H) as (H1 & H2). split.
    + rewrite (total_ext _ _ (fun m2 => total (s_added s) (fun n => one_if ((s_asg s n v1 =? m) && (s_asg s n v2 =? m2))))).
      * rewrite total_swap, (fs_vert _ _ _ _ FS) by auto. apply total_ext. intros n _.
        destruct (s_asg s n v1 =? m); cbn [andb]; [apply sum_classes; now apply AL|apply total_zero; reflexivity].
      * intros m2 I. apply in_seq in I. apply (fs_edge _ _ _ _ FS); auto; lia.
    + rewrite (total_ext _ _ (fun m1 => total (s_added s) (fun n => one_if ((s_asg s n v1 =? m1) && (s_asg s n v2 =? m))))).
      * rewrite total_swap, (fs_vert _ _ _ _ FS) by auto. apply total_ext. intros n _.
        destruct (s_asg s n v2 =? m).
        -- rewrite (total_ext _ _ (fun m1 => one_if (s_asg s n v1 =? m1))); [apply sum_classes; now apply AL|].
           intros. now rewrite andb_true_r.
        -- apply total_zero. intros. now rewrite andb_false_r.
      * intros m1 I. apply in_seq in I. apply (fs_edge _ _ _ _ FS); auto; lia.
  - intros v m Hv Hm.
    rewrite (total_ext _ _ (fun r => total (s_added s) (fun n => one_if (s_asg s n v =? m)%nat * datum tb n r)%Z)).
    + rewrite total_swap, (fs_meas _ _ _ _ FS) by auto. apply total_ext. intros n _.
      rewrite total_scal. f_equal. rewrite block_sum_total. reflexivity.
    + intros r I. apply (fs_feat _ _ _ _ FS); auto. now apply (block_owns ws tb M TK HM v r Hv).
  - intros v r O. assert (Hv : v < V). { rewrite <- (tk_width _ _ TK). apply O. }
    rewrite (total_ext _ _ (fun m => total (s_added s) (fun n => one_if (s_asg s n v =? m)%nat * datum tb n r)%Z)).
    + rewrite total_swap, (total_perm _ _ _ PA). apply total_ext. intros n _.
      rewrite (total_ext _ _ (fun m => datum tb n r * one_if (s_asg s n v =? m)%nat)%Z) by (intros; lia).
      rewrite total_scal, sum_classes by now apply AL. lia.
    + intros m I. apply in_seq in I. apply (fs_feat _ _ _ _ FS v); auto; lia.
  - intros v m Hv Hm. rewrite (fs_vert _ _ _ _ FS) by auto. apply total_nonneg. intros n _. destruct (_ =? _); cbn; lia.
Qed.

Lemma final_logits s : tinv ws tb M s -> length (s_added s) = N ->
  exists logits, compute_edge_logits lg tb prior M s = Ok logits /\ length logits = tri V /\
    forall a b, a < b -> b < V ->
      nth_error logits (find_complete_edge a b) = Some (edge_score lg M s a b + nth (find_complete_edge a b) prior 0)%R.
Proof.
  intros TI L. destruct (logits_Ok ws tb prior M HM lg s TI LP) as (logits & E & LL & H).
  exists logits. split; [exact E|]. split; [exact LL|].
  intros a b Hab Hb. rewrite H by auto. do 2 f_equal.
  assert (P : Permutation (read_rows tb s) (s_added s)).
  { unfold read_rows. destruct (Nat.eqb_spec (length (s_added s)) V); [|reflexivity].
    apply Permutation_sym. now apply (all_added ws tb M HM). }
  erewrite rows_score_perm by exact P. reflexivity.
Qed.

Lemma epochs_always k s : tinv ws tb M s -> Permutation (s_added s) (seq 0 N) ->
  always (fun s' => tinv ws tb M s' /\ Permutation (s_added s') (seq 0 N)) (rfold (fun s _ => full_epoch lg tb prior M s) (seq 0 k) s).
Proof.
  intros TI PA. apply always_rfold; [auto|]. intros s' i (TI' & PA') _. now apply epoch_always.
Qed.

Lemma canonical_logit logits T : tree_logit logits (ts_get_edges (TS V (make_tree T))) = tree_logit logits T.
Proof.
  change (ts_get_edges (TS V (make_tree T))) with (grid_edges (make_tree T)).
  rewrite make_tree_edges, <- (map_ext _ _ sort_pair_norm). apply sort_pair_logit.
Qed.
End Train.


Lemma C19_proof : forall ws tb prior lg mst cfg s0, table_ok ws tb -> config_ok cfg -> Spec_MST.mst_contract mst ->
  init_trainer tb prior (c_clusters cfg) = Ok s0 ->
  always (fun '(s, logits) => from_scratch ws tb (c_clusters cfg) s /\ valid_model ws tb (c_clusters cfg) s /\
      length logits = num_cols tb * (num_cols tb - 1) / 2 /\
      (forall a b, a < b -> b < num_cols tb ->
        nth_error logits (find_complete_edge a b) =
        Some (edge_score lg (c_clusters cfg) s a b + nth (find_complete_edge a b) prior 0)%R) /\
      (c_estimate_tree cfg = true -> forall T, spanning_tree (num_cols tb) T ->
         (sumf T (fun '(x, y) => nth (find_complete_edge x y) logits 0) <=
          sumf (ts_get_edges (s_tree s)) (fun '(x, y) => nth (find_complete_edge x y) logits 0))%R))
    (train lg mst tb prior cfg s0).
Proof.
  intros ws tb prior lg mst cfg s0 TK ((HM & HM2) & HE & HRt) MC E0. set (M := c_clusters cfg) in *.
  destruct (init_Ok ws tb M HM prior s0 E0) as (TI0 & A0 & HV).
  assert (LP : length prior = tri (num_cols tb)).
  { apply (prior_length tb prior M s0). exists s0, []. split; [exact E0|]. split; [constructor|reflexivity]. }
  unfold train. fold M. rewrite A0. cbn [length Nat.eqb assert_]. apply always_lift_Ok. cbn [always].
  intros ids PI. assert (LI : length ids = num_rows tb) by (rewrite (Permutation_length PI); apply seq_length).
  destruct (mas_enough _ ids (c_init_epochs cfg) (c_tree_rate cfg) PI HE HRt) as (acts & EA).
  unfold sched_fuel. rewrite <- LI. unfold qn in EA. rewrite EA. apply always_lift_Ok. rewrite LI.
  destruct (mas_spec _ ids _ _ _ acts PI HE HRt EA) as ((R & RP & PR) & _).
  apply always_bind. eapply always_mono;
    [|apply (actions_always ws tb prior M lg TK HM LP acts [] R s0 RP TI0); rewrite A0; constructor].
  intros s1 (T1 & P1). rewrite PR in P1.
  rewrite (Permutation_length P1), seq_length, Nat.eqb_refl. cbn [assert_]. apply always_lift_Ok.
  apply always_bind. eapply always_mono; [|apply (epochs_always ws tb prior M lg TK HM LP _ s1 T1 P1)].
  intros s2 (T2 & P2).
  assert (L2 : length (s_added s2) = num_rows tb) by (rewrite (Permutation_length P2); apply seq_length).
  rewrite L2, Nat.eqb_refl. cbn [assert_]. apply always_lift_Ok.
  destruct (tinv_tree ws tb M s2 T2) as (EV & ST). rewrite EV, make_complete_graph_Ok. apply always_lift_Ok.
  destruct (final_logits ws tb prior M lg HM LP s2 T2 L2) as (logits & EL & LL & SC). rewrite EL. apply always_lift_Ok.
  destruct (estimate_tree_Ok mst (num_cols tb) (complete_grid (num_cols tb)) logits MC HV (make_complete_graph_Ok _)) as (T & ET & (CT & _) & MX).
  { now rewrite LL, complete_grid_length. }
  rewrite ET. apply always_lift_Ok.
  destruct (c_estimate_tree cfg) eqn:EE.
  - destruct (set_edges_Ok ws tb M HM s2 T T2 CT) as (s3 & E3 & T3 & A3 & G3 & ET3). rewrite E3.
    apply always_bind. apply unless_always. cbn [lift always]. split; [reflexivity|].
    split; [apply T3|]. split; [apply (full_valid ws tb prior M TK HM LP); auto; now rewrite A3|]. split; [exact LL|]. split.
    + intros a b Hab Hb. rewrite SC by auto. do 2 f_equal. unfold edge_score, pair_count, class_count. now rewrite A3, G3.
    + intros _ T' HT'. rewrite ET3. specialize (MX T' HT'). rewrite <- (canonical_logit tb logits T) in MX. exact MX.
  - cbn [always rbind]. split; [apply T2|]. split; [apply (full_valid ws tb prior M TK HM LP); auto|]. split; [exact LL|]. split; [exact SC|].
    discriminate.
Qed.

Lemma init_exists tb prior M : M <= 128 -> 1 <= num_cols tb <= 2 ^ 15 ->
  length prior = num_cols tb * (num_cols tb - 1) / 2 -> exists s0, init_trainer tb prior M = Ok s0.
Proof.
  intros HM (HV & HV2) LP. unfold init_trainer. cbv zeta.
  rewrite (proj2 (Nat.leb_le _ _) HV2), (proj2 (Nat.eqb_eq _ _) LP). cbn [assert_ bind]. unfold ts_init.
  destruct (ts_set_edges_spec (TS (num_cols tb) []) (map (fun v => (v, v + 1)) (seq 0 (num_cols tb - 1)))) as (SE & _).
  cbn [ts_V] in SE. rewrite SE by (rewrite map_length, seq_length; lia). cbn [bind ts_grid].
  destruct (C04_default_proof (num_cols tb) _ (path_tree tb HV)) as (prog & c & EP & _). rewrite EP. cbn [bind].
  rewrite (proj2 (Nat.leb_le _ _) HM). cbn [assert_ bind]. eauto.
Qed.
