(** Proofs of C25 - C27; trained models are consistent. *)
From Coq Require Import List Arith Lia Bool ZArith Reals Lra Permutation.
From Verif Require Import Base L_Base Spec_Graph L_Graph Spec_Sum L_Sum M_Structure L_Pairing L_MakeTree L_Program L_ProgramValid Spec_Program L_Center L_Prop1 M_Rand L_Rand M_Util Spec_Ragged L_Ragged M_Array M_SampleTree M_EstimateTree Spec_Trees Spec_MST L_Estimate M_Schedule Spec_Schedule L_Schedule M_Training Spec_Stats L_Stats L_Trainer Spec_Joint Spec_Conditional L_Asg L_BP L_BPVec L_AddRow L_EdgeLogits Spec_Model L_Train M_Serving Spec_Serving L_Server L_Inward L_Logprob.
Import ListNotations.
Open Scope nat_scope.

Lemma tinv_consistent ws tb M s logits : table_ok ws tb -> nonneg_data tb -> 1 <= M <= 128 -> length ws = num_cols tb ->
  tinv ws tb M s -> Permutation (s_added s) (seq 0 (num_rows tb)) -> valid_model ws tb M s ->
  length logits = num_cols tb * (num_cols tb - 1) / 2 ->
  consistent ws (num_cols tb) M (num_rows tb) (model_of tb M s logits).
Proof.
  intros TK ND (HM & HM') LW TI PA VM LL. constructor; cbn [model_of d_ri d_M d_tree d_vert d_edge d_feat d_logits]; auto.
  - apply TK.
  - apply TI.
  - apply VM.
  - apply VM.
  - apply VM.
  - intros. apply le_IZR. eapply edge_nonneg; eauto.
  - intros q c Hq Hc. destruct (proj1 (owns_exists ws q) Hq) as (v & Ow). apply le_IZR. eapply feat_nonneg; eauto.
Qed.

Lemma train_consistent : forall ws tb prior lg mst cfg s0, table_ok ws tb -> nonneg_data tb -> config_ok cfg -> mst_contract mst ->
  init_trainer tb prior (c_clusters cfg) = Ok s0 ->
  always (fun '(s, logits) => consistent ws (num_cols tb) (c_clusters cfg) (num_rows tb) (model_of tb (c_clusters cfg) s logits))
    (train lg mst tb prior cfg s0).
Proof.
  intros ws tb prior lg mst cfg s0 TK ND ((HM & HM2) & HE & HRt) MC E0. set (M := c_clusters cfg) in *.
  destruct (init_Ok ws tb M HM prior s0 E0) as (TI0 & A0 & HV).
  assert (LP : length prior = tri (num_cols tb)).
  { apply (prior_length tb prior M s0). exists s0, []. split; [exact E0|]. split; [constructor|reflexivity]. }
  unfold train. fold M. rewrite A0. cbn [length Nat.eqb assert_]. apply always_lift_Ok. cbn [always].
  intros ids PI. assert (LI : length ids = num_rows tb) by (rewrite (Permutation_length PI); apply seq_length).
  destruct (mas_enough _ ids (c_init_epochs cfg) (c_tree_rate cfg) PI HE HRt) as (acts & EA).
  unfold sched_fuel. rewrite <- LI. unfold qn in EA. rewrite EA. apply always_lift_Ok. rewrite LI.
  destruct (mas_spec _ ids _ _ _ acts PI HE HRt EA) as ((R & RP & PR) & _).
  apply always_bind. eapply always_mono;
    [|apply (actions_always ws tb prior M lg TK HM LP acts [] R s0 RP TI0); rewrite A0; constructor].
  intros s1 (T1 & P1). rewrite PR in P1.
  rewrite (Permutation_length P1), seq_length, Nat.eqb_refl. cbn [assert_]. apply always_lift_Ok.
  apply always_bind. eapply always_mono; [|apply (epochs_always ws tb prior M lg TK HM LP _ s1 T1 P1)].
  intros s2 (T2 & P2).
  assert (L2 : length (s_added s2) = num_rows tb) by (rewrite (Permutation_length P2); apply seq_length).
  rewrite L2, Nat.eqb_refl. cbn [assert_]. apply always_lift_Ok.
  destruct (tinv_tree ws tb M s2 T2) as (EV & ST). rewrite EV, make_complete_graph_Ok. apply always_lift_Ok.
  destruct (final_logits ws tb prior M lg HM LP s2 T2 L2) as (logits & EL & LL & SC). rewrite EL. apply always_lift_Ok.
  destruct (estimate_tree_Ok mst (num_cols tb) (complete_grid (num_cols tb)) logits MC HV (make_complete_graph_Ok _)) as (T & ET & (CT & _) & MX).
  { now rewrite LL, complete_grid_length. }
  rewrite ET. apply always_lift_Ok.
  assert (LW : length ws = num_cols tb) by apply TK.
  destruct (c_estimate_tree cfg) eqn:EE.
  - destruct (set_edges_Ok ws tb M HM s2 T T2 CT) as (s3 & E3 & T3 & A3 & G3 & ET3). rewrite E3.
    apply always_bind. apply unless_always. cbn [lift always]. split; [reflexivity|].
    apply tinv_consistent; auto; [now rewrite A3|]. apply (full_valid ws tb prior M TK HM LP); auto; now rewrite A3.
  - cbn [always rbind]. apply tinv_consistent; auto. apply (full_valid ws tb prior M TK HM LP); auto.
Qed.

Open Scope R_scope.
Lemma C25_proof : forall ws V M N m mst, consistent ws V M N m -> mst_contract mst ->
  exists s, tree_server mst m = Ok s /\
    (forall v c, (v < V)%nat -> (c < M)%nat -> sv_vert s v c = vert_prob m v c /\ 0 < sv_vert s v c) /\
    (forall v, (v < V)%nat -> sumf (seq 0 M) (sv_vert s v) = 1) /\
    (forall e c1 c2, (e < V - 1)%nat -> (c1 < M)%nat -> (c2 < M)%nat ->
       sv_edge s e c1 c2 = edge_prob m e c1 c2 /\ 0 < sv_edge s e c1 c2) /\
    (forall e v1 v2 c, nth_error (ts_get_edges (d_tree m)) e = Some (v1, v2) -> (c < M)%nat ->
       sumf (seq 0 M) (fun c2 => sv_edge s e c c2) = sv_vert s v1 c /\
       sumf (seq 0 M) (fun c1 => sv_edge s e c1 c) = sv_vert s v2 c) /\
    (forall v q c, (v < V)%nat -> In q (block ws v) -> (c < M)%nat ->
       sv_feat s q c = feat_prob ws m v q c /\ 0 < sv_feat s q c) /\
    (forall v c, (v < V)%nat -> (c < M)%nat -> block ws v <> [] -> sumf (block ws v) (fun q => sv_feat s q c) = 1).
Proof.
  intros ws V M N m mst C MC. destruct (build_server ws V M N m C mst MC) as (s & edges & E & SF & ST & SV & SE & SFe & _).
  exists s. split; [exact E|]. split; [split; [auto|now apply SF]|]. split; [apply SF|].
  split; [split; [auto|now apply SF]|]. split.
  { intros e v1 v2 c He Hc. rewrite <- ST in He. destruct (sf_tree _ _ _ _ _ SF) as (ET & _). rewrite ET in He.
    split; [apply (sf_e1 _ _ _ _ _ SF _ _ _ _ He); auto|apply (sf_e2 _ _ _ _ _ SF _ _ _ _ He); auto]. }
  split; [split; [auto|now apply (sf_feat _ _ _ _ _ SF v)]|]. apply SF.
Qed.

Lemma with_own s : with_prog s (sv_prog s) = s.
Proof. now destruct s. Qed.

Lemma C26_any : forall ws V M N m mst s root prog row, consistent ws V M N m -> mst_contract mst -> tree_server mst m = Ok s ->
  (forall r, root = Some r -> (r < V)%nat) -> make_propagation_program (ts_grid (d_tree m)) root = Ok prog ->
  length row = list_sum ws ->
  logprob_row (with_prog s prog) row = Ok (ln (row_prob ws m row)) /\ 0 < row_prob ws m row.
Proof.
  intros ws V M N m mst s root prog row C MC E HR EP RL.
  destruct (build_server ws V M N m C mst MC) as (s' & edges & E' & SF & ST & SV & SE & SFe & _). rewrite E in E'. inversion E'; subst s'.
  rewrite <- ST in EP. pose proof (proj1 (cm_M _ _ _ _ _ C)) as SM. split.
  - eapply (logprob_any ws V M m edges s); eauto.
  - eapply (row_prob_pos ws V M m edges s); eauto.
Qed.

Lemma C26_row : forall ws V M N m mst s row, consistent ws V M N m -> mst_contract mst -> tree_server mst m = Ok s ->
  length row = list_sum ws ->
  logprob_row s row = Ok (ln (row_prob ws m row)) /\ 0 < row_prob ws m row.
Proof.
  intros ws V M N m mst s row C MC E RL. rewrite <- (with_own s).
  destruct (build_server ws V M N m C mst MC) as (s' & edges & E' & SF & ST & SV & SE & SFe & _ & _ & EP). rewrite E in E'. inversion E'; subst s'.
  rewrite ST in EP. eapply (C26_any ws V M N m mst s None); eauto. discriminate.
Qed.

Lemma mapM_Ok_map {A B} (f : A -> result B) g l : (forall x, In x l -> f x = Ok (g x)) -> mapM f l = Ok (map g l).
Proof.
  induction l as [|x l IH]; intros H; [reflexivity|]. cbn [mapM map]. rewrite H by (now left). cbn [bind].
  rewrite IH by (intros; apply H; now right). reflexivity.
Qed.

Lemma C26_data : forall ws V M N m mst s data, consistent ws V M N m -> mst_contract mst -> tree_server mst m = Ok s ->
  (forall row, In row data -> length row = list_sum ws) ->
  logprob s data = Ok (map (fun row => ln (row_prob ws m row)) data) /\ forall row, In row data -> 0 < row_prob ws m row.
Proof.
  intros ws V M N m mst s data C MC E RL. split.
  - apply mapM_Ok_map. intros row I. eapply C26_row; eauto.
  - intros row I. eapply (C26_row ws V M N m mst s row); eauto.
Qed.

Lemma C26_shape : forall ws V M N m mst s row, consistent ws V M N m -> mst_contract mst -> tree_server mst m = Ok s ->
  length row <> list_sum ws -> logprob_row s row = Raise AssertionError.
Proof.
  intros ws V M N m mst s row C MC E RL.
  destruct (build_server ws V M N m C mst MC) as (s' & edges & E' & SF & _). rewrite E in E'. inversion E'; subst s'.
  unfold logprob_row. rewrite (sf_R _ _ _ _ _ SF). destruct (Nat.eqb_spec (length row) (list_sum ws)); [contradiction|reflexivity].
Qed.

Lemma C27_total : forall ws V M N m mst s, consistent ws V M N m -> mst_contract mst -> tree_server mst m = Ok s ->
  (forall w, In w ws -> (1 <= w)%nat) ->
  exists lps, logprob s (complete_rows ws) = Ok lps /\ sumf lps exp = 1.
Proof.
  intros ws V M N m mst s C MC E WP.
  destruct (C26_data ws V M N m mst s (complete_rows ws) C MC E (complete_rows_length ws)) as (EL & P).
  eexists. split; [exact EL|]. rewrite sumf_map. rewrite (sumf_ext _ _ (row_prob ws m)) by (intros; now apply exp_ln, P).
  destruct (build_server ws V M N m C mst MC) as (s' & edges & E' & SF & ST & SV & SE & SFe & _). rewrite E in E'. inversion E'; subst s'.
  eapply (complete_total ws V M m edges s); eauto.
  - apply C.
  - intros v Hv. apply WP, nth_In. rewrite (cm_width _ _ _ _ _ C). auto.
Qed.

Lemma C27_empty : forall ws V M N m mst s, consistent ws V M N m -> mst_contract mst -> tree_server mst m = Ok s ->
  logprob_row s (repeat 0%Z (list_sum ws)) = Ok 0.
Proof.
  intros ws V M N m mst s C MC E. rewrite (proj1 (C26_row ws V M N m mst s _ C MC E (repeat_length _ _))).
  destruct (build_server ws V M N m C mst MC) as (s' & edges & E' & SF & ST & SV & SE & SFe & _). rewrite E in E'. inversion E'; subst s'.
  rewrite (empty_row ws V M m edges s SF ST (proj1 (cm_M _ _ _ _ _ C)) SV SE SFe). now rewrite ln_1.
Qed.

Lemma C27_feature : forall ws V M N m mst s row v, consistent ws V M N m -> mst_contract mst -> tree_server mst m = Ok s ->
  length row = list_sum ws -> (v < V)%nat -> (1 <= nth v ws 0)%nat ->
  exists lps lp, logprob s (map (bump row) (block ws v)) = Ok lps /\ logprob_row s row = Ok lp /\ sumf lps exp = exp lp.
Proof.
  intros ws V M N m mst s row v C MC E RL Hv W.
  destruct (C26_data ws V M N m mst s (map (bump row) (block ws v)) C MC E) as (EL & P).
  { intros x I. apply in_map_iff in I. destruct I as (q & <- & _). now rewrite bump_length. }
  destruct (C26_row ws V M N m mst s row C MC E RL) as (E1 & P1).
  do 2 eexists. split; [exact EL|]. split; [exact E1|]. rewrite map_map, sumf_map, exp_ln by auto.
  destruct (build_server ws V M N m C mst MC) as (s' & edges & E' & SF & ST & SV & SE & SFe & _). rewrite E in E'. inversion E'; subst s'.
  rewrite <- (sum_bump ws V M m edges s SF ST (proj1 (cm_M _ _ _ _ _ C)) SFe row v RL Hv).
  - apply sumf_ext. intros q I. apply exp_ln, P, in_map. auto.
  - unfold block. destruct (nth v ws 0%nat); [lia|discriminate].
Qed.

(** ** A concrete model: three features with 2, 1 and 3 categories, two classes,
    two rows with classes (0, 1, 0) and (1, 1, 0), the path 0 - 1 - 2. *)
Definition ex_model : smodel :=
  SModel (TS 3 (make_tree [(0, 1); (1, 2)]%nat)) [0; 2; 3; 6]%nat
    (fun v c => nth c (nth v [[1; 1]; [0; 2]; [2; 0]] []) 0)%Z
    (fun e c1 c2 => nth c2 (nth c1 (nth e [[[0; 1]; [0; 1]]; [[0; 0]; [2; 0]]] []) []) 0)%Z
    (fun q c => nth c (nth q [[1; 0]; [0; 1]; [0; 1]; [1; 0]; [0; 0]; [3; 0]] []) 0)%Z
    2 [0; 1; -2]%R.

Lemma ex_consistent : consistent [2; 1; 3]%nat 3 2 2 ex_model.
Proof.
  assert (LE : forall v n, (v < n)%nat -> In v (seq 0 n)) by (intros; apply in_seq; lia).
  constructor; cbn [ex_model d_ri d_M d_tree d_vert d_edge d_feat d_logits]; auto.
  - split; [reflexivity|lia].
  - exists [(0, 1); (1, 2)]%nat. split; [|reflexivity]. exact (path_spanning 3 ltac:(lia)).
  - intros v Hv. apply LE in Hv. cbn [seq In] in Hv. destruct Hv as [<-|[<-|[<-|[]]]]; reflexivity.
  - intros e v1 v2 c He Hc. apply LE in Hc. 
    assert (H2 : (e < 2)%nat).
    { destruct e as [|[|e]]; [lia|lia|]. exfalso. assert (X : nth_error (ts_get_edges (TS 3 (make_tree [(0, 1); (1, 2)]%nat))) (S (S e)) = None) by (destruct e; reflexivity).
      rewrite X in He. discriminate. }
    apply LE in H2. cbn [seq In] in H2, Hc.
    destruct H2 as [<-|[<-|[]]]; inversion He; subst; destruct Hc as [<-|[<-|[]]]; split; reflexivity.
  - intros v c Hv Hc. apply LE in Hv, Hc. cbn [seq In] in Hv, Hc. destruct Hv as [<-|[<-|[<-|[]]]], Hc as [<-|[<-|[]]]; cbn; lia.
  - intros e c1 c2 He H1 H2. apply LE in He, H1, H2. cbn [seq In Nat.sub] in He, H1, H2.
    destruct He as [<-|[<-|[]]], H1 as [<-|[<-|[]]], H2 as [<-|[<-|[]]]; cbn; lia.
  - intros q c Hq Hc. cbn [list_sum fold_right Nat.add] in Hq. apply LE in Hq, Hc. cbn [seq In] in Hq, Hc.
    destruct Hq as [<-|[<-|[<-|[<-|[<-|[<-|[]]]]]]], Hc as [<-|[<-|[]]]; cbn; lia.
Qed.
