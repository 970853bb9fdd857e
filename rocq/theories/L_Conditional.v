(** Operation histories of the trainer, and the law of the classes drawn by
    [add_row]. *)
From Coq Require Import List Arith Bool ZArith Reals Lia Lra Permutation.
From Verif Require Import Base L_Base Spec_Graph Spec_Sum L_Sum Spec_Ragged M_Structure M_Util M_Rand L_Rand M_Array M_Training
  L_MakeTree Spec_Joint Spec_Stats L_Asg L_Stats L_Trainer L_BPVec Spec_Conditional L_AddRow.
Import ListNotations.
Open Scope nat_scope.
Open Scope rprog_scope.

(** ** Histories *)
Lemma history_counts : forall ws tb prior M s0 ops, table_ok ws tb -> 1 <= M ->
  init_trainer tb prior M = Ok s0 -> Forall (op_ok tb) ops -> always (from_scratch ws tb M) (run_ops tb M ops s0).
Proof.
  intros ws tb prior M s0 ops TK HM E OK. destruct (init_Ok ws tb M HM prior s0 E) as (TI & _).
  eapply always_mono; [|apply (run_ops_always ws tb M TK HM s0 ops TI OK)]. intros a H. apply H.
Qed.

Lemma history_rejects : forall ws tb prior M s n, table_ok ws tb -> 1 <= M -> reachable tb prior M s ->
  (In n (s_added s) -> add_row tb M s n = Ret (s, Some AssertionError)) /\
  (~ In n (s_added s) -> remove_row tb M s n = Ok (s, Some AssertionError)) /\
  (forall edges, S (length edges) <> num_cols tb -> set_edges M s edges = Ok (s, Some AssertionError)).
Proof.
  intros ws tb prior M s n TK HM RE. split; [|split].
  - intros I. unfold add_row. now rewrite (proj2 (set_mem_In n (s_added s)) I).
  - intros I. unfold remove_row. destruct (set_mem n (s_added s)) eqn:EM; [apply set_mem_In in EM; contradiction|reflexivity].
  - intros edges L. apply (set_edges_rejected ws tb M HM); auto. apply (reachable_tinv ws tb M TK HM prior); auto.
Qed.

Lemma history_accepts : forall ws tb prior M s, table_ok ws tb -> 1 <= M -> reachable tb prior M s ->
  (forall n, n < num_rows tb -> ~ In n (s_added s) ->
     always (fun '(s', x) => x = None /\ Permutation (s_added s') (n :: s_added s) /\ s_tree s' = s_tree s /\
               forall k, k <> n -> s_asg s' k = s_asg s k) (add_row tb M s n)) /\
  (forall n, In n (s_added s) -> exists s', remove_row tb M s n = Ok (s', None) /\
     Permutation (s_added s) (n :: s_added s') /\ s_tree s' = s_tree s /\ s_asg s' = s_asg s) /\
  (forall edges, spanning_tree (num_cols tb) edges -> exists s', set_edges M s edges = Ok (s', None) /\
     s_added s' = s_added s /\ s_asg s' = s_asg s /\
     exists gs, Permutation edges gs /\ Forall2 same_edge gs (ts_get_edges (s_tree s'))).
Proof.
  intros ws tb prior M s TK HM RE. pose proof (reachable_tinv ws tb M TK HM prior s RE) as TI. split; [|split].
  - intros n Hn NI. eapply always_mono; [|apply (add_row_always ws tb M TK HM s n TI Hn NI)].
    intros [s' x] (-> & _ & EA & ET & EK). split; [reflexivity|]. split; [|auto]. rewrite EA. now apply set_add_perm.
  - intros n I. destruct (remove_row_Ok ws tb M TK HM s n TI I) as (s' & E & _ & EA & ET & EAs). exists s'.
    split; [exact E|]. split; [|auto]. rewrite EA. now apply set_remove_perm.
  - intros edges T. destruct (set_edges_Ok ws tb M HM s edges TI T) as (s' & E & _ & EA & EAs & ET). exists s'.
    split; [exact E|]. split; [exact EA|]. split; [exact EAs|]. rewrite ET.
    destruct (make_tree_canonical edges) as (_ & _ & _ & H). exact H.
Qed.

Lemma may_bind {A B} (p : rprog A) (f : A -> rprog B) r : forall a, may_return p (Ok a) -> may_return (f a) r -> may_return (rbind p f) r.
Proof.
  induction p; cbn [rbind may_return]; intros a0 H1 H2.
  - inversion H1; subst; auto.
  - discriminate.
  - destruct w; [discriminate|]. destruct H1 as (i & C & H1). exists i. split; [exact C|]. eauto.
  - destruct H1 as (i & C & H1). exists i. split; [exact C|]. eauto.
Qed.

Lemma sumf_single {A} (l : list A) (f : A -> R) x : NoDup l -> In x l -> (forall y, In y l -> y <> x -> f y = 0%R) -> sumf l f = f x.
Proof.
  induction l as [|a l IH]; intros ND I H; [destruct I|]. inversion ND; subst. rewrite sumf_cons. destruct I as [->|I].
  - rewrite sumf_zero; [lra|]. intros y Hy. apply H; [now right|]. intro; subst; auto.
  - rewrite IH, H; auto; [lra|now left| |]; [intro; subst; auto|]. intros; apply H; auto. now right.
Qed.

(** Every class vector is a possible outcome, so states can be steered. *)
Lemma reach_step : forall tb prior M s o s' x, reachable tb prior M s -> op_ok tb o ->
  may_return (run_op tb M s o) (Ok (s', x)) -> reachable tb prior M s'.
Proof.
  intros tb prior M s o s' x (s0 & ops & E & OK & MR) Ho MO. exists s0, (ops ++ [o]). split; [exact E|]. split.
  - apply Forall_app. auto.
  - unfold run_ops in *. rewrite rfold_app. eapply may_bind; [exact MR|]. cbn [rfold].
    eapply may_bind; [|reflexivity]. eapply may_bind; [exact MO|]. reflexivity.
Qed.

Lemma with_own_program s : with_program s (s_prog s) = s.
Proof. destruct s; reflexivity. Qed.

Lemma reach_add : forall ws tb prior M s n zt, table_ok ws tb -> 1 <= M -> nonneg_data tb -> reachable tb prior M s ->
  n < num_rows tb -> ~ In n (s_added s) -> (forall v, v < num_cols tb -> zt v < M) -> (forall v, ~ v < num_cols tb -> zt v = s_asg s n v) ->
  exists s', reachable tb prior M s' /\ s_asg s' = set1 (s_asg s) n zt /\ s_tree s' = s_tree s /\ s_added s' = set_add n (s_added s).
Proof.
  intros ws tb prior M s n zt TK HM ND RE Hn NI Hz Ho. pose proof (reachable_tinv ws tb M TK HM prior s RE) as TI.
  destruct (after_draw_Ok ws tb M TK HM s TI (s_prog s) n Hn zt Hz) as (s' & E & EA & ET & EP & ED).
  exists s'. split; [|auto].
  apply (reach_step tb prior M s (OpAdd n) s' None RE Hn). cbn [run_op]. rewrite <- (with_own_program s).
  apply (add_row_may ws tb M TK HM ND s TI None (s_prog s)) with (zt := zt); auto; try discriminate.
  apply (fs_prog _ _ _ _ (ti_fs _ _ _ _ TI)).
Qed.

Lemma reach_remove : forall ws tb prior M s n, table_ok ws tb -> 1 <= M -> reachable tb prior M s -> In n (s_added s) ->
  exists s', reachable tb prior M s' /\ s_asg s' = s_asg s /\ s_tree s' = s_tree s /\ s_added s' = set_remove_raw n (s_added s).
Proof.
  intros ws tb prior M s n TK HM RE I. pose proof (reachable_tinv ws tb M TK HM prior s RE) as TI.
  destruct (remove_row_Ok ws tb M TK HM s n TI I) as (s' & E & _ & EA & ET & EAs). exists s'. split; [|auto].
  apply (reach_step tb prior M s (OpRemove n) s' None RE).
  - cbn [op_ok]. apply (fs_rows _ _ _ _ (ti_fs _ _ _ _ TI)), I.
  - cbn [run_op]. rewrite E. reflexivity.
Qed.

(** ** The conditional *)
Lemma cond_weight_pos : forall ws tb M s n z, table_ok ws tb -> 1 <= M -> nonneg_data tb -> tinv ws tb M s -> n < num_rows tb ->
  In z (vectors (num_cols tb) M) -> (0 < conditional_weight ws tb M s n z)%R.
Proof.
  intros ws tb M s n z TK HM ND TI Hn Iz. pose proof (proj1 (in_vectors _ _ _) Iz) as (L & B).
  assert (BN : forall v, v < num_cols tb -> nth v z 0 < M) by (intros; apply B, nth_In; lia).
  destruct (fs_tree _ _ _ _ (ti_fs _ _ _ _ TI)) as (_ & LE & RG & _).
  assert (CW : forall v m, v < num_cols tb -> m < M -> (0 < class_weight s v m)%R).
  { intros v m Hv Hm. apply (vp_pos ws tb M HM s TI v m Hv Hm). }
  unfold conditional_weight, tree_weight. apply Rmult_lt_0_compat; apply prodf_pos.
  - intros v Hv. apply in_seq in Hv. unfold node_factor. apply Rmult_lt_0_compat; [apply CW; [|apply BN]; lia|].
    unfold polya.
    assert (FP : forall q, In q (block ws v) -> (0 < IZR (s_feat s q (nth v z 0%nat)) + 1 / 2 / INR M)%R).
    { intros q Hq. apply (fp_pos ws tb M TK HM ND s TI v q); auto; try apply BN; lia. }
    apply Rdiv_lt_0_compat.
    + apply prodf_pos. intros q Hq. apply rising_pos, FP, Hq.
    + destruct (block ws v) as [|q l]; [simpl; lra|]. apply rising_pos.
      apply sumf_pos; [intros; left; auto|]. exists q. split; [now left|apply FP; now left].
  - intros [e [v1 v2]] Hc. pose proof (in_combine_l _ _ _ _ Hc) as H1. pose proof (in_combine_r _ _ _ _ Hc) as H2. apply in_seq in H1.
    destruct (RG _ _ H2) as (R1 & R2). unfold pair_factor.
    assert (HI : In (nth e (ts_get_edges (s_tree s)) (0, 0)) (ts_get_edges (s_tree s))) by (apply nth_In; lia).
    destruct (nth e (ts_get_edges (s_tree s)) (0, 0)) as [a b]. destruct (RG _ _ HI) as (Ra & Rb).
    apply Rdiv_lt_0_compat; [|apply Rmult_lt_0_compat; apply CW; auto].
    pose proof (edge_nonneg ws tb M HM s TI e (nth v1 z 0) (nth v2 z 0) ltac:(lia) (BN _ R1) (BN _ R2)).
    pose proof (inrM M HM). lra.
Qed.

Lemma add_row_law : forall ws tb prior M s root prog n z, table_ok ws tb -> nonneg_data tb -> 1 <= M ->
  reachable tb prior M s -> n < num_rows tb -> ~ In n (s_added s) ->
  (forall r, root = Some r -> r < num_cols tb) -> make_propagation_program (ts_grid (s_tree s)) root = Ok prog ->
  In z (vectors (num_cols tb) M) ->
  (0 < conditional_weight ws tb M s n z)%R /\
  prob (add_row tb M (with_program s prog) n) (fun r => if list_eq_dec Nat.eq_dec (classes_of tb (fst r) n) z then true else false) =
  (conditional_weight ws tb M s n z / sumf (vectors (num_cols tb) M) (conditional_weight ws tb M s n))%R.
Proof.
  intros ws tb prior M s root prog n z TK ND HM RE Hn NI HR EP Iz.
  pose proof (reachable_tinv ws tb M TK HM prior s RE) as TI. split; [now apply cond_weight_pos|].
  unfold prob. rewrite (add_row_expect ws tb M TK HM ND s TI root prog HR EP n Hn NI _
    (fun z' => if list_eq_dec Nat.eq_dec z' z then 1 else 0)%R).
  - rewrite (sumf_single _ _ z); [|apply vectors_NoDup|auto|].
    + destruct (list_eq_dec Nat.eq_dec z z); [lra|congruence].
    + intros y _ Hy. destruct (list_eq_dec Nat.eq_dec y z); [congruence|lra].
  - intros z' s' Hz Ho E. cbn [fst]. destruct (after_draw_Ok ws tb M TK HM s TI prog n Hn z' Hz) as (s2 & E2 & EA & _).
    rewrite E in E2. inversion E2; subst s2. unfold classes_of. rewrite EA. unfold set1. rewrite Nat.eqb_refl.
    destruct (list_eq_dec _ _ _); reflexivity.
Qed.

Lemma add_row_law_own : forall ws tb prior M s n z, table_ok ws tb -> nonneg_data tb -> 1 <= M ->
  reachable tb prior M s -> n < num_rows tb -> ~ In n (s_added s) -> In z (vectors (num_cols tb) M) ->
  prob (add_row tb M s n) (fun r => if list_eq_dec Nat.eq_dec (classes_of tb (fst r) n) z then true else false) =
  (conditional_weight ws tb M s n z / sumf (vectors (num_cols tb) M) (conditional_weight ws tb M s n))%R.
Proof.
  intros ws tb prior M s n z TK ND HM RE Hn NI Iz. pose proof (reachable_tinv ws tb M TK HM prior s RE) as TI.
  rewrite <- (with_own_program s) at 1. apply (add_row_law ws tb prior M s None (s_prog s)); auto; try discriminate.
  apply (fs_prog _ _ _ _ (ti_fs _ _ _ _ TI)).
Qed.
