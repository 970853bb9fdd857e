(** The invariant of the float32 trainer over all histories. *)
From Coq Require Import List Arith Bool ZArith Reals Lra Lia Permutation.
From Flocq Require Import Core IEEE754.BinarySingleNaN.
From Verif Require Import Base L_Base Spec_Graph Spec_Ragged M_Structure Spec_Program M_Array M_Util M_Training Spec_Stats Spec_Conditional M_Float32 M_Train32 Spec_Float32
  L_Float32 L_Sample32 L_Train32 L_Train32b L_Train32c L_Train32d L_Train32e L_Ragged L_Prop1 L_MakeTree L_Stats L_Trainer.
Import ListNotations.
Open Scope nat_scope.

(** ** The float32 edge table *)
Lemma eprobs_update_spec d grid z ep e m1 m2 :
  eprobs_update32 d grid z ep e m1 m2 =
  if pair_hit grid z e m1 m2 then to32 (dadd (to64 (ep e m1 m2)) (f64_of d 0)) else ep e m1 m2.
Proof.
  unfold eprobs_update32.
  assert (G : forall n, n <= length grid -> fold_left (fun edge_probs e =>
    match nth_error grid e with
    | Some (_, v1, v2) =>
      let m1 := z v1 in
      let m2 := z v2 in
      set3 edge_probs e m1 m2 (to32 (dadd (to64 (edge_probs e m1 m2)) (f64_of d 0)))
    | None => edge_probs
    end) (seq 0 n) ep e m1 m2 =
    if (e <? n) && pair_hit grid z e m1 m2 then to32 (dadd (to64 (ep e m1 m2)) (f64_of d 0)) else ep e m1 m2).
  { induction n as [|n IH]; intros Hn; [reflexivity|]. specialize (IH ltac:(lia)).
    rewrite seq_S, fold_left_app. cbn [fold_left Nat.add]. set (f := fold_left _ (seq 0 n) ep) in *.
    destruct (nth_error grid n) as [[[x v1] v2]|] eqn:E; [|apply nth_error_None in E; lia].
    cbv zeta. unfold set3, set2, set1.
    destruct (Nat.eqb_spec e n) as [->|NE].
    - rewrite (proj2 (Nat.ltb_ge n n)) in IH by lia. cbn [andb] in IH.
      rewrite (proj2 (Nat.ltb_lt n (S n))) by lia. cbn [andb]. unfold pair_hit. rewrite E.
      rewrite (Nat.eqb_sym (z v1) m1), (Nat.eqb_sym (z v2) m2).
      destruct (Nat.eqb_spec m1 (z v1)) as [->|]; [|exact IH].
      destruct (Nat.eqb_spec m2 (z v2)) as [->|]; [|exact IH]. cbn [andb]. now rewrite IH.
    - rewrite IH. replace (e <? S n) with (e <? n); [reflexivity|].
      apply eq_true_iff_eq. rewrite !Nat.ltb_lt. lia. }
  rewrite G by lia. destruct (e <? length grid) eqn:L; [reflexivity|].
  unfold pair_hit. apply Nat.ltb_ge in L. apply nth_error_None in L. now rewrite L.
Qed.

Section TRAINER.
Variables (ws : list nat) (tb : table) (M : nat).
Hypothesis TK : table_ok ws tb.
Hypothesis HM : (1 <= M)%nat.
Notation V := (num_cols tb).

(** ** The statistics after adding a row with any classes *)
Lemma stats_tinv s n z : tinv ws tb M s -> n < num_rows tb -> ~ In n (s_added s) -> (forall v, v < V -> z v < M) ->
  exists s', update_stats V M 1 (tb_types tb) (tb_ri tb) (nth n (tb_rows tb) []) (ts_grid (s_tree s)) z
    (TSt (s_tree s) (s_prog s) (set_add n (s_added s)) (set1 (s_asg s) n z) (s_vert s) (s_edge s) (s_feat s) (s_meas s) (s_eprobs s)) = Ok s' /\
  tinv ws tb M s' /\ s_added s' = set_add n (s_added s) /\ s_tree s' = s_tree s /\ s_asg s' = set1 (s_asg s) n z.
Proof.
  intros [FS SO AL (es & T & ET)] Hn NI Hz.
  destruct FS as [F1 F2 F3 F4 F5 F6 F7 F8 F9]. rewrite ET in F4. cbn [ts_grid] in F4.
  set (s1 := TSt (s_tree s) (s_prog s) (set_add n (s_added s)) (set1 (s_asg s) n z) (s_vert s) (s_edge s) (s_feat s) (s_meas s) (s_eprobs s)).
  destruct (update_stats_Ok ws tb M TK HM 1 n z s1 es T ET Hn Hz) as (vert & edg & feat & meas & eprobs & EU & U1 & U2 & U3 & U4 & U5).
  change (s_tree s1) with (s_tree s) in EU.
  eexists. split; [exact EU|].
  pose proof (set_add_perm n _ NI) as PA.
  assert (TA : forall f g, (forall k, k <> n -> f k = g k) -> total (set_add n (s_added s)) f = (f n + total (s_added s) g)%Z).
  { intros f g H. rewrite (total_perm _ _ _ PA), total_cons. f_equal. apply total_ext. intros k Hk. apply H. intro; subst; auto. }
  assert (Z1 : forall k, k <> n -> set1 (s_asg s) n z k = s_asg s k).
  { intros k Hk. unfold set1. now rewrite (proj2 (Nat.eqb_neq k n)). }
  assert (Z2 : set1 (s_asg s) n z n = z) by (unfold set1; now rewrite Nat.eqb_refl).
  assert (AL' : forall k v, v < V -> set1 (s_asg s) n z k v < M).
  { intros k v Hv. unfold set1. destruct (k =? n); auto. }
  split; [|split; [reflexivity|split; reflexivity]].
  split; [split| | |].
  - cbn [s_added s1]. split.
    + eapply Permutation_NoDup; [apply Permutation_sym; exact PA|]. constructor; tauto.
    + intros k Hk. apply set_add_In in Hk. destruct Hk as [->|]; auto. now apply F1.
  - cbn. intros; apply AL'; auto.
  - exact F3.
  - cbn. rewrite ET. exact F4.
  - cbn [s_vert s_added s_asg s1]. intros v m Hv Hm. rewrite U1 by auto. cbn [s_vert s1].
    rewrite (TA _ (fun k => one_if (s_asg s k v =? m))).
    + rewrite F5, Z2 by auto. lia.
    + intros k Hk. now rewrite Z1.
  - cbn [s_edge s_added s_asg s_tree s1]. intros e v1 v2 m1 m2 Ee H1 H2. rewrite (U2 _ _ _ _ _ Ee). cbn [s_edge s1].
    rewrite (TA _ (fun k => one_if ((s_asg s k v1 =? m1) && (s_asg s k v2 =? m2)))).
    + rewrite (F6 _ _ _ _ _ Ee) by auto. rewrite Z2. lia.
    + intros k Hk. now rewrite Z1.
  - cbn [s_eprobs s_edge]. intros e m1 m2 He H1 H2. specialize (U3 e m1 m2). cbn [s_eprobs s_edge s1] in U3.
    specialize (F7 e m1 m2 He H1 H2). lra.
  - cbn [s_feat s_added s_asg s1]. intros v r m O Hm. rewrite (U4 v r m O). cbn [s_feat s1].
    rewrite (TA _ (fun k => one_if (s_asg s k v =? m)%nat * datum tb k r)%Z).
    + rewrite (F8 v r m O Hm), Z2. lia.
    + intros k Hk. now rewrite Z1.
  - cbn [s_meas s_added s_asg s1]. intros v m Hv Hm. rewrite (U5 v m Hv). cbn [s_meas s1].
    rewrite (TA _ (fun k => one_if (s_asg s k v =? m)%nat * block_sum ws (nth k (tb_rows tb) []) v)%Z).
    + rewrite (F9 v m Hv Hm), Z2. lia.
    + intros k Hk. now rewrite Z1.
  - cbn. now apply set_add_sorted.
  - cbn. exact AL'.
  - exists es. split; auto.
Qed.

(** The edge counts of two states that differ in one row. *)
Lemma edge_count s s' n e m1 m2 : tinv ws tb M s -> tinv ws tb M s' -> s_tree s' = s_tree s -> Permutation (s_added s') (n :: s_added s) ->
  (forall k, k <> n -> s_asg s' k = s_asg s k) -> ~ In n (s_added s) -> e < V - 1 -> m1 < M -> m2 < M ->
  s_edge s' e m1 m2 = (s_edge s e m1 m2 + if pair_hit (ts_grid (s_tree s)) (s_asg s' n) e m1 m2 then 1 else 0)%Z.
Proof.
  intros TI TI' ET P EA NI He H1 H2.
  destruct TI as [[_ _ (_ & ST) _ _ FE _ _ _] _ _ (es & T & EG)]. destruct TI' as [[_ _ _ _ _ FE' _ _ _] _ _ _].
  destruct (grid_facts tb M HM es T) as (_ & GL & GN).
  destruct (nth_error (ts_get_edges (s_tree s)) e) as [[v1 v2]|] eqn:E.
  - rewrite (FE e v1 v2) by auto. rewrite ET in FE'. rewrite (FE' e v1 v2) by auto.
    rewrite (total_perm _ _ _ P), total_cons.
    rewrite (total_ext (s_added s) (fun k => one_if ((s_asg s' k v1 =? m1) && (s_asg s' k v2 =? m2)))
              (fun k => one_if ((s_asg s k v1 =? m1) && (s_asg s k v2 =? m2)))).
    + unfold pair_hit. rewrite EG in *. cbn [ts_grid]. rewrite GN.
      change (nth_error (grid_edges (make_tree es)) e = Some (v1, v2)) in E. rewrite E. cbn [option_map fst snd].
      unfold one_if at 1. destruct ((s_asg s' n v1 =? m1) && (s_asg s' n v2 =? m2)); lia.
    + intros k Hk. rewrite EA; [reflexivity|]. intro; subst; auto.
  - apply nth_error_None in E. destruct ST as (SL & _). lia.
Qed.
End TRAINER.

Section SAFE.
Variables (cell : cell_fun) (dot : list f32 -> list f32 -> f32) (ws : list nat) (tb : table) (prior : list R) (M : nat) (A lo hi : Z).
Hypothesis DOT : dot_ok dot.
Hypothesis TK : table_ok ws tb.
Hypothesis HM : (1 <= M <= 128)%nat.
Hypothesis HA : (1 <= A <= 16)%Z.
Hypothesis HN : ((Z.of_nat (num_rows tb) + 1) * 1 < 2 ^ A)%Z.
Hypothesis LO : (-149 <= 2 * lo - 2 * A - 8)%Z /\ (lo <= 0)%Z /\ (2 * hi + A + 10 <= 127)%Z /\ (0 <= hi)%Z.
Hypothesis CELL : cell_good cell ws tb M lo hi.
Notation V := (num_cols tb).

Let pA : (2 ^ A <= 2 ^ 16)%Z.
Proof. apply Z.pow_le_mono_r; lia. Qed.

Definition inv32 (t : trainer32) : Prop := tinv ws tb M (t_state t) /\
  forall e m1 m2, e < V - 1 -> m1 < M -> m2 < M -> near (t_eprobs t e m1 m2) (s_edge (t_state t) e m1 m2).

Lemma fresh_near s : tinv ws tb M s -> forall e m1 m2, e < V - 1 -> m1 < M -> m2 < M ->
  near (add_prior (s_edge s e m1 m2) (prior64 M)) (s_edge s e m1 m2).
Proof.
  intros TI e m1 m2 He H1 H2. destruct (edge_small ws tb M A 1 HM ltac:(lia) ltac:(lia) HN s e m1 m2 TI He H1 H2) as (B1 & B2).
  destruct (prior64_spec M HM) as (P1 & P2). apply add_prior_near; auto. lia.
Qed.

Lemma set_mem_dec n l : set_mem n l = true <-> In n l.
Proof. apply set_mem_In. Qed.

(** Every draw is usable, and the new trainer satisfies the invariant. *)
Lemma add_row_draws t n : inv32 t -> n < num_rows tb ->
  draws_usable (fun '(t', x) => inv32 t' /\ (~ In n (s_added (t_state t)) -> x = None /\ s_added (t_state t') = set_add n (s_added (t_state t))))
    (add_row32_with cell dot tb M t n).
Proof.
  intros (TI & EP) Hn. unfold add_row32_with. destruct (set_mem n (s_added (t_state t))) eqn:EM.
  { cbn [draws_usable]. split; [split; auto|]. intros K. apply set_mem_In in EM. contradiction. }
  assert (NI : ~ In n (s_added (t_state t))) by (intros K; apply set_mem_In in K; congruence).
  rewrite (L_Base.get_Ok _ IndexError (tb_rows tb) n []) by exact Hn. cbn [flift fbind].
  set (s := t_state t) in *. pose proof TI as TI0. destruct TI0 as [FS SO AL (es & T & ET)].
  pose proof (fs_prog _ _ _ _ FS) as FP. rewrite ET in FP. cbn [ts_grid] in FP.
  destruct (C04_default_proof V es T) as (prog & root & EPr & _ & VPr). rewrite FP in EPr. inversion EPr as [EPr']. 
  assert (PB := prog_bounds V es (s_prog s) T FP).
  eapply draws_bind.
  - rewrite EPr' in PB |- *.
    apply (prog_draws cell dot ws tb M A lo hi DOT TK HM HA HN LO CELL s TI (t_eprobs t) n (map (fun '(_, a, b) => (a, b)) (make_tree es)) root prog); auto.
  - intros [[[a b] d] z] HJ. cbv zeta.
    assert (Hz : forall v, v < V -> z v < M) by (intros v Hv; apply (HJ v Hv)).
    destruct (stats_tinv ws tb M TK ltac:(lia) s n z TI Hn NI Hz) as (s' & EU & TI' & E1 & E2 & E3).
    change (s_tree (TSt (s_tree s) (s_prog s) (set_add n (s_added s)) (set1 (s_asg s) n z) (s_vert s) (s_edge s) (s_feat s) (s_meas s) (s_eprobs s))) with (s_tree s).
    rewrite EU. cbn [flift fbind draws_usable]. split; [|auto]. split; [exact TI'|]. cbn [t_state t_eprobs].
    intros e m1 m2 He H1 H2. rewrite eprobs_update_spec. rewrite E2.
    assert (Zn : s_asg s' n = z) by (rewrite E3; unfold set1; now rewrite Nat.eqb_refl).
    pose proof (edge_count ws tb M (proj1 HM) s s' n e m1 m2 TI TI' E2) as EC. rewrite Zn in EC. 
    pose proof (edge_small ws tb M A 1 HM ltac:(lia) ltac:(lia) HN s e m1 m2 TI He H1 H2) as (B1 & B2).
    pose proof (edge_small ws tb M A 1 HM ltac:(lia) ltac:(lia) HN s' e m1 m2 TI' He H1 H2) as (B3 & B4).
    specialize (EP e m1 m2 He H1 H2). fold s in EP. rewrite EC in *; auto;
      try (rewrite E1; apply set_add_perm; auto); try (intros k Hk; rewrite E3; unfold set1; now rewrite (proj2 (Nat.eqb_neq k n))).
    destruct (pair_hit (ts_grid (s_tree s)) z e m1 m2); [apply near_dadd; auto; lia|rewrite Z.add_0_r; exact EP].
Qed.

Lemma remove_row_inv t n t' x : inv32 t -> remove_row32 tb M t n = Ok (t', x) -> inv32 t'.
Proof.
  intros (TI & EP) E. unfold remove_row32 in E. set (s := t_state t) in *.
  destruct (set_mem n (s_added s)) eqn:EM.
  - apply set_mem_In in EM. destruct (remove_row_Ok ws tb M TK (proj1 HM) s n TI EM) as (s' & ER & TI' & E1 & E2 & E3).
    rewrite ER in E. cbn [bind] in E. inversion E; subst t' x. clear E. split; [exact TI'|]. cbn [t_state t_eprobs].
    intros e m1 m2 He H1 H2. rewrite eprobs_update_spec, E2, E3.
    pose proof (edge_count ws tb M (proj1 HM) s' s n e m1 m2 TI' TI (eq_sym E2)) as EC. rewrite E2 in EC.
    pose proof (edge_small ws tb M A 1 HM ltac:(lia) ltac:(lia) HN s e m1 m2 TI He H1 H2) as (B1 & B2).
    pose proof (edge_small ws tb M A 1 HM ltac:(lia) ltac:(lia) HN s' e m1 m2 TI' He H1 H2) as (B3 & B4).
    specialize (EP e m1 m2 He H1 H2). fold s in EP.
    destruct TI as [[F1 _ _ _ _ _ _ _ _] SO _ _].
    rewrite EC in EP, B1, B2; auto;
      try (rewrite E1; now apply set_remove_perm); try (rewrite E1; intros K; apply set_remove_raw_In in K; tauto); try (intros k Hk; now rewrite E3).
    destruct (pair_hit (ts_grid (s_tree s)) (s_asg s n) e m1 m2); [|rewrite Z.add_0_r in EP; exact EP].
    replace (s_edge s' e m1 m2) with (s_edge s' e m1 m2 + 1 + -1)%Z by lia. apply near_dadd; auto; lia.
  - unfold remove_row in E. rewrite EM in E. cbn [negb bind] in E. inversion E; subst. split; auto.
Qed.

Lemma set_edges_inv t es t' x : inv32 t -> op_ok tb (OpSetEdges es) -> set_edges32 M t es = Ok (t', x) -> inv32 t'.
Proof.
  intros (TI & EP) OK E. unfold set_edges32 in E. destruct OK as [T|N].
  - destruct (set_edges_Ok ws tb M (proj1 HM) (t_state t) es TI T) as (s' & ES & TI' & _). rewrite ES in E. cbn [bind] in E. inversion E; subst t' x.
    split; [exact TI'|]. cbn [t_state t_eprobs]. now apply fresh_near.
  - rewrite (set_edges_rejected ws tb M (proj1 HM) (t_state t) es TI N) in E. cbn [bind] in E. inversion E; subst. split; auto.
Qed.

Lemma reachable_inv t : reachable32_with cell dot tb prior M t -> inv32 t.
Proof.
  induction 1 as [t E|t n us t' x _ IH OK HU E|t n t' x _ IH OK E|t es t' x _ IH OK E].
  - unfold init_trainer32 in E. destruct (init_trainer tb prior M) as [s|] eqn:EI; [|discriminate]. cbn [bind] in E. inversion E; subst t.
    destruct (init_Ok ws tb M (proj1 HM) prior s EI) as (TI & _). split; [exact TI|]. cbn [t_state t_eprobs]. now apply fresh_near.
  - destruct (frun_usable _ _ _ (add_row_draws t n IH OK) us HU) as [([t1 x1] & E1 & I1 & _)|E1]; rewrite E in E1; [|discriminate].
    inversion E1; subst. exact I1.
  - eapply remove_row_inv; eauto.
  - eapply set_edges_inv; eauto.
Qed.

Lemma reachable_draws_with t n : reachable32_with cell dot tb prior M t -> n < num_rows tb -> ~ In n (s_added (t_state t)) ->
  draws_usable (fun '(t', x) => x = None /\ from_scratch ws tb M (t_state t') /\ s_added (t_state t') = set_add n (s_added (t_state t))) (add_row32_with cell dot tb M t n).
Proof.
  intros RT Hn NI. eapply draws_mono; [|apply add_row_draws; auto; now apply reachable_inv].
  intros [t' x] ((TI & _) & K). destruct (K NI) as (K1 & K2). split; [exact K1|]. split; [apply TI|exact K2].
Qed.
End SAFE.

Lemma reachable_draws dot ws tb prior M A c : dot_ok dot -> table_ok ws tb -> nonneg_data tb -> 1 <= M <= 128 ->
  (1 <= A <= 16)%Z -> (1 <= c)%Z -> ((A + 9) * c + A <= 69)%Z ->
  ((Z.of_nat (num_rows tb) + 1) * c < 2 ^ A)%Z -> Forall (fun w => (Z.of_nat w <= 2 ^ A)%Z) ws ->
  (forall n v, n < num_rows tb -> v < num_cols tb -> (block_sum ws (nth n (tb_rows tb) []) v <= c)%Z) ->
  forall t n, reachable32 dot tb prior M t -> n < num_rows tb -> ~ In n (s_added (t_state t)) ->
  draws_usable (fun '(t', x) => x = None /\ from_scratch ws tb M (t_state t') /\ s_added (t_state t') = set_add n (s_added (t_state t))) (add_row32 dot tb M t n).
Proof.
  intros D TK ND HM HA Hc HAc HN HW HC t n.
  apply (reachable_draws_with treecat_add_cell32 dot ws tb prior M A (-1 - (A + 9) * c) (A + 7 * c)); auto.
  - nia.
  - eapply lo_ok; eauto.
  - now apply cell_good_old.
Qed.
