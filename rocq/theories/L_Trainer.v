(** Invariant of the trainer over all operation histories. *)
From Coq Require Import List Arith Lia Bool ZArith Reals Lra Permutation FunctionalExtensionality Sorted.
From Verif Require Import Base L_Base Spec_Graph L_Graph Spec_Sum M_Structure L_MakeTree L_Program L_ProgramValid Spec_Program L_Center L_Prop1 M_Rand L_Rand M_Util Spec_Ragged L_Ragged M_Array M_SampleTree M_EstimateTree M_Schedule M_Training Spec_Stats L_Stats.
Import ListNotations.
Open Scope nat_scope.

Lemma prog_bounds V es prog : spanning_tree V es -> make_propagation_program (make_tree es) None = Ok prog ->
  forall op v a e, In (I op v a e) prog -> v < V /\ match op with OP_IN | OP_OUT => a < V /\ e < V - 1 | _ => True end.
Proof.
  intros T E op v a e H. destruct (C04_default_proof V es T) as (p' & c & E' & C & VP).
  rewrite E in E'. inversion E'; subst p'. clear E'.
  assert (PE : forall p c' e, parent_edge (grid_edges (make_tree es)) c p c' e -> p < V /\ c' < V /\ e < V - 1).
  { intros p c' e0 ((f & Ef & Sm) & _).
    destruct (make_tree_spanning V es T) as (LL & R & _).
    assert (e0 < length (grid_edges (make_tree es))) by (apply nth_error_Some; congruence).
    apply nth_error_In in Ef. destruct f as [x y]. apply R in Ef. destruct Sm as [Sm|[S1 S2]].
    - inversion Sm; subst. lia.
    - simpl in *. subst. lia. }
  destruct op.
  - apply (vp_up _ _ _ _ VP) in H. split; [lia|auto].
  - apply (vp_in _ _ _ _ VP) in H. apply PE in H. lia.
  - apply (vp_root _ _ _ _ VP) in H. destruct C. split; [lia|auto].
  - apply (vp_out _ _ _ _ VP) in H. apply PE in H. lia.
  - apply (vp_down _ _ _ _ VP) in H. split; [lia|auto].
Qed.

Lemma vec_nonempty {A} M (f : nat -> A) : 1 <= M -> vec M f <> [].
Proof. intros H E. apply (f_equal (@length A)) in E. unfold vec in E. rewrite map_length, seq_length in E. simpl in E. lia. Qed.

Lemma cat_vec M (f : nat -> R) m : cat_outcome (vec M f) m -> m < M.
Proof. intros [H _]. unfold vec in H. now rewrite map_length, seq_length in H. Qed.

Lemma always_and A (p : rprog A) (P Q : A -> Prop) : always P p -> always Q p -> always (fun a => P a /\ Q a) p.
Proof. induction p; simpl; intros; try tauto; auto. destruct H0, H1. split; auto. Qed.

Section Trainer.
Variables (ws : list nat) (tb : table) (M : nat).
Hypothesis TK : table_ok ws tb.
Hypothesis HM : 1 <= M.
Notation V := (num_cols tb).

Record tinv (s : tstate) : Prop := {
  ti_fs : from_scratch ws tb M s;
  ti_sorted : ssorted (s_added s);
  ti_all : forall n v, v < V -> s_asg s n v < M;
  ti_grid : exists es, spanning_tree V es /\ s_tree s = TS V (make_tree es)
}.

Lemma add_cell_Ok row v st : v < V -> exists st',
  treecat_add_cell TY_MULTINOMIAL (tb_ri tb) row v st = Ok st'.
Proof.
  intros Hv. unfold treecat_add_cell. replace (TY_MULTINOMIAL =? TY_MULTINOMIAL) with true by reflexivity.
  rewrite !(ri_get _ _ TK) by lia. cbn [bind]. eauto.
Qed.

Definition asg_of (st : (nat -> nat -> R) * (nat -> nat -> R) * (nat -> nat -> R) * (nat -> nat)) := snd st.

Lemma add_instr_always row vp ep i st :
  (let '(I op v a e) := i in v < V /\ match op with OP_IN | OP_OUT => a < V /\ e < V - 1 | _ => True end) ->
  (forall v, v < V -> asg_of st v < M) ->
  always (fun st' => (forall v, v < V -> asg_of st' v < M) /\ forall v, ~ v < V -> asg_of st' v = asg_of st v)
    (add_instr (tb_types tb) (tb_ri tb) row V (V - 1) M vp ep st i).
Proof.
  destruct i as [op v a e], st as [[[messages fp] mp] z]. unfold asg_of. cbn [snd]. intros (Hv & HB) Hz.
  assert (UPD : forall m, m < M -> (forall u, u < V -> set1 z v m u < M) /\ forall u, ~ u < V -> set1 z v m u = z u).
  { intros m Hm. unfold set1. split; intros u Hu; destruct (Nat.eqb_spec u v); auto. lia. }
  unfold add_instr. apply always_bind. unfold check at 1. rewrite (proj2 (Nat.ltb_lt v V)) by auto. cbn [lift always].
  destruct op.
  - apply always_bind. rewrite (ty_get _ _ TK) by auto. cbn [lift always]. apply always_bind.
    destruct (add_cell_Ok row v (messages v, fp, mp) Hv) as ([[a1 b1] c1] & E). rewrite E. cbn. auto.
  - apply always_bind. unfold check. destruct HB as (B1 & B2).
    rewrite (proj2 (Nat.ltb_lt a V)), (proj2 (Nat.ltb_lt e (V - 1))) by auto. cbn. auto.
  - split; [now apply vec_nonempty|]. intros m Hm. apply cat_vec in Hm. apply UPD; auto.
  - apply always_bind. unfold check. destruct HB as (B1 & B2).
    rewrite (proj2 (Nat.ltb_lt a V)), (proj2 (Nat.ltb_lt e (V - 1))), (proj2 (Nat.ltb_lt (z a) M)) by auto.
    cbn [andb lift always]. split; [now apply vec_nonempty|]. intros m Hm. apply cat_vec in Hm. apply UPD; auto.
  - cbn. auto.
Qed.

Lemma add_instrs_always row vp ep prog : 
  (forall op v a e, In (I op v a e) prog -> v < V /\ match op with OP_IN | OP_OUT => a < V /\ e < V - 1 | _ => True end) ->
  forall st, (forall v, v < V -> asg_of st v < M) ->
  always (fun st' => forall v, v < V -> asg_of st' v < M)
    (rfold (add_instr (tb_types tb) (tb_ri tb) row V (V - 1) M vp ep) prog st).
Proof.
  intros HP st Hz. apply always_rfold; auto. intros st' i Hst Hi. eapply always_mono; [|apply add_instr_always; auto].
  - cbn. intros ? [? _]; auto.
  - destruct i. apply HP. auto.
Qed.

(** ** Effect of the update of the statistics *)
Lemma grid_facts es : spanning_tree V es ->
  (forall x v1 v2, In (x, v1, v2) (make_tree es) -> v1 < V /\ v2 < V) /\ length (make_tree es) = V - 1 /\
  forall e, nth_error (make_tree es) e = option_map (fun p => (e, fst p, snd p)) (nth_error (grid_edges (make_tree es)) e).
Proof.
  intros T. destruct (make_tree_spanning V es T) as (L & R & _). split; [|split].
  - intros x v1 v2 H. apply R. unfold grid_edges. apply in_map_iff. exists (x, v1, v2). auto.
  - unfold grid_edges in L. rewrite map_length in L. lia.
  - intros e. unfold grid_edges. rewrite nth_error_map. destruct (nth_error (make_tree es) e) as [[[x a] b]|] eqn:E; auto.
    simpl. destruct (make_tree_canonical es) as (_ & C & _). destruct (C _ _ _ _ E) as [-> _]. reflexivity.
Qed.

Lemma row_len n : n < num_rows tb -> length (nth n (tb_rows tb) []) = list_sum ws.
Proof. intros H. pose proof (tk_rows _ _ TK) as F. rewrite Forall_forall in F. apply F. now apply nth_In. Qed.

Lemma get_row n e : n < num_rows tb -> get e (tb_rows tb) n = Ok (nth n (tb_rows tb) []).
Proof. intros H. now apply get_Ok. Qed.

Lemma update_stats_Ok d n z s es : spanning_tree V es -> s_tree s = TS V (make_tree es) -> n < num_rows tb ->
  (forall v, v < V -> z v < M) ->
  let row := nth n (tb_rows tb) [] in
  exists vert edg feat meas eprobs,
    update_stats V M d (tb_types tb) (tb_ri tb) row (ts_grid (s_tree s)) z s =
      Ok (TSt (s_tree s) (s_prog s) (s_added s) (s_asg s) vert edg feat meas eprobs) /\
    (forall v m, v < V -> vert v m = (s_vert s v m + d * one_if (z v =? m)%nat)%Z) /\
    (forall e v1 v2 m1 m2, nth_error (ts_get_edges (s_tree s)) e = Some (v1, v2) ->
      edg e m1 m2 = (s_edge s e m1 m2 + d * one_if ((z v1 =? m1)%nat && (z v2 =? m2)%nat))%Z) /\
    (forall e m1 m2, (eprobs e m1 m2 - IZR (edg e m1 m2) = s_eprobs s e m1 m2 - IZR (s_edge s e m1 m2))%R) /\
    (forall v r m, owns ws v r -> feat r m = (s_feat s r m + d * (one_if (z v =? m)%nat * datum tb n r))%Z) /\
    (forall v m, v < V -> meas v m = (s_meas s v m + d * (one_if (z v =? m)%nat * block_sum ws row v))%Z).
Proof.
  intros T ET Hn Hz row. destruct (grid_facts es T) as (G1 & G2 & G3). unfold update_stats.
  destruct (vert_update_Ok tb M d z (s_vert s) Hz) as (vert & -> & HV1). cbn [bind].
  rewrite ET. cbn [ts_grid].
  destruct (edge_update_Ok tb M d z (make_tree es) (s_edge s) (s_eprobs s) Hz G1 ltac:(lia)) as (edg & eprobs & -> & HE).
  cbn [bind].
  destruct (feat_update_Ok ws tb M TK d z row (s_feat s) (s_meas s) Hz (row_len n Hn)) as (feat & meas & -> & HF & HMs).
  cbn [bind]. exists vert, edg, feat, meas, eprobs. split; [reflexivity|].
  split; [|split; [|split; [|split]]].
  - intros v m Hv. rewrite HV1. apply Nat.ltb_lt in Hv. rewrite Hv. cbn [andb]. unfold one_if. destruct (z v =? m); lia.
  - intros e v1 v2 m1 m2 Ee. destruct (HE e m1 m2) as (-> & _). unfold pair_hit. rewrite G3.
    unfold ts_get_edges in Ee. cbn [ts_grid] in Ee.
    change (nth_error (grid_edges (make_tree es)) e = Some (v1, v2)) in Ee. rewrite Ee. cbn [option_map fst snd].
    unfold one_if. destruct ((z v1 =? m1) && (z v2 =? m2)); lia.
  - intros e m1 m2. destruct (HE e m1 m2) as (E1 & E2). rewrite E1, E2, plus_IZR.
    destruct (pair_hit (make_tree es) z e m1 m2); lra.
  - intros v r m O. rewrite HF. rewrite (feat_add_owns _ _ TK _ _ v) by auto. unfold datum, row. lia.
  - intros v m Hv. rewrite HMs. apply Nat.ltb_lt in Hv. rewrite Hv. cbn [andb]. unfold one_if. destruct (z v =? m); lia.
Qed.

(** ** add_row *)
Lemma add_row_always s n : tinv s -> n < num_rows tb -> ~ In n (s_added s) ->
  always (fun '(s', x) => x = None /\ tinv s' /\ s_added s' = set_add n (s_added s) /\ s_tree s' = s_tree s /\
            (forall k, k <> n -> s_asg s' k = s_asg s k)) (add_row tb M s n).
Proof.
  intros [FS SO AL (es & T & ET)] Hn NI. unfold add_row.
  destruct (set_mem n (s_added s)) eqn:EM; [apply set_mem_In in EM; contradiction|].
  apply always_bind. rewrite get_row by auto. cbn [lift always]. apply always_bind.
  destruct FS as [F1 F2 F3 F4 F5 F6 F7 F8 F9]. rewrite ET in F4. cbn [ts_grid] in F4.
  eapply always_mono; [|apply add_instrs_always; [apply (prog_bounds V es _ T F4)|unfold asg_of; cbn [snd]; auto]].
  intros [[[a b] c] z] Hz. unfold asg_of in Hz. cbn [snd] in Hz. cbv zeta. apply always_bind.
  set (s1 := TSt (s_tree s) (s_prog s) (set_add n (s_added s)) (set1 (s_asg s) n z) (s_vert s) (s_edge s) (s_feat s) (s_meas s) (s_eprobs s)).
  destruct (update_stats_Ok 1 n z s1 es T ET Hn Hz) as (vert & edg & feat & meas & eprobs & EU & U1 & U2 & U3 & U4 & U5).
  rewrite EU. cbn [lift always].
  pose proof (set_add_perm n _ NI) as PA.
  assert (TA : forall f g, (forall k, k <> n -> f k = g k) -> total (set_add n (s_added s)) f = (f n + total (s_added s) g)%Z).
  { intros f g H. rewrite (total_perm _ _ _ PA), total_cons. f_equal. apply total_ext. intros k Hk. apply H. intro; subst; auto. }
  assert (Z1 : forall k, k <> n -> set1 (s_asg s) n z k = s_asg s k).
  { intros k Hk. unfold set1. now rewrite (proj2 (Nat.eqb_neq k n)). }
  assert (Z2 : set1 (s_asg s) n z n = z) by (unfold set1; now rewrite Nat.eqb_refl).
  assert (AL' : forall k v, v < V -> set1 (s_asg s) n z k v < M).
  { intros k v Hv. unfold set1. destruct (k =? n); auto. }
  split; [reflexivity|]. split; [|split; [reflexivity|split; [reflexivity|exact Z1]]].
  split; [split| | |].
  - cbn [s_added s1]. split.
    + eapply Permutation_NoDup; [apply Permutation_sym; exact PA|]. constructor; tauto.
    + intros k Hk. apply set_add_In in Hk. destruct Hk as [->|]; auto. now apply F1.
  - cbn. intros; apply AL'; auto.
  - exact F3.
  - cbn. rewrite ET. exact F4.
  - cbn [s_vert s_added s_asg s1]. intros v m Hv Hm. rewrite U1 by auto. cbn [s_vert s1].
    rewrite (TA _ (fun k => one_if (s_asg s k v =? m))).
    + rewrite F5, Z2 by auto. lia.
    + intros k Hk. now rewrite Z1.
  - cbn [s_edge s_added s_asg s_tree s1]. intros e v1 v2 m1 m2 Ee H1 H2. rewrite (U2 _ _ _ _ _ Ee). cbn [s_edge s1].
    rewrite (TA _ (fun k => one_if ((s_asg s k v1 =? m1) && (s_asg s k v2 =? m2)))).
    + rewrite (F6 _ _ _ _ _ Ee) by auto. rewrite Z2. lia.
    + intros k Hk. now rewrite Z1.
  - cbn [s_eprobs s_edge]. intros e m1 m2 He H1 H2. specialize (U3 e m1 m2). cbn [s_eprobs s_edge s1] in U3.
    specialize (F7 e m1 m2 He H1 H2). lra.
  - cbn [s_feat s_added s_asg s1]. intros v r m O Hm. rewrite (U4 v r m O). cbn [s_feat s1].
    rewrite (TA _ (fun k => one_if (s_asg s k v =? m)%nat * datum tb k r)%Z).
    + rewrite (F8 v r m O Hm), Z2. lia.
    + intros k Hk. now rewrite Z1.
  - cbn [s_meas s_added s_asg s1]. intros v m Hv Hm. rewrite (U5 v m Hv). cbn [s_meas s1].
    rewrite (TA _ (fun k => one_if (s_asg s k v =? m)%nat * block_sum ws (nth k (tb_rows tb) []) v)%Z).
    + rewrite (F9 v m Hv Hm), Z2. lia.
    + intros k Hk. now rewrite Z1.
  - cbn. now apply set_add_sorted.
  - cbn. exact AL'.
  - exists es. split; auto.
Qed.

(** ** remove_row *)
Lemma remove_row_Ok s n : tinv s -> In n (s_added s) ->
  exists s', remove_row tb M s n = Ok (s', None) /\ tinv s' /\ s_added s' = set_remove_raw n (s_added s) /\
    s_tree s' = s_tree s /\ s_asg s' = s_asg s.
Proof.
  intros [FS SO AL (es & T & ET)] I. unfold remove_row.
  assert (EM : set_mem n (s_added s) = true) by now apply set_mem_In. rewrite EM. cbn [negb].
  rewrite set_remove_Ok by auto. cbn [bind]. destruct FS as [F1 F2 F3 F4 F5 F6 F7 F8 F9].
  assert (Hn : n < num_rows tb) by now apply F1. rewrite get_row by auto. cbn [bind]. cbv zeta.
  set (s1 := TSt (s_tree s) (s_prog s) (set_remove_raw n (s_added s)) (s_asg s) (s_vert s) (s_edge s) (s_feat s) (s_meas s) (s_eprobs s)).
  destruct (update_stats_Ok (-1) n (s_asg s n) s1 es T ET Hn (AL n)) as (vert & edg & feat & meas & eprobs & EU & U1 & U2 & U3 & U4 & U5).
  change (s_asg s1 n) with (s_asg s n).
  rewrite EU. cbn [bind].
  pose proof (set_remove_perm n _ I) as PA.
  assert (TA : forall f, total (set_remove_raw n (s_added s)) f = (total (s_added s) f - f n)%Z).
  { intros f. rewrite (total_perm _ _ _ PA), total_cons. lia. }
  eexists. split; [reflexivity|]. split; [|split; [reflexivity|split; reflexivity]].
  split; [split| | |].
  - cbn [s_added s1]. split.
    + eapply Permutation_NoDup in PA; [|apply F1]. now inversion PA.
    + intros k Hk. apply set_remove_raw_In in Hk; auto. apply F1. tauto.
  - cbn. intros; apply AL; auto.
  - exact F3.
  - exact F4.
  - cbn [s_vert s_added s_asg s1]. intros v m Hv Hm. rewrite U1 by auto. cbn [s_vert s1]. rewrite TA, F5 by auto. lia.
  - cbn [s_edge s_added s_asg s_tree s1]. intros e v1 v2 m1 m2 Ee H1 H2. rewrite (U2 _ _ _ _ _ Ee). cbn [s_edge s1].
    rewrite TA, (F6 _ _ _ _ _ Ee) by auto. lia.
  - cbn [s_eprobs s_edge]. intros e m1 m2 He H1 H2. specialize (U3 e m1 m2). cbn [s_eprobs s_edge s1] in U3.
    specialize (F7 e m1 m2 He H1 H2). lra.
  - cbn [s_feat s_added s_asg s1]. intros v r m O Hm. rewrite (U4 v r m O). cbn [s_feat s1]. rewrite TA, (F8 v r m O Hm). lia.
  - cbn [s_meas s_added s_asg s1]. intros v m Hv Hm. rewrite (U5 v m Hv). cbn [s_meas s1]. rewrite TA, (F9 v m Hv Hm). lia.
  - cbn. now apply set_remove_raw_sorted.
  - cbn. exact AL.
  - exists es. split; auto.
Qed.

(** ** set_edges *)
Lemma pair_code a b c d : b < M -> d < M -> a * M + b = c * M + d -> a = c /\ b = d.
Proof.
  intros Hb Hd E. assert (b = d).
  { rewrite <- (Nat.mod_small b M), <- (Nat.mod_small d M) by auto.
    rewrite <- (Nat.mod_add b a M), <- (Nat.mod_add d c M) by lia. f_equal. lia. }
  split; auto. subst. apply (proj1 (Nat.mul_cancel_r a c M ltac:(lia))). lia.
Qed.

Lemma count_pairs_Ok (rows : list nat) (asg : nat -> nat -> nat) v1 v2 : v1 <> v2 ->
  (forall n, In n rows -> asg n v1 < M /\ asg n v2 < M) ->
  exists c, count_pairs (map asg rows) v1 v2 M = Ok c /\
    forall m1 m2, m1 < M -> m2 < M -> c m1 m2 = total rows (fun n => one_if ((asg n v1 =? m1) && (asg n v2 =? m2))).
Proof.
  intros N B. unfold count_pairs. rewrite (proj2 (Nat.eqb_neq v1 v2)) by auto. cbn [negb assert_ bind].
  rewrite map_map.
  assert (F : forallb (fun p => p <? M * M) (map (fun x => asg x v1 * M + asg x v2) rows) = true).
  { apply forallb_forall. intros p Hp. apply in_map_iff in Hp. destruct Hp as (n & <- & Hn). destruct (B n Hn).
    apply Nat.ltb_lt. nia. }
  rewrite F. eexists. split; [reflexivity|]. intros m1 m2 H1 H2. clear F.
  induction rows as [|n rows IH]; [reflexivity|]. cbn [map]. rewrite total_cons, <- IH by (intros; apply B; now right).
  cbn [count_occ]. destruct (B n (or_introl eq_refl)) as (B1 & B2).
  destruct (Nat.eq_dec (asg n v1 * M + asg n v2) (m1 * M + m2)) as [E|E].
  - apply pair_code in E; auto. destruct E as (-> & ->). rewrite !Nat.eqb_refl. cbn [andb one_if]. lia.
  - destruct (Nat.eqb_spec (asg n v1) m1), (Nat.eqb_spec (asg n v2) m2); cbn [andb one_if]; try lia.
Qed.

Lemma spanning_no_loop es a b : spanning_tree V es -> In (a, b) es -> a <> b.
Proof.
  intros T I E. subst b. pose proof T as T0. destruct T0 as (L & R & C). destruct (R _ _ I) as (Ha & _).
  destruct (tree_rooted V es a T Ha) as (par & dep & RT).
  destruct (rt_edge _ _ _ _ _ RT _ _ I) as [(X & _)|(X & _)]; congruence.
Qed.

Lemma set_edges_Ok s edges : tinv s -> spanning_tree V edges ->
  exists s', set_edges M s edges = Ok (s', None) /\ tinv s' /\ s_added s' = s_added s /\ s_asg s' = s_asg s /\
    s_tree s' = TS V (make_tree edges).
Proof.
  intros [FS SO AL (es & T & ET)] TE. unfold set_edges. rewrite ET.
  destruct (ts_set_edges_spec (TS V (make_tree es)) edges) as (SE & _). cbn [ts_V] in SE.
  rewrite SE by (destruct TE; lia). cbn [ts_grid].
  destruct (C04_default_proof V edges TE) as (prog & c & EP & _). rewrite EP. cbn [bind].
  pose proof (make_tree_spanning V edges TE) as TE'. destruct (grid_facts edges TE) as (G1 & G2 & G3).
  destruct FS as [F1 F2 F3 F4 F5 F6 F7 F8 F9].
  destruct (foldM_inv _ _ (fun edg '(e, v1, v2) => c <- count_pairs (map (s_asg s) (s_added s)) v1 v2 M ;; Ok (set1 edg e c))
     (fun pre (f : nat -> nat -> nat -> Z) => forall e v1 v2 m1 m2, In (e, v1, v2) pre -> m1 < M -> m2 < M ->
        (forall v1' v2', In (e, v1', v2') pre -> (v1', v2') = (v1, v2)) ->
        f e m1 m2 = total (s_added s) (fun n => one_if ((s_asg s n v1 =? m1) && (s_asg s n v2 =? m2))))
     (make_tree edges) (s_edge s)) as (edg & EE & HE).
  { intros; contradiction. }
  { intros pre [[x a] b] f IH Hin. destruct (G1 _ _ _ Hin) as (Ha & Hb).
    destruct (count_pairs_Ok (s_added s) (s_asg s) a b) as (cnt & EC & HC).
    { apply (spanning_no_loop _ _ _ TE'). apply in_map_iff. exists (x, a, b). auto. }
    { intros; split; apply AL; auto. }
    rewrite EC. cbn [bind]. eexists. split; [reflexivity|].
    intros e v1 v2 m1 m2 I H1 H2 U. unfold set1. destruct (Nat.eqb_spec e x) as [->|D].
    - assert (Q : (a, b) = (v1, v2)) by (apply U; apply in_app_iff; right; now left). inversion Q; subst. apply HC; auto.
    - apply in_app_iff in I. destruct I as [I|[I|[]]]; [|congruence]. apply IH; auto.
      intros v1' v2' I'. apply U. apply in_app_iff. now left. }
  rewrite EE. cbn [bind]. eexists. split; [reflexivity|]. split; [|repeat split].
  split; [split| | |]; cbn; auto.
  - intros e v1 v2 m1 m2 Ee H1 H2.
    change (nth_error (grid_edges (make_tree edges)) e = Some (v1, v2)) in Ee.
    pose proof (G3 e) as GE. rewrite Ee in GE. cbn [option_map fst snd] in GE.
    apply HE; auto. { eapply nth_error_In; eauto. }
    intros a b I. apply In_nth_error in I. destruct I as (i & Hi). 
    destruct (make_tree_canonical edges) as (_ & C & _). destruct (C _ _ _ _ Hi) as [-> _].
    rewrite GE in Hi. inversion Hi; auto.
  - exists edges. split; auto.
Qed.

Lemma set_edges_rejected s edges : tinv s -> S (length edges) <> V -> set_edges M s edges = Ok (s, Some AssertionError).
Proof.
  intros [FS SO AL (es & T & ET)] N. unfold set_edges. rewrite ET.
  destruct (ts_set_edges_spec (TS V (make_tree es)) edges) as (_ & SE). cbn [ts_V] in SE. rewrite SE by lia. reflexivity.
Qed.

(** ** Initial state *)
Lemma path_tree : 1 <= V -> spanning_tree V (map (fun v => (v, v + 1)) (seq 0 (V - 1))).
Proof. apply path_spanning. Qed.

Lemma init_Ok prior s : init_trainer tb prior M = Ok s -> tinv s /\ s_added s = [] /\ 1 <= V.
Proof.
  unfold init_trainer. intros E.
  destruct (V <=? 2 ^ 15); cbn [assert_ bind] in E; [|discriminate].
  destruct (length prior =? V * (V - 1) / 2); cbn [assert_ bind] in E; [|discriminate].
  assert (HV : 1 <= V). { destruct V; [discriminate|lia]. }
  unfold ts_init in E.
  destruct (ts_set_edges_spec (TS V []) (map (fun v => (v, v + 1)) (seq 0 (V - 1)))) as (SE & _).
  cbn [ts_V] in SE. rewrite SE in E by (rewrite map_length, seq_length; lia). cbn [bind ts_grid] in E.
  pose proof (path_tree HV) as T.
  destruct (C04_default_proof V _ T) as (prog & c & EP & _). rewrite EP in E. cbn [bind] in E.
  destruct (M <=? 128); cbn [assert_ bind] in E; [|discriminate]. inversion E; subst; clear E.
  split; [|split; auto].
  split; [split| | |]; cbn; auto; try tauto.
  - split; [constructor|tauto].
  - split; auto. unfold ts_get_edges. cbn [ts_grid]. apply (make_tree_spanning _ _ T).
  - constructor.
  - eexists. split; [exact T|reflexivity].
Qed.

(** ** Histories *)
Lemma run_op_always s o : tinv s -> op_ok tb o -> always (fun '(s', _) => tinv s') (run_op tb M s o).
Proof.
  intros TI OK. destruct o as [n|n|edges]; cbn [run_op op_ok] in *.
  - destruct (set_mem n (s_added s)) eqn:EM.
    + unfold add_row. rewrite EM. exact TI.
    + eapply always_mono; [|apply add_row_always; auto].
      * intros [s' x]. tauto.
      * intros I. apply set_mem_In in I. congruence.
  - destruct (set_mem n (s_added s)) eqn:EM.
    + apply set_mem_In in EM. destruct (remove_row_Ok s n TI EM) as (s' & -> & TI' & _). exact TI'.
    + unfold remove_row. rewrite EM. exact TI.
  - destruct OK as [T|N].
    + destruct (set_edges_Ok s edges TI T) as (s' & -> & TI' & _). exact TI'.
    + rewrite set_edges_rejected by auto. exact TI.
Qed.

Lemma run_ops_always s ops : tinv s -> Forall (op_ok tb) ops -> always tinv (run_ops tb M ops s).
Proof.
  intros TI OK. rewrite Forall_forall in OK. unfold run_ops. apply always_rfold; auto.
  intros s' o TI' Ho. apply always_bind. eapply always_mono; [|apply run_op_always; auto].
  intros [s'' x] H. exact H.
Qed.

Lemma reachable_tinv prior s : reachable tb prior M s -> tinv s.
Proof.
  intros (s0 & ops & E & OK & MR). destruct (init_Ok prior s0 E) as (TI & _).
  destruct (always_may _ _ _ _ (run_ops_always s0 ops TI OK) MR) as (s' & Es & H). inversion Es; subst; auto.
Qed.
End Trainer.
