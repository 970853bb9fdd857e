(** The repaired marginals are the posterior predictive probabilities. *)
From Coq Require Import List Arith Lia Bool ZArith Reals Lra Permutation.
From Verif Require Import Base L_Base Spec_Graph L_Graph Spec_Sum L_Sum M_Structure L_Pairing L_MakeTree L_Program L_ProgramValid Spec_Program L_Center L_Prop1 M_Rand L_Rand M_Util Spec_Ragged L_Ragged M_Array M_SampleTree M_EstimateTree Spec_Trees Spec_MST M_Training Spec_Stats L_Stats L_Trainer Spec_Joint Spec_Conditional L_Asg L_BP L_BPVec L_AddRow L_EdgeLogits L_Train M_Serving Spec_Serving L_Server L_Inward L_Logprob L_Path L_Marginals L_MargPost L_Serve1 L_Serve3 M_Repaired.
Import ListNotations.
Open Scope R_scope.

Section Rep.
Variables (ws : list nat) (V M : nat) (edges : list (nat * nat)) (s : server).
Hypothesis SF : sfacts ws V M edges s.
Notation es := (grid_edges (make_tree edges)).
Variables (r : nat) (par dep : nat -> nat).
Hypothesis RT : rooted V es r par dep.
Variable np : list (nat * option nat * list nat).
Hypothesis BL : bfs_list V r par np.
Notation PSI := (opair edges par (sv_trans s)).
Variable row : list Z.
Hypothesis RL : length row = list_sum ws.
Notation MI := (marginals_instr s row).
Notation RI := (repaired_marginals_instr s row).
Notation nod := (node ws s row).
Notation off v := (list_sum (firstn v ws)).

(** Without OP_OUT the two programs agree. *)
Lemma fold_same l : (forall op v v2 e, In (I op v v2 e) l -> op <> OP_OUT) -> forall st, foldM RI l st = foldM MI l st.
Proof.
  induction l as [|[op v v2 e] l IH]; intros H st; [reflexivity|]. cbn [foldM].
  assert (E : RI st (I op v v2 e) = MI st (I op v v2 e)).
  { specialize (H op v v2 e (or_introl eq_refl)). unfold repaired_marginals_instr. destruct op; try reflexivity. congruence. }
  rewrite E. destruct (MI st (I op v v2 e)); cbn [bind]; [|reflexivity]. apply IH. intros o x y z K. apply (H o x y z). now right.
Qed.

Lemma ins_no_out l op v v2 e : In (I op v v2 e) (concat (map (ins_of edges par) l)) -> op <> OP_OUT.
Proof.
  intros H. apply in_concat in H. destruct H as (x & Hx & H). apply in_map_iff in Hx. destruct Hx as ([[u p] cs] & <- & _).
  unfold ins_of in H. destruct H as [H|H]; [congruence|]. apply in_map_iff in H. destruct H as (c & H & _). congruence.
Qed.

Variables (B : nat -> nat -> R) (a : nat -> R).
Hypothesis AP : forall v, (v < V)%nat -> 0 < a v.
Hypothesis UNZ : forall c mp, (c < V)%nat -> c <> r -> (mp < M)%nat -> up M PSI B c mp <> 0.
Notation Q v := (Qn par M PSI B (dep v) v).

Definition rval (v q : nat) : R := sumf (seq 0 M) (fun m => sv_feat s q m * B v m * Q v m).

(** Vertices done have the whole evidence, those to do that of their subtree. *)
Definition rinv (todo : list nat) (st : (nat -> nat -> R) * (nat -> nat -> R) * (nat -> R)) : Prop :=
  let '(mi, mo, res) := st in
  forall v, (v < V)%nat ->
    (In v todo -> forall m, (m < M)%nat -> mi v m = a v * B v m) /\
    (~ In v todo -> (exists k, 0 < k /\ forall m, (m < M)%nat -> mi v m = k * B v m * Q v m) /\
       forall q, In q (block ws v) -> res q = rval v q / sumf (block ws v) (rval v)).

Lemma rdown_step v todo mi mo res k : (v < V)%nat -> ~ In v todo -> 0 < k ->
  (forall m, (m < M)%nat -> mi v m = k * B v m * Q v m) ->
  (forall u, (u < V)%nat -> u <> v ->
    (In u todo -> forall m, (m < M)%nat -> mi u m = a u * B u m) /\
    (~ In u todo -> (exists k, 0 < k /\ forall m, (m < M)%nat -> mi u m = k * B u m * Q u m) /\
       forall q, In q (block ws u) -> res q = rval u q / sumf (block ws u) (rval u))) ->
  exists res', RI (mi, mo, res) (I OP_DOWN v 0 0) = Ok (mi, mo, res') /\ rinv todo (mi, mo, res').
Proof.
  intros Hv NI Kp MIv OTH. unfold repaired_marginals_instr.
  unfold marginals_instr. rewrite (sv_V_eq ws V M edges s SF), (sv_M_eq ws V M edges s SF). unfold index. rewrite (proj2 (Nat.ltb_lt v V)) by auto. cbn [bind].
  rewrite !(sri_get ws V M edges s SF) by lia. cbn [bind]. rewrite (block_width ws V M edges s SF) by auto.
  eexists. split; [reflexivity|].
  assert (INB : forall q, ((off v <=? q) && (q <? off (v + 1)) = true)%nat <-> In q (block ws v)).
  { intros q. pose proof (block_width ws V M edges s SF v Hv) as BW. rewrite <- BW, in_seq, andb_true_iff, Nat.leb_le, Nat.ltb_lt. lia. }
  assert (MV : forall q, rsum (vec M (fun m => sv_feat s q m * mi v m)) = k * rval v q).
  { intros q. rewrite rsum_vec. unfold rval. rewrite <- sumf_scal. apply sumf_ext. intros m I. apply in_seq in I. rewrite MIv by lia. ring. }
  intros u Hu. destruct (Nat.eq_dec u v) as [->|NE].
  - split; [intros K; now elim NI|]. intros _. split; [exists k; auto|]. intros q Hq. rewrite (proj2 (INB q) Hq). rewrite MV.
    unfold rsum at 1. rewrite sumf_map. rewrite (sumf_ext _ _ (fun q => k * rval v q)) by (intros; apply MV). rewrite sumf_scal.
    unfold Rdiv. rewrite Rinv_mult. generalize (/ sumf (block ws v) (rval v)). intros t.
    transitivity (k * / k * (rval v q * t)); [ring|]. rewrite Rinv_r by lra. ring.
  - destruct (OTH u Hu NE) as (T & D). split; [exact T|]. intros NU. destruct (D NU) as (D1 & D2). split; [exact D1|].
    intros q Hq. destruct ((off v <=? q) && (q <? off (v + 1)))%nat eqn:EB; [|now apply D2].
    exfalso. apply NE. eapply (block_once ws V M edges s SF) with (q := q); eauto; now apply INB.
Qed.

Lemma Q_root m : Q r m = 1.
Proof. now rewrite (rt_dep _ _ _ _ _ RT). Qed.

Lemma up_scal k x c mp : (forall m, (m < M)%nat -> x c m = k * B c m) -> up M PSI x c mp = k * up M PSI B c mp.
Proof.
  intros H. unfold up. rewrite <- sumf_scal. apply sumf_ext. intros m I. apply in_seq in I. rewrite H by lia. ring.
Qed.

Lemma rout_steps l : (forall x, In x l -> (ev x < V)%nat) -> NoDup (map ev l) ->
  (forall pre v post, map ev l = pre ++ v :: post -> v <> r -> ~ In (par v) (v :: post)) ->
  forall st, rinv (map ev l) st -> exists st', foldM RI (concat (map (outs_of edges r par) l)) st = Ok st' /\ rinv [] st'.
Proof.
  induction l as [|[[v p] cs] l IH]; intros LT ND PF [[mi mo] res] OI.
  - eexists. split; [reflexivity|]. exact OI.
  - cbn [map] in ND, OI. apply NoDup_cons_iff in ND. destruct ND as (NI & ND).
    assert (PFv := PF [] v (map ev l) eq_refl).
    assert (Hv : (v < V)%nat) by (apply (LT (v, p, cs)); now left).
    assert (IH' : forall st, rinv (map ev l) st -> exists st', foldM RI (concat (map (outs_of edges r par) l)) st = Ok st' /\ rinv [] st').
    { apply IH; auto.
      - intros x Hx. apply LT. now right.
      - intros pre u post E. apply (PF (v :: pre) u post). cbn [map app]. change (ev (v, p, cs)) with v. now rewrite E. }
    change (ev (v, p, cs)) with v in *. destruct (OI v Hv) as (T & _). specialize (T (or_introl eq_refl)).
    assert (OTH : forall mi', (forall u, u <> v -> mi' u = mi u) -> forall u, (u < V)%nat -> u <> v ->
      (In u (map ev l) -> forall m, (m < M)%nat -> mi' u m = a u * B u m) /\
      (~ In u (map ev l) -> (exists k, 0 < k /\ forall m, (m < M)%nat -> mi' u m = k * B u m * Q u m) /\
         forall q, In q (block ws u) -> res q = rval u q / sumf (block ws u) (rval u))).
    { intros mi' E u Hu N. rewrite (E u N). destruct (OI u Hu) as (A & C). split.
      - intros I. apply A. now right.
      - intros NU. apply C. intros [E1|I]; [congruence|auto]. }
    pose proof (AP v Hv) as Av.
    cbn [map concat]. unfold outs_of at 1. destruct (Nat.eqb_spec v r) as [->|NR].
    + cbn [app foldM].
      destruct (rdown_step r (map ev l) mi mo res (a r) Hv NI Av) as (res' & E & O).
      * intros m Hm. rewrite Q_root, (T m Hm). ring.
      * apply (OTH mi). auto.
      * rewrite E. cbn [bind]. apply IH'. exact O.
    + pose proof (par_lt _ _ _ _ _ RT v Hv) as Hp.
      destruct (OI (par v) Hp) as (_ & D). destruct (D (PFv NR)) as ((k & Kp & Dk) & _).
      cbn [app foldM]. unfold repaired_marginals_instr at 1. unfold index. rewrite (sv_V_eq ws V M edges s SF), (sv_M_eq ws V M edges s SF).
      rewrite (proj2 (Nat.ltb_lt v V)), (proj2 (Nat.ltb_lt (par v) V)) by auto.
      rewrite (proj2 (Nat.ltb_lt _ (V - 1))) by (eapply eidx_lt; eauto). cbn [bind andb].
      assert (FC : forall mp, dot M (oriented s (eidx edges par v) (v <? par v)%nat) (mi v) mp = a v * up M PSI B v mp).
      { intros mp. pose proof (dot_up ws V M edges s SF r par mi v (par v) mp Hv NR eq_refl) as DU.
        rewrite (sv_M_eq ws V M edges s SF) in DU. rewrite DU. now apply up_scal. }
      assert (FP : forall m, dot M (oriented s (eidx edges par v) (par v <? v)%nat)
         (fun mp => mi (par v) mp / dot M (oriented s (eidx edges par v) (v <? par v)%nat) (mi v) mp) m = k / a v * Q v m).
      { intros m. erewrite from_parent by eauto. rewrite (par_dep _ _ _ _ _ RT v Hv NR). cbn [Qn].
        rewrite <- sumf_scal. apply sumf_ext. intros mp I. apply in_seq in I. rewrite FC, Dk by lia.
        field. split; [apply UNZ; auto; lia|lra]. }
      match goal with |- context[RI (?x, mo, res) (I OP_DOWN v 0 0)] => destruct (rdown_step v (map ev l) x mo res k Hv NI Kp) as (res' & E & O) end.
      * intros m Hm. rewrite set1_same, FP, (T m Hm). field. lra.
      * apply OTH. intros u N. rewrite set1_other by auto. auto.
      * rewrite E. cbn [bind]. apply IH'. exact O.
Qed.
End Rep.

Section RVal.
Variables (ws : list nat) (V M : nat) (edges : list (nat * nat)) (s : server).
Hypothesis SF : sfacts ws V M edges s.
Notation es := (grid_edges (make_tree edges)).
Variables (r : nat) (par dep : nat -> nat).
Hypothesis RT : rooted V es r par dep.
Variable np : list (nat * option nat * list nat).
Hypothesis BL : bfs_list V r par np.
Notation PSI := (opair edges par (sv_trans s)).
Notation tab := (tab V r par M PSI).

Lemma rval_total row v q : length row = list_sum ws -> (v < V)%nat -> In q (block ws v) ->
  rval M edges s par dep (tab (node ws s row)) v q = total_weight ws V M edges s (bump row q).
Proof.
  intros RL Hv Hq. rewrite <- (Tot_total ws V M edges s SF r par dep RT np BL).
  transitivity (Tot V r par M PSI (at1 (node ws s row) v (fun m => sv_feat s q m))).
  - rewrite (path V es r par dep M RT PSI (node ws s row) (tab (node ws s row)) _ v (tab_upward V es r par dep M RT PSI _)); auto.
    intros. eapply tab_nz; eauto.
  - apply (Tot_ext V es r par dep M RT). intros u m0 Hu Hm0. unfold node at 2. destruct (Nat.eq_dec u v) as [->|NE].
    + rewrite at1_same, (likeli_bump ws V M edges s SF row) by auto. unfold node. ring.
    + rewrite at1_other by auto. rewrite (likeli_bump_other ws V M edges s SF row u v) by auto. reflexivity.
Qed.

Lemma repaired_value row junk : length row = list_sum ws -> sv_prog s = prog_of edges r par np ->
  exists marg, repaired_marginals_row s junk row = Ok marg /\ length marg = list_sum ws /\
    forall v q, (v < V)%nat -> In q (block ws v) ->
      nth q marg 0 = rval M edges s par dep (tab (node ws s row)) v q /
                     sumf (block ws v) (rval M edges s par dep (tab (node ws s row)) v).
Proof.
  intros RL EP. pose proof (HM ws V M edges s SF) as HM. unfold repaired_marginals_row. rewrite (sf_R _ _ _ _ _ SF), RL, Nat.eqb_refl. cbn [assert_ bind].
  rewrite EP. unfold prog_of. rewrite foldM_app'.
  destruct (marg_in ws V M edges s SF r par dep RT np BL row RL junk (fun _ => 0)) as (msg & acc & mo & E1 & RUN & MP).
  rewrite (fold_same s row) by (intros op v v2 e; apply ins_no_out).
  rewrite E1. cbn [bind app foldM]. unfold repaired_marginals_instr at 1. unfold marginals_instr at 1. unfold index. rewrite (sv_V_eq ws V M edges s SF).
  rewrite (proj2 (Nat.ltb_lt r V)) by apply RT. cbn [bind].
  pose proof (bl_good _ _ _ _ BL) as GD. rewrite Forall_forall in GD.
  assert (LT : forall x, In x np -> (ev x < V)%nat) by (intros [[v p] cs] Hx; destruct (GD _ Hx) as (X & _); exact X).
  pose proof (order_perm V r par np BL) as OP. pose proof (order_nodup V r par np BL) as ON. unfold order in OP, ON.
  assert (ALL : forall v, (v < V)%nat -> In v (map ev np)).
  { intros v Hv. eapply Permutation_in; [apply Permutation_sym, OP|]. apply in_seq. lia. }
  set (B := tab (node ws s row)).
  assert (UB : upward V r par M (node ws s row) PSI B) by (apply tab_upward with (1 := RT)).
  assert (BP : forall v m, (v < V)%nat -> (m < M)%nat -> 0 < B v m).
  { apply (B_pos V es r par dep M RT HM (node ws s row) PSI B); auto; [apply (node_pos ws V M edges s SF)|apply (psi_pos ws V M edges s SF r par dep RT)]. }
  assert (SC : forall v, (v < V)%nat -> exists b, 0 < b /\ forall m, (m < M)%nat -> msg v m = b * B v m).
  { destruct (run_upward V edges r par dep RT np BL M (node ws s row) (sv_trans s) (likeli ws s row) (sv_vert s) (sv_vert s) msg acc) as (k & K1 & _ & K3); auto.
    apply (upward_scale V es r par dep M RT PSI k (node ws s row) B msg); auto. intros c Hc N. apply K1. apply in_nonroot. auto. }
  set (a := fun v => msg v 0%nat / B v 0%nat).
  assert (AE : forall v, (v < V)%nat -> 0 < a v /\ forall m, (m < M)%nat -> msg v m = a v * B v m).
  { intros v Hv. destruct (SC v Hv) as (b & Hb & E). pose proof (BP v 0%nat Hv HM).
    assert (EA : a v = b) by (unfold a; rewrite E by auto; field; lra). rewrite EA. auto. }
  assert (UNZ : forall c mp, (c < V)%nat -> c <> r -> (mp < M)%nat -> up M PSI B c mp <> 0) by (intros; eapply tab_nz; eauto).
  destruct (rout_steps ws V M edges s SF r par dep RT row RL B a (fun v Hv => proj1 (AE v Hv)) UNZ np LT ON
    (last_split r par _ ON (order_first V r par np BL)) (msg, mo, fun _ => 0)) as ([[mi' mo'] res'] & E2 & O2).
  - intros v Hv. split.
    + intros _ m Hm. now apply AE.
    + intros NI. exfalso. apply NI. auto.
  - rewrite E2. cbn [bind]. eexists. split; [reflexivity|]. split; [now rewrite map_length, seq_length|].
    intros v q Hv Hq. assert (LQ : (q < list_sum ws)%nat) by (eapply in_block_lt; eauto).
    rewrite nth_indep with (d' := res' 0%nat) by (now rewrite map_length, seq_length). rewrite map_nth, seq_nth by auto. cbn [Nat.add].
    destruct (O2 v Hv) as (_ & D). destruct (D (fun x => x)) as (_ & D2). apply D2. exact Hq.
Qed.
End RVal.

Lemma C30_repaired : forall ws V M N m mst s junk row, consistent ws V M N m -> mst_contract mst -> tree_server mst m = Ok s ->
  length row = list_sum ws ->
  exists marg, repaired_marginals_row s junk row = Ok marg /\ length marg = list_sum ws /\
    forall v q, (v < V)%nat -> In q (block ws v) -> nth q marg 0 = predictive ws m row v q.
Proof.
  intros ws V M N m mst s junk row C MC E RL.
  destruct (build_server ws V M N m C mst MC) as (s' & edges & E' & SF & ST & SV & SE & SFe & _ & _ & EP). rewrite E in E'. inversion E'; subst s'.
  destruct (sf_tree _ _ _ _ _ SF) as (ET & T). rewrite ET in EP. cbn [ts_grid] in EP.
  destruct (find_center_Ok V edges T) as (r & EC & CC). assert (Hr : (r < V)%nat) by apply CC.
  unfold make_propagation_program in EP. rewrite EC in EP. cbn [bind] in EP.
  destruct (tree_rooted V _ r (make_tree_spanning _ _ T) Hr) as (par & dep & RT).
  destruct (make_program_rooted_Ok _ _ _ _ _ RT) as (np & E2 & BL). rewrite E2 in EP. injection EP as EP.
  destruct (repaired_value ws V M edges s SF r par dep RT np BL row junk RL (eq_sym EP)) as (marg & E3 & L3 & H3).
  exists marg. split; [exact E3|]. split; [exact L3|]. intros v q Hv Hq. rewrite (H3 v q Hv Hq).
  pose proof (proj1 (cm_M _ _ _ _ _ C)) as SM.
  assert (MV : forall q, In q (block ws v) -> rval M edges s par dep (tab V r par M (opair edges par (sv_trans s)) (node ws s row)) v q = row_prob ws m (bump row q)).
  { intros q' Hq'. rewrite (rval_total ws V M edges s SF r par dep RT np BL row v q' RL Hv Hq').
    apply (total_eq ws V M m edges s SF ST SM SV SE SFe). }
  unfold predictive. rewrite MV by auto. f_equal. apply sumf_ext. auto.
Qed.
