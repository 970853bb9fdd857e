(** Rescaling messages does not change the marginals. *)
From Coq Require Import List Arith Lia Bool ZArith Reals Lra.
From Verif Require Import Base L_Base Spec_Graph L_Graph Spec_Sum L_Sum L_Asg M_Structure L_MakeTree L_Program L_ProgramValid L_Center Spec_Program M_Rand L_Rand M_Util Spec_Ragged L_Ragged M_Array Spec_Trees Spec_MST M_Training Spec_Stats L_Stats Spec_Joint Spec_Conditional L_AddRow M_Serving Spec_Serving L_Server L_Inward L_Logprob L_Serve1 L_Serve2 L_Train32c L_Trainer M_Float32 M_Train32 M_Serving32 M_Sample32 M_Repaired9 M_Repaired10 L_Repair7 L_Repair9.
Import ListNotations.
Open Scope R_scope.

Section KEEP.
Variables (ws : list nat) (V M : nat) (edges : list (nat * nat)) (s : server) (data : list Z).
Hypothesis SF : sfacts ws V M edges s.
Hypothesis TP : forall e m m', (e < V - 1)%nat -> (m < M)%nat -> (m' < M)%nat -> 0 < sv_trans s e m m'.
Hypothesis DL : length data = list_sum ws.
Hypothesis DN : Forall (fun x => (0 <= x)%Z) data.

Let HM : (1 <= M)%nat.
Proof. apply (sf_M _ _ _ _ _ SF). Qed.

Lemma fold_prop' v : (v < V)%nat -> forall l f g, incl l (block ws v) -> vpos M f -> vpos M g -> prop_to M f g ->
  exists f' g', foldM (fun message r => power <- get IndexError data r ;; Ok (fun m => message m * powerRZ (sv_feat s r m) power)) l f = Ok f' /\
    foldM (fun message r => power <- get IndexError data r ;;
      Ok (Nat.iter (Z.to_nat power) (rstep M s r) message)) l g = Ok g' /\
    vpos M f' /\ vpos M g' /\ prop_to M f' g'.
Proof.
  intros Hv. induction l as [|q l IH]; intros f g IL Pf Pg PR; [exists f, g; auto|].
  assert (Iq : In q (block ws v)) by (apply IL; now left).
  assert (Q : (q < length data)%nat) by (rewrite DL; now apply (in_block_lt ws V M edges s SF v)).
  assert (NN : (0 <= nth q data 0)%Z) by (rewrite Forall_forall in DN; apply DN, nth_In, Q).
  cbn [foldM]. rewrite (get_Ok _ IndexError data q 0%Z) by exact Q. cbn [bind].
  set (n := nth q data 0%Z) in *. destruct (iter_prop ws V M edges s SF v q (Z.to_nat n) f g Hv Iq Pf Pg PR) as (P1 & P2).
  assert (PW : forall m, powerRZ (sv_feat s q m) n = sv_feat s q m ^ Z.to_nat n) by (intros m; rewrite <- (Z2Nat.id n) at 1 by lia; symmetry; apply pow_powerRZ).
  apply IH; [intros k Ik; apply IL; now right| |exact P1|].
  - intros m Hm. apply Rmult_lt_0_compat; [now apply Pf|]. apply powerRZ_pos. apply (sf_feat _ _ _ _ _ SF v); auto.
  - destruct P2 as (d & Hd & Ed). exists d. split; [exact Hd|]. intros m Hm. rewrite (Ed m Hm). now rewrite PW.
Qed.

Lemma observe_prop' v f g : (v < V)%nat -> vpos M f -> vpos M g -> prop_to M f g ->
  exists f' g', observe s data v f = Ok f' /\ repaired_observe_max s data v g = Ok g' /\ vpos M f' /\ vpos M g' /\ prop_to M f' g'.
Proof.
  intros Hv Pf Pg PR. unfold observe, repaired_observe_max. rewrite !(sri_get ws V M edges s SF) by lia. cbn [bind].
  rewrite (block_width ws V M edges s SF) by auto. rewrite (proj1 (sf_M _ _ _ _ _ SF)). apply (fold_prop' v); auto. apply incl_refl.
Qed.

Notation mstate := ((nat -> nat -> R) * (nat -> nat -> R) * (nat -> R))%type.

Section LOOP.
Variables (root : nat).
Notation es := (grid_edges (make_tree edges)).
Hypothesis VPG : valid_program V es root (sv_prog s).
Hypothesis PB : forall op v a e, In (I op v a e) (sv_prog s) -> (v < V)%nat /\ match op with OP_IN | OP_OUT => (a < V)%nat /\ (e < V - 1)%nat | _ => True end.

Definition alike (f g : nat -> R) : Prop := vpos M f /\ vpos M g /\ prop_to M f g.

Definition mmrel (pre : list instr) (st st' : mstate) : Prop :=
  let '(f, o, res) := st in let '(f', o', res') := st' in
  (forall v, (v < V)%nat -> alike (f v) (f' v)) /\
  (forall v, (v < V)%nat -> In (I OP_UP v 0 0) pre -> alike (o v) (o' v)) /\ forall q, res' q = res q.

Lemma alike_dot tr f g f2 g2 : (forall m m2, (m < M)%nat -> (m2 < M)%nat -> 0 < tr m m2) -> alike f g -> alike f2 g2 ->
  alike (fun m => f m * dot M tr f2 m) (fun m => g m * dot M tr g2 m).
Proof.
  intros TR (Pf & Pg & (c & Hc & E1)) (P2 & P2' & (d & Hd & E2)).
  assert (DP : forall h, vpos M h -> forall m, (m < M)%nat -> 0 < dot M tr h m).
  { intros h Ph m Hm. unfold dot. rewrite rsum_vec. apply sumf_pos'; [destruct M; [lia|discriminate]|]. intros m2 I2. apply in_seq in I2. assert (Hm2 : (m2 < M)%nat) by lia. apply Rmult_lt_0_compat; auto. }
  split; [intros m Hm; apply Rmult_lt_0_compat; auto|]. split; [intros m Hm; apply Rmult_lt_0_compat; auto|].
  exists (c * d). split; [now apply Rmult_lt_0_compat|]. intros m Hm. rewrite (E1 m Hm). assert (ED : dot M tr g2 m = d * dot M tr f2 m).
  { unfold dot. rewrite !rsum_vec, <- sumf_scal. apply sumf_ext. intros m2 I2. apply in_seq in I2. rewrite (E2 m2) by lia. ring. }
  rewrite ED. ring.
Qed.

Lemma alike_rescaled f g : alike f g -> alike f (rescaledR M g).
Proof.
  intros (P1 & P2 & (c & Hc & E)). pose proof (rmax_pos M HM _ P2) as T. split; [exact P1|]. split.
  - intros m Hm. apply Rdiv_lt_0_compat; auto.
  - exists (c / rmax (vec M g)). split; [now apply Rdiv_lt_0_compat|]. intros m Hm. unfold rescaledR. rewrite (E m Hm) at 1. field. lra.
Qed.

Lemma alike_both f g : alike f g -> alike (rescaledR M f) (rescaledR M g).
Proof.
  intros (P1 & P2 & PR). pose proof (rmax_pos M HM _ P1) as T1. pose proof (rmax_pos M HM _ P2) as T2.
  split; [intros m Hm; apply Rdiv_lt_0_compat; auto|]. split; [intros m Hm; apply Rdiv_lt_0_compat; auto|]. exact (prop_div M _ _ _ _ T1 T2 PR).
Qed.

Lemma minstr_keep pre i suf st st' : sv_prog s = pre ++ i :: suf -> mmrel pre st st' ->
  exists t t', marginals_instr s data st i = Ok t /\ repaired_marginals_instr s data st' i = Ok t' /\ mmrel (pre ++ [i]) t t'.
Proof.
  pose proof (sv_V_eq ws V M edges s SF) as EV. pose proof (sv_M_eq ws V M edges s SF) as EM.
  destruct st as [[f o] res], st' as [[f' o'] res'], i as [op v v2 e]. intros E (H & HO & HR).
  assert (IN : In (I op v v2 e) (sv_prog s)) by (rewrite E; apply in_app_iff; right; now left).
  pose proof (vp_nodup _ _ _ _ VPG) as NDP.
  assert (BEF : forall x, precedes (sv_prog s) x (I op v v2 e) -> In x pre) by (intros x K; rewrite E in K, NDP; now apply before_in in K).
  assert (KEEP : forall o u b c, o <> op -> (In (I o u b c) (pre ++ [I op v v2 e]) <-> In (I o u b c) pre)).
  { intros o1 u b c NE. rewrite in_app_iff. split; [intros [K|[K|[]]]; [exact K|inversion K; congruence]|now left]. }
  destruct (PB _ _ _ _ IN) as (Hv & HB). pose proof (H v Hv) as Av.
  cbn [repaired_marginals_instr marginals_instr]. rewrite EV, ?EM. unfold index. rewrite (proj2 (Nat.ltb_lt v V) Hv). cbn [bind]. destruct op.
  - destruct (proj1 (vp_up _ _ _ _ VPG v v2 e) IN) as (_ & -> & ->). destruct Av as (Pv & Pv' & PRv).
    destruct (observe_prop' v (f v) (f' v) Hv Pv Pv' PRv) as (a & b & Ea & Eb & Q1 & Q2 & Q3). rewrite Ea, Eb. cbn [bind]. eexists _, _. split; [reflexivity|]. split; [reflexivity|].
    assert (AB : alike a b) by (split; auto). split; [|split; [|exact HR]].
    + intros u Hu. unfold set1. destruct (u =? v)%nat; auto.
    + intros u Hu K. unfold set1. destruct (Nat.eqb_spec u v) as [->|NE]; [auto|]. apply HO; auto. apply in_app_iff in K. destruct K as [K|[K|[]]]; [exact K|inversion K; congruence].
  - destruct HB as (Ha & He). rewrite (proj2 (Nat.ltb_lt v2 V) Ha), (proj2 (Nat.ltb_lt e (V - 1)) He). cbn [andb bind]. eexists _, _. split; [reflexivity|]. split; [reflexivity|].
    assert (TR : forall m m2, (m < M)%nat -> (m2 < M)%nat -> 0 < oriented s e (v2 <? v)%nat m m2) by (intros; now apply (oriented_pos V M s TP)).
    pose proof (alike_both _ _ (alike_dot _ _ _ _ _ TR Av (H v2 Ha))) as AB. split; [|split; [|exact HR]].
    + intros u Hu. unfold set1. destruct (u =? v)%nat; [exact AB|auto].
    + intros u Hu K. rewrite KEEP in K by discriminate. auto.
  - eexists _, _. split; [reflexivity|]. split; [reflexivity|]. split; [exact H|]. split; [|exact HR]. intros u Hu K. rewrite KEEP in K by discriminate. auto.
  - destruct HB as (Ha & He). rewrite (proj2 (Nat.ltb_lt v2 V) Ha), (proj2 (Nat.ltb_lt e (V - 1)) He). cbn [andb bind]. eexists _, _. split; [reflexivity|]. split; [reflexivity|].
    assert (TR : forall m m2, (m < M)%nat -> (m2 < M)%nat -> 0 < oriented s e (v2 <? v)%nat m m2) by (intros; now apply (oriented_pos V M s TP)).
    assert (AUP : forall u, (u < V)%nat -> In (I OP_UP u 0 0) pre).
    { intros u Hu. assert (R1 : In (I OP_ROOT root 0 0) pre) by (apply BEF; now apply (vp_out_root _ _ _ _ VPG)).
      pose proof (vp_root_after _ _ _ _ VPG u Hu) as PR. apply in_split in R1. destruct R1 as (p1 & p2 & EP).
      rewrite E, EP, <- app_assoc in PR, NDP. cbn [app] in PR, NDP. apply before_in in PR; [|exact NDP]. rewrite EP. apply in_app_iff. now left. }
    pose proof (HO v Hv (AUP v Hv)) as Ov. pose proof (HO v2 Ha (AUP v2 Ha)) as O2.
    pose proof (alike_rescaled _ _ (alike_dot _ _ _ _ _ TR Av O2)) as A1. pose proof (alike_rescaled _ _ (alike_dot _ _ _ _ _ TR Ov O2)) as A2.
    split; [|split; [|exact HR]].
    + intros u Hu. unfold set1. rewrite Nat.eqb_refl. destruct (u =? v)%nat; [exact A1|auto].
    + intros u Hu K. rewrite KEEP in K by discriminate. unfold set1. rewrite Nat.eqb_refl. destruct (u =? v)%nat; [exact A2|auto].
  - destruct (proj1 (vp_down _ _ _ _ VPG v v2 e) IN) as (_ & -> & ->).
    rewrite !(sri_get ws V M edges s SF) by lia. cbn [bind]. rewrite (block_width ws V M edges s SF) by auto. eexists _, _. split; [reflexivity|]. split; [reflexivity|].
    split; [exact H|]. split; [intros u Hu K; rewrite KEEP in K by discriminate; auto|].
    intros q. destruct Av as (P1 & P2 & (c & Hc & EC)).
    destruct ((list_sum (firstn v ws) <=? q) && (q <? list_sum (firstn (v + 1) ws)))%nat eqn:EQ; [|apply HR].
    pose proof (sf_ws _ _ _ _ _ SF) as LW.
    assert (Iq : In q (block ws v)).
    { apply andb_true_iff in EQ. destruct EQ as (B1 & B2). apply Nat.leb_le in B1. apply Nat.ltb_lt in B2. rewrite Nat.add_1_r, sum_firstn_S in B2 by lia.
      unfold block. apply in_seq. lia. }
    assert (ML : forall r, rsum (vec M (fun m => sv_feat s r m * f' v m)) = c * rsum (vec M (fun m => sv_feat s r m * f v m))).
    { intros r. rewrite !rsum_vec, <- sumf_scal. apply sumf_ext. intros m Im. apply in_seq in Im. rewrite (EC m) by lia. ring. }
    assert (MP : forall r, In r (block ws v) -> 0 < rsum (vec M (fun m => sv_feat s r m * f v m))).
    { intros r Ir. rewrite rsum_vec. apply sumf_pos'; [destruct M; [lia|discriminate]|]. intros m Im. apply in_seq in Im. apply Rmult_lt_0_compat; [apply (sf_feat _ _ _ _ _ SF v); auto; lia|apply P1; lia]. }
    unfold block in *. set (bl := seq (list_sum (firstn v ws)) (nth v ws 0%nat)) in *.
    set (g := fun r => rsum (vec M (fun m => sv_feat s r m * f v m))) in *.
    assert (TT : rsum (map (fun r => rsum (vec M (fun m => sv_feat s r m * f' v m))) bl) = c * rsum (map g bl)).
    { unfold rsum at 1 3. rewrite !sumf_map, <- sumf_scal. apply sumf_ext. intros r _. apply ML. }
    rewrite TT, ML. change (rsum (vec M (fun m => sv_feat s q m * f v m))) with (g q).
    assert (T0 : 0 < rsum (map g bl)).
    { unfold rsum. rewrite sumf_map. apply sumf_pos'; [intro Z0; rewrite Z0 in Iq; destruct Iq|]. intros r Ir. now apply MP. }
    field. split; lra.
Qed.

Lemma marg_keep junk : repaired_marginals_row s junk data = marginals_row s junk data.
Proof.
  unfold repaired_marginals_row, marginals_row. destruct (assert_ (length data =? sv_R s)%nat); cbn [bind]; [|reflexivity].
  assert (G : forall suf pre st st', sv_prog s = pre ++ suf -> mmrel pre st st' ->
    exists t t', foldM (marginals_instr s data) suf st = Ok t /\ foldM (repaired_marginals_instr s data) suf st' = Ok t' /\ mmrel (sv_prog s) t t').
  { induction suf as [|i suf IH]; intros pre st st' E J.
    - exists st, st'. split; [reflexivity|]. split; [reflexivity|]. now rewrite E, app_nil_r.
    - destruct (minstr_keep pre i suf st st' E J) as (t & t' & E1 & E2 & J'). cbn [foldM]. rewrite E1, E2. cbn [bind]. apply (IH (pre ++ [i])); [now rewrite <- app_assoc|exact J']. }
  destruct (G (sv_prog s) [] (sv_vert s, junk, fun _ => 0) (sv_vert s, junk, fun _ => 0) eq_refl) as ([[f o] res] & [[f' o'] res'] & E1 & E2 & (_ & _ & HR)).
  { split; [|split]; [|intros v Hv []|reflexivity]. intros v Hv. assert (P : vpos M (sv_vert s v)) by (intros m Hm; apply (sf_vert _ _ _ _ _ SF); auto).
    split; [exact P|]. split; [exact P|apply prop_refl]. }
  rewrite E1, E2. cbn [bind]. f_equal. apply map_ext. exact HR.
Qed.
End LOOP.
End KEEP.

Lemma repaired_marginals_keep ws V M N m mst s junk row : consistent ws V M N m -> mst_contract mst -> tree_server mst m = Ok s ->
  length row = list_sum ws -> Forall (fun x => (0 <= x)%Z) row ->
  repaired_marginals_row s junk row = marginals_row s junk row.
Proof.
  intros C MC E DL DN.
  destruct (build_server ws V M N m C mst MC) as (s' & edges & E' & SF & _ & _ & _ & _ & _ & _ & EP). rewrite E in E'. inversion E'; subst s'.
  destruct (sf_tree _ _ _ _ _ SF) as (ET & T). rewrite ET in EP. cbn [ts_grid] in EP.
  pose proof (prog_bounds V edges _ T EP) as PB.
  destruct (find_center_Ok V edges T) as (ctr & EC & CC). destruct (make_program_valid V edges ctr T (proj1 CC)) as (prog & E1 & VP).
  assert (EQ : sv_prog s = prog).
  { unfold make_propagation_program in EP, E1. rewrite EC in EP. cbn [bind] in EP, E1. rewrite EP in E1. now inversion E1. }
  rewrite <- EQ in VP.
  destruct (prog_shape V edges None (sv_prog s) T ltac:(discriminate) EP) as (r & par & dep & np & RT & BL & _).
  apply (marg_keep ws V M edges s row SF) with (root := ctr); auto. intros. eapply (trans_pos ws V M edges s SF); eauto.
Qed.
