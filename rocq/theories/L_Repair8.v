(** Normalising after every observation does not change the value of [logprob]. *)
From Coq Require Import List Arith Lia Bool ZArith Reals Lra Permutation.
From Verif Require Import Base L_Base Spec_Graph L_Graph Spec_Sum L_Sum M_Structure L_Pairing L_MakeTree L_Program L_ProgramValid Spec_Program L_Center L_Prop1 M_Rand L_Rand M_Util Spec_Ragged L_Ragged M_Array Spec_Trees Spec_MST M_Training Spec_Stats L_Stats L_Trainer Spec_Joint Spec_Conditional L_Asg L_BP L_BPVec L_AddRow M_Serving Spec_Serving L_Server L_Inward L_Logprob L_Serve1 L_Train32c M_Serving32 M_Repaired8.
Import ListNotations.
Open Scope R_scope.

Section KEEP.
Variables (ws : list nat) (V M : nat) (edges : list (nat * nat)) (s : server) (row : list Z).
Hypothesis SF : sfacts ws V M edges s.
Hypothesis RL : length row = list_sum ws.
Hypothesis RN : Forall (fun x => (0 <= x)%Z) row.
Notation es := (grid_edges (make_tree edges)).

Definition pos (f : nat -> R) : Prop := forall k, (k < M)%nat -> 0 < f k.

Lemma sum_pos f : pos f -> 0 < rsum (vec M f).
Proof.
  intros P. rewrite rsum_vec. pose proof (HM ws V M edges s SF). apply sumf_pos'; [destruct M; [lia|discriminate]|].
  intros k I. apply in_seq in I. apply P. lia.
Qed.

(** [st] is [msg] divided by [k], and its logarithm accounts for that. *)
Definition scaled (msg : nat -> R) (base : R) (st : (nat -> R) * R) : Prop :=
  exists k, 0 < k /\ pos (fst st) /\ (forall c, (c < M)%nat -> msg c = k * fst st c) /\ snd st = base + ln k.

Lemma factor_scaled v q msg base st : (v < V)%nat -> In q (block ws v) -> scaled msg base st ->
  scaled (fun c => msg c * sv_feat s q c) base (repaired_factor s q st).
Proof.
  destruct st as [g lp]. intros Hv Iq (k & K & P & E & L). cbn [fst snd] in *. unfold repaired_factor. rewrite (sv_M_eq ws V M edges s SF).
  set (h := fun c => g c * sv_feat s q c).
  assert (PH : pos h) by (intros c Hc; apply Rmult_lt_0_compat; [auto|apply (sf_feat _ _ _ _ _ SF v); auto]).
  pose proof (sum_pos h PH) as PS. exists (k * rsum (vec M h)). cbn [fst snd]. split; [now apply Rmult_lt_0_compat|].
  split; [intros c Hc; apply Rdiv_lt_0_compat; [exact (PH c Hc)|exact PS]|]. split.
  - intros c Hc. rewrite (E c Hc). field. apply Rgt_not_eq. exact PS.
  - rewrite L, ln_mult by auto. ring.
Qed.

Lemma scaled_ext f g base st : (forall c, f c = g c) -> scaled f base st -> scaled g base st.
Proof. intros H (k & K & P & E & L). exists k. split; [auto|]. split; [auto|]. split; [|auto]. intros c Hc. rewrite <- H. auto. Qed.

Lemma fold_scaled v : (v < V)%nat -> forall l msg base st, incl l (block ws v) -> scaled msg base st ->
  exists msg' st', foldM (fun message r => bind (get IndexError row r) (fun power => Ok (fun m => message m * powerRZ (sv_feat s r m) power))) l msg = Ok msg' /\
    foldM (fun st r => bind (get IndexError row r) (fun power => Ok (Nat.iter (Z.to_nat power) (repaired_factor s r) st))) l st = Ok st' /\
    scaled msg' base st'.
Proof.
  intros Hv. induction l as [|q l IH]; intros msg base st IL S; [exists msg, st; auto|].
  assert (Iq : In q (block ws v)) by (apply IL; now left).
  assert (Q : (q < length row)%nat) by (rewrite RL; now apply (in_block_lt ws V M edges s SF v)).
  cbn [foldM]. rewrite (get_Ok _ IndexError row q 0%Z) by exact Q. cbn [bind].
  apply IH; [intros x I; apply IL; now right|].
  rewrite Forall_forall in RN. pose proof (RN _ (nth_In row 0%Z Q)) as N0.
  apply (scaled_ext (fun c => msg c * sv_feat s q c ^ Z.to_nat (nth q row 0%Z))).
  { intros c. rewrite pow_powerRZ, Z2Nat.id by exact N0. reflexivity. }
  induction (Z.to_nat (nth q row 0%Z)) as [|n IHn].
  - apply (scaled_ext msg); [intros c; cbn; ring|exact S].
  - cbn [Nat.iter nat_rect]. apply (scaled_ext (fun c => msg c * sv_feat s q c ^ n * sv_feat s q c)); [intros c; cbn [pow]; ring|].
    now apply (factor_scaled v).
Qed.

Lemma observe_scaled v msg base st : (v < V)%nat -> scaled msg base st ->
  exists msg' st', observe s row v msg = Ok msg' /\ repaired_observe s row v st = Ok st' /\ scaled msg' base st'.
Proof.
  intros Hv S. unfold observe, repaired_observe. rewrite !(sri_get ws V M edges s SF) by lia. cbn [bind].
  rewrite (block_width ws V M edges s SF) by auto. apply (fold_scaled v); auto. apply incl_refl.
Qed.

Definition lnsum (K : nat -> R) : R := sumf (seq 0 V) (fun v => ln (K v)).

Lemma lnsum_set K v x : (v < V)%nat -> lnsum (set1 K v x) = lnsum K - ln (K v) + ln x.
Proof.
  intros Hv. unfold lnsum.
  assert (G : forall n b, (b <= v < b + n)%nat -> sumf (seq b n) (fun u => ln (set1 K v x u)) = sumf (seq b n) (fun u => ln (K u)) - ln (K v) + ln x).
  { induction n as [|n IH]; intros b Hb; [lia|]. cbn [seq]. rewrite !sumf_cons. destruct (Nat.eq_dec b v) as [->|NE].
    - rewrite set1_same. rewrite (sumf_ext (seq (Datatypes.S v) n) (fun u => ln (set1 K v x u)) (fun u => ln (K u))); [ring|].
      intros u I. apply in_seq in I. rewrite set1_other by lia. reflexivity.
    - rewrite set1_other by auto. rewrite IH by lia. ring. }
  apply G. lia.
Qed.

Section LOOP.
Variables (r : nat) (par dep : nat -> nat) (prog : list instr).
Hypothesis RT : rooted V es r par dep.
Hypothesis VP : valid_program V es r prog.
Hypothesis PB : forall op v a e, In (I op v a e) prog -> (v < V)%nat /\ match op with OP_IN | OP_OUT => (a < V)%nat /\ (e < V - 1)%nat | _ => True end.

Definition used (pre : list instr) (v : nat) : Prop := exists p e, In (I OP_IN p v e) pre.

Definition rel (pre : list instr) (msg : nat -> nat -> R) (lp : R) (msg' : nat -> nat -> R) (lp' : R) : Prop :=
  exists K, (forall v, (v < V)%nat -> 0 < K v /\ pos (msg' v)) /\
    (forall v, (v < V)%nat -> ~ used pre v -> forall c, (c < M)%nat -> msg v c = K v * msg' v c) /\
    (forall v, (v < V)%nat -> used pre v -> K v = 1) /\ lp' = lp + lnsum K.

Lemma dot_lin tr f g k c : (forall j, (j < M)%nat -> f j = k * g j) -> dot M tr f c = k * dot M tr g c.
Proof.
  intros H. unfold dot. rewrite !rsum_vec, <- sumf_scal. apply sumf_ext. intros j I. apply in_seq in I. rewrite H by lia. ring.
Qed.

Lemma loops_agree suf : forall pre msg lp msg' lp', prog = pre ++ suf -> In (I OP_ROOT r 0 0) suf -> rel pre msg lp msg' lp' ->
  repaired_logprob_loop s row suf msg' lp' = logprob_loop s row suf msg lp.
Proof.
  pose proof (vp_nodup _ _ _ _ VP) as ND.
  induction suf as [|[op v a e] suf IH]; intros pre msg lp msg' lp' E IR (K & K1 & K2 & K3 & K4); [destruct IR|].
  assert (IN : In (I op v a e) prog) by (rewrite E; apply in_app_iff; right; now left).
  assert (E' : prog = (pre ++ [I op v a e]) ++ suf) by (rewrite E, <- app_assoc; reflexivity).
  assert (IR' : op <> OP_ROOT -> In (I OP_ROOT r 0 0) suf) by (intros NE; destruct IR as [D|D]; [inversion D; congruence|exact D]).
  assert (NP : ~ In (I op v a e) pre).
  { rewrite E in ND. apply NoDup_remove_2 in ND. intros D. apply ND. apply in_app_iff. now left. }
  assert (IP : forall i, In i pre -> In i prog) by (intros i D; rewrite E; apply in_app_iff; now left).
  assert (BEF : forall x, precedes prog x (I op v a e) -> In x pre) by (intros x D; rewrite E in D, ND; now apply before_in in D).
  assert (AFT : forall x, In x pre -> ~ precedes prog (I op v a e) x).
  { intros x Ix D. apply NP. apply in_split in Ix. destruct Ix as (p1 & p2 & ->).
    rewrite E in D, ND. rewrite <- app_assoc in D, ND. cbn [app] in D, ND. apply before_in in D; [|exact ND]. apply in_app_iff. now left. }
  destruct (PB _ _ _ _ IN) as (Hv & HB).
  cbn [repaired_logprob_loop logprob_loop]. rewrite (sv_V_eq ws V M edges s SF), (sv_M_eq ws V M edges s SF).
  unfold index at 1 3. rewrite (proj2 (Nat.ltb_lt v V) Hv). cbn [bind].
  destruct (K1 v Hv) as (Kv & Pv). destruct op.
  - (* UP *)
    destruct (proj1 (vp_up _ _ _ _ VP v a e) IN) as (_ & -> & ->).
    assert (NU : ~ used pre v).
    { intros (p & e' & D). apply (AFT _ D). apply (vp_in_up _ _ _ _ VP). auto. }
    destruct (observe_scaled v (msg v) (lp' - ln (K v)) (msg' v, lp') Hv) as (f & [g lq] & O1 & O2 & k & Kk & Pg & Eg & Lg).
    { exists (K v). cbn [fst snd]. split; [exact Kv|]. split; [exact Pv|]. split; [now apply K2|]. lra. }
    rewrite O1, O2. cbn [bind fst snd] in *. apply (IH (pre ++ [I OP_UP v 0 0])); [exact E'|apply IR'; discriminate|].
    assert (US : forall u, used (pre ++ [I OP_UP v 0 0]) u <-> used pre u).
    { intros u. split; intros (p & e' & D).
      - apply in_app_iff in D. destruct D as [D|[D|[]]]; [|discriminate]. now exists p, e'.
      - exists p, e'. apply in_app_iff. now left. }
    exists (set1 K v k). split; [|split; [|split]].
    + intros u Hu. destruct (Nat.eq_dec u v) as [->|NE]; [rewrite !set1_same; auto|]. rewrite !set1_other by auto. auto.
    + intros u Hu N c Hc. rewrite US in N. destruct (Nat.eq_dec u v) as [->|NE]; [rewrite !set1_same; auto|]. rewrite !set1_other by auto. auto.
    + intros u Hu N. rewrite US in N. destruct (Nat.eq_dec u v) as [->|NE]; [contradiction|]. rewrite set1_other by auto. auto.
    + rewrite lnsum_set by exact Hv. lra.
  - (* IN *)
    destruct HB as (Ha & He). rewrite (proj2 (Nat.ltb_lt a V) Ha), (proj2 (Nat.ltb_lt e (V - 1)) He). cbn [andb index bind].
    pose proof (proj1 (vp_in _ _ _ _ VP v a e) IN) as PE. apply (parent_edge_iff V edges r par dep RT) in PE. destruct PE as (_ & NR & Ev & Ee).
    assert (NAV : a <> v) by (subst v; intros D; symmetry in D; revert D; now apply (par_neq _ _ _ _ _ RT)).
    assert (NU : ~ used pre v).
    { intros (p & e' & D). apply (AFT _ D). apply (vp_in_in _ _ _ _ VP); auto. }
    assert (NA : ~ used pre a).
    { intros (p & e' & D). apply NP. pose proof (proj1 (vp_in _ _ _ _ VP _ _ _) (IP _ D)) as PE.
      apply (parent_edge_iff V edges r par dep RT) in PE. destruct PE as (_ & _ & -> & ->). now subst. }
    destruct (K1 a Ha) as (Ka & Pa).
    set (tr := oriented s e (a <? v)%nat).
    assert (TP : forall k j, (k < M)%nat -> (j < M)%nat -> 0 < tr k j).
    { intros k j Hk Hj. unfold tr, oriented. destruct (a <? v)%nat; [unfold transpose|]; now apply (trans_pos ws V M edges s SF r par dep RT). }
    set (h := fun c => msg v c * dot M tr (msg a) c). set (h' := fun c => msg' v c * dot M tr (msg' a) c).
    assert (EH : forall c, (c < M)%nat -> h c = K v * K a * h' c).
    { intros c Hc. unfold h, h'. rewrite (K2 v Hv NU c Hc), (dot_lin tr (msg a) (msg' a) (K a) c) by (intros; now apply K2). ring. }
    assert (PH : pos h').
    { intros c Hc. apply Rmult_lt_0_compat; [auto|]. unfold dot. apply sum_pos. intros j Hj. apply Rmult_lt_0_compat; auto. }
    assert (ES : rsum (vec M h) = K v * K a * rsum (vec M h')).
    { rewrite !rsum_vec, <- sumf_scal. apply sumf_ext. intros c I. apply in_seq in I. apply EH. lia. }
    pose proof (sum_pos h' PH) as PS.
    apply (IH (pre ++ [I OP_IN v a e])); [exact E'|apply IR'; discriminate|].
    assert (US : forall u, used (pre ++ [I OP_IN v a e]) u <-> used pre u \/ u = a).
    { intros u. split.
      - intros (p & e' & D). apply in_app_iff in D. destruct D as [D|[D|[]]]; [left; now exists p, e'|right; now inversion D].
      - intros [(p & e' & D) | ->]; [exists p, e'; apply in_app_iff; now left|exists v, e; apply in_app_iff; right; now left]. }
    exists (set1 (set1 K a 1) v 1). split; [|split; [|split]].
    + intros u Hu. split.
      * unfold set1. destruct (u =? v)%nat; [lra|]. destruct (u =? a)%nat; [lra|]. now apply K1.
      * destruct (Nat.eq_dec u v) as [->|NE]; [rewrite set1_same|rewrite set1_other by auto; now apply K1].
        intros c Hc. apply Rdiv_lt_0_compat; [exact (PH c Hc)|exact PS].
    + intros u Hu N c Hc. rewrite US in N. destruct (Nat.eq_dec u v) as [->|NE].
      * rewrite !set1_same. change (h c / rsum (vec M h) = 1 * (h' c / rsum (vec M h'))). rewrite EH by auto. rewrite ES. field. split; [|split]; apply Rgt_not_eq; auto.
      * rewrite !(set1_other _ v) by auto. rewrite (set1_other K a) by (intros ->; apply N; now right). apply K2; [exact Hu| |exact Hc]. intros D. apply N. now left.
    + intros u Hu N. rewrite US in N. unfold set1. destruct (Nat.eqb_spec u v); [reflexivity|]. destruct (Nat.eqb_spec u a); [reflexivity|].
      apply K3; [auto|]. destruct N; [auto|contradiction].
    + rewrite lnsum_set by exact Hv. rewrite lnsum_set by exact Ha. rewrite set1_other by auto. change (lp' + ln (rsum (vec M h')) = lp + ln (rsum (vec M h)) + (lnsum K - ln (K a) + ln 1 - ln (K v) + ln 1)). rewrite ES.
      rewrite !ln_mult by (auto; now apply Rmult_lt_0_compat). rewrite ln_1. lra.
  - (* ROOT *)
    destruct (proj1 (vp_root _ _ _ _ VP v a e) IN) as (-> & -> & ->).
    assert (NU : ~ used pre r).
    { intros (p & e' & D). pose proof (proj1 (vp_in _ _ _ _ VP _ _ _) (IP _ D)) as PE.
      apply (parent_edge_iff V edges r par dep RT) in PE. tauto. }
    assert (U : forall u, (u < V)%nat -> u <> r -> K u = 1).
    { intros u Hu NE. apply K3; [exact Hu|]. exists (par u), (eidx edges par u). apply BEF. apply (vp_root_after_in _ _ _ _ VP).
      apply (vp_in _ _ _ _ VP). apply (parent_edge_iff V edges r par dep RT). auto. }
    assert (LS : lnsum K = ln (K r)).
    { unfold lnsum. rewrite (sumf_ext (seq 0 V) (fun u => ln (K u)) (fun u => ln (set1 (fun _ => 1) r (K r) u))).
      - change (lnsum (set1 (fun _ => 1) r (K r)) = ln (K r)). rewrite lnsum_set by exact Hv. unfold lnsum.
        rewrite (sumf_zero _ (fun _ => ln 1)) by (intros; apply ln_1). rewrite ln_1. ring.
      - intros u I. apply in_seq in I. unfold set1. destruct (Nat.eqb_spec u r) as [->|]; [reflexivity|]. rewrite U by (auto; lia). reflexivity. }
    assert (ES : rsum (vec M (msg r)) = K r * rsum (vec M (msg' r))).
    { rewrite !rsum_vec, <- sumf_scal. apply sumf_ext. intros c I. apply in_seq in I. apply K2; auto. lia. }
    f_equal. rewrite ES, ln_mult by (auto using sum_pos). lra.
  - (* OUT *)
    exfalso. apply (AFT (I OP_ROOT r 0 0)); [|]. 
    + apply BEF. apply (vp_out_root _ _ _ _ VP). exact IN.
    + exfalso. destruct IR as [D|D]; [discriminate|].
      assert (J : In (I OP_ROOT r 0 0) pre) by (apply BEF; apply (vp_out_root _ _ _ _ VP); exact IN).
      rewrite E in ND. apply in_split in J. destruct J as (p1 & p2 & ->). rewrite <- app_assoc in ND. cbn [app] in ND. apply NoDup_remove_2 in ND.
      apply ND. apply in_app_iff. right. apply in_app_iff. right. now right.
  - (* DOWN *)
    apply (IH (pre ++ [I OP_DOWN v a e])); [exact E'|apply IR'; discriminate|].
    assert (US : forall u, used (pre ++ [I OP_DOWN v a e]) u <-> used pre u).
    { intros u. split; intros (p & e' & D).
      - apply in_app_iff in D. destruct D as [D|[D|[]]]; [|discriminate]. now exists p, e'.
      - exists p, e'. apply in_app_iff. now left. }
    exists K. split; [exact K1|]. split; [intros u Hu N; rewrite US in N; auto|]. split; [intros u Hu N; rewrite US in N; auto|exact K4].
Qed.

Lemma rows_agree : sv_prog s = prog -> repaired_logprob_row s row = logprob_row s row.
Proof.
  intros EP. unfold repaired_logprob_row, logprob_row. rewrite (sf_R _ _ _ _ _ SF), RL, Nat.eqb_refl. cbn [assert_ bind]. rewrite EP.
  apply (loops_agree prog []); [reflexivity|apply (vp_root _ _ _ _ VP); auto|].
  exists (fun _ => 1). split; [intros v Hv; split; [lra|intros c Hc; now apply (sf_vert _ _ _ _ _ SF)]|].
  split; [intros; ring|]. split; [auto|]. unfold lnsum. rewrite (sumf_zero _ (fun _ => ln 1)) by (intros; apply ln_1). ring.
Qed.
End LOOP.
End KEEP.

Lemma repaired_logprob_value ws V M N m mst s row : consistent ws V M N m -> mst_contract mst -> tree_server mst m = Ok s ->
  length row = list_sum ws -> Forall (fun x => (0 <= x)%Z) row ->
  repaired_logprob_row s row = Ok (ln (row_prob ws m row)) /\ 0 < row_prob ws m row.
Proof.
  intros C MC E RL RN. pose proof (C26_row ws V M N m mst s row C MC E RL) as (L & P). split; [|exact P]. rewrite <- L.
  destruct (build_server ws V M N m C mst MC) as (s' & edges & E' & SF & ST & _ & _ & _ & _ & _ & EP). rewrite E in E'. inversion E'; subst s'.
  destruct (sf_tree _ _ _ _ _ SF) as (ET & T). rewrite ET in EP. cbn [ts_grid] in EP.
  pose proof (prog_bounds V edges _ T EP) as PB.
  destruct (find_center_Ok V edges T) as (ctr & EC & CC). destruct (make_program_valid V edges ctr T (proj1 CC)) as (prog & E1 & VP).
  assert (EQ : sv_prog s = prog).
  { unfold make_propagation_program in EP, E1. rewrite EC in EP. cbn [bind] in EP, E1. rewrite EP in E1. now inversion E1. }
  destruct (tree_rooted V _ ctr (make_tree_spanning _ _ T) (proj1 CC)) as (par & dep & RT).
  rewrite EQ in PB. now apply (rows_agree ws V M edges s row SF RL RN ctr par dep prog RT VP PB).
Qed.
