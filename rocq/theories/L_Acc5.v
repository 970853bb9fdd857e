(** Accuracy of the float32 log probability: the loop. *)
From Coq Require Import List Arith Bool ZArith Reals Lra Lia.
From Flocq Require Import Core Relative IEEE754.BinarySingleNaN.
From Verif Require Import Base L_Base Spec_Graph L_Graph Spec_Sum L_Sum M_Structure L_Pairing L_MakeTree L_Program L_ProgramValid Spec_Program L_Center L_Prop1 M_Util Spec_Ragged L_Ragged M_Array M_Training Spec_MST Spec_Stats L_Stats L_Trainer Spec_Conditional L_Asg L_BP L_BPVec L_AddRow
  M_Float32 M_Train32 Spec_Float32 L_Float32 L_Sample32 L_Train32 L_Train32c L_Train32d M_Serving Spec_Serving L_Server L_Inward L_Logprob L_Serve1 M_Serving32 Spec_Serving32 L_Serving32a L_Serving32b L_Serving32c L_Serving32d L_Repair8 Spec_Accuracy L_Acc1 L_Acc2 L_Acc3 L_Acc4.
Import ListNotations.
Open Scope R_scope.

Section RUNBOTH.
Variables (lib : numlib) (ws : list nat) (V M N d : nat) (m : smodel) (A W b c : Z) (eta lambda : R) (s : server32) (sx : server) (row : list Z) (edges : list (nat * nat)).
Hypothesis LIB : lib_ok lib.
Hypothesis ACC : accurate W eta lambda lib.
Hypothesis C : consistent ws V M N m.
Hypothesis CB : counts_below A ws N m.
Hypothesis HA : (6 <= A <= 16)%Z.
Hypothesis HE : bp (-23) <= eta.
Hypothesis WM : (Z.of_nat (M * M) <= W)%Z.
Hypothesis Hb : (0 <= b <= 140)%Z.
Hypothesis Hc : (0 <= c)%Z.
Notation L := (A + 3 + (b + 4) * c)%Z.
Hypothesis HL : (2 * L + (A + 8) * Z.of_nat d + 20 <= 126)%Z.
Hypothesis HV : (Z.of_nat V <= 2 ^ 16)%Z.
Hypothesis DG : degree_at_most d m.
Hypothesis TB : tables32 ws V M A m s.
Hypothesis TA : atables ws V M m eta s.
Hypothesis RL : length row = list_sum ws.
Hypothesis RN : Forall (fun x => (0 <= x)%Z) row.
Hypothesis RC : forall v, (v < V)%nat -> (block_sum ws row v <= c)%Z.
Hypothesis RF : forall v q k, (v < V)%nat -> In q (block ws v) -> (k < M)%nat -> nth q row 0%Z <> 0%Z -> bp (- b) <= feat_prob ws m v q k.
Hypothesis SF : sfacts ws V M edges sx.
Hypothesis ST : sv_tree sx = d_tree m.
Hypothesis SV : forall v k, sv_vert sx v k = vert_prob m v k.
Hypothesis SE : forall e c1 c2, sv_edge sx e c1 c2 = edge_prob m e c1 c2.
Hypothesis SFe : forall v q k, (v < V)%nat -> In q (block ws v) -> sv_feat sx q k = feat_prob ws m v q k.

Let HM : (1 <= M <= 128)%nat.
Proof. apply (cm_M _ _ _ _ _ C). Qed.
Let E0 : 0 < eta.
Proof. pose proof eps_pos. lra. Qed.
Let HL20 : (2 * L + 20 <= 126)%Z.
Proof. nia. Qed.
Let BC : (0 <= b * c /\ 0 <= (b + 4) * c)%Z.
Proof. nia. Qed.
Let HLo : (2 * L + A + 11 <= 149)%Z.
Proof. lia. Qed.
Let ETS : ts_get_edges (d_tree m) = grid_edges (make_tree edges).
Proof. destruct (sf_tree _ _ _ _ _ SF) as (E & _). rewrite ST in E. rewrite E. reflexivity. Qed.

Definition e0 (v : nat) : R := 37 * eta + charge eta row (block ws v).
Definition DX : Z := (A + 1 + b * c)%Z.
Definition lnsum (cc : nat -> R) : R := sumf (seq 0 V) (fun v => ln (cc v)).
Lemma lnsum_set cc v x : (v < V)%nat -> lnsum (set1 cc v x) = lnsum cc - ln (cc v) + ln x.
Proof.
  intros Hv. unfold lnsum. rewrite (sumf_ext _ (fun u => ln (set1 cc v x u)) (set1 (fun u => ln (cc u)) v (ln x))).
  - now apply sumf_set1.
  - intros u _. unfold set1. now destruct (u =? v)%nat.
Qed.

Lemma charge_nonneg l : 0 <= charge eta row l.
Proof.
  unfold charge. apply Rmult_le_pos; [|lra]. apply IZR_le. assert (0 <= zsum (map (fun q => nth q row 0%Z) l))%Z; [|lia].
  apply (zsum_nonneg ws V M N m W row C WM RL RN).
Qed.

(** What is kept for a vertex that has not been merged into its parent. *)
Record vgood (ee cc : R) (j : nat) (f : nat -> f32) (fx : nat -> R) : Prop := {
  g_m : mgood M A b c f;
  g_cc : 0 < cc;
  g_ag : forall k, (k < M)%nat -> agree (ee - 29 * eta) (val (f k)) (cc * fx k);
  g_lo : forall k, (k < M)%nat -> bp (- (L + 9 + (A + 8) * Z.of_nat j)) <= val (f k);
  g_ra : ranged M (DX + (A + 8) * Z.of_nat j) fx
}.

Lemma DXL : (DX <= L)%Z.
Proof. unfold DX. nia. Qed.

Lemma vert_vgood v : (v < V)%nat -> vgood (e0 v) 1 0 (s3_vert s v) (sv_vert sx v).
Proof.
  intros Hv. pose proof (charge_nonneg (block ws v)) as CN. split.
  - now apply (vert_good ws V M N m A b c s row C Hb Hc TB RL).
  - lra.
  - intros k Hk. rewrite SV, Rmult_1_l. eapply agree_weak; [|apply (ta_vert _ _ _ _ _ _ TA); auto]. unfold e0. lra.
  - intros k Hk. destruct (t3_vert _ _ _ _ _ _ TB v k Hv Hk) as (_ & B & _). eapply Rle_trans; [|exact B]. apply bpow_le. rewrite Z.mul_0_r. lia.
  - pose proof (vert_ranged ws V M N m A W row C CB HA WM RL) as VR. destruct (ranged_weak M (A + 1) (DX + (A + 8) * Z.of_nat 0) _ ltac:(unfold DX; rewrite Z.mul_0_r; lia) (VR v Hv)) as (P & B).
    split; intros; rewrite !SV; auto.
Qed.

Lemma observe_vgood v : (v < V)%nat -> exists f fx, observe32 lib s row v (s3_vert s v) = Ok f /\ observe sx row v (sv_vert sx v) = Ok fx /\ vgood (e0 v) 1 0 f fx.
Proof.
  intros Hv. destruct (observe_good lib ws V M N m A b c s row LIB C HA Hb Hc HLo TB RL RN RC RF v Hv) as (f' & EO & GO).
  pose proof (RC v Hv) as Rv. rewrite block_sum_zsum in Rv. pose proof (zsum_nonneg ws V M N m W row C WM RL RN (block ws v)) as Z0.
  destruct (observe_both lib ws V M N m A W b c eta lambda s row LIB ACC C CB HA HE WM Hb Hc HL20 TB TA RL RN RF v (sv_feat sx) Hv ltac:(intros; now apply SFe)
    (block ws v) (s3_vert s v) (sv_vert sx v) (A + 3)%Z (8 * eta) (A + 1)%Z) as (f & fx & E1 & E2 & R1 & R2).
  - apply incl_refl.
  - exact Rv.
  - lia.
  - nia.
  - intros k Hk. destruct (t3_vert _ _ _ _ _ _ TB v k Hv Hk) as (F & B). split; [exact F|]. split; [exact B|]. rewrite SV. now apply (ta_vert _ _ _ _ _ _ TA).
  - pose proof (vert_ranged ws V M N m A W row C CB HA WM RL v Hv) as (P & B). split; intros; rewrite !SV; auto.
  - pose proof (cm_width _ _ _ _ _ C) as Wd.
    assert (EB : (list_sum (firstn (v + 1) ws) - list_sum (firstn v ws) = nth v ws 0)%nat).
    { rewrite Nat.add_1_r, sum_firstn_S by lia. lia. }
    exists f, fx. assert (EF : observe32 lib s row v (s3_vert s v) = Ok f).
    { unfold observe32. rewrite (t3_ri _ _ _ _ _ _ TB). rewrite !mri_get by lia. cbn [bind]. rewrite EB. exact E1. }
    split; [exact EF|]. split.
    { unfold observe. rewrite (sf_ri _ _ _ _ _ SF). rewrite !mri_get by lia. cbn [bind]. rewrite EB. exact E2. }
    rewrite EF in EO. inversion EO; subst f'. split; auto; [lra| | |].
    + intros k Hk. rewrite Rmult_1_l. eapply agree_weak; [|apply (R1 k Hk)]. unfold e0. lra.
    + intros k Hk. destruct (R1 k Hk) as (_ & (B & _) & _). eapply Rle_trans; [|exact B]. apply bpow_le. rewrite Z.mul_0_r. nia.
    + eapply ranged_weak; [|exact R2]. unfold DX. rewrite Z.mul_0_r. nia.
Qed.

Section LOOP.
Variables (r : nat) (par dep : nat -> nat) (prog : list instr).
Hypothesis RT : rooted V (grid_edges (make_tree edges)) r par dep.
Hypothesis VP : valid_program V (grid_edges (make_tree edges)) r prog.
Hypothesis PB : forall op v a e, In (I op v a e) prog -> (v < V)%nat /\ match op with OP_IN | OP_OUT => (a < V)%nat /\ (e < V - 1)%nat | _ => True end.
Variable T : R.
Hypothesis TS : T <= 1 / 4.

Definition used (pre : list instr) (v : nat) : Prop := exists p e, In (I OP_IN p v e) pre.
Definition nin (pre : list instr) : nat := length (filter (fun i => match i with I OP_IN _ _ _ => true | _ => false end) pre).
Definition delta : R := lambda + bp (-16) * INR (V + 1).

Lemma nin_lt pre suf : prog = pre ++ suf -> (nin pre <= V - 1)%nat.
Proof.
  intros E. set (L1 := filter (fun i => match i with I OP_IN _ _ _ => true | _ => false end) pre).
  set (cof := fun i => match i with I _ _ a _ => a end).
  assert (F : forall i, In i L1 -> exists c, i = I OP_IN (par c) c (eidx edges par c) /\ (c < V)%nat /\ c <> r).
  { intros [op p a e] J. unfold L1 in J. apply filter_In in J. destruct J as (J & K). destruct op; try discriminate K.
    assert (J' : In (I OP_IN p a e) prog) by (rewrite E; apply in_app_iff; now left).
    apply (vp_in _ _ _ _ VP) in J'. apply (parent_edge_iff V edges r par dep RT) in J'. destruct J' as (B & NR & -> & ->). exists a. auto. }
  change (nin pre) with (length L1). rewrite <- (map_length cof).
  assert (ND : NoDup L1). { apply NoDup_filter. pose proof (vp_nodup _ _ _ _ VP) as ND. rewrite E in ND. now apply NoDup_app_inv in ND. }
  assert (ND2 : NoDup (map cof L1)).
  { clearbody L1. induction L1 as [|i l IH]; [constructor|]. cbn [map]. inversion ND as [|? ? NI ND']; subst. constructor.
    - intros J. apply in_map_iff in J. destruct J as (j & EJ & J). apply NI. destruct (F i (or_introl eq_refl)) as (a & -> & _). destruct (F j (or_intror J)) as (a' & -> & _).
      cbn in EJ. now subst a'.
    - apply IH; auto. intros j J. apply F. now right. }
  assert (NR : ~ In r (map cof L1)).
  { intros J. apply in_map_iff in J. destruct J as (i & EI & J). destruct (F i J) as (a & -> & _ & NR). cbn in EI. congruence. }
  assert (LE : (length (r :: map cof L1) <= length (seq 0 V))%nat).
  { apply NoDup_incl_length; [now constructor|]. intros x J. apply in_seq. cbn. split; [lia|]. destruct J as [<-|J]; [apply (rt_root _ _ _ _ _ RT)|].
    apply in_map_iff in J. destruct J as (i & EI & J). destruct (F i J) as (a & -> & B & _). cbn in EI. subst x. exact B. }
  rewrite seq_length in LE. cbn [length] in LE. lia.
Qed.

Definition rel (pre : list instr) (msg : nat -> nat -> f32) (lp : f32) (msgx : nat -> nat -> R) (lpx : R) : Prop :=
  exists cc ee,
    (forall v, (v < V)%nat -> 0 < cc v /\ 0 <= ee v) /\
    (forall v, (v < V)%nat -> ~ used pre v -> vgood (ee v) (cc v) (kids pre v) (msg v) (msgx v)) /\
    (forall v, (v < V)%nat -> used pre v -> cc v = 1 /\ ee v = 0) /\
    (forall v, (v < V)%nat -> ~ In (I OP_UP v 0 0) pre -> msg v = s3_vert s v /\ msgx v = sv_vert sx v /\ cc v = 1 /\ ee v = e0 v) /\
    sumf (seq 0 V) ee = T /\
    fin32 lp = true /\ Rabs (val lp) <= 256 * INR (nin pre) /\ Rabs (val lp - (lpx - lnsum cc)) <= INR (nin pre) * delta.

Lemma two_le (h : nat -> R) u v : (u < V)%nat -> (v < V)%nat -> u <> v -> (forall w, (w < V)%nat -> 0 <= h w) -> h u + h v <= sumf (seq 0 V) h.
Proof.
  intros Hu Hv NE P. pose proof (sumf_set1 V h u 0 Hu) as E1.
  assert (X : h v <= sumf (seq 0 V) (set1 h u 0)).
  { replace (h v) with (set1 h u 0 v) by (now rewrite set1_other by auto). apply sumf_member_le; [|apply in_seq; lia]. intros w I. apply in_seq in I. unfold set1.
    destruct (w =? u)%nat; [lra|]. apply P. lia. }
  lra.
Qed.

Lemma loops_near suf : forall pre msg lp msgx lpx, prog = pre ++ suf -> In (I OP_ROOT r 0 0) suf -> rel pre msg lp msgx lpx ->
  exists x y, logprob_loop32 lib s row suf msg lp = Ok x /\ logprob_loop sx row suf msgx lpx = Ok y /\ fin32 x = true /\
    Rabs (val x - y) <= T + INR V * delta.
Proof.
  pose proof (vp_nodup _ _ _ _ VP) as ND. destruct ACC as (AS & _ & _ & AL). destruct LIB as (_ & SO & _ & LG & _).
  induction suf as [|[op v a e] suf IH]; intros pre msg lp msgx lpx E IR (cc & ee & K1 & K2 & K3 & K4 & K5 & K6 & K7 & K8); [destruct IR|].
  assert (IN : In (I op v a e) prog) by (rewrite E; apply in_app_iff; right; now left).
  assert (E' : prog = (pre ++ [I op v a e]) ++ suf) by (rewrite E, <- app_assoc; reflexivity).
  assert (IR' : op <> OP_ROOT -> In (I OP_ROOT r 0 0) suf) by (intros NE; destruct IR as [D|D]; [inversion D; congruence|exact D]).
  assert (NP : ~ In (I op v a e) pre).
  { rewrite E in ND. apply NoDup_remove_2 in ND. intros D. apply ND. apply in_app_iff. now left. }
  assert (IP : forall i, In i pre -> In i prog) by (intros i D; rewrite E; apply in_app_iff; now left).
  assert (BEF : forall x, precedes prog x (I op v a e) -> In x pre) by (intros x D; rewrite E in D, ND; now apply before_in in D).
  assert (AFT : forall x, In x pre -> ~ precedes prog (I op v a e) x).
  { intros x Ix D. apply NP. apply in_split in Ix. destruct Ix as (p1 & p2 & ->).
    rewrite E in D, ND. rewrite <- app_assoc in D, ND. cbn [app] in D, ND. apply before_in in D; [|exact ND]. apply in_app_iff. now left. }
  destruct (PB _ _ _ _ IN) as (Hv & HB).
  assert (V1 : (1 <= V)%nat) by lia.
  cbn [logprob_loop32 logprob_loop]. rewrite (t3_V _ _ _ _ _ _ TB), (t3_M _ _ _ _ _ _ TB), (sv_V_eq ws V M edges sx SF), (sv_M_eq ws V M edges sx SF).
  unfold index at 1 3. rewrite (proj2 (Nat.ltb_lt v V) Hv). cbn [bind].
  assert (KN : forall u, kids (pre ++ [I op v a e]) u = (kids pre u + if is_in u (I op v a e) then 1 else 0)%nat).
  { intros u. unfold kids. rewrite filter_app, app_length. cbn [filter]. now destruct (is_in u (I op v a e)). }
  destruct op.
  - (* UP *)
    destruct (proj1 (vp_up _ _ _ _ VP v a e) IN) as (_ & -> & ->).
    assert (US : forall u, used (pre ++ [I OP_UP v 0 0]) u <-> used pre u).
    { intros u. split; intros (p & e' & D).
      - apply in_app_iff in D. destruct D as [D|[D|[]]]; [|discriminate]. now exists p, e'.
      - exists p, e'. apply in_app_iff. now left. }
    assert (NI : nin (pre ++ [I OP_UP v 0 0]) = nin pre) by (unfold nin; rewrite filter_app, app_nil_r; reflexivity).
    destruct (K4 v Hv NP) as (F1 & F2 & F3 & F4). rewrite F1, F2.
    destruct (observe_vgood v Hv) as (f & fx & O1 & O2 & G). rewrite O1, O2. cbn [bind].
    apply (IH (pre ++ [I OP_UP v 0 0])); [exact E'|apply IR'; discriminate|].
    assert (KZ : kids pre v = 0%nat).
    { destruct (kids pre v) eqn:EK; [reflexivity|]. exfalso. unfold kids in EK. destruct (filter (is_in v) pre) as [|i l] eqn:EF; [discriminate|].
      assert (J : In i (filter (is_in v) pre)) by (rewrite EF; now left). apply filter_In in J. destruct J as (J & K). destruct i as [op p a e]. destruct op; try discriminate K.
      cbn in K. apply Nat.eqb_eq in K. subst p. apply (AFT _ J). apply (vp_in_up _ _ _ _ VP). auto. }
    exists cc, ee. split; [exact K1|]. split; [|split; [|split; [|split; [|rewrite NI; auto]]]].
    + intros u Hu NU. rewrite US in NU. rewrite KN. cbn [is_in]. rewrite Nat.add_0_r. destruct (Nat.eq_dec u v) as [->|NE].
      * rewrite !set1_same, KZ, F3, F4. exact G.
      * rewrite !set1_other by auto. auto.
    + intros u Hu U. rewrite US in U. auto.
    + intros u Hu NU. assert (u <> v) by (intros ->; apply NU; apply in_app_iff; right; now left). rewrite !set1_other by auto. apply K4; auto.
      intros D. apply NU. apply in_app_iff. now left.
    + exact K5.
  - (* IN *)
    destruct HB as (Ha & He). rewrite (proj2 (Nat.ltb_lt a V) Ha), (proj2 (Nat.ltb_lt e (V - 1)) He). cbn [andb index bind].
    pose proof (proj1 (vp_in _ _ _ _ VP v a e) IN) as PE0. pose proof PE0 as PE. apply (parent_edge_iff V edges r par dep RT) in PE. destruct PE as (_ & NR & Ev & Ee).
    assert (NAV : a <> v) by (subst v; intros D; symmetry in D; revert D; now apply (par_neq _ _ _ _ _ RT)).
    assert (NU : ~ used pre v).
    { intros (p & e' & D). apply (AFT _ D). apply (vp_in_in _ _ _ _ VP); auto. }
    assert (NA : ~ used pre a).
    { intros (p & e' & D). apply NP. pose proof (proj1 (vp_in _ _ _ _ VP _ _ _) (IP _ D)) as PE.
      apply (parent_edge_iff V edges r par dep RT) in PE. destruct PE as (_ & _ & -> & ->). now subst. }
    destruct (K2 v Hv NU) as [Gm Gc Ga Gl Gr]. destruct (K2 a Ha NA) as [Am Ac Aa Al Ar].
    destruct PE0 as ((f & NE & _) & _). rewrite <- ETS in NE. destruct f as [v1 v2].
    (* degrees *)
    assert (KD : forall u, (u < V)%nat -> (kids (pre ++ [I OP_IN v a e]) u <= d)%nat).
    { intros u Hu. assert (KP : (kids prog u <= d)%nat).
      { apply (kids_le V (grid_edges (make_tree edges)) r prog u d VP). rewrite <- ETS. apply DG. rewrite <- ST. destruct (sf_tree _ _ _ _ _ SF) as (EE & _). rewrite EE. exact Hu. }
      eapply Nat.le_trans; [|exact KP]. rewrite E'. generalize (pre ++ [I OP_IN v a e]). intros q. unfold kids. rewrite filter_app, app_length. lia. }
    pose proof (KD v Hv) as KDv. pose proof (KD a Ha) as KDa. rewrite KN in KDv, KDa. cbn [is_in] in KDv. rewrite Nat.eqb_refl in KDv.
    assert (KDa' : (kids pre a <= d)%nat) by (destruct (is_in a (I OP_IN v a e)); lia).
    pose proof (two_le ee v a Hv Ha ltac:(auto) ltac:(intros; now apply K1)) as TW. rewrite K5 in TW.
    pose proof DXL as DXL'.
    destruct (in_both lib ws V M N m A W b c eta lambda s row LIB ACC C CB HA HE WM Hb Hc HL20 TB TA RL v a e v1 v2 (msg v) (msg a) (msgx v) (msgx a) (cc v) (cc a)
      (ee v - 29 * eta) (ee a - 29 * eta) (DX + (A + 8) * Z.of_nat (kids pre v)) (L + 9 + (A + 8) * Z.of_nat (kids pre v)) (L + 9 + (A + 8) * Z.of_nat (kids pre a))
      NE He Hv Ha Gm Am Gc Ac) as (X1 & X2 & X3).
    { intros k Hk. auto. }
    { intros k Hk. auto. }
    { exact Gr. }
    { apply Ar. }
    { nia. }
    { nia. }
    { nia. }
    { lra. }
    cbv zeta in X1, X2, X3.
    destruct (in_step lib ws V M N m A b c s row LIB C HA Hb Hc HLo TB RL v a e (msg v) (msg a) Hv Ha He Gm Am) as (S1 & S2 & S3). cbv zeta in S1, S2, S3.
    set (message := fun k => fmul (msg v k) (l_dot lib (vec M ((if (a <? v)%nat then transpose (s3_trans s e) else s3_trans s e) k)) (vec M (msg a)))) in *.
    set (S32 := l_sum lib (vec M message)) in *.
    set (mx := fun k => msgx v k * sumf (seq 0 M) (fun j => tx m e v1 v2 (a <? v)%nat k j * msgx a j)) in *.
    set (Sx := sumf (seq 0 M) mx) in *.
    assert (TRX : forall k j, oriented sx e (a <? v)%nat k j = tx m e v1 v2 (a <? v)%nat k j).
    { intros k j. unfold oriented, tx. destruct (a <? v)%nat; [unfold transpose|]; rewrite (sf_trans _ _ _ _ _ SF e v1 v2) by (now rewrite <- ETS); now rewrite SE, !SV. }
    set (hx := fun k => msgx v k * dot M (oriented sx e (a <? v)%nat) (msgx a) k).
    assert (EHX : forall k, hx k = mx k).
    { intros k. unfold hx, mx, dot. rewrite rsum_vec. f_equal. apply sumf_ext. intros j _. now rewrite TRX. }
    assert (ESX : rsum (vec M hx) = Sx) by (rewrite rsum_vec; apply sumf_ext; intros; apply EHX).
    destruct (LG _ S1 S2) as (Q1 & Q2). pose proof (AL _ S1 S2) as Q3. fold S32 in Q1, Q2, Q3.
    pose proof (nin_lt pre (I OP_IN v a e :: suf) E) as NL.
    destruct (add_log_near lp (l_log lib S32) (nin pre) V HV ltac:(lia) K6 Q1 K7 Q2) as (L1 & L2 & L3).
    apply (IH (pre ++ [I OP_IN v a e])); [exact E'|apply IR'; discriminate|].
    assert (US : forall u, used (pre ++ [I OP_IN v a e]) u <-> used pre u \/ u = a).
    { intros u. split.
      - intros (p & e' & D). apply in_app_iff in D. destruct D as [D|[D|[]]]; [left; now exists p, e'|right; now inversion D].
      - intros [(p & e' & D) | ->]; [exists p, e'; apply in_app_iff; now left|exists v, e; apply in_app_iff; right; now left]. }
    assert (NI : nin (pre ++ [I OP_IN v a e]) = (nin pre + 1)%nat) by (unfold nin; rewrite filter_app, app_length; reflexivity).
    destruct (K1 v Hv) as (Pcv & Pev). destruct (K1 a Ha) as (Pca & Pea).
    exists (set1 (set1 cc a 1) v (cc v * cc a * Sx / val S32)), (set1 (set1 ee a 0) v (ee v + ee a)).
    assert (PC : 0 < cc v * cc a * Sx / val S32).
    { apply Rdiv_lt_0_compat; [|exact S2]. apply Rmult_lt_0_compat; [|exact X1]. now apply Rmult_lt_0_compat. }
    split; [|split; [|split; [|split; [|split; [|rewrite NI; split; [exact L1|split; [exact L2|]]]]]]].
    + intros u Hu. unfold set1. destruct (u =? v)%nat; [split; [exact PC|lra]|]. destruct (u =? a)%nat; [split; lra|]. now apply K1.
    + intros u Hu NU'. rewrite US in NU'. rewrite KN. cbn [is_in]. destruct (Nat.eq_dec u v) as [->|NEu].
      * rewrite Nat.eqb_refl. rewrite !set1_same. split.
        -- exact S3.
        -- exact PC.
        -- intros k Hk. destruct (X3 k Hk) as (X4 & _). change (fdiv (fmul (msg v k) _) _) with (fdiv (message k) S32). change (msgx v k * _) with (hx k). fold hx. rewrite ESX, EHX.
           eapply agree_weak; [|exact X4]. lra.
        -- intros k Hk. destruct (X3 k Hk) as (_ & X5). eapply Rle_trans; [|exact X5]. apply bpow_le. nia.
        -- destruct (ranged_weak M (DX + (A + 8) * Z.of_nat (kids pre v) + (A + 8)) (DX + (A + 8) * Z.of_nat (kids pre v + 1)) _ ltac:(nia) X2) as (Y1 & Y2).
           change (ranged M (DX + (A + 8) * Z.of_nat (kids pre v + 1)) (fun k => hx k / rsum (vec M hx))). rewrite ESX. split; intros; rewrite !EHX; [now apply Y1|now apply Y2].
      * replace (v =? u)%nat with false by (symmetry; apply Nat.eqb_neq; auto). rewrite Nat.add_0_r.
        rewrite !(set1_other _ v) by auto. rewrite !(set1_other _ a) by (intros ->; apply NU'; now right). apply K2; [exact Hu|]. intros D. apply NU'. now left.
    + intros u Hu U. rewrite US in U. assert (u <> v) by (intros ->; destruct U as [U|U]; [now apply NU|congruence]). rewrite !(set1_other _ v) by auto.
      destruct (Nat.eq_dec u a) as [->|NEu]; [rewrite !set1_same; auto|]. rewrite !set1_other by auto. apply K3; [exact Hu|]. destruct U; [auto|contradiction].
    + intros u Hu NUP. assert (NUP' : ~ In (I OP_UP u 0 0) pre) by (intros D; apply NUP; apply in_app_iff; now left).
      destruct (vp_in_up _ _ _ _ VP _ _ _ IN) as (U1 & U2). apply BEF in U1. apply BEF in U2.
      assert (u <> v) by congruence. assert (u <> a) by congruence. rewrite !set1_other by auto. now apply K4.
    + rewrite sumf_set1, sumf_set1 by auto. rewrite set1_other by auto. lra.
    + rewrite lnsum_set by exact Hv. rewrite lnsum_set by exact Ha. rewrite set1_other by auto.
      change (fun k => msgx v k * dot M (oriented sx e (a <? v)%nat) (msgx a) k) with hx. rewrite ESX.
      assert (LE : ln (cc v * cc a * Sx / val S32) = ln (cc v) + ln (cc a) + ln Sx - ln (val S32)).
      { assert (P1 : 0 < cc v * cc a) by (now apply Rmult_lt_0_compat). assert (P2 : 0 < cc v * cc a * Sx) by (now apply Rmult_lt_0_compat).
        unfold Rdiv. rewrite (ln_mult _ _ P2 (Rinv_0_lt_compat _ S2)), (ln_Rinv _ S2), (ln_mult _ _ P1 X1), (ln_mult _ _ Pcv Pca). ring. }
      rewrite LE, ln_1. change (l_sum lib (vec M _)) with S32. rewrite plus_INR. cbn [INR].
      replace (val (fadd lp (l_log lib S32)) - (lpx + ln Sx - (lnsum cc - ln (cc a) + 0 - ln (cc v) + (ln (cc v) + ln (cc a) + ln Sx - ln (val S32)))))
        with ((val lp - (lpx - lnsum cc)) + ((val (l_log lib S32) - ln (val S32)) + (val (fadd lp (l_log lib S32)) - (val lp + val (l_log lib S32))))) by ring.
      eapply Rle_trans; [apply Rabs_triang|]. rewrite Rmult_plus_distr_r, Rmult_1_l. apply Rplus_le_compat; [exact K8|].
      eapply Rle_trans; [apply Rabs_triang|]. unfold delta. now apply Rplus_le_compat.
  - (* ROOT *)
    destruct (proj1 (vp_root _ _ _ _ VP v a e) IN) as (-> & -> & ->).
    assert (NU : ~ used pre r).
    { intros (p & e' & D). pose proof (proj1 (vp_in _ _ _ _ VP _ _ _) (IP _ D)) as PE.
      apply (parent_edge_iff V edges r par dep RT) in PE. tauto. }
    destruct (K2 r Hv NU) as [Gm Gc Ga Gl Gr].
    assert (U : forall u, (u < V)%nat -> u <> r -> cc u = 1).
    { intros u Hu NE. apply K3; [exact Hu|]. exists (par u), (eidx edges par u). apply BEF. apply (vp_root_after_in _ _ _ _ VP).
      apply (vp_in _ _ _ _ VP). apply (parent_edge_iff V edges r par dep RT). auto. }
    assert (LS : lnsum cc = ln (cc r)).
    { unfold lnsum. rewrite (sumf_ext (seq 0 V) (fun u => ln (cc u)) (fun u => ln (set1 (fun _ => 1) r (cc r) u))).
      - change (lnsum (set1 (fun _ => 1) r (cc r)) = ln (cc r)). rewrite lnsum_set by exact Hv. unfold lnsum.
        rewrite (sumf_zero _ (fun _ => ln 1)) by (intros; apply ln_1). rewrite ln_1. ring.
      - intros u I. apply in_seq in I. unfold set1. destruct (Nat.eqb_spec u r) as [->|]; [reflexivity|]. rewrite U by (auto; lia). reflexivity. }
    assert (ER : ee r <= T).
    { rewrite <- K5. apply sumf_member_le; [|apply in_seq; lia]. intros u I. apply in_seq in I. apply K1. lia. }
    pose proof Gm as (G1 & k0 & Hk0 & G2).
    destruct (sum_classes lib ws V M N m A b c row LIB C HA Hb Hc HLo RL (msg r) 0) as (S1 & S2 & _); [lia|exact G1|exists k0; split; [exact Hk0|pose proof (bp_pos (- L)); lra]|].
    destruct (LG _ S1 S2) as (Q1 & Q2). pose proof (AL _ S1 S2) as Q3.
    set (S32 := l_sum lib (vec M (msg r))) in *.
    pose proof (nin_lt pre (I OP_ROOT r 0 0 :: suf) E) as NL.
    destruct (add_log_near lp (l_log lib S32) (nin pre) V HV ltac:(lia) K6 Q1 K7 Q2) as (L1 & L2 & L3).
    exists (fadd lp (l_log lib S32)), (lpx + ln (rsum (vec M (msgx r)))). split; [reflexivity|]. split; [reflexivity|]. split; [exact L1|].
    assert (SP : 0 < rsum (vec M (msgx r))).
    { rewrite rsum_vec. apply sumf_pos'; [apply (seqM ws V M N m C)|]. intros k I. apply in_seq in I. apply Gr. lia. }
    assert (AG : agree (ee r - 28 * eta) (val S32) (cc r * rsum (vec M (msgx r)))).
    { replace (ee r - 28 * eta) with (eta + (ee r - 29 * eta)) by ring. apply agree_trans with (rsum (map (@B2R 24 128) (vec M (msg r)))).
      - apply AS.
        + rewrite len_vec. nia.
        + apply Forall_forall. intros x I. apply vec_In in I; [|exact HM]. destruct I as (k & Hk & ->). destruct (G1 k Hk). split; [auto|tauto].
        + rewrite rsum_map_vec. apply Rle_trans with (sumf (seq 0 M) (fun _ => 1)).
          * apply sumf_le. intros k I. apply in_seq in I. apply G1. lia.
          * rewrite sumf_const, seq_length, Rmult_1_r, INR_IZR_INZ. apply Rle_trans with (bp 7); [change (bp 7) with (IZR 128); apply IZR_le; lia|apply bpow_le; lia].
      - rewrite rsum_map_vec, rsum_vec, <- sumf_scal. apply agree_sum. intros k I. apply in_seq in I. apply Ga. lia. }
    pose proof (agree_ln _ _ _ AG ltac:(now apply Rmult_lt_0_compat)) as AGL. rewrite ln_mult in AGL by auto. rewrite LS in K8.
    replace (val (fadd lp (l_log lib S32)) - (lpx + ln (rsum (vec M (msgx r)))))
      with ((val lp - (lpx - ln (cc r))) + (((val (l_log lib S32) - ln (val S32)) + (val (fadd lp (l_log lib S32)) - (val lp + val (l_log lib S32)))) + (ln (val S32) - (ln (cc r) + ln (rsum (vec M (msgx r))))))) by ring.
    assert (D0 : 0 <= delta).
    { unfold delta. assert (0 <= lambda) by (eapply Rle_trans; [apply Rabs_pos|exact Q3]). pose proof (pos_INR (V + 1)). pose proof (bp_pos (-16)). nra. }
    assert (DV : INR (nin pre) * delta + delta <= INR V * delta).
    { assert (INR (nin pre) + 1 <= INR V) by (rewrite <- S_INR; apply le_INR; lia). nra. }
    eapply Rle_trans; [apply Rabs_triang|]. 
    eapply Rle_trans; [apply Rplus_le_compat; [exact K8|apply Rabs_triang]|].
    eapply Rle_trans; [apply Rplus_le_compat_l, Rplus_le_compat; [apply Rabs_triang|exact AGL]|].
    unfold delta in *. lra.
  - (* OUT *)
    exfalso. destruct IR as [D|D]; [discriminate|].
    assert (J : In (I OP_ROOT r 0 0) pre) by (apply BEF; apply (vp_out_root _ _ _ _ VP); exact IN).
    rewrite E in ND. apply in_split in J. destruct J as (p1 & p2 & ->). rewrite <- app_assoc in ND. cbn [app] in ND. apply NoDup_remove_2 in ND.
    apply ND. apply in_app_iff. right. apply in_app_iff. right. now right.
  - (* DOWN *)
    apply (IH (pre ++ [I OP_DOWN v a e])); [exact E'|apply IR'; discriminate|].
    assert (US : forall u, used (pre ++ [I OP_DOWN v a e]) u <-> used pre u).
    { intros u. split; intros (p & e' & D).
      - apply in_app_iff in D. destruct D as [D|[D|[]]]; [|discriminate]. now exists p, e'.
      - exists p, e'. apply in_app_iff. now left. }
    assert (NI : nin (pre ++ [I OP_DOWN v a e]) = nin pre) by (unfold nin; rewrite filter_app, app_nil_r; reflexivity).
    exists cc, ee. split; [exact K1|]. split; [|split; [|split; [|split; [|rewrite NI; auto]]]].
    + intros u Hu N'. rewrite US in N'. rewrite KN. cbn [is_in]. rewrite Nat.add_0_r. auto.
    + intros u Hu U. rewrite US in U. auto.
    + intros u Hu NU. apply K4; auto. intros D. apply NU. apply in_app_iff. now left.
    + exact K5.
Qed.
End LOOP.
End RUNBOTH.
