(** The float32 sampler draws only from usable weights. *)
From Coq Require Import List Arith Bool ZArith Reals Lra Lia Permutation.
From Flocq Require Import Core IEEE754.BinarySingleNaN.
From Verif Require Import Base Spec_Graph Spec_Ragged M_Structure Spec_Program M_Array M_Util M_Training Spec_Stats Spec_Conditional M_Float32 M_Train32 Spec_Float32
  L_Float32 L_Sample32 L_Train32 L_Train32b L_Train32c L_Train32d L_Ragged L_Prop1 L_MakeTree L_Stats L_Trainer.
Import ListNotations.
Open Scope R_scope.

(** ** The tables *)
Section DEFS.
Variables (tb : table) (M : nat) (s : tstate).
Definition vp v m := add_prior (s_vert s v m) vert_prior64.
Definition fp r m := add_prior (s_feat s r m) (prior64 M).
Definition mp v m := add_prior (s_meas s v m) (to64 (meas_prior32 (tb_ri tb) M v)).
End DEFS.

Lemma width_ri ws tb v : table_ok ws tb -> (v < num_cols tb)%nat -> (nth (v + 1) (tb_ri tb) 0 - nth v (tb_ri tb) 0)%nat = nth v ws 0%nat.
Proof.
  intros TK Hv. pose proof (tk_width _ _ TK) as W.
  pose proof (ri_get _ _ TK OutOfBounds v ltac:(lia)) as G1. pose proof (ri_get _ _ TK OutOfBounds (v + 1) ltac:(lia)) as G2.
  assert (N : forall i x, get OutOfBounds (tb_ri tb) i = Ok x -> nth i (tb_ri tb) 0%nat = x).
  { intros i x G. unfold get in G. destruct (nth_error (tb_ri tb) i) eqn:E; [|discriminate]. inversion G; subst. now apply nth_error_nth. }
  rewrite (N _ _ G1), (N _ _ G2). replace (v + 1)%nat with (Datatypes.S v) by lia. rewrite sum_firstn_S by lia. lia.
Qed.

(** What is needed of a version of [treecat_add_cell]: from fresh tables it leaves a
    usable message, and it changes no other feature's tables. *)
Definition cell_good (cell : cell_fun) (ws : list nat) (tb : table) (M : nat) (lo hi : Z) : Prop :=
  forall s n v msg feat meas, tinv ws tb M s -> (n < num_rows tb)%nat -> (v < num_cols tb)%nat ->
  msg = vp s v -> meas v = mp tb M s v -> (forall r, owns ws v r -> feat r = fp M s r) ->
  exists msg' feat' meas',
    cell TY_MULTINOMIAL (tb_ri tb) (nth n (tb_rows tb) []) v (msg, feat, meas) = Ok (msg', feat', meas') /\
    vgood M lo hi msg' /\ (forall r, ~ owns ws v r -> feat' r = feat r) /\ (forall u, u <> v -> meas' u = meas u).

Section VERT.
Variables (ws : list nat) (tb : table) (M : nat) (A : Z).
Hypothesis HM : (1 <= M <= 128)%nat.
Hypothesis HA : (1 <= A <= 16)%Z.
Hypothesis HN : ((Z.of_nat (num_rows tb) + 1) * 1 < 2 ^ A)%Z.
Notation V := (num_cols tb).
Let pA : (2 ^ A <= 2 ^ 16)%Z.
Proof. apply Z.pow_le_mono_r; lia. Qed.
Variable s : tstate.
Hypothesis TI : tinv ws tb M s.
Lemma vp_range v : (v < V)%nat -> vrange M A (vp s v).
Proof.
  intros Hv m Hm. destruct (vert_small ws tb M A 1 HM ltac:(lia) ltac:(lia) HN s v m TI Hv Hm) as (B1 & B2).
  destruct vert_prior64_spec as (P1 & P2). pose proof (bp_pos (-1)) as P.
  assert (I0 : 0 <= IZR (s_vert s v m)) by (apply IZR_le; lia).
  assert (I1 : IZR (s_vert s v m) + 1 <= bp A).
  { rewrite <- (IZR_Zpower radix2) by lia. rewrite <- plus_IZR. apply IZR_le. change (radix2 ^ A)%Z with (2 ^ A)%Z. lia. }
  assert (H1 : bp (-1) <= 1) by (cbn; lra).
  apply add_prior_bounds; auto; try (apply fmtb; lia); try (apply bp128; lia); [lia| |lra]. rewrite P2. lra.
Qed.

End VERT.

Section OLD.
Variables (ws : list nat) (tb : table) (M : nat) (A c : Z).
Hypothesis TK : table_ok ws tb.
Hypothesis ND : nonneg_data tb.
Hypothesis HM : (1 <= M <= 128)%nat.
Hypothesis HA : (1 <= A <= 16)%Z.
Hypothesis Hc : (1 <= c)%Z.
Hypothesis HAc : ((A + 9) * c + A <= 69)%Z.
Hypothesis HN : ((Z.of_nat (num_rows tb) + 1) * c < 2 ^ A)%Z.
Hypothesis HW : Forall (fun w => (Z.of_nat w <= 2 ^ A)%Z) ws.
Hypothesis HC : forall n v, (n < num_rows tb)%nat -> (v < num_cols tb)%nat -> (block_sum ws (nth n (tb_rows tb) []) v <= c)%Z.
Notation V := (num_cols tb).
Notation lo := (-1 - (A + 9) * c)%Z.
Notation hi := (A + 7 * c)%Z.

Let pA : (2 ^ A <= 2 ^ 16)%Z.
Proof. apply Z.pow_le_mono_r; lia. Qed.
Lemma HN1 : ((Z.of_nat (num_rows tb) + 1) * 1 < 2 ^ A)%Z.
Proof. nia. Qed.

Section STATE.
Variable s : tstate.
Hypothesis TI : tinv ws tb M s.
Lemma fp_near v r m : owns ws v r -> (m < M)%nat -> near (fp M s r m) (s_feat s r m).
Proof.
  intros O Hm. destruct (feat_small ws tb M A c TK ND HM ltac:(lia) Hc HN HC s v r m TI O Hm) as (B1 & B2).
  destruct (prior64_spec M HM) as (P1 & P2). apply add_prior_near; auto. lia.
Qed.

Lemma mp_near v m : (v < V)%nat -> (m < M)%nat -> (exists r, owns ws v r) -> meas_near A (mp tb M s v m) (s_meas s v m).
Proof.
  intros Hv Hm (r & O). destruct (feat_small ws tb M A c TK ND HM ltac:(lia) Hc HN HC s v r m TI O Hm) as (B1 & B2).
  destruct (prior64_spec M HM) as (P1 & P2).
  assert (W1 : (1 <= Z.of_nat (nth v ws 0%nat) <= 2 ^ A)%Z).
  { split; [destruct O; lia|]. rewrite Forall_forall in HW. apply HW. apply nth_In. apply O. }
  assert (MP : fin32 (meas_prior32 (tb_ri tb) M v) = true /\ bp (-8) <= val (meas_prior32 (tb_ri tb) M v) <= bp (A - 1)).
  { unfold meas_prior32. rewrite (width_ri ws) by auto. pose proof (bp_pos (-8)).
    destruct (to32_bounds (prior64 M) (bp (-8)) (bp (-1))) as (T1 & T2); auto; try (apply fmtb; lia); try (apply bp128; lia); try lra.
    destruct (f32_int (Z.of_nat (nth v ws 0%nat))) as (I1 & I2); [lia|].
    assert (J1 : 1 <= IZR (Z.of_nat (nth v ws 0%nat))) by (apply IZR_le; lia).
    assert (J2 : IZR (Z.of_nat (nth v ws 0%nat)) <= bp A).
    { rewrite <- (IZR_Zpower radix2) by lia. apply IZR_le. change (radix2 ^ A)%Z with (2 ^ A)%Z. lia. }
    apply fmul_bounds; auto; try (apply fmtb; lia); try (apply bp128; lia); [|lra]. rewrite I2. split.
    - apply Rle_trans with (bp (-8) * 1); [lra|]. apply Rmult_le_compat; lra.
    - replace (A - 1)%Z with (-1 + A)%Z by lia. rewrite bpow_plus. apply Rmult_le_compat; lra. }
  destruct MP as (M1 & M2). destruct (to64_exact _ M1) as (M3 & M4).
  pose proof (near_A A HA (s_meas s v m) ltac:(lia)) as NA. pose proof (bp_pos (-8)).
  apply add_prior_bounds; auto; [lia|apply fmt_near8; lia|apply fmt_meas_hi; lia| | |]; rewrite ?M4; lra.
Qed.

End STATE.

Lemma cell_good_old : cell_good treecat_add_cell32 ws tb M lo hi.
Proof.
  intros s n v msg feat meas TI Hn Hv EM EE EF. assert (VR := vp_range ws tb M A HM HA HN1 s TI v Hv).
  destruct (add_cell_inv ws tb M A c TK HA Hc HAc n v msg feat meas (fun m => if (0 <? nth v ws 0)%nat then s_meas s v m else 0%Z))
    as (msg' & feat' & meas' & EC & C1 & C2 & C3 & C4); auto.
  - intros m Hm. destruct (Nat.ltb_spec 0 (nth v ws 0%nat)) as [P|P].
    + assert (O : owns ws v (list_sum (firstn v ws))) by (split; [rewrite (tk_width _ _ TK); auto|lia]).
      destruct (feat_small ws tb M A c TK ND HM ltac:(lia) Hc HN HC s v _ m TI O Hm). lia.
    + destruct (N_small tb M A c HM ltac:(lia) Hc HN). lia.
  - intros m Hm. exists (fun r => s_feat s r m). split.
    + intros r O. rewrite (EF r O). split; [apply (fp_near s TI v); auto|].
      destruct (feat_small ws tb M A c TK ND HM ltac:(lia) Hc HN HC s v r m TI O Hm) as (K & _).
      destruct (Nat.ltb_spec 0 (nth v ws 0%nat)) as [P|P]; [exact K|destruct O; lia].
    + intros (r & O). rewrite EE. destruct (Nat.ltb_spec 0 (nth v ws 0%nat)) as [P|P]; [|destruct O; lia]. apply mp_near; eauto.
  - intros m Hm. rewrite EM. destruct (VR m Hm) as (F & B). split; [exact F|]. pose proof (bp_pos (-1)). lra.
  - exists msg', feat', meas'. split; [exact EC|]. split; [|auto]. split; [exact C1|].
    exists 0%nat. split; [lia|]. apply C2; [lia|]. rewrite EM. apply VR. lia.
Qed.

Lemma lo_ok : (-149 <= 2 * lo - 2 * A - 8)%Z /\ (lo <= 0)%Z /\ (2 * hi + A + 10 <= 127)%Z /\ (0 <= hi)%Z.
Proof. pose proof (hi_bound ws tb M A c HM ltac:(lia) Hc HAc HN HC). lia. Qed.
End OLD.

Section ADD.
Variables (cell : cell_fun) (dot : list f32 -> list f32 -> f32) (ws : list nat) (tb : table) (M : nat) (A lo hi : Z).
Hypothesis DOT : dot_ok dot.
Hypothesis TK : table_ok ws tb.
Hypothesis HM : (1 <= M <= 128)%nat.
Hypothesis HA : (1 <= A <= 16)%Z.
Hypothesis HN : ((Z.of_nat (num_rows tb) + 1) * 1 < 2 ^ A)%Z.
Hypothesis LO : (-149 <= 2 * lo - 2 * A - 8)%Z /\ (lo <= 0)%Z /\ (2 * hi + A + 10 <= 127)%Z /\ (0 <= hi)%Z.
Hypothesis CELL : cell_good cell ws tb M lo hi.
Notation V := (num_cols tb).

Let pA : (2 ^ A <= 2 ^ 16)%Z.
Proof. apply Z.pow_le_mono_r; lia. Qed.

Section TABLES.
Variable s : tstate.
Hypothesis TI : tinv ws tb M s.

(** ** The program *)
Section RUN.
Variables (ep : nat -> nat -> nat -> f32) (n : nat) (es : list (nat * nat)) (root : nat) (prog : list instr).
Hypothesis EP : forall e m1 m2, (e < V - 1)%nat -> (m1 < M)%nat -> (m2 < M)%nat -> near (ep e m1 m2) (s_edge s e m1 m2).
Hypothesis Hn : (n < num_rows tb)%nat.
Hypothesis VPG : valid_program V es root prog.
Hypothesis PB : forall op v a e, In (I op v a e) prog -> (v < V)%nat /\ match op with OP_IN | OP_OUT => (a < V)%nat /\ (e < V - 1)%nat | _ => True end.

Lemma ep_range e m1 m2 : (e < V - 1)%nat -> (m1 < M)%nat -> (m2 < M)%nat ->
  fin32 (ep e m1 m2) = true /\ bp (-8) <= val (ep e m1 m2) <= bp A.
Proof.
  intros He H1 H2. destruct (EP e m1 m2 He H1 H2) as (F & B). split; [exact F|].
  destruct (edge_small ws tb M A 1 HM ltac:(lia) ltac:(lia) HN s e m1 m2 TI He H1 H2) as (B1 & B2).
  assert (I0 : 0 <= IZR (s_edge s e m1 m2)) by (apply IZR_le; lia).
  assert (I1 : IZR (s_edge s e m1 m2) + 1 <= bp A).
  { rewrite <- (IZR_Zpower radix2) by lia. rewrite <- plus_IZR. apply IZR_le. change (radix2 ^ A)%Z with (2 ^ A)%Z. lia. }
  assert (bp (-1) <= 1) by (cbn; lra). lra.
Qed.

Definition J (pre : list instr) (st : (nat -> nat -> f32) * (nat -> nat -> f32) * (nat -> nat -> f32) * (nat -> nat)) : Prop :=
  let '(messages, feat, meas, z) := st in
  forall v, (v < V)%nat ->
    (z v < M)%nat /\
    (~ In (I OP_UP v 0 0) pre -> messages v = vp s v /\ meas v = mp tb M s v /\ forall r, owns ws v r -> feat r = fp M s r) /\
    (In (I OP_UP v 0 0) pre -> (forall p e, ~ In (I OP_OUT v p e) pre) -> vgood M lo hi (messages v)).

Lemma check_Ok (b : bool) : b = true -> check b = Ok tt.
Proof. intros ->. reflexivity. Qed.

Lemma not_in_app (pre : list instr) i x : ~ In x (pre ++ [i]) <-> ~ In x pre /\ x <> i.
Proof. rewrite in_app_iff. cbn. split; [intros H; split; intros K; apply H; auto|intros (H1 & H2) [K|[K|[]]]; auto]. Qed.

Lemma set1_other {T} (f : nat -> T) v x u : u <> v -> set1 f v x u = f u.
Proof. intros H. unfold set1. now rewrite (proj2 (Nat.eqb_neq u v)). Qed.
Lemma set1_same {T} (f : nat -> T) v x : set1 f v x v = x.
Proof. unfold set1. now rewrite Nat.eqb_refl. Qed.

(** An instruction that is neither UP nor OUT and leaves the state usable. *)
Lemma J_other pre i messages feat meas z : J pre (messages, feat, meas, z) ->
  (forall v, i <> I OP_UP v 0 0) -> J (pre ++ [i]) (messages, feat, meas, z).
Proof.
  intros HJ N v Hv. destruct (HJ v Hv) as (J1 & J2 & J3). split; [exact J1|]. split.
  - intros H. apply not_in_app in H. now apply J2.
  - intros H K. apply J3.
    + apply in_app_iff in H. destruct H as [H|[H|[]]]; auto. destruct (N v). now symmetry.
    + intros p e H'. apply (K p e). apply in_app_iff. now left.
Qed.

Lemma J_step pre i suf st : prog = pre ++ i :: suf -> J pre st ->
  draws_usable (J (pre ++ [i])) (add_instr32_with cell dot (tb_types tb) (tb_ri tb) (nth n (tb_rows tb) []) V (V - 1) M (vp s) ep st i).
Proof.
  intros E HJ. destruct st as [[[messages feat] meas] z]. destruct i as [op v a e].
  assert (IN : In (I op v a e) prog) by (rewrite E; apply in_app_iff; right; now left).
  destruct (PB _ _ _ _ IN) as (Hv & HB). pose proof (vp_nodup _ _ _ _ VPG) as NDP.
  destruct LO as (L1 & L2 & L3 & L4).
  pose proof (HJ v Hv) as (Zv & JF & JG).
  unfold add_instr32_with. rewrite (check_Ok (v <? V)%nat) by (apply Nat.ltb_lt; auto). cbn [flift fbind].
  destruct op.
  - (* UP *)
    destruct (proj1 (vp_up _ _ _ _ VPG v a e) IN) as (_ & -> & ->).
    rewrite (ty_get _ _ TK) by auto. cbn [flift fbind].
    assert (NP : ~ In (I OP_UP v 0 0) pre).
    { rewrite E in NDP. apply NoDup_remove_2 in NDP. intros K. apply NDP. apply in_app_iff. now left. }
    destruct (JF NP) as (EM & EE & EF).
    destruct (CELL s n v (messages v) feat meas TI Hn Hv EM EE EF) as (msg' & feat' & meas' & EC & C1 & C3 & C4).
    rewrite EC. cbn [flift fbind draws_usable]. intros u Hu. destruct (HJ u Hu) as (Zu & JU1 & JU2). split; [exact Zu|].
      destruct (Nat.eq_dec u v) as [->|NE].
      * split; [intros K; destruct K; apply in_app_iff; right; now left|]. intros _ _. rewrite set1_same. exact C1.
      * rewrite set1_other by auto. split.
        { intros K. apply not_in_app in K. destruct (JU1 (proj1 K)) as (K1 & K2 & K3). split; [exact K1|]. split; [rewrite C4 by auto; exact K2|].
          intros r O. rewrite C3; [apply K3; auto|]. intros O'. apply NE. eapply owns_unique; eauto. }
        { intros K1 K2. apply JU2.
          - apply in_app_iff in K1. destruct K1 as [K1|[K1|[]]]; auto. inversion K1. congruence.
          - intros p e K3. apply (K2 p e). apply in_app_iff. now left. }
  - (* IN *)
    destruct HB as (Ha & He). rewrite (check_Ok ((a <? V)%nat && (e <? V - 1)%nat)) by (apply andb_true_intro; split; apply Nat.ltb_lt; auto).
    cbn [flift fbind draws_usable].
    destruct (vp_in_up _ _ _ _ VPG _ _ _ IN) as (U1 & U2). rewrite E in NDP, U1, U2.
    apply before_in in U1; auto. apply before_in in U2; auto.
    assert (NO : forall u p e', ~ In (I OP_OUT u p e') pre).
    { intros u p e' K. pose proof (vp_root_after_in _ _ _ _ VPG _ _ _ IN) as R1. rewrite E in R1. apply after_notin in R1; auto. apply R1.
      assert (K' : In (I OP_OUT u p e') prog) by (rewrite E; apply in_app_iff; now left).
      pose proof (vp_out_root _ _ _ _ VPG _ _ _ K') as R2. rewrite E in R2. eapply in_prefix; eauto. }
    assert (Gv : vgood M lo hi (messages v)) by (apply JG; auto).
    assert (Ga : vgood M lo hi (messages a)) by (destruct (HJ a Ha) as (_ & _ & G); apply G; auto).
    set (tr := if (a <? v)%nat then transpose (ep e) else ep e).
    assert (TR : forall m, (m < M)%nat -> erange M A (tr m)).
    { intros m Hm k Hk. unfold tr. destruct (a <? v)%nat; [unfold transpose|]; apply ep_range; auto. }
    pose proof (in_good dot M A lo hi DOT HM HA L1 L2 L3 L4 _ _ _ _ tr Gv Ga (vp_range ws tb M A HM HA HN s TI v Hv) (vp_range ws tb M A HM HA HN s TI a Ha) TR) as G. cbv zeta in G.
    intros u Hu. destruct (HJ u Hu) as (Zu & JU1 & JU2). split; [exact Zu|]. split.
    + intros K. apply not_in_app in K. destruct K as (K & _). destruct (Nat.eq_dec u v) as [->|NE]; [contradiction|]. rewrite set1_other by auto. now apply JU1.
    + intros K1 K2. destruct (Nat.eq_dec u v) as [->|NE]; [rewrite set1_same; exact G|]. rewrite set1_other by auto. apply JU2; [|apply NO].
      apply in_app_iff in K1. destruct K1 as [K1|[K1|[]]]; auto. discriminate.
  - (* ROOT *)
    destruct (proj1 (vp_root _ _ _ _ VPG v a e) IN) as (-> & -> & ->).
    pose proof (vp_root_after _ _ _ _ VPG root Hv) as U. rewrite E in NDP, U. apply before_in in U; auto.
    assert (NO : forall u p e', ~ In (I OP_OUT u p e') pre).
    { intros u p e' K. assert (K' : In (I OP_OUT u p e') prog) by (rewrite E; apply in_app_iff; now left).
      pose proof (vp_out_root _ _ _ _ VPG _ _ _ K') as R2. rewrite E in R2. eapply in_prefix in R2; eauto.
      apply NoDup_remove_2 in NDP. apply NDP. apply in_app_iff. now left. }
    cbn [draws_usable]. split; [apply (root_usable M A lo hi HM HA ltac:(lia)); apply JG; auto|].
    intros m Hm _. rewrite len_vec in Hm. apply (J_other pre _ messages feat meas (set1 z root m)); [|discriminate].
    intros u Hu. destruct (HJ u Hu) as (Zu & JU). split; [|exact JU]. unfold set1. destruct (u =? root)%nat; auto.
  - (* OUT *)
    destruct HB as (Ha & He). destruct (HJ a Ha) as (Za & _).
    rewrite (check_Ok ((a <? V)%nat && (e <? V - 1)%nat && (z a <? M)%nat)) by (rewrite !andb_true_iff, !Nat.ltb_lt; auto).
    cbn [flift fbind draws_usable].
    assert (U : In (I OP_UP v 0 0) pre).
    { pose proof (vp_out_root _ _ _ _ VPG _ _ _ IN) as R1. pose proof (vp_root_after _ _ _ _ VPG v Hv) as R2. rewrite E in NDP, R1, R2.
      apply before_in in R1; auto. eapply in_prefix; eauto. }
    assert (NO : forall p e', ~ In (I OP_OUT v p e') pre).
    { intros p e' K. assert (K' : In (I OP_OUT v p e') prog) by (rewrite E; apply in_app_iff; now left).
      pose proof (follows_unique _ _ _ _ NDP (vp_down_out _ _ _ _ VPG _ _ _ K') (vp_down_out _ _ _ _ VPG _ _ _ IN)) as Q. rewrite Q in K.
      rewrite E in NDP. apply NoDup_remove_2 in NDP. apply NDP. apply in_app_iff. now left. }
    assert (Gv : vgood M lo hi (messages v)) by (apply JG; auto).
    set (tr := if (v <? a)%nat then transpose (ep e) else ep e).
    assert (TR : erange M A (tr (z a))).
    { intros k Hk. unfold tr. destruct (v <? a)%nat; [unfold transpose|]; apply ep_range; auto. }
    split; [apply (out_usable M A lo hi HM HA ltac:(lia) ltac:(lia) ltac:(lia) _ _ _ Gv (vp_range ws tb M A HM HA HN s TI v Hv) TR)|].
    intros m Hm _. rewrite len_vec in Hm.
    intros u Hu. destruct (HJ u Hu) as (Zu & JU1 & JU2). split; [unfold set1; destruct (u =? v)%nat; auto|]. split.
    + intros K. apply not_in_app in K. destruct K as (K & _). destruct (Nat.eq_dec u v) as [->|NE]; [contradiction|]. rewrite set1_other by auto. now apply JU1.
    + intros K1 K2. destruct (Nat.eq_dec u v) as [->|NE]; [destruct (K2 a e); apply in_app_iff; right; now left|].
      rewrite set1_other by auto. apply JU2.
      * apply in_app_iff in K1. destruct K1 as [K1|[K1|[]]]; auto. discriminate.
      * intros p e' K3. apply (K2 p e'). apply in_app_iff. now left.
  - (* DOWN *)
    cbn [draws_usable]. apply (J_other pre _ messages feat meas z); [exact HJ|discriminate].
Qed.

Lemma prog_draws z : (forall v, (v < V)%nat -> (z v < M)%nat) ->
  draws_usable (J prog) (ffold (add_instr32_with cell dot (tb_types tb) (tb_ri tb) (nth n (tb_rows tb) []) V (V - 1) M (vp s) ep) prog (vp s, fp M s, mp tb M s, z)).
Proof.
  intros Hz. apply draws_fold.
  - intros v Hv. split; [auto|]. split; [auto|]. intros [].
  - intros pre i suf st E HJ. eapply J_step; eauto.
Qed.
End RUN.
End TABLES.
End ADD.
