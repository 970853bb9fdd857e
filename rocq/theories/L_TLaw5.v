(** The law of [add_row] in float32. *)
From Coq Require Import List Arith Bool ZArith Reals Lra Lia Permutation FunctionalExtensionality.
From Flocq Require Import Core Relative IEEE754.BinarySingleNaN.
From Verif Require Import Base L_Base Spec_Graph L_Graph Spec_Sum L_Sum M_Structure L_Pairing L_MakeTree L_Program L_ProgramValid Spec_Program L_Center L_Prop1 M_Rand L_Rand M_Util Spec_Ragged L_Ragged M_Array Spec_Joint M_Training Spec_MST Spec_Stats L_Stats L_Trainer Spec_Conditional L_Conditional L_Asg L_BP L_BPVec L_AddRow
  M_Float32 M_Train32 Spec_Float32 L_Float32 L_Sample32 L_Train32 L_Train32b L_Train32c L_Train32d L_Train32e L_Train32f Spec_Accuracy L_Acc1 L_Acc3 Spec_Law L_Law1 L_Law2 L_Law3 L_Law4 L_Law5 L_TLaw1 L_TLaw2 Spec_TrainLaw L_TLaw3 L_TLaw4.
Import ListNotations.
Open Scope R_scope.

Section ROW.
Variables (dot : list f32 -> list f32 -> f32) (ws : list nat) (tb : table) (M d : nat) (A c b : Z) (eta delta : R) (n : nat).
Hypothesis DOT : dot_ok dot.
Hypothesis DAC : dot_accurate (Z.of_nat M) eta dot.
Hypothesis HE : bp (-23) <= eta.
Hypothesis HDl : 0 <= delta.
Hypothesis TK : table_ok ws tb.
Hypothesis ND : nonneg_data tb.
Hypothesis HM : (1 <= M <= 128)%nat.
Hypothesis HA : (1 <= A <= 16)%Z.
Hypothesis Hc : (1 <= c)%Z.
Hypothesis HAc : ((A + 9) * c + A <= 69)%Z.
Hypothesis HN : ((Z.of_nat (num_rows tb) + 1) * c < 2 ^ A)%Z.
Hypothesis HW : Forall (fun w => (Z.of_nat w <= 2 ^ A)%Z) ws.
Hypothesis HC : forall n v, (n < num_rows tb)%nat -> (v < num_cols tb)%nat -> (block_sum ws (nth n (tb_rows tb) []) v <= c)%Z.
Hypothesis Hn : (n < num_rows tb)%nat.
Hypothesis Hb : (0 <= b)%Z.
Hypothesis HL : (3 * A + 2 * b + (A + 8) * Z.of_nat d + 12 <= 126)%Z.
Notation V := (num_cols tb).
Notation row := (nth n (tb_rows tb) []).
Variable t : trainer32.
Notation s := (t_state t).
Notation ep := (t_eprobs t).
Hypothesis TI : tinv ws tb M s.
Hypothesis NI : ~ In n (s_added s).
Hypothesis EN : forall e m1 m2, (e < V - 1)%nat -> (m1 < M)%nat -> (m2 < M)%nat -> near (ep e m1 m2) (s_edge s e m1 m2).
Hypothesis EA : forall e m1 m2, (e < V - 1)%nat -> (m1 < M)%nat -> (m2 < M)%nat -> agree delta (val (ep e m1 m2)) (IZR (s_edge s e m1 m2) + 1 / 2 / INR M).
Hypothesis DG : neighbours_at_most d s.
Hypothesis PB : forall v m, (v < V)%nat -> (m < M)%nat ->
  bp (- b) <= polya (block ws v) (fun r => IZR (s_feat s r m) + 1 / 2 / INR M) (fun r => Z.to_nat (datum tb n r)).
Notation rvp := (fun v m => IZR (s_vert s v m) + vert_prior).
Notation rfp := (fun q m => IZR (s_feat s q m) + feat_prior M).
Notation rmp := (fun v m => IZR (s_meas s v m) + meas_prior (tb_ri tb) M v).
Notation node := (nodew ws row rvp rfp rmp).
Notation total := (INR V * (IZR (2 * c * (12 + 2 * c) + 14) * eta + 4 * delta)).
Hypothesis SM : total <= 1 / 4.
Notation CW := (conditional_weight ws tb M s n).

Let E0 : 0 < eta.
Proof. pose proof eps_pos. lra. Qed.

Lemma EA' e m1 m2 : (e < V - 1)%nat -> (m1 < M)%nat -> (m2 < M)%nat -> agree delta (val (ep e m1 m2)) (s_eprobs s e m1 m2).
Proof. intros He H1 H2. rewrite (fs_eprobs _ _ _ _ (ti_fs _ _ _ _ TI)) by auto. now apply EA. Qed.

Lemma node_low v k : (v < V)%nat -> (k < M)%nat -> bp (- (b + 1)) <= node v k.
Proof.
  intros Hv Hk. destruct (vpx ws tb M A c HM HA Hc HAc HN s TI v k Hv Hk) as (_ & _ & (B & _)). cbv beta in B.
  assert (EC : cellw ws row rfp rmp v k = polya (block ws v) (fun r => IZR (s_feat s r k) + 1 / 2 / INR M) (fun r => Z.to_nat (datum tb n r))).
  { unfold cellw, polya, feat_prior. rewrite (meas_feat ws tb M TK (proj1 HM) s TI) by auto. reflexivity. }
  unfold nodew. rewrite EC. replace (- (b + 1))%Z with (-1 + - b)%Z by lia. rewrite bpow_plus. apply Rmult_le_compat; try apply bpow_ge_0; [exact B|now apply PB].
Qed.

Lemma Ec_eta : Ec c <= IZR (c * (12 + 2 * c)) * eta.
Proof. unfold Ec. apply Rmult_le_compat_l; [apply IZR_le; nia|exact HE]. Qed.

Section Rooted.
Variables (edges : list (nat * nat)) (r : nat) (par dep : nat -> nat).
Hypothesis EG : ts_grid (s_tree s) = make_tree edges.
Notation es := (grid_edges (make_tree edges)).
Hypothesis RT : rooted V es r par dep.
Variable np : list (nat * option nat * list nat).
Hypothesis BL : bfs_list V r par np.
Notation PSI := (opair edges par (epair edges rvp (s_eprobs s))).

Lemma terr_V : sumf (seq 0 V) (fun v => 2 * tmsg_err tb c eta delta r par v + 2 * (2 * bp (-23) + delta)) <= total.
Proof.
  unfold tmsg_err. rewrite (sumf_ext _ _ (fun v => (2 * Ec c + 2 * (2 * bp (-23) + delta)) + (2 * (5 * eta + delta)) * INR (length (kids V r par v)))) by (intros; ring).
  rewrite sumf_plus, sumf_const, seq_length, (sumf_scal (seq 0 V)). pose proof (kids_count V r par) as K. pose proof Ec_eta as Q. pose proof (pos_INR V) as PV.
  replace (2 * c * (12 + 2 * c) + 14)%Z with (2 * (c * (12 + 2 * c)) + 14)%Z by ring. rewrite plus_IZR, mult_IZR.
  apply Rle_trans with (INR V * (2 * Ec c + 2 * (2 * bp (-23) + delta)) + 2 * (5 * eta + delta) * INR V); [apply Rplus_le_compat_l, Rmult_le_compat_l; lra|].
  replace (INR V * (2 * Ec c + 2 * (2 * bp (-23) + delta)) + 2 * (5 * eta + delta) * INR V) with (INR V * (2 * Ec c + 2 * (2 * bp (-23) + delta) + 2 * (5 * eta + delta))) by ring.
  apply Rmult_le_compat_l; lra.
Qed.

Lemma tsmall v : (v < V)%nat -> tmsg_err tb c eta delta r par v <= 1 / 4.
Proof.
  intros Hv. eapply Rle_trans; [|exact SM]. eapply Rle_trans; [|apply terr_V].
  pose proof (Ec_pos tb M A c HM HA Hc) as EP. pose proof eps_pos as EPS.
  assert (P : forall u, In u (seq 0 V) -> 0 <= 2 * tmsg_err tb c eta delta r par u + 2 * (2 * bp (-23) + delta)).
  { intros u _. unfold tmsg_err. pose proof (pos_INR (length (kids V r par u))). nra. }
  apply Rle_trans with (2 * tmsg_err tb c eta delta r par v + 2 * (2 * bp (-23) + delta)).
  - assert (0 <= tmsg_err tb c eta delta r par v) by (unfold tmsg_err; pose proof (pos_INR (length (kids V r par v))); nra). lra.
  - apply (sumf_member_le (seq 0 V) (fun u => 2 * tmsg_err tb c eta delta r par u + 2 * (2 * bp (-23) + delta)) v P). apply in_seq. lia.
Qed.

Lemma tpsi_pos u m m' : (u < V)%nat -> u <> r -> (m < M)%nat -> (m' < M)%nat -> 0 < PSI u m m'.
Proof.
  intros Hu NR Hm Hm'. rewrite (psi_tE ws tb M n TK HM Hn s edges r par dep RT u m m' Hu NR).
  destruct (tE_bounds ws tb M d A c n HM HA Hc HAc HN Hn s TI edges EG r par dep RT u m m' Hu NR Hm Hm') as ((B & _) & _).
  pose proof (vpx0 ws tb M A c HM HA Hc HAc HN s TI (par u) m (par_lt _ _ _ _ _ RT u Hu) Hm). pose proof (vpx0 ws tb M A c HM HA Hc HAc HN s TI u m' Hu Hm').
  apply Rdiv_lt_0_compat; [lra|now apply Rmult_lt_0_compat].
Qed.

Section Msg.
Variables (mn feat meas : nat -> nat -> f32).
Hypothesis PS : tpassed ws tb M d A c b eta delta n s edges r par (map ev np) (mn, feat, meas).
Notation msg := (fun v k => val (mn v k)).
Notation LD := (A + 2 + b + (A + 8) * Z.of_nat d)%Z.

Lemma tin_np v : (v < V)%nat -> In v (map ev np).
Proof. intros Hv. change (In v (order np)). eapply Permutation_in; [apply Permutation_sym, (order_perm V r par np BL)|]. apply in_seq. lia. Qed.
Lemma tmn_good v k : (v < V)%nat -> (k < M)%nat -> fin32 (mn v k) = true /\ bp (- LD) <= val (mn v k) <= bp (A + 1).
Proof. intros Hv Hk. destruct PS as (P1 & _). destruct (P1 v (tin_np v Hv)) as ((G & _) & _). now apply G. Qed.
Lemma tmn_pos v k : (v < V)%nat -> (k < M)%nat -> 0 < val (mn v k).
Proof. intros Hv Hk. destruct (tmn_good v k Hv Hk) as (_ & B). pose proof (bp_pos (- LD)). lra. Qed.

Lemma tout_weight z v : (forall u, (u < V)%nat -> (z u < M)%nat) -> (v < V)%nat -> exists a, 0 < a /\
  forall k, (k < M)%nat -> agree (2 * bp (-23) + delta) (w3 s ep edges r par mn z v k) (a * ffw r par PSI msg z v k).
Proof.
  intros Hz Hv. pose proof eps_pos as EPS. unfold w3, ffw. destruct (Nat.eqb_spec v r) as [->|NR].
  - exists 1. split; [lra|]. intros k Hk. rewrite Rmult_1_l. apply agree_refl; [lra|]. left. now apply tmn_pos.
  - pose proof (par_lt _ _ _ _ _ RT v Hv) as Hp. set (j := z (par v)). assert (Hj : (j < M)%nat) by (apply Hz; exact Hp).
    pose proof (vpx0 ws tb M A c HM HA Hc HAc HN s TI (par v) j Hp Hj) as Pj. cbv beta in Pj.
    exists (rvp (par v) j). split; [exact Pj|]. intros k Hk.
    destruct (tmn_good v k Hv Hk) as (F1 & B1). destruct (t3_range ws tb M d A c n HM HA Hc HAc HN Hn s TI ep EN edges r par dep RT v j k Hv NR Hj Hk) as (F2 & B2).
    pose proof (t3_agree tb M d A delta n HM Hn s ep EA' edges r par dep RT v j k Hv NR Hj Hk) as TG.
    destruct (vpx ws tb M A c HM HA Hc HAc HN s TI v k Hv Hk) as (X1 & X2 & X3). pose proof (vpx0 ws tb M A c HM HA Hc HAc HN s TI v k Hv Hk) as X4. cbv beta in X2, X3, X4.
    set (x := mn v k) in *. set (y := t3 ep edges par v j k) in *. pose proof (bp_pos (- LD)) as P1. pose proof (bp_pos (-8)) as P2.
    assert (PR : bp (- LD + -8) <= val x * val y <= bp (A + 1 + A)).
    { rewrite (bpow_plus radix2 (- LD)), (bpow_plus radix2 (A + 1)). split; apply Rmult_le_compat; lra. }
    destruct (fmul_agree x y F1 F2) as (m1 & m2).
    { split; [eapply Rle_trans; [|apply PR]; apply bpow_le; nia|eapply Rle_trans; [apply PR|]; apply bpow_le; lia]. }
    destruct (fmul_bounds x y (bp (- LD + -8)) (bp (A + 1 + A)) F1 F2) as (_ & m3); auto; try (apply fmtb; nia); try (apply bp128; lia); try apply bpow_ge_0.
    assert (QB : bp (- LD + -8 - A) <= val (fmul x y) / val (vp s v k) <= bp (A + 1 + A + 1)).
    { rewrite X2. split.
      - apply div_ge; [exact X4|]. apply Rle_trans with (bp (- LD + -8 - A) * bp A); [apply Rmult_le_compat_l; [apply bpow_ge_0|apply X3]|].
        rewrite <- bpow_plus. replace (- LD + -8 - A + A)%Z with (- LD + -8)%Z by lia. apply m3.
      - apply div_le; [exact X4|]. apply Rle_trans with (bp (A + 1 + A + 1) * bp (-1)).
        + rewrite <- bpow_plus. replace (A + 1 + A + 1 + -1)%Z with (A + 1 + A)%Z by lia. apply m3.
        + apply Rmult_le_compat_l; [apply bpow_ge_0|apply X3]. }
    destruct (fdiv_agree (fmul x y) (vp s v k) m1) as (_ & Y3); [rewrite X2; exact X4| |].
    { split; [eapply Rle_trans; [|apply QB]; apply bpow_le; nia|eapply Rle_trans; [apply QB|]; apply bpow_le; lia]. }
    rewrite X2 in Y3. rewrite (psi_tE ws tb M n TK HM Hn s edges r par dep RT v j k Hv NR). cbv beta.
    replace ((IZR (s_vert s (par v) j) + vert_prior) * (tE s edges par v j k / ((IZR (s_vert s (par v) j) + vert_prior) * (IZR (s_vert s v k) + vert_prior)) * val x))
      with (val x * tE s edges par v j k / (IZR (s_vert s v k) + vert_prior)) by (field; lra).
    apply agree_weak with (bp (-23) + (bp (-23) + (0 + delta) + 0)); [lra|]. eapply agree_trans; [exact Y3|].
    apply agree_div; [|apply agree_refl; lra|exact X4]. eapply agree_trans; [exact m2|]. apply agree_mul; [apply agree_refl; lra|exact TG].
Qed.

Lemma tkap_all : exists kap : nat -> R, (forall v, (v < V)%nat -> 0 < kap v) /\ forall v k, (v < V)%nat -> (k < M)%nat ->
  agree (tmsg_err tb c eta delta r par v) (val (mn v k)) (kap v * (node v k * prodf (kids V r par v) (fun u => up M PSI msg u k))).
Proof.
  destruct PS as (P1 & _).
  assert (G : forall q, (q <= V)%nat -> exists kap : nat -> R, forall v, (v < q)%nat -> 0 < kap v /\ forall k, (k < M)%nat ->
    agree (tmsg_err tb c eta delta r par v) (val (mn v k)) (kap v * (node v k * prodf (kids V r par v) (fun u => up M PSI msg u k)))).
  { induction q as [|i IH]; intros Hi; [exists (fun _ => 0); intros; lia|].
    destruct (IH ltac:(lia)) as (kap & K). destruct (P1 i (tin_np i ltac:(lia))) as (_ & kp & Pk & G).
    exists (set1 kap i kp). intros v Hv. destruct (Nat.eq_dec v i) as [->|NE].
    - rewrite set1_same. split; [exact Pk|]. exact G.
    - rewrite set1_other by auto. apply K. lia. }
  destruct (G V (le_n V)) as (kap & K). exists kap. split; [intros v Hv; now apply K|intros v k Hv Hk; now apply K].
Qed.
End Msg.
End Rooted.

Lemma add_row32_law z : In z (vectors V M) ->
  agree total (prob (ideal (add_row32 dot tb M t n)) (drawn tb n z)) (CW z / sumf (vectors V M) CW).
Proof.
  intros Iz. pose proof TI as TI0. destruct TI0 as [FS SO AL (edges & T & ET)]. pose proof (fs_prog _ _ _ _ FS) as FP. rewrite ET in FP. cbn [ts_grid] in FP.
  assert (EG : ts_grid (s_tree s) = make_tree edges) by (rewrite ET; reflexivity).
  destruct (prog_shape V edges None (s_prog s) T ltac:(discriminate) FP) as (r & par & dep & np & RT & BL & EP).
  unfold add_row32, add_row32_with, prob. destruct (set_mem n (s_added s)) eqn:EM.
  { apply set_mem_In in EM. contradiction. }
  rewrite (L_Base.get_Ok _ IndexError (tb_rows tb) n []) by exact Hn. cbn [flift fbind].
  fold (vp s) (fp M s) (mp tb M s). rewrite EP. unfold prog_of.
  destruct (tinward dot ws tb M d A c b eta delta n DOT DAC HE HDl TK ND HM HA Hc HAc HN HW HC Hn Hb HL s TI ep EN EA' node_low edges EG r par dep RT DG (s_asg s n)
    (tsmall r par) np BL) as (mn & feat & meas & E & PS).
  rewrite (ffold_app _ _ _ _ _ E). rewrite ideal_bind, ideal_fold.
  set (kk := fun asg : nat -> nat => rbind (lift (update_stats V M 1 (tb_types tb) (tb_ri tb) row (ts_grid (s_tree s)) asg
     (TSt (s_tree s) (s_prog s) (set_add n (s_added s)) (set1 (s_asg s) n asg) (s_vert s) (s_edge s) (s_feat s) (s_meas s) (s_eprobs s))))
     (fun s' => Ret (T32 s' (eprobs_update32 1 (ts_grid (s_tree s')) asg ep), @None exn))).
  match goal with |- agree _ (expect (rbind ?p ?f) ?G) _ => replace f with (fun st : (nat -> nat -> f32) * (nat -> nat -> f32) * (nat -> nat -> f32) * (nat -> nat) => kk (snd st)) end.
  2:{ apply functional_extensionality. intros [[[a1 a2] a3] asg]. cbn [snd]. unfold kk. cbv zeta. cbn [s_tree]. rewrite ideal_bind, ideal_lift, EP. reflexivity. }
  rewrite (rsim_expect _ _ _ (troot_out_pass dot tb M row s ep HM edges r par dep RT np BL mn kk feat meas (s_asg s n) (AL n))).
  destruct (tkap_all edges r par np BL mn feat meas PS) as (kap & KP & KA).
  set (H := fun zz : list nat => if list_eq_dec Nat.eq_dec zz z then 1 else 0).
  assert (WE : forall zz, In zz (vectors V M) -> tree_weight V (grid_edges (make_tree edges)) node (epair edges rvp (s_eprobs s)) zz = CW zz).
  { intros zz I. rewrite <- (weights_eq ws tb M TK (proj1 HM) s TI n Hn zz I). rewrite EG. reflexivity. }
  eapply agree_weak; [apply (terr_V r par)|].
  replace (CW z / sumf (vectors V M) CW) with
    (sumf (vectors V M) (fun zz => tree_weight V (grid_edges (make_tree edges)) node (epair edges rvp (s_eprobs s)) zz /
       sumf (vectors V M) (tree_weight V (grid_edges (make_tree edges)) node (epair edges rvp (s_eprobs s))) * H zz)).
  2:{ rewrite (L_Conditional.sumf_single (vectors V M) _ z (vectors_NoDup M V) Iz).
      - unfold H. destruct (list_eq_dec Nat.eq_dec z z) as [_|X]; [|now contradiction X]. rewrite Rmult_1_r, WE by auto. f_equal. now apply sumf_ext.
      - intros y _ NE. unfold H. destruct (list_eq_dec Nat.eq_dec y z); [contradiction|]. ring. }
  apply (draws_near V M edges r par dep RT np BL ltac:(lia) node (epair edges rvp (s_eprobs s)) (fun v k => val (mn v k))) with (kap := kap).
  - intros v k Hv Hk. pose proof (node_low v k Hv Hk). pose proof (bp_pos (- (b + 1))). lra.
  - apply (tpsi_pos edges r par dep EG RT).
  - intros v k Hv Hk. exact (tmn_pos edges r par np BL mn feat meas PS v k Hv Hk).
  - exact KP.
  - exact KA.
  - exact (AL n).
  - exact (w3_looks_back tb s ep edges r par np BL mn).
  - intros z' v Hz Hv. exact (tout_weight edges r par dep RT np BL mn feat meas PS z' v Hz Hv).
  - intros z' F. assert (Hz : forall v, (v < V)%nat -> (z' v < M)%nat) by exact (fills_classes V M ltac:(lia) (order np) (order_perm V r par np BL) _ z' F).
    destruct (stats_tinv ws tb M TK ltac:(lia) s n z' TI Hn NI Hz) as (s' & EU & TI' & E1 & E2 & E3).
    unfold kk. rewrite EU. cbn [lift rbind expect]. unfold drawn, H, classes_of. cbn [fst t_state]. rewrite E3, set1_same.
    destruct (list_eq_dec Nat.eq_dec (map z' (seq 0 V)) z); reflexivity.
  - intros l. unfold H. destruct (list_eq_dec Nat.eq_dec l z); lra.
Qed.
End ROW.
