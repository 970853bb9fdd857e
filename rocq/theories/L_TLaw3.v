(** The float32 messages of [add_row]: the inward pass. *)
From Coq Require Import List Arith Bool ZArith Reals Lra Lia Permutation.
From Flocq Require Import Core Relative IEEE754.BinarySingleNaN.
From Verif Require Import Base L_Base Spec_Graph L_Graph Spec_Sum L_Sum M_Structure L_Pairing L_MakeTree L_Program L_ProgramValid Spec_Program L_Center L_Prop1 M_Util Spec_Ragged L_Ragged M_Array M_Training Spec_MST Spec_Stats L_Stats L_Trainer Spec_Conditional L_Asg L_BP L_BPVec L_AddRow
  M_Float32 M_Train32 Spec_Float32 L_Float32 L_Sample32 L_Train32 L_Train32b L_Train32c L_Train32d L_Train32e Spec_Accuracy L_Acc1 L_Acc3 L_Law1 L_Law2 L_TLaw1 L_TLaw2 Spec_TrainLaw.
Import ListNotations.
Open Scope R_scope.
Notation val2 mn := (fun u k => val (mn u k : f32)).

Definition resc (M : nat) (message : nat -> f32) : nat -> f32 :=
  let top := match vec M message with [] => fzero | x :: l => fmax x l end in fun m => fdiv (message m) top.

Lemma resc_eq M f k : (1 <= M <= 128)%nat -> (k < M)%nat -> resc M f k = rescaled M f k.
Proof. intros HM Hk. unfold resc, rescaled. now rewrite nth_vec_lt. Qed.

Lemma within2 e x y : e <= 1 / 4 -> agree e x y -> y / 2 <= x <= 2 * y.
Proof.
  intros He (P & L & U). assert (X : exp e <= 2) by (apply Rle_trans with (exp (1 / 2)); [apply exp_le; lra|exact exp_half]).
  assert (Y : / 2 <= exp (- e)) by (rewrite exp_Ropp; apply Rinv_le; [apply exp_pos|exact X]). split; [|nra]. nra.
Qed.

Section TSTEP.
Variables (dot : list f32 -> list f32 -> f32) (ws : list nat) (tb : table) (M d : nat) (A c b : Z) (eta delta : R) (n : nat).
Hypothesis DOT : dot_ok dot.
Hypothesis DAC : dot_accurate (Z.of_nat M) eta dot.
Hypothesis HE : bp (-23) <= eta.
Hypothesis HDl : 0 <= delta.
Hypothesis TK : table_ok ws tb.
Hypothesis ND : nonneg_data tb.
Hypothesis HM : (1 <= M <= 128)%nat.
Hypothesis HA : (1 <= A <= 16)%Z.
Hypothesis Hc : (1 <= c)%Z.
Hypothesis HAc : ((A + 9) * c + A <= 69)%Z.
Hypothesis HN : ((Z.of_nat (num_rows tb) + 1) * c < 2 ^ A)%Z.
Hypothesis HW : Forall (fun w => (Z.of_nat w <= 2 ^ A)%Z) ws.
Hypothesis HC : forall n v, (n < num_rows tb)%nat -> (v < num_cols tb)%nat -> (block_sum ws (nth n (tb_rows tb) []) v <= c)%Z.
Hypothesis Hn : (n < num_rows tb)%nat.
Hypothesis Hb : (0 <= b)%Z.
Hypothesis HL : (3 * A + 2 * b + (A + 8) * Z.of_nat d + 12 <= 126)%Z.
Notation V := (num_cols tb).
Notation row := (nth n (tb_rows tb) []).
Variable s : tstate.
Hypothesis TI : tinv ws tb M s.
Variable ep : nat -> nat -> nat -> f32.
Hypothesis EN : forall e m1 m2, (e < V - 1)%nat -> (m1 < M)%nat -> (m2 < M)%nat -> near (ep e m1 m2) (s_edge s e m1 m2).
Hypothesis EA : forall e m1 m2, (e < V - 1)%nat -> (m1 < M)%nat -> (m2 < M)%nat -> agree delta (val (ep e m1 m2)) (s_eprobs s e m1 m2).
Notation rvp := (fun v m => IZR (s_vert s v m) + vert_prior).
Notation rfp := (fun q m => IZR (s_feat s q m) + feat_prior M).
Notation rmp := (fun v m => IZR (s_meas s v m) + meas_prior (tb_ri tb) M v).
Notation node := (nodew ws row rvp rfp rmp).
Hypothesis NB : forall v k, (v < V)%nat -> (k < M)%nat -> bp (- (b + 1)) <= node v k.
Variable edges : list (nat * nat).
Hypothesis EG : ts_grid (s_tree s) = make_tree edges.
Notation es := (grid_edges (make_tree edges)).
Variables (r : nat) (par dep : nat -> nat).
Hypothesis RT : rooted V es r par dep.
Notation PSI := (opair edges par (epair edges rvp (s_eprobs s))).
Notation Ln := (b + 2)%Z.
Notation H := (A + 1)%Z.
Notation Lj j := (A + 2 + b + (A + 8) * j)%Z.

Let E0 : 0 < eta.
Proof. pose proof eps_pos. lra. Qed.
Let HN1 : ((Z.of_nat (num_rows tb) + 1) * 1 < 2 ^ A)%Z.
Proof. nia. Qed.

Definition t3 (v : nat) : nat -> nat -> f32 := if (v <? par v)%nat then transpose (ep (eidx edges par v)) else ep (eidx edges par v).
Definition tE (v : nat) : nat -> nat -> R := if (v <? par v)%nat then transpose (s_eprobs s (eidx edges par v)) else s_eprobs s (eidx edges par v).

Lemma t3_range v k j : (v < V)%nat -> v <> r -> (k < M)%nat -> (j < M)%nat -> fin32 (t3 v k j) = true /\ bp (-8) <= val (t3 v k j) <= bp A.
Proof.
  intros Hv NR Hk Hj. pose proof (eidx_lt V edges r par dep RT M ltac:(lia) v Hv NR) as He. pose proof (ep_range ws tb M A HM HA HN1 s TI ep n EN) as ER.
  unfold t3. destruct (v <? par v)%nat; [unfold transpose|]; apply ER; auto.
Qed.
Lemma t3_agree v k j : (v < V)%nat -> v <> r -> (k < M)%nat -> (j < M)%nat -> agree delta (val (t3 v k j)) (tE v k j).
Proof.
  intros Hv NR Hk Hj. pose proof (eidx_lt V edges r par dep RT M ltac:(lia) v Hv NR) as He.
  unfold t3, tE. destruct (v <? par v)%nat; [unfold transpose|]; apply EA; auto.
Qed.
Lemma vpx v m : (v < V)%nat -> (m < M)%nat -> fin32 (vp s v m) = true /\ val (vp s v m) = rvp v m /\ bp (-1) <= rvp v m <= bp A.
Proof. apply (vp_exact ws tb M A c HM HA Hc HAc HN s TI). Qed.
Lemma vpx0 v m : (v < V)%nat -> (m < M)%nat -> 0 < rvp v m.
Proof. intros Hv Hm. destruct (vpx v m Hv Hm) as (_ & _ & B). pose proof (bp_pos (-1)). cbv beta in *. lra. Qed.

Lemma total_le l f g : (forall x, In x l -> (f x <= g x)%Z) -> (total l f <= total l g)%Z.
Proof. induction l as [|a l IH]; intros HH; [cbn; lia|]. rewrite !total_cons. pose proof (HH a (or_introl eq_refl)). specialize (IH ltac:(intros; apply HH; now right)). lia. Qed.

(** The pairs of classes on an edge are among the rows of either class. *)
Lemma edge_vert e v1 v2 m1 m2 : nth_error es e = Some (v1, v2) -> (e < V - 1)%nat -> (v1 < V)%nat -> (v2 < V)%nat -> (m1 < M)%nat -> (m2 < M)%nat ->
  1 / 256 <= s_eprobs s e m1 m2 /\ s_eprobs s e m1 m2 <= rvp v1 m1 /\ s_eprobs s e m1 m2 <= rvp v2 m2.
Proof.
  intros E He H1 H2 Hm1 Hm2. pose proof (ti_fs _ _ _ _ TI) as FS. rewrite (fs_eprobs _ _ _ _ FS) by auto. destruct (prior64_agree M HM) as (_ & P).
  assert (E' : nth_error (ts_get_edges (s_tree s)) e = Some (v1, v2)) by (unfold ts_get_edges; rewrite EG; exact E).
  pose proof (fs_edge _ _ _ _ FS e v1 v2 m1 m2 E' Hm1 Hm2) as X. pose proof (fs_vert _ _ _ _ FS v1 m1 H1 Hm1) as X1. pose proof (fs_vert _ _ _ _ FS v2 m2 H2 Hm2) as X2.
  assert (L0 : (0 <= s_edge s e m1 m2)%Z) by (rewrite X; apply total_nonneg; intros; apply (one_if_nonneg M (proj1 HM))).
  assert (L1 : (s_edge s e m1 m2 <= s_vert s v1 m1)%Z).
  { rewrite X, X1. apply total_le. intros x _. destruct (s_asg s x v1 =? m1)%nat, (s_asg s x v2 =? m2)%nat; cbn; lia. }
  assert (L2 : (s_edge s e m1 m2 <= s_vert s v2 m2)%Z).
  { rewrite X, X2. apply total_le. intros x _. destruct (s_asg s x v1 =? m1)%nat, (s_asg s x v2 =? m2)%nat; cbn; lia. }
  apply IZR_le in L0, L1, L2. unfold vert_prior. lra.
Qed.

Lemma tE_bounds v k j : (v < V)%nat -> v <> r -> (k < M)%nat -> (j < M)%nat -> 1 / 256 <= tE v k j <= rvp (par v) k /\ tE v k j <= bp A.
Proof.
  intros Hv NR Hk Hj. pose proof (eidx_lt V edges r par dep RT M ltac:(lia) v Hv NR) as He. destruct (eidx_spec _ _ _ _ _ RT v Hv NR) as (E & _).
  pose proof (par_lt _ _ _ _ _ RT v Hv) as Hp. pose proof (par_neq _ _ _ _ _ RT v Hv NR). destruct (vpx (par v) k Hp Hk) as (_ & _ & B).
  assert (X : 1 / 256 <= tE v k j <= rvp (par v) k).
  { unfold tE, norm in *. cbn [fst snd] in E. destruct (Nat.ltb_spec v (par v)).
    - rewrite Nat.min_l, Nat.max_r in E by lia. destruct (edge_vert _ _ _ j k E He Hv Hp Hj Hk) as (Q1 & Q2 & Q3). unfold transpose. cbv beta in *. lra.
    - rewrite Nat.min_r, Nat.max_l in E by lia. destruct (edge_vert _ _ _ k j E He Hp Hv Hk Hj) as (Q1 & Q2 & Q3). cbv beta in *. lra. }
  split; [exact X|]. cbv beta in *. lra.
Qed.

Lemma psi_tE v k j : (v < V)%nat -> v <> r -> PSI v k j = tE v k j / (rvp (par v) k * rvp v j).
Proof.
  intros Hv NR. rewrite (psi_eq ws tb M (proj1 HM) edges r par dep RT row (row_len ws tb TK n Hn) rvp (s_eprobs s) v k j Hv NR). unfold tE, transpose. destruct (v <? par v)%nat; reflexivity.
Qed.

Lemma up_tE g v k : (v < V)%nat -> v <> r -> (k < M)%nat -> up M PSI g v k = sumf (seq 0 M) (fun j => tE v k j * (g v j / rvp v j)) / rvp (par v) k.
Proof.
  intros Hv NR Hk. unfold up. match goal with |- _ = ?S / ?d => change (S / d) with (S * / d) end. rewrite <- sumf_scal_r. apply sumf_ext. intros j I. apply in_seq in I. rewrite psi_tE by auto.
  pose proof (vpx0 (par v) k (par_lt _ _ _ _ _ RT v Hv) Hk). pose proof (vpx0 v j Hv ltac:(lia)). cbv beta in *. field. lra.
Qed.

Lemma up_ranged v g : (v < V)%nat -> v <> r -> (forall j, (j < M)%nat -> 0 < g v j) -> ranged M (A + 8) (fun k => up M PSI g v k).
Proof.
  intros Hv NR G. pose proof (par_lt _ _ _ _ _ RT v Hv) as Hp.
  set (w := fun j => g v j / rvp v j). assert (W0 : forall j, (j < M)%nat -> 0 < w j) by (intros j Hj; apply Rdiv_lt_0_compat; [now apply G|now apply vpx0]).
  set (T := sumf (seq 0 M) w). assert (T0 : 0 < T).
  { apply sumf_pos; [intros j I; apply in_seq in I; left; apply W0; lia|]. exists 0%nat. split; [apply in_seq; lia|apply W0; lia]. }
  assert (B : forall k, (k < M)%nat -> bp (- (A + 8)) * T <= up M PSI g v k <= T).
  { intros k Hk. rewrite up_tE by auto. fold w. pose proof (vpx0 (par v) k Hp Hk) as P. destruct (vpx (par v) k Hp Hk) as (_ & _ & (_ & PU)). split.
    - apply div_ge; [exact P|]. apply Rle_trans with (1 / 256 * T).
      + replace (- (A + 8))%Z with (-8 + - A)%Z by lia. rewrite bpow_plus. replace (bp (-8)) with (1 / 256) by (cbn; lra). pose proof (bp_pos (- A)).
        assert (bp (- A) * rvp (par v) k <= 1). { replace 1 with (bp (- A) * bp A) by (rewrite <- bpow_plus; replace (- A + A)%Z with 0%Z by lia; reflexivity). apply Rmult_le_compat_l; [lra|exact PU]. }
        cbv beta in *. nra.
      + unfold T. rewrite <- sumf_scal. apply sumf_le. intros j I. apply in_seq in I. pose proof (W0 j ltac:(lia)) as Wj. pose proof (tE_bounds v k j Hv NR Hk ltac:(lia)) as (Q & _).
        apply Rmult_le_compat_r; [left; exact Wj|]. apply Q.
    - apply div_le; [exact P|]. unfold T. rewrite <- sumf_scal_r. apply sumf_le. intros j I. apply in_seq in I. pose proof (W0 j ltac:(lia)) as Wj.
      pose proof (tE_bounds v k j Hv NR Hk ltac:(lia)) as (Q & _). rewrite Rmult_comm. apply Rmult_le_compat_l; [left; exact Wj|apply Q]. }
  pose proof (bp_pos (- (A + 8))) as PB. split; [intros k Hk; destruct (B k Hk); nra|].
  intros k j Hk Hj. destruct (B k Hk) as (B1 & _). destruct (B j Hj) as (_ & B2). eapply Rle_trans; [|exact B1]. apply Rmult_le_compat_l; [lra|exact B2].
Qed.

(** ** A child's message multiplied into its parent's *)
Lemma in_one v (f : nat -> f32) (msg : nat -> nat -> f32) fx kap ef Df Bf Bg : (v < V)%nat -> v <> r -> 0 < kap ->
  (forall k, (k < M)%nat -> fin32 (f k) = true /\ bp (- Bf) <= val (f k) <= bp H /\ agree ef (val (f k)) (kap * fx k)) ->
  (forall k, (k < M)%nat -> fin32 (msg v k) = true /\ bp (- Bg) <= val (msg v k) <= bp H) -> (exists k, (k < M)%nat /\ bp (- Ln) <= val (msg v k)) ->
  ranged M Df fx -> (Bf + Ln + 2 * A + 8 <= 126)%Z -> (Bg + A + 8 <= 126)%Z -> (0 <= Bf)%Z -> (0 <= Bg)%Z -> (0 <= Df)%Z -> (Df + (A + 8) + 1 <= 126)%Z -> ef + 4 * eta + delta <= 1 / 4 ->
  let message := fun k => fdiv (fmul (f k) (dot (vec M (t3 v k)) (vec M (fun m2 => fdiv (msg v m2) (vp s v m2))))) (vp s (par v) k) in
  let fx' := fun k => fx k * up M PSI (val2 msg) v k in
  ranged M (Df + (A + 8)) fx' /\
  exists kap', 0 < kap' /\ (exists k, (k < M)%nat /\ 1 <= val (resc M message k)) /\
    forall k, (k < M)%nat -> fin32 (resc M message k) = true /\ bp (- (Df + (A + 8) + 1)) <= val (resc M message k) <= 1 /\
      agree (ef + 5 * eta + delta) (val (resc M message k)) (kap' * fx' k).
Proof.
  intros Hv NR Pk F G (j0 & Hj0 & G2) RF HB1 HB2 HB3 HB4 HD0 HD Hsm message fx'. set (g := msg v) in *. pose proof (par_lt _ _ _ _ _ RT v Hv) as Hp.
  assert (GP : forall j, (j < M)%nat -> 0 < val (g j)) by (intros j Hj; destruct (G j Hj) as (_ & B & _); pose proof (bp_pos (- Bg)); lra).
  pose proof (up_ranged v (val2 msg) Hv NR GP) as DR.
  assert (RM : ranged M (Df + (A + 8)) fx') by (apply ranged_mul; auto). split; [exact RM|].
  set (below := fun m2 => fdiv (g m2) (vp s v m2)). pose proof (bp_pos (-1)) as P1.
  assert (BE : forall j, (j < M)%nat -> fin32 (below j) = true /\ bp (- Bg - A) <= val (below j) <= bp (H + 1) /\
    agree (bp (-23)) (val (below j)) (val (g j) / rvp v j)).
  { intros j Hj. destruct (G j Hj) as (G1 & G3). destruct (vpx v j Hv Hj) as (X1 & X2 & X3). pose proof (vpx0 v j Hv Hj) as X4. cbv beta in X2, X3, X4.
    assert (QB : bp (- Bg - A) <= val (g j) / val (vp s v j) <= bp (H + 1)).
    { rewrite X2. split.
      - apply div_ge; [exact X4|]. apply Rle_trans with (bp (- Bg - A) * bp A); [apply Rmult_le_compat_l; [apply bpow_ge_0|apply X3]|].
        rewrite <- bpow_plus. replace (- Bg - A + A)%Z with (- Bg)%Z by lia. apply G3.
      - apply div_le; [exact X4|]. apply Rle_trans with (bp (H + 1) * bp (-1)); [rewrite <- bpow_plus; replace (H + 1 + -1)%Z with H by lia; apply G3|].
        apply Rmult_le_compat_l; [apply bpow_ge_0|apply X3]. }
    destruct (fdiv_bounds (g j) (vp s v j) (bp (- Bg - A)) (bp (H + 1)) G1) as (Y1 & Y2); auto; try (apply fmtb; lia); try (apply bp128; lia); try apply bpow_ge_0; [rewrite X2; exact X4|].
    destruct (fdiv_agree (g j) (vp s v j) G1) as (_ & Y3); [rewrite X2; exact X4| |].
    { split; [eapply Rle_trans; [|apply QB]; apply bpow_le; lia|eapply Rle_trans; [apply QB|]; apply bpow_le; lia]. }
    rewrite X2 in Y3. auto. }
  assert (BJ : bp (- Ln - A) <= val (below j0)).
  { destruct (G j0 Hj0) as (G1 & G3). destruct (vpx v j0 Hv Hj0) as (X1 & X2 & X3). pose proof (vpx0 v j0 Hv Hj0) as X4. cbv beta in X2, X3, X4.
    destruct (fdiv_bounds (g j0) (vp s v j0) (bp (- Ln - A)) (bp (H + 1)) G1) as (Y1 & Y2); auto; try (apply fmtb; lia); try (apply bp128; lia); try apply bpow_ge_0; [rewrite X2; exact X4| |apply Y2].
    rewrite X2. split.
    - apply div_ge; [exact X4|]. apply Rle_trans with (bp (- Ln - A) * bp A); [apply Rmult_le_compat_l; [apply bpow_ge_0|apply X3]|].
      rewrite <- bpow_plus. replace (- Ln - A + A)%Z with (- Ln)%Z by lia. exact G2.
    - apply div_le; [exact X4|]. apply Rle_trans with (bp (H + 1) * bp (-1)); [rewrite <- bpow_plus; replace (H + 1 + -1)%Z with H by lia; apply G3|].
      apply Rmult_le_compat_l; [apply bpow_ge_0|apply X3]. }
  set (trans := t3 v).
  assert (TR : forall k j, (k < M)%nat -> (j < M)%nat -> fin32 (trans k j) = true /\ bp (-8) <= val (trans k j) <= bp A) by (intros; now apply t3_range).
  set (D := fun k => dot (vec M (trans k)) (vec M below)).
  assert (DD : forall k, (k < M)%nat -> fin32 (D k) = true /\ 0 <= val (D k) <= bp (A + (H + 1) + 7) /\ bp (-8 + (- Ln - A)) <= val (D k) /\
    agree (2 * eta + delta) (val (D k)) (sumf (seq 0 M) (fun j => tE v k j * (val (g j) / rvp v j)))).
  { intros k Hk.
    assert (FT : Forall (fun z => fin32 z = true /\ 0 <= val z <= bp A) (vec M (trans k))).
    { apply Forall_forall. intros x I. apply vec_In in I; [|exact HM]. destruct I as (j & Hj & ->). destruct (TR k j Hk Hj) as (T1 & T2). split; [exact T1|].
      pose proof (bp_pos (-8)). lra. }
    assert (FG : Forall (fun z => fin32 z = true /\ 0 <= val z <= bp (H + 1)) (vec M below)).
    { apply Forall_forall. intros x I. apply vec_In in I; [|exact HM]. destruct I as (j & Hj & ->). destruct (BE j Hj) as (a1 & a2 & _). pose proof (bp_pos (- Bg - A)). split; [exact a1|]. lra. }
    assert (CO : forall h : f32 * f32 -> R, sumf (combine (vec M (trans k)) (vec M below)) h = sumf (seq 0 M) (fun j => h (trans k j, below j))).
    { intros h. unfold vec. generalize (seq 0 M). intros l. induction l as [|j l IH]; [reflexivity|]. cbn [map combine]. rewrite !sumf_cons, IH. reflexivity. }
    destruct (DOT (vec M (trans k)) (vec M below) A (H + 1)%Z 7%Z) as (D1 & D2 & D3); auto; try lia.
    - now rewrite !len_vec.
    - rewrite len_vec. change (2 ^ 7)%Z with 128%Z. lia.
    - split; [exact D1|]. split; [exact D2|]. split.
      + apply (D3 j0); [now rewrite len_vec|lia| |].
        * rewrite nth_vec_lt by auto. apply (TR k j0 Hk Hj0).
        * rewrite nth_vec_lt by auto. exact BJ.
      + specialize (DAC (vec M (trans k)) (vec M below) ltac:(now rewrite !len_vec) ltac:(rewrite len_vec; lia)).
        assert (AD' : agree eta (val (D k)) (sumf (combine (vec M (trans k)) (vec M below)) (fun p => val (fst p) * val (snd p)))).
        { apply DAC.
          - eapply Forall_impl; [|exact FT]. cbn beta. intros z (? & ?). split; [auto|lra].
          - eapply Forall_impl; [|exact FG]. cbn beta. intros z (? & ?). split; [auto|lra].
          - apply Forall_forall. intros [x y] I. unfold vec in I.
            assert (X : exists j, (j < M)%nat /\ x = trans k j /\ y = below j).
            { assert (Z : forall l, In (x, y) (combine (map (trans k) l) (map below l)) -> exists j, In j l /\ x = trans k j /\ y = below j).
              { clear. induction l as [|j l IH]; intros I; [destruct I|]. cbn [map combine] in I. destruct I as [E|I]; [injection E as <- <-; exists j; split; [now left|auto]|].
                destruct (IH I) as (i & Ii & E). exists i. split; [now right|exact E]. }
              destruct (Z _ I) as (j & Ij & E). apply in_seq in Ij. exists j. split; [lia|exact E]. }
            destruct X as (j & Hj & -> & ->). cbn [fst snd]. apply Rle_trans with (bp (-8 + (- Bg - A))); [apply bpow_le; lia|]. rewrite bpow_plus.
            apply Rmult_le_compat; try apply bpow_ge_0; [apply (TR k j Hk Hj)|apply (BE j Hj)].
          - rewrite CO. cbn [fst snd]. apply Rle_trans with (sumf (seq 0 M) (fun _ => bp (A + (H + 1)))).
            + apply sumf_le. intros j I. apply in_seq in I. destruct (TR k j Hk ltac:(lia)) as (_ & T2). destruct (BE j ltac:(lia)) as (_ & T3 & _). pose proof (bp_pos (-8)). pose proof (bp_pos (- Bg - A)).
              rewrite bpow_plus. apply Rmult_le_compat; lra.
            + rewrite sumf_const, seq_length. apply Rle_trans with (bp 7 * bp (A + (H + 1))); [apply Rmult_le_compat_r; [apply bpow_ge_0|]; rewrite INR_IZR_INZ; change (bp 7) with (IZR 128); apply IZR_le; lia|].
              rewrite <- bpow_plus. apply bpow_le. lia. }
        rewrite CO in AD'. cbn [fst snd] in AD'. replace (2 * eta + delta) with (eta + (delta + eta)) by ring. eapply agree_trans; [exact AD'|].
        apply agree_sum. intros j I. apply in_seq in I. apply agree_mul; [apply t3_agree; auto; lia|].
        eapply agree_weak; [exact HE|]. apply (BE j). lia. }
  assert (PP : forall k, (k < M)%nat -> fin32 (message k) = true /\ 0 < val (message k) <= bp (H + (A + (H + 1) + 7) + 1) /\ agree (ef + 4 * eta + delta) (val (message k)) (kap * fx' k)).
  { intros k Hk. destruct (F k Hk) as (f1 & f4 & f3). destruct (DD k Hk) as (d1 & d2 & d3 & d4).
    destruct (vpx (par v) k Hp Hk) as (X1 & X2 & X3). pose proof (vpx0 (par v) k Hp Hk) as X4. cbv beta in X2, X3, X4.
    pose proof (bp_pos (- Bf)) as PB. pose proof (bp_pos (-8 + (- Ln - A))) as PL.
    assert (PR : bp (- Bf + (-8 + (- Ln - A))) <= val (f k) * val (D k) <= bp (H + (A + (H + 1) + 7))).
    { rewrite !(bpow_plus radix2 (- Bf)), (bpow_plus radix2 H). split; apply Rmult_le_compat; lra. }
    destruct (fmul_agree (f k) (D k) f1 d1) as (m1 & m2).
    { split; [eapply Rle_trans; [|apply PR]; apply bpow_le; lia|eapply Rle_trans; [apply PR|]; apply bpow_le; lia]. }
    destruct (fmul_bounds (f k) (D k) (bp (- Bf + (-8 + (- Ln - A)))) (bp (H + (A + (H + 1) + 7))) f1 d1) as (_ & m3);
      auto; try (apply fmtb; lia); try (apply bp128; lia); try apply bpow_ge_0.
    assert (QB : bp (- Bf + (-8 + (- Ln - A)) - A) <= val (fmul (f k) (D k)) / val (vp s (par v) k) <= bp (H + (A + (H + 1) + 7) + 1)).
    { rewrite X2. split.
      - apply div_ge; [exact X4|]. apply Rle_trans with (bp (- Bf + (-8 + (- Ln - A)) - A) * bp A); [apply Rmult_le_compat_l; [apply bpow_ge_0|apply X3]|].
        rewrite <- bpow_plus. replace (- Bf + (-8 + (- Ln - A)) - A + A)%Z with (- Bf + (-8 + (- Ln - A)))%Z by lia. apply m3.
      - apply div_le; [exact X4|]. apply Rle_trans with (bp (H + (A + (H + 1) + 7) + 1) * bp (-1)).
        + rewrite <- bpow_plus. replace (H + (A + (H + 1) + 7) + 1 + -1)%Z with (H + (A + (H + 1) + 7))%Z by lia. apply m3.
        + apply Rmult_le_compat_l; [apply bpow_ge_0|apply X3]. }
    destruct (fdiv_bounds (fmul (f k) (D k)) (vp s (par v) k) (bp (- Bf + (-8 + (- Ln - A)) - A)) (bp (H + (A + (H + 1) + 7) + 1)) m1) as (Y1 & Y2);
      auto; try (apply fmtb; lia); try (apply bp128; lia); try apply bpow_ge_0; [rewrite X2; exact X4|].
    destruct (fdiv_agree (fmul (f k) (D k)) (vp s (par v) k) m1) as (_ & Y3); [rewrite X2; exact X4| |].
    { split; [eapply Rle_trans; [|apply QB]; apply bpow_le; lia|eapply Rle_trans; [apply QB|]; apply bpow_le; lia]. }
    change (message k) with (fdiv (fmul (f k) (D k)) (vp s (par v) k)).
    split; [exact Y1|]. split; [split; [pose proof (bp_pos (- Bf + (-8 + (- Ln - A)) - A)); lra|apply Y2]|].
    replace (kap * fx' k) with (kap * fx k * sumf (seq 0 M) (fun j => tE v k j * (val (g j) / rvp v j)) / rvp (par v) k).
    - rewrite X2 in Y3. apply agree_weak with (bp (-23) + (bp (-23) + (ef + (2 * eta + delta)) + 0)); [lra|]. eapply agree_trans; [exact Y3|].
      apply agree_div; [|apply agree_refl; cbv beta; lra|exact X4]. eapply agree_trans; [exact m2|]. apply agree_mul; [exact f3|exact d4].
    - pose proof (up_tE (val2 msg) v k Hv NR Hk) as UT. fold g in UT. unfold fx'.
      change (sumf (seq 0 M) (fun j => tE v k j * ((fun u k0 => val (msg u k0)) v j / rvp v j))) with (sumf (seq 0 M) (fun j => tE v k j * (val (g j) / rvp v j))) in UT.
      rewrite UT. generalize (sumf (seq 0 M) (fun j => tE v k j * (val (g j) / rvp v j))). intros X. unfold Rdiv. ring. }
  destruct (agree_ranged M (Df + (A + 8)) (ef + 4 * eta + delta) kap (fun k => val (message k)) fx' Hsm Pk RM ltac:(intros k Hk; apply (PP k Hk))) as (_ & RG).
  destruct (rescaled_agree M message (H + (A + (H + 1) + 7) + 1) (Df + (A + 8) + 1) HM ltac:(lia) ltac:(lia) ltac:(intros k Hk; destruct (PP k Hk); tauto) RG) as (a & Pa & X1 & X2).
  exists (a * kap). split; [now apply Rmult_lt_0_compat|]. split.
  { destruct X1 as (k & Hk & X). exists k. split; [exact Hk|]. rewrite resc_eq; auto. }
  intros k Hk. rewrite resc_eq by auto. destruct (X2 k Hk) as (Y1 & Y2 & Y3). split; [exact Y1|]. split; [exact Y2|].
  rewrite Rmult_assoc. destruct (PP k Hk) as (_ & _ & Y4).
  eapply agree_weak; [|eapply agree_trans; [exact Y3|apply (agree_mul 0 (ef + 4 * eta + delta) a (val (message k)) a (kap * fx' k)); [apply agree_refl; lra|exact Y4]]]. lra.
Qed.
(** ** One feature *)
Notation STEP := (add_instr32_with treecat_add_cell32 dot (tb_types tb) (tb_ri tb) row V (V - 1) M (vp s) ep).
Notation DX := (A + 1 + b)%Z.
Hypothesis DG : neighbours_at_most d s.
Variable z : nat -> nat.

Lemma kids_few v : (length (kids V r par v) <= d)%nat.
Proof.
  specialize (DG v). unfold ts_get_edges in DG. rewrite EG in DG. eapply Nat.le_trans; [|exact DG].
  rewrite <- (map_length (fun c => norm (c, v)) (kids V r par v)). apply NoDup_incl_length.
  - assert (X : forall l, NoDup l -> NoDup (map (fun c => norm (c, v)) l)).
    { induction l as [|x l IH]; intros NDl; [constructor|]. inversion NDl; subst. cbn [map]. constructor; [|now apply IH]. intros I. apply in_map_iff in I.
      destruct I as (y & E & I). unfold norm in E. cbn in E. injection E as E1 E2. assert (x = y) by lia. subst y. contradiction. }
    apply X, kids_NoDup.
  - intros f I. apply in_map_iff in I. destruct I as (u & <- & I). apply in_kids in I. destruct I as (Hu & NR & EP).
    destruct (eidx_spec _ _ _ _ _ RT u Hu NR) as (E & _). rewrite EP in E. apply filter_In. split; [now apply nth_error_In in E|].
    unfold norm. cbn. apply orb_true_iff. rewrite !Nat.eqb_eq. lia.
Qed.

Definition mgood (f : nat -> f32) : Prop :=
  (forall k, (k < M)%nat -> fin32 (f k) = true /\ bp (- (Lj (Z.of_nat d))) <= val (f k) <= bp H) /\ exists k, (k < M)%nat /\ bp (- Ln) <= val (f k).

Lemma bpH1 : 1 <= bp H.
Proof. change 1 with (bp 0). apply bpow_le. lia. Qed.

Lemma tchildren v feat meas : (v < V)%nat -> forall cs mn fx kap ef j, NoDup cs -> ~ In v cs ->
  (forall u, In u cs -> (u < V)%nat /\ u <> r /\ par u = v /\ mgood (mn u)) -> 0 < kap ->
  (forall k, (k < M)%nat -> fin32 (mn v k) = true /\ bp (- (Lj (Z.of_nat j))) <= val (mn v k) <= bp H /\ agree ef (val (mn v k)) (kap * fx k)) ->
  (exists k, (k < M)%nat /\ bp (- Ln) <= val (mn v k)) -> ranged M (DX + (A + 8) * Z.of_nat j) fx ->
  (j + length cs <= d)%nat -> ef + (5 * eta + delta) * INR (length cs) <= 1 / 4 ->
  exists mn' kap', ffold STEP (map (fun u => I OP_IN v u (eidx edges par u)) cs) (mn, feat, meas, z) = FRet (mn', feat, meas, z) /\
    (forall w, w <> v -> mn' w = mn w) /\ 0 < kap' /\
    (forall k, (k < M)%nat -> fin32 (mn' v k) = true /\ bp (- (Lj (Z.of_nat (j + length cs)))) <= val (mn' v k) <= bp H /\
      agree (ef + (5 * eta + delta) * INR (length cs)) (val (mn' v k)) (kap' * (fx k * prodf cs (fun u => up M PSI (val2 mn) u k)))) /\
    (exists k, (k < M)%nat /\ bp (- Ln) <= val (mn' v k)).
Proof.
  intros Hv. induction cs as [|u cs IH]; intros mn fx kap ef j NDc NI G Pk F FK RF' Hd Hsm.
  - exists mn, kap. split; [reflexivity|]. split; [auto|]. split; [exact Pk|]. cbn [length]. rewrite Nat.add_0_r. unfold prodf. cbn [map fold_right INR].
    split; [intros k Hk; rewrite !Rmult_1_r, Rmult_0_r, Rplus_0_r; now apply F|exact FK].
  - destruct (G u ltac:(now left)) as (Hu & NR & EP & GU1 & GU2). apply NoDup_cons_iff in NDc. destruct NDc as [NU NDc].
    assert (Huv : u <> v) by (intros ->; apply NI; now left). cbn [length] in *. rewrite S_INR in *. pose proof (pos_INR (length cs)) as PI.
    destruct (in_one u (mn v) mn fx kap ef (DX + (A + 8) * Z.of_nat j)%Z (Lj (Z.of_nat j))%Z (Lj (Z.of_nat d))%Z Hu NR Pk F GU1 GU2 RF') as (RM & kap1 & P1 & FK1 & F1);
      [nia|nia|nia|nia|nia|nia|nra|].
    set (f1 := resc M (fun k => fdiv (fmul (mn v k) (dot (vec M (t3 u k)) (vec M (fun m2 => fdiv (mn u m2) (vp s u m2))))) (vp s (par u) k))) in *.
    set (mn1 := set1 mn v f1). pose proof bpH1 as BH.
    assert (OT : forall w, w <> v -> mn1 w = mn w) by (intros w Hw; unfold mn1; now rewrite set1_other).
    assert (SM : mn1 v = f1) by (unfold mn1; now rewrite set1_same).
    set (fx1 := fun k => fx k * up M PSI (val2 mn) u k) in *.
    destruct (IH mn1 fx1 kap1 (ef + (5 * eta + delta)) (j + 1)%nat) as (mn' & kap' & R1 & R2 & R3 & R4 & R5); auto.
    + intros I. apply NI. now right.
    + intros w I. rewrite OT by (intros ->; apply NI; now right). apply G. now right.
    + intros k Hk. rewrite SM. destruct (F1 k Hk) as (a1 & a2 & a3). split; [exact a1|]. split; [|eapply agree_weak; [|exact a3]; lra]. split; [|lra].
      eapply Rle_trans; [|apply a2]. apply bpow_le. nia.
    + rewrite SM. destruct FK1 as (k & Hk & B). exists k. split; [exact Hk|]. eapply Rle_trans; [|exact B]. change 1 with (bp 0). apply bpow_le. lia.
    + eapply ranged_weak; [|exact RM]. lia.
    + lia.
    + lra.
    + assert (PX : forall k, fx1 k * prodf cs (fun u => up M PSI (val2 mn1) u k) = fx k * prodf (u :: cs) (fun u => up M PSI (val2 mn) u k)).
      { intros k. rewrite prodf_cons. unfold fx1. rewrite Rmult_assoc. f_equal. f_equal. apply prodf_ext. intros w I. unfold up. apply sumf_ext. intros x _.
        rewrite OT; [reflexivity|]. intros ->. apply NI. now right. }
      exists mn', kap'. split; [|split; [|split; [exact R3|split; [|exact R5]]]].
      * cbn [map ffold]. cbn [add_instr32_with]. pose proof (eidx_lt V edges r par dep RT M ltac:(lia) u Hu NR) as He.
        unfold check. rewrite !(proj2 (Nat.ltb_lt _ V)), (proj2 (Nat.ltb_lt _ (V - 1))) by auto.
        cbn [flift fbind andb]. rewrite <- R1. unfold mn1, f1, t3, resc. rewrite EP. reflexivity.
      * intros w Hw. rewrite R2, OT; auto.
      * intros k Hk. destruct (R4 k Hk) as (a1 & a2 & a3). split; [exact a1|]. rewrite <- PX. replace (j + Datatypes.S (length cs))%nat with (j + 1 + length cs)%nat by lia.
        split; [exact a2|]. eapply agree_weak; [|exact a3]. lra.
Qed.

(** ** All features *)
Definition tmsg_err (v : nat) : R := Ec c + (5 * eta + delta) * INR (length (kids V r par v)).
Hypothesis SMALL : forall v, (v < V)%nat -> tmsg_err v <= 1 / 4.

Definition tpassed (P : list nat) (st : (nat -> nat -> f32) * (nat -> nat -> f32) * (nat -> nat -> f32)) : Prop :=
  let '(mn, feat, meas) := st in
  (forall v, In v P -> mgood (mn v) /\ exists kap, 0 < kap /\ forall k, (k < M)%nat ->
     agree (tmsg_err v) (val (mn v k)) (kap * (node v k * prodf (kids V r par v) (fun u => up M PSI (val2 mn) u k)))) /\
  (forall v, (v < V)%nat -> ~ In v P -> mn v = vp s v /\ meas v = mp tb M s v /\ forall q, owns ws v q -> feat q = fp M s q).

Lemma node_ranged v : (v < V)%nat -> (forall k, (k < M)%nat -> node v k <= bp A) -> ranged M DX (node v).
Proof.
  intros Hv U. pose proof (bp_pos (- (b + 1))) as P. split; [intros k Hk; pose proof (NB v k Hv Hk); lra|]. intros k j Hk Hj. eapply Rle_trans; [|apply (NB v k Hv Hk)].
  replace (- (b + 1))%Z with (- DX + A)%Z by lia. rewrite bpow_plus. apply Rmult_le_compat_l; [apply bpow_ge_0|now apply U].
Qed.

Variable np : list (nat * option nat * list nat).
Hypothesis BL : bfs_list V r par np.

Lemma tinward : exists mn feat meas, ffold STEP (concat (map (ins_of edges par) (rev np))) (vp s, fp M s, mp tb M s, z) = FRet (mn, feat, meas, z) /\
  tpassed (map ev np) (mn, feat, meas).
Proof.
  destruct (runs_all V es r par dep RT np BL ((nat -> nat -> f32) * (nat -> nat -> f32) * (nat -> nat -> f32))
    (fun x st st' => ffold STEP (ins_of edges par x) (fst (fst st), snd (fst st), snd st, z) = FRet (fst (fst st'), snd (fst st'), snd st', z)) tpassed) with (st0 := (vp s, fp M s, mp tb M s))
    as (st & R & I).
  - intros [[v p] cs] P [[mn feat] meas] (Hv & _ & SS & IC) NV NDP PV CH CL (P1 & P2). unfold ev in *. cbn [fst snd] in *.
    assert (NDc : NoDup cs) by (now apply ssorted_NoDup).
    assert (PK : Permutation cs (kids V r par v)) by (apply NoDup_Permutation; [exact NDc|apply kids_NoDup|]; intros u; now rewrite in_kids, IC).
    assert (NVC : ~ In v cs). { intros I. apply IC in I. destruct I as (Iv & NR & E). pose proof (par_neq _ _ _ _ _ RT v Hv NR). auto. }
    destruct (P2 v Hv NV) as (Q1 & Q2 & Q3).
    destruct (add_cell_law ws tb M A c TK ND HM HA Hc HAc HN HW HC s TI n v (mn v) feat meas Hn Hv Q1 Q2 Q3) as (f0 & feat' & meas' & EO & F0 & FO & MO). set (mn0 := set1 mn v f0).
    assert (OT0 : forall w, w <> v -> mn0 w = mn w) by (intros w Hw; unfold mn0; now rewrite set1_other).
    assert (SM0 : mn0 v = f0) by (unfold mn0; now rewrite set1_same).
    assert (LK : length cs = length (kids V r par v)) by (now apply Permutation_length).
    pose proof (kids_few v) as KD. pose proof (SMALL v Hv) as SMv. unfold tmsg_err in SMv. pose proof (pos_INR (length (kids V r par v))) as PI.
    assert (EC4 : Ec c <= 1 / 4) by nra.
    assert (F1 : forall k, (k < M)%nat -> fin32 (f0 k) = true /\ bp (- (b + 2)) <= val (f0 k) <= bp H /\ agree (Ec c) (val (f0 k)) (1 * node v k)).
    { intros k Hk. destruct (F0 k Hk) as (a1 & a2 & a3). split; [exact a1|]. rewrite Rmult_1_l. split; [|exact a2]. pose proof (within2 _ _ _ EC4 a2) as W. pose proof (NB v k Hv Hk) as NBk. split.
      - replace (- (b + 2))%Z with (- (b + 1) + -1)%Z by lia. rewrite bpow_plus. change (bp (-1)) with (/ 2). lra.
      - rewrite bpow_plus. change (bp 1) with 2. lra. }
    destruct (tchildren v feat' meas' Hv cs mn0 (node v) 1 (Ec c) 0%nat) as (mn' & kap & R1 & R2 & R3 & R4 & R5); auto; try lra.
    + intros u I. pose proof (proj1 (IC u) I) as (Hu & NR & EP). split; [exact Hu|]. split; [exact NR|]. split; [exact EP|].
      rewrite OT0 by (intros ->; contradiction). apply (P1 u). now apply CH.
    + intros k Hk. rewrite SM0. destruct (F1 k Hk) as (a1 & a2 & a3). split; [exact a1|]. split; [|exact a3]. split; [|apply a2]. eapply Rle_trans; [|apply a2]. apply bpow_le. lia.
    + rewrite SM0. exists 0%nat. split; [lia|]. apply (F1 0%nat). lia.
    + rewrite Z.mul_0_r, Z.add_0_r. apply node_ranged; [exact Hv|]. intros k Hk. apply (F0 k Hk).
    + lia.
    + rewrite LK. exact SMv.
    + exists (mn', feat', meas'). cbn [fst snd]. assert (OT : forall w, w <> v -> mn' w = mn w) by (intros w Hw; rewrite R2, OT0; auto).
      assert (UPK : forall w k, (w = v \/ In w P) -> prodf (kids V r par w) (fun u => up M PSI (val2 mn') u k) = prodf (kids V r par w) (fun u => up M PSI (val2 mn) u k)).
      { intros w k D. apply prodf_ext. intros u I. unfold up. apply sumf_ext. intros x _. rewrite OT; [reflexivity|]. intros ->. apply in_kids in I. destruct I as (_ & NR & EP).
        destruct D as [-> |D]; [exact (par_neq _ _ _ _ _ RT v Hv NR EP)|]. apply NV. apply CL; auto. now rewrite EP. }
      assert (UP0 : forall k, prodf cs (fun u => up M PSI (val2 mn0) u k) = prodf (kids V r par v) (fun u => up M PSI (val2 mn) u k)).
      { intros k. rewrite (prodf_perm _ _ _ PK). apply prodf_ext. intros u I. unfold up. apply sumf_ext. intros x _. rewrite OT0; [reflexivity|]. intros ->.
        apply NVC. eapply Permutation_in; [apply Permutation_sym; exact PK|exact I]. }
      split.
      * cbn [ins_of ffold]. cbn [add_instr32_with]. unfold check. rewrite (proj2 (Nat.ltb_lt _ V)) by auto. cbn [flift fbind].
        rewrite (ty_get _ _ TK) by auto. cbn [flift fbind]. rewrite EO. cbn [flift fbind]. exact R1.
      * assert (HV' : forall k, (k < M)%nat -> agree (tmsg_err v) (val (mn' v k)) (kap * (node v k * prodf (kids V r par v) (fun u => up M PSI (val2 mn') u k)))).
        { intros k Hk. rewrite UPK by auto. rewrite <- UP0. unfold tmsg_err. rewrite <- LK. apply (R4 k Hk). }
        split.
        -- intros w I. destruct (Nat.eq_dec w v) as [-> |NE].
           ++ split; [|exists kap; auto]. split; [|exact R5]. intros k Hk. destruct (R4 k Hk) as (a1 & a2 & _). split; [exact a1|]. split; [|apply a2].
              eapply Rle_trans; [|apply a2]. apply bpow_le. nia.
           ++ destruct I as [E|I]; [now rewrite E in NE|]. destruct (P1 w I) as (g1 & kp & g2 & g3). rewrite OT by auto. split; [exact g1|]. exists kp. split; [exact g2|].
              intros k Hk. rewrite UPK by auto. now apply g3.
        -- intros w Hw NW. assert (NE : w <> v) by (intros ->; apply NW; now left). destruct (P2 w Hw ltac:(intros X; apply NW; now right)) as (X1 & X2 & X3).
           rewrite OT, MO by auto. split; [exact X1|]. split; [exact X2|]. intros q O. rewrite FO; [now apply X3|]. intros O'. apply NE. exact (owns_unique ws w v q O O').
  - split; [intros v []|]. auto.
  - destruct st as [[mn feat] meas]. exists mn, feat, meas. split; [|exact I]. clear I. revert R. generalize (mp tb M s) (fp M s).
    intros me fe. change (vp s, fe, me, z) with (fst (fst (vp s, fe, me)), snd (fst (vp s, fe, me)), snd (vp s, fe, me), z). generalize (vp s, fe, me).
    change (mn, feat, meas, z) with (fst (fst (mn, feat, meas)), snd (fst (mn, feat, meas)), snd (mn, feat, meas), z).
    induction (rev np) as [|x l IH]; intros m0 R.
    + cbn [runs] in R. subst m0. reflexivity.
    + cbn [runs] in R. destruct R as (m1 & R1 & R2). cbn [map concat]. rewrite (ffold_app _ _ _ _ _ R1). now apply IH.
Qed.
End TSTEP.
