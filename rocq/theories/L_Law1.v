(** The float32 messages of [TreeCatServer.sample]: one step of the inward pass. *)
From Coq Require Import List Arith Bool ZArith Reals Lra Lia Permutation.
From Flocq Require Import Core Relative IEEE754.BinarySingleNaN.
From Verif Require Import Base L_Base Spec_Graph L_Graph Spec_Sum L_Sum M_Structure L_Pairing L_MakeTree L_Program L_ProgramValid Spec_Program L_Center L_Prop1 M_Util Spec_Ragged L_Ragged M_Array M_Training Spec_MST Spec_Stats L_Stats L_Trainer Spec_Conditional L_Asg L_BP L_BPVec L_AddRow
  M_Float32 M_Train32 Spec_Float32 L_Float32 L_Sample32 L_Train32 L_Train32c L_Train32d L_Train32i M_Serving Spec_Serving L_Server L_Inward L_Serve1 M_Serving32 Spec_Serving32 L_Serving32a L_Serving32b L_Serving32c L_Serving32d M_Sample32 Spec_Accuracy L_Acc1 L_Acc2 L_Acc3.
Import ListNotations.
Open Scope R_scope.

(** Dividing by the largest entry. *)
Lemma rescaled_agree M (f : nat -> f32) q D : (1 <= M <= 128)%nat -> (q <= 127)%Z -> (0 <= D <= 126)%Z ->
  (forall k, (k < M)%nat -> fin32 (f k) = true /\ 0 < val (f k) <= bp q) ->
  (forall k j, (k < M)%nat -> (j < M)%nat -> bp (- D) * val (f j) <= val (f k)) ->
  exists a, 0 < a /\ (exists k, (k < M)%nat /\ 1 <= val (rescaled M f k)) /\
    forall k, (k < M)%nat -> fin32 (rescaled M f k) = true /\ bp (- D) <= val (rescaled M f k) <= 1 /\ agree (bp (-23)) (val (rescaled M f k)) (a * val (f k)).
Proof.
  intros HM Hq HD MS RG. set (top := match vec M f with [] => fzero | x :: l => fmax x l end).
  assert (TP : (exists k, (k < M)%nat /\ top = f k) /\ forall m, (m < M)%nat -> val (f m) <= val top).
  { unfold top. destruct (vec M f) as [|x l] eqn:E; [pose proof (len_vec M f) as L; rewrite E in L; cbn in L; lia|].
    destruct (fmax_spec l x) as (T1 & T2).
    - rewrite <- E. apply Forall_forall. intros z I. apply vec_In in I; [|exact HM]. destruct I as (k & Hk & ->). exact (proj1 (MS k Hk)).
    - rewrite <- E in T1, T2. split; [now apply vec_In; [exact HM|]|]. intros m Hm. apply T2. now apply In_vec. }
  destruct TP as ((kt & Hkt & ET) & TM).
  assert (PT : 0 < val top) by (rewrite ET; apply (MS kt Hkt)).
  assert (Q : forall k, (k < M)%nat -> bp (- D) <= val (f k) / val top <= 1).
  { intros k Hk. split; [apply div_ge; [exact PT|]; rewrite ET; now apply RG|]. apply div_le; [exact PT|]. specialize (TM k Hk). lra. }
  exists (/ val top). split; [now apply Rinv_0_lt_compat|]. unfold rescaled. fold top. split.
  - exists kt. split; [exact Hkt|]. rewrite nth_vec_lt by auto. rewrite <- ET.
    destruct (fdiv_bounds top top (bp 0) (bp 0)) as (_ & C); auto; try (apply fmtb; lia); try (apply bp128; lia); [rewrite ET; exact (proj1 (MS kt Hkt))| |apply bpow_ge_0|].
    + unfold Rdiv. rewrite Rinv_r by lra. cbn. lra.
    + cbn in C. lra.
  - intros k Hk. rewrite nth_vec_lt by auto. destruct (MS k Hk) as (F & B). specialize (Q k Hk).
    destruct (fdiv_bounds (f k) top (bp (- D)) (bp 0) F PT) as (F2 & B2); try (apply fmtb; lia); try (apply bp128; lia); [cbn; lra|apply bpow_ge_0|].
    split; [exact F2|]. split; [exact B2|].
    destruct (fdiv_agree (f k) top F PT) as (_ & G).
    { split; [eapply Rle_trans; [|apply Q]; apply bpow_le; lia|]. apply Rle_trans with (bp 0); [cbn; lra|apply bpow_le; lia]. }
    replace (/ val top * val (f k)) with (val (f k) / val top) by (unfold Rdiv; ring). exact G.
Qed.

(** Agreeing with ranged weights. *)
Lemma agree_ranged M D e kap (f : nat -> R) fx : e <= 1 / 4 -> 0 < kap -> ranged M D fx -> (forall k, (k < M)%nat -> agree e (f k) (kap * fx k)) ->
  (forall k, (k < M)%nat -> 0 < f k) /\ forall k j, (k < M)%nat -> (j < M)%nat -> bp (- (D + 1)) * f j <= f k.
Proof.
  intros He Pk (RP & RM) AG. split; [intros k Hk; apply (agree_pos _ _ _ (AG k Hk)); apply Rmult_lt_0_compat; auto|].
  intros k j Hk Hj. specialize (RM k j Hk Hj). pose proof (AG k Hk) as (_ & Ak & _). pose proof (AG j Hj) as (Mp & _ & Am).
  assert (X : exp e <= 2 * exp (- e)).
  { replace (exp e) with (exp (2 * e) * exp (- e)) by (rewrite <- exp_plus; f_equal; ring).
    apply Rmult_le_compat_r; [left; apply exp_pos|]. apply Rle_trans with (exp (1 / 2)); [apply exp_le; lra|exact exp_half]. }
  set (x := exp (- e)) in *. assert (X0 : 0 < x) by apply exp_pos.
  replace (- (D + 1))%Z with (- D + -1)%Z by lia. rewrite bpow_plus. change (bp (-1)) with (/ 2).
  pose proof (bp_pos (- D)) as PD. eapply Rle_trans; [|exact Ak].
  apply Rle_trans with (bp (- D) * / 2 * (kap * fx j * (2 * x))).
  - apply Rmult_le_compat_l; [lra|]. eapply Rle_trans; [exact Am|]. apply Rmult_le_compat_l; lra.
  - replace (bp (- D) * / 2 * (kap * fx j * (2 * x))) with (kap * (bp (- D) * fx j) * x) by field.
    apply Rmult_le_compat_r; [lra|]. apply Rmult_le_compat_l; [lra|exact RM].
Qed.

Section STEP.
Variables (lib : numlib) (ws : list nat) (V M N : nat) (m : smodel) (A W b c : Z) (eta lambda : R) (s : server32) (sx : server) (row : list Z) (edges : list (nat * nat)).
Hypothesis LIB : lib_ok lib.
Hypothesis ACC : accurate W eta lambda lib.
Hypothesis C : consistent ws V M N m.
Hypothesis CB : counts_below A ws N m.
Hypothesis HA : (6 <= A <= 16)%Z.
Hypothesis HE : bp (-23) <= eta.
Hypothesis WM : (Z.of_nat (M * M) <= W)%Z.
Hypothesis Hb : (0 <= b <= 140)%Z.
Hypothesis Hc : (0 <= c)%Z.
Notation L := (A + 3 + (b + 4) * c)%Z.
Hypothesis HL : (2 * L + 20 <= 126)%Z.
Hypothesis TB : tables32 ws V M A m s.
Hypothesis TA : atables ws V M m eta s.
Hypothesis RL : length row = list_sum ws.
Hypothesis SF : sfacts ws V M edges sx.
Hypothesis ST : sv_tree sx = d_tree m.
Hypothesis SV : forall v k, sv_vert sx v k = vert_prob m v k.
Hypothesis SE : forall e c1 c2, sv_edge sx e c1 c2 = edge_prob m e c1 c2.
Notation es := (grid_edges (make_tree edges)).
Variables (r : nat) (par dep : nat -> nat).
Hypothesis RT : rooted V es r par dep.
Notation PSI := (opair edges par (sv_trans sx)).

Let HM : (1 <= M <= 128)%nat.
Proof. apply (cm_M _ _ _ _ _ C). Qed.
Let E0 : 0 < eta.
Proof. pose proof eps_pos. lra. Qed.
Let ETS : ts_get_edges (d_tree m) = es.
Proof. destruct (sf_tree _ _ _ _ _ SF) as (E & _). rewrite ST in E. rewrite E. reflexivity. Qed.

(** The table of the edge from [v] to its parent, as the code orients it. *)
Definition t32 (v : nat) : nat -> nat -> f32 :=
  if (v <? par v)%nat then transpose (s3_trans s (eidx edges par v)) else s3_trans s (eidx edges par v).

Lemma edge_of v : (v < V)%nat -> v <> r -> exists v1 v2, nth_error (ts_get_edges (d_tree m)) (eidx edges par v) = Some (v1, v2) /\
  forall k j, PSI v k j = tx m (eidx edges par v) v1 v2 (v <? par v)%nat k j.
Proof.
  intros Hv NR. rewrite ETS. destruct (eidx_spec _ _ _ _ _ RT v Hv NR) as (E & _).
  destruct (nth_error es (eidx edges par v)) as [[v1 v2]|] eqn:EN; [|congruence]. exists v1, v2. split; [reflexivity|].
  intros k j. unfold opair, tx. destruct (v <? par v)%nat; rewrite (sf_trans _ _ _ _ _ SF _ v1 v2 _ _ EN), SE, !SV; reflexivity.
Qed.

Lemma t32_range v k j : (v < V)%nat -> v <> r -> (k < M)%nat -> (j < M)%nat -> fin32 (t32 v k j) = true /\ bp (- (A + 11)) <= val (t32 v k j) <= bp (2 * A + 6).
Proof.
  intros Hv NR Hk Hj. pose proof (eidx_lt V edges r par dep RT M ltac:(lia) v Hv NR) as He.
  unfold t32. destruct (v <? par v)%nat; [unfold transpose|]; apply (t3_trans _ _ _ _ _ _ TB); auto.
Qed.
Lemma t32_agree v k j : (v < V)%nat -> v <> r -> (k < M)%nat -> (j < M)%nat -> agree (26 * eta) (val (t32 v k j)) (PSI v k j).
Proof.
  intros Hv NR Hk Hj. pose proof (eidx_lt V edges r par dep RT M ltac:(lia) v Hv NR) as He. destruct (edge_of v Hv NR) as (v1 & v2 & EN & EP). rewrite EP.
  unfold t32, tx. destruct (v <? par v)%nat; [unfold transpose|]; apply (ta_trans _ _ _ _ _ _ TA); auto.
Qed.
Lemma up_ranged v g : (v < V)%nat -> v <> r -> (forall j, (j < M)%nat -> 0 < g v j) -> ranged M (A + 8) (fun k => up M PSI g v k).
Proof.
  intros Hv NR G. pose proof (eidx_lt V edges r par dep RT M ltac:(lia) v Hv NR) as He. destruct (edge_of v Hv NR) as (v1 & v2 & EN & EP).
  destruct (dot_ranged ws V M N m A W row C CB HA WM RL (eidx edges par v) v1 v2 (v <? par v)%nat (g v) EN He G) as (P & B).
  assert (X : forall k, up M PSI g v k = sumf (seq 0 M) (fun j => tx m (eidx edges par v) v1 v2 (v <? par v)%nat k j * g v j)).
  { intros k. unfold up. apply sumf_ext. intros j _. now rewrite EP. }
  split; intros; rewrite !X; auto.
Qed.
(** The row of the table that a class of the parent selects. *)
Lemma psi_ranged v k : (v < V)%nat -> v <> r -> (k < M)%nat -> ranged M (2 * A + 9) (fun j => PSI v k j).
Proof.
  intros Hv NR Hk. pose proof (eidx_lt V edges r par dep RT M ltac:(lia) v Hv NR) as He. destruct (edge_of v Hv NR) as (v1 & v2 & EN & EP).
  destruct (edge_ends ws V M N m C _ v1 v2 EN) as (B1 & B2).
  assert (INVR : forall u, (u < V)%nat -> ranged M (A + 1) (fun j => / vert_prob m u j)).
  { intros u Hu. destruct (vert_ranged ws V M N m A W row C CB HA WM RL u Hu) as (P & B). split; [intros; apply Rinv_0_lt_compat; auto|].
    intros i j Hi Hj. specialize (B j i Hj Hi). pose proof (P i Hi). pose proof (P j Hj).
    apply Rmult_le_reg_r with (vert_prob m u i * vert_prob m u j); [now apply Rmult_lt_0_compat|].
    replace (bp (- (A + 1)) * / vert_prob m u j * (vert_prob m u i * vert_prob m u j)) with (bp (- (A + 1)) * vert_prob m u i) by (field; lra).
    replace (/ vert_prob m u i * (vert_prob m u i * vert_prob m u j)) with (vert_prob m u j) by (field; lra). exact B. }
  assert (G : forall (h : nat -> R) u, (u < V)%nat -> (forall j, (j < M)%nat -> bp (- (A + 8)) <= h j <= 1) -> (forall j, (j < M)%nat -> PSI v k j = h j * / vert_prob m u j) ->
    ranged M (2 * A + 9) (fun j => PSI v k j)).
  { intros h u Hu HB HP. pose proof (ranged_mul M (A + 8) (A + 1) h (fun j => / vert_prob m u j) (ranged_within _ _ _ HB) (INVR u Hu)) as (P & B).
    replace (2 * A + 9)%Z with (A + 8 + (A + 1))%Z by lia. split; intros; rewrite !HP by auto; auto. }
  pose proof (vert_prob_pos ws V M N m W C WM) as VP.
  unfold tx in EP. destruct (v <? par v)%nat.
  - apply (G (fun j => edge_prob m (eidx edges par v) j k / vert_prob m v2 k) v1 B1).
    + intros j Hj. apply (cond_bounds ws V M N m A W row C CB HA WM RL _ v1 v2 j k EN He Hj Hk).
    + intros j Hj. rewrite EP. pose proof (VP v1 j B1 Hj). pose proof (VP v2 k B2 Hk). field. lra.
  - apply (G (fun j => edge_prob m (eidx edges par v) k j / vert_prob m v1 k) v2 B2).
    + intros j Hj. apply (cond_bounds ws V M N m A W row C CB HA WM RL _ v1 v2 k j EN He Hk Hj).
    + intros j Hj. rewrite EP. reflexivity.
Qed.

(** ** A child's message multiplied into its parent's *)
Lemma in_one v (f : nat -> f32) (msg : nat -> nat -> f32) fx kap ef Df Bf Bg : (v < V)%nat -> v <> r -> 0 < kap ->
  (forall k, (k < M)%nat -> fin32 (f k) = true /\ bp (- Bf) <= val (f k) <= 1 /\ agree ef (val (f k)) (kap * fx k)) ->
  (forall k, (k < M)%nat -> fin32 (msg v k) = true /\ bp (- Bg) <= val (msg v k) <= 1) -> (exists k, (k < M)%nat /\ bp (- L) <= val (msg v k)) ->
  ranged M Df fx -> (Bf + L + A + 11 <= 126)%Z -> (Bg + A + 11 <= 126)%Z -> (0 <= Df)%Z -> (Df + (A + 8) + 1 <= 126)%Z -> ef + 28 * eta <= 1 / 4 ->
  let message := fun k => fmul (f k) (l_dot lib (vec M (t32 v k)) (vec M (msg v))) in
  let fx' := fun k => fx k * up M PSI (fun u k => val (msg u k)) v k in
  ranged M (Df + (A + 8)) fx' /\
  exists kap', 0 < kap' /\ (exists k, (k < M)%nat /\ 1 <= val (rescaled M message k)) /\
    forall k, (k < M)%nat -> fin32 (rescaled M message k) = true /\ bp (- (Df + (A + 8) + 1)) <= val (rescaled M message k) <= 1 /\
      agree (ef + 29 * eta) (val (rescaled M message k)) (kap' * fx' k).
Proof.
  intros Hv NR Pk F G (j0 & Hj0 & G2) RF HB1 HB2 HD0 HD Hsm message fx'. set (g := msg v) in *. set (trans := t32 v).
  assert (GP : forall j, (j < M)%nat -> 0 < val (g j)) by (intros j Hj; destruct (G j Hj) as (_ & B & _); pose proof (bp_pos (- Bg)); lra).
  pose proof (up_ranged v (fun u k => val (msg u k)) Hv NR GP) as DR.
  assert (RM : ranged M (Df + (A + 8)) fx') by (apply ranged_mul; auto). split; [exact RM|].
  assert (TR : forall k j, (k < M)%nat -> (j < M)%nat -> fin32 (trans k j) = true /\ bp (- (A + 11)) <= val (trans k j) <= bp (2 * A + 6)) by (intros; now apply t32_range).
  assert (TAG : forall k j, (k < M)%nat -> (j < M)%nat -> agree (26 * eta) (val (trans k j)) (PSI v k j)) by (intros; now apply t32_agree).
  assert (L0 : (9 <= L /\ L <= 69)%Z) by (split; [nia|lia]).
  assert (DD : forall k, (k < M)%nat -> fin32 (l_dot lib (vec M (trans k)) (vec M g)) = true /\
    0 <= val (l_dot lib (vec M (trans k)) (vec M g)) <= bp (2 * A + 6 + 0 + 7) /\ bp (- (A + 11) + - L) <= val (l_dot lib (vec M (trans k)) (vec M g)) /\
    agree (27 * eta) (val (l_dot lib (vec M (trans k)) (vec M g))) (up M PSI (fun u k => val (msg u k)) v k)).
  { intros k Hk.
    assert (FT : Forall (fun z => fin32 z = true /\ 0 <= val z <= bp (2 * A + 6)) (vec M (trans k))).
    { apply Forall_forall. intros x I. apply vec_In in I; [|exact HM]. destruct I as (j & Hj & ->). destruct (TR k j Hk Hj) as (T1 & T2). split; [exact T1|].
      pose proof (bp_pos (- (A + 11))). lra. }
    assert (FG : Forall (fun z => fin32 z = true /\ 0 <= val z <= bp 0) (vec M g)).
    { apply Forall_forall. intros x I. apply vec_In in I; [|exact HM]. destruct I as (j & Hj & ->). destruct (G j Hj) as (a1 & a2). pose proof (GP j Hj). split; [exact a1|]. cbn. lra. }
    assert (CO : forall h : f32 * f32 -> R, sumf (combine (vec M (trans k)) (vec M g)) h = sumf (seq 0 M) (fun j => h (trans k j, g j))).
    { intros h. unfold vec. generalize (seq 0 M). intros l. induction l as [|j l IH]; [reflexivity|]. cbn [map combine]. rewrite !sumf_cons, IH. reflexivity. }
    destruct (proj1 LIB (vec M (trans k)) (vec M g) (2 * A + 6)%Z 0%Z 7%Z) as (D1 & D2 & D3); auto; try lia.
    - now rewrite !len_vec.
    - rewrite len_vec. change (2 ^ 7)%Z with 128%Z. lia.
    - split; [exact D1|]. split; [exact D2|]. split.
      + apply (D3 j0); [now rewrite len_vec|lia| |].
        * rewrite nth_vec_lt by auto. apply (TR k j0 Hk Hj0).
        * rewrite nth_vec_lt by auto. exact G2.
      + destruct ACC as (_ & AD & _). specialize (AD (vec M (trans k)) (vec M g) ltac:(now rewrite !len_vec) ltac:(rewrite len_vec; nia)).
        assert (AD' : agree eta (val (l_dot lib (vec M (trans k)) (vec M g))) (sumf (combine (vec M (trans k)) (vec M g)) (fun p => val (fst p) * val (snd p)))).
        { apply AD.
          - eapply Forall_impl; [|exact FT]. cbn beta. intros z (? & ?). split; [auto|lra].
          - eapply Forall_impl; [|exact FG]. cbn beta. intros z (? & ?). split; [auto|lra].
          - apply Forall_forall. intros [x y] I. unfold vec in I.
            assert (X : exists j, (j < M)%nat /\ x = trans k j /\ y = g j).
            { assert (Z : forall l, In (x, y) (combine (map (trans k) l) (map g l)) -> exists j, In j l /\ x = trans k j /\ y = g j).
              { clear. induction l as [|j l IH]; intros I; [destruct I|]. cbn [map combine] in I. destruct I as [E|I]; [injection E as <- <-; exists j; split; [now left|auto]|].
                destruct (IH I) as (i & Ii & E). exists i. split; [now right|exact E]. }
              destruct (Z _ I) as (j & Ij & E). apply in_seq in Ij. exists j. split; [lia|exact E]. }
            destruct X as (j & Hj & -> & ->). cbn [fst snd]. apply Rle_trans with (bp (- (A + 11) + - Bg)); [apply bpow_le; lia|]. rewrite bpow_plus.
            apply Rmult_le_compat; try apply bpow_ge_0; [apply (TR k j Hk Hj)|apply (G j Hj)].
          - rewrite CO. cbn [fst snd]. apply Rle_trans with (sumf (seq 0 M) (fun _ => bp (2 * A + 6))).
            + apply sumf_le. intros j I. apply in_seq in I. destruct (TR k j Hk ltac:(lia)) as (_ & T2). destruct (G j ltac:(lia)) as (_ & T3). pose proof (GP j ltac:(lia)). pose proof (bp_pos (- (A + 11))). nra.
            + rewrite sumf_const, seq_length. apply Rle_trans with (bp 7 * bp (2 * A + 6)); [apply Rmult_le_compat_r; [apply bpow_ge_0|]; rewrite INR_IZR_INZ; change (bp 7) with (IZR 128); apply IZR_le; lia|].
              rewrite <- bpow_plus. apply bpow_le. lia. }
        rewrite CO in AD'. cbn [fst snd] in AD'. replace (27 * eta) with (eta + 26 * eta) by ring. eapply agree_trans; [exact AD'|].
        unfold up. apply agree_sum. intros j I. apply in_seq in I. replace (26 * eta) with (26 * eta + 0) by ring. apply agree_mul; [apply TAG; lia|].
        apply agree_refl; [lra|]. left. apply GP. lia. }
  assert (PP : forall k, (k < M)%nat -> fin32 (message k) = true /\ 0 < val (message k) <= bp (2 * A + 13) /\ agree (ef + 28 * eta) (val (message k)) (kap * fx' k)).
  { intros k Hk. destruct (F k Hk) as (f1 & f4 & f3). destruct (DD k Hk) as (d1 & d2 & d3 & d4).
    pose proof (bp_pos (- Bf)) as PB. pose proof (bp_pos (- (A + 11) + - L)) as PL.
    assert (LOW : bp (-126) <= val (f k) * val (l_dot lib (vec M (trans k)) (vec M g))).
    { apply Rle_trans with (bp (- Bf + (- (A + 11) + - L))); [apply bpow_le; lia|]. rewrite bpow_plus. apply Rmult_le_compat; lra. }
    assert (UP : val (f k) * val (l_dot lib (vec M (trans k)) (vec M g)) <= bp (2 * A + 13)).
    { replace (2 * A + 13)%Z with (2 * A + 6 + 0 + 7)%Z by lia. nra. }
    destruct (fmul_agree (f k) (l_dot lib (vec M (trans k)) (vec M g)) f1 d1) as (m1 & m2).
    { split; [exact LOW|]. eapply Rle_trans; [exact UP|]. apply bpow_le. lia. }
    split; [exact m1|]. split.
    - pose proof (bp_pos (-126)). split; [apply (agree_pos _ _ _ m2); lra|].
      destruct (mul_pow M HM (f k) (l_dot lib (vec M (trans k)) (vec M g)) 0 (2 * A + 6 + 0 + 7) 0 0 f1 d1 ltac:(cbn; lra) d2 ltac:(lia)) as (_ & x2 & _).
      replace (2 * A + 13)%Z with (0 + (2 * A + 6 + 0 + 7))%Z by lia. apply x2.
    - replace (kap * fx' k) with (kap * fx k * up M PSI (fun u k => val (msg u k)) v k) by (unfold fx'; ring).
      eapply agree_weak; [|eapply agree_trans; [exact m2|apply (agree_mul _ _ _ _ _ _ f3 d4)]]. lra. }
  destruct (agree_ranged M (Df + (A + 8)) (ef + 28 * eta) kap (fun k => val (message k)) fx' Hsm Pk RM ltac:(intros k Hk; apply (PP k Hk))) as (_ & RG).
  destruct (rescaled_agree M message (2 * A + 13) (Df + (A + 8) + 1) HM ltac:(lia) ltac:(lia) ltac:(intros k Hk; destruct (PP k Hk); tauto) RG) as (a & Pa & X1 & X2).
  exists (a * kap). split; [now apply Rmult_lt_0_compat|]. split; [exact X1|]. intros k Hk. destruct (X2 k Hk) as (Y1 & Y2 & Y3). split; [exact Y1|]. split; [exact Y2|].
  rewrite Rmult_assoc. destruct (PP k Hk) as (_ & _ & Y4).
  eapply agree_weak; [|eapply agree_trans; [exact Y3|apply (agree_mul 0 (ef + 28 * eta) a (val (message k)) a (kap * fx' k)); [apply agree_refl; lra|exact Y4]]]. lra.
Qed.
End STEP.
