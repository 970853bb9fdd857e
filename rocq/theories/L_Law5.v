(** The law of [TreeCatServer.sample] in float32. *)
From Coq Require Import List Arith Bool ZArith Reals Lra Lia Permutation FunctionalExtensionality.
From Flocq Require Import Core Relative IEEE754.BinarySingleNaN.
From Verif Require Import Base L_Base Spec_Graph L_Graph Spec_Sum L_Sum M_Structure L_Pairing L_MakeTree L_Program L_ProgramValid Spec_Program L_Center L_Prop1 M_Rand L_Rand M_Util Spec_Ragged L_Ragged M_Array M_Training Spec_MST Spec_Stats L_Stats L_Estimate L_Trainer Spec_Conditional L_Asg L_BP L_BPVec L_AddRow
  M_Float32 M_Train32 Spec_Float32 L_Float32 L_Sample32 L_Train32 L_Train32c L_Train32d M_Serving Spec_Serving L_Server L_Inward L_Logprob L_Serve1 L_Serve2 L_Draws L_Sample M_Serving32 Spec_Serving32 L_Serving32a L_Serving32b L_Serving32c L_Serving32d M_Sample32 Spec_Accuracy L_Acc1 L_Acc2 L_Acc3 L_Acc4 L_Acc5 L_Acc6 Spec_Law L_Law1 L_Law2 L_Law3 L_Law4.
From Verif Require L_Serving32f.
Import ListNotations.
Open Scope R_scope.

Lemma prodf_nth {B} (X : list B) d (f : B -> R) : prodf X f = prodf (seq 0 (length X)) (fun n => f (nth n X d)).
Proof. induction X as [|x X IH]; [reflexivity|]. cbn [length seq]. rewrite !prodf_cons, IH, <- (seq_shift (length X) 0), prodf_map. reflexivity. Qed.

Lemma kids_count V r par : sumf (seq 0 V) (fun v => INR (length (L_BP.kids V r par v))) <= INR V.
Proof.
  assert (G : forall l, sumf (seq 0 V) (fun v => INR (length (filter (fun c => negb (c =? r) && (par c =? v))%nat l))) <= INR (length l)).
  { intros l. induction l as [|u l IH].
    - cbn [filter length INR]. rewrite sumf_zero by auto. lra.
    - rewrite (sumf_ext _ _ (fun v => (if (negb (u =? r) && (par u =? v))%nat then 1 else 0) + INR (length (filter (fun c => negb (c =? r) && (par c =? v))%nat l)))).
      2:{ intros v _. cbn [filter]. destruct (negb (u =? r) && (par u =? v))%nat; [cbn [length]; rewrite S_INR|]; lra. }
      rewrite sumf_plus. cbn [length]. rewrite S_INR.
      assert (H : forall n b, sumf (seq b n) (fun v => if (negb (u =? r) && (par u =? v))%nat then 1 else 0) <= if (par u <? b)%nat then 0 else 1).
      { clear. induction n as [|n IH]; intros b; cbn [seq].
        - change (sumf [] _) with 0. destruct (par u <? b)%nat; lra.
        - rewrite sumf_cons. specialize (IH (Datatypes.S b)). destruct (Nat.eqb_spec (par u) b) as [E|NE].
          + rewrite (proj2 (Nat.ltb_lt (par u) (Datatypes.S b))) in IH by lia. rewrite (proj2 (Nat.ltb_ge (par u) b)) by lia. revert IH. destruct (u =? r)%nat; cbn [negb andb]; lra.
          + rewrite andb_false_r. destruct (Nat.ltb_spec (par u) (Datatypes.S b)), (Nat.ltb_spec (par u) b); try lia; lra. }
      specialize (H V 0%nat). replace (par u <? 0)%nat with false in H by reflexivity. lra. }
  specialize (G (seq 0 V)). rewrite seq_length in G. exact G.
Qed.

Section LAW.
Variables (lib : numlib) (ws : list nat) (V M N d : nat) (m : smodel) (A W b c : Z) (eta lambda : R) (s : server32) (sx : server) (row : list Z) (edges : list (nat * nat)).
Hypothesis LIB : lib_ok lib.
Hypothesis ACC : accurate W eta lambda lib.
Hypothesis C : consistent ws V M N m.
Hypothesis CB : counts_below A ws N m.
Hypothesis HA : (6 <= A <= 16)%Z.
Hypothesis HE : bp (-23) <= eta.
Hypothesis WM : (Z.of_nat (M * M) <= W)%Z.
Hypothesis Hb : (0 <= b <= 140)%Z.
Hypothesis Hc : (0 <= c)%Z.
Notation L := (A + 3 + (b + 4) * c)%Z.
Hypothesis HL : (2 * L + (A + 8) * Z.of_nat d + 24 <= 126)%Z.
Hypothesis DG : degree_at_most d m.
Hypothesis TB : tables32 ws V M A m s.
Hypothesis TA : atables ws V M m eta s.
Hypothesis RL : length row = list_sum ws.
Hypothesis RN : Forall (fun x => (0 <= x)%Z) row.
Hypothesis RC : forall v, (v < V)%nat -> (block_sum ws row v <= c)%Z.
Hypothesis RF : forall v q k, (v < V)%nat -> In q (block ws v) -> (k < M)%nat -> nth q row 0%Z <> 0%Z -> bp (- b) <= feat_prob ws m v q k.
Hypothesis SF : sfacts ws V M edges sx.
Hypothesis ST : sv_tree sx = d_tree m.
Hypothesis SV : forall v k, sv_vert sx v k = vert_prob m v k.
Hypothesis SE : forall e c1 c2, sv_edge sx e c1 c2 = edge_prob m e c1 c2.
Hypothesis SFe : forall v q k, (v < V)%nat -> In q (block ws v) -> sv_feat sx q k = feat_prob ws m v q k.
Notation es := (grid_edges (make_tree edges)).
Variables (r : nat) (par dep : nat -> nat).
Hypothesis RT : rooted V es r par dep.
Variable np : list (nat * option nat * list nat).
Hypothesis BL : bfs_list V r par np.
Notation PSI := (opair edges par (sv_trans sx)).
Variables (n : nat) (counts : list Z).
Hypothesis CL : length counts = V.
Hypothesis C0 : forall v, (v < V)%nat -> (0 <= nth v counts 0 <= 127)%Z.
Hypothesis CW : forall v, (v < V)%nat -> (0 < nth v counts 0%Z)%Z -> block ws v <> [].
Notation cnt v := (Z.to_nat (nth v counts 0%Z)).
Hypothesis SMALL : forall v, (v < V)%nat -> msg_err ws V eta row r par v <= 1 / 4.
Hypothesis SM2 : 28 * eta <= 1 / 4.
Hypothesis EP : s3_prog s = prog_of edges r par np.

Let HM : (1 <= M <= 128)%nat.
Proof. apply (cm_M _ _ _ _ _ C). Qed.
Let E0 : 0 < eta.
Proof. pose proof eps_pos. lra. Qed.

Section Msg.
Variable mn : nat -> nat -> f32.
Hypothesis PS : passed ws V M d m A b c eta s sx row edges r par (map ev np) mn.
Notation msg := (fun v k => val (mn v k)).

Lemma in_np v : (v < V)%nat -> In v (map ev np).
Proof. intros Hv. change (In v (order np)). eapply Permutation_in; [apply Permutation_sym, (order_perm V r par np BL)|]. apply in_seq. lia. Qed.

Lemma mn_good v k : (v < V)%nat -> (k < M)%nat -> fin32 (mn v k) = true /\ bp (- (L + (A + 8) * Z.of_nat d)) <= val (mn v k) <= 1.
Proof. intros Hv Hk. destruct PS as (P1 & _). destruct (P1 v (in_np v Hv)) as ((G & _) & _). now apply G. Qed.
Lemma mn_pos : mpos V M msg.
Proof. intros v k Hv Hk. destruct (mn_good v k Hv Hk) as (_ & B). pose proof (bp_pos (- (L + (A + 8) * Z.of_nat d))). lra. Qed.

Lemma out_weight z v : (forall u, (z u < M)%nat) -> (v < V)%nat -> exists a, 0 < a /\
  forall k, (k < M)%nat -> agree (28 * eta) (w32 M edges s r par mn z v k) (a * outw edges sx r par msg z v k).
Proof.
  intros Hz Hv. unfold w32, outw. destruct (Nat.eqb_spec v r) as [->|NR].
  - exists 1. split; [lra|]. intros k Hk. rewrite Rmult_1_l. apply agree_refl; [lra|]. left. now apply mn_pos.
  - pose proof (par_lt _ _ _ _ _ RT v Hv) as Hp. set (j := z (par v)). assert (Hj : (j < M)%nat) by apply Hz.
    set (f := fun k => fmul (mn v k) (t32 s edges par v j k)).
    assert (FA : forall k, (k < M)%nat -> fin32 (f k) = true /\ agree (27 * eta) (val (f k)) (1 * (PSI v j k * val (mn v k))) /\ val (f k) <= bp (2 * A + 8)).
    { intros k Hk. destruct (mn_good v k Hv Hk) as (F1 & B1). destruct (t32_range ws V M N m A W s row edges C WM TB RL r par dep RT v j k Hv NR Hj Hk) as (F2 & B2).
      pose proof (t32_agree ws V M N m W eta s sx row edges C WM TA RL SF ST SV SE r par dep RT v j k Hv NR Hj Hk) as TG.
      destruct (fmul_agree (mn v k) (t32 s edges par v j k) F1 F2) as (F3 & G).
      { split.
        - apply Rle_trans with (bp (- (L + (A + 8) * Z.of_nat d) + - (A + 11))); [apply bpow_le; nia|]. rewrite bpow_plus. apply Rmult_le_compat; try apply bpow_ge_0; tauto.
        - apply Rle_trans with (1 * bp (2 * A + 6)); [apply Rmult_le_compat; try tauto|rewrite Rmult_1_l; apply bpow_le; lia].
          + pose proof (bp_pos (- (L + (A + 8) * Z.of_nat d))). lra.
          + pose proof (bp_pos (- (A + 11))). lra. }
      split; [exact F3|]. split.
      - rewrite Rmult_1_l, (Rmult_comm (PSI v j k)). apply agree_weak with (bp (-23) + (0 + 26 * eta)); [lra|]. eapply agree_trans; [exact G|]. apply agree_mul; [|exact TG].
        apply agree_refl; [lra|]. pose proof (bp_pos (- (L + (A + 8) * Z.of_nat d))). lra.
      - destruct G as (_ & _ & G). unfold f. eapply Rle_trans; [exact G|]. replace (2 * A + 8)%Z with (2 * A + 6 + 2)%Z by lia. rewrite bpow_plus. apply Rmult_le_compat.
        + apply Rmult_le_pos; [pose proof (bp_pos (- (L + (A + 8) * Z.of_nat d))); lra|pose proof (bp_pos (- (A + 11))); lra].
        + left. apply exp_pos.
        + rewrite <- (Rmult_1_l (bp (2 * A + 6))). apply Rmult_le_compat; try tauto; [pose proof (bp_pos (- (L + (A + 8) * Z.of_nat d))); lra|pose proof (bp_pos (- (A + 11))); lra].
        + apply Rle_trans with (exp (1 / 2)); [apply exp_le; lra|]. eapply Rle_trans; [exact exp_half|]. cbn. lra. }
    assert (RG : ranged M (2 * A + 9 + (L + (A + 8) * Z.of_nat d)) (fun k => PSI v j k * val (mn v k))).
    { apply ranged_mul; [eapply psi_ranged; eauto|]. apply ranged_within. intros k Hk. now apply mn_good. }
    destruct (agree_ranged M _ (27 * eta) 1 (fun k => val (f k)) _ ltac:(lra) ltac:(lra) RG ltac:(intros k Hk; apply (FA k Hk))) as (FP & FR).
    destruct (rescaled_agree M f (2 * A + 8) (2 * A + 9 + (L + (A + 8) * Z.of_nat d) + 1)) as (a & Pa & _ & RA); auto; [lia|nia| |].
    { intros k Hk. split; [apply FA, Hk|]. split; [now apply FP|now apply FA]. }
    exists a. split; [exact Pa|]. intros k Hk. destruct (RA k Hk) as (_ & _ & G). apply agree_weak with (bp (-23) + 27 * eta); [lra|].
    eapply agree_trans; [exact G|]. apply agree_scale; [lra|]. rewrite <- (Rmult_1_l (PSI v j k * val (mn v k))). now apply FA.
Qed.

Lemma w32_pos z v k : (forall u, (z u < M)%nat) -> (v < V)%nat -> (k < M)%nat -> 0 < w32 M edges s r par mn z v k.
Proof.
  intros Hz Hv Hk. destruct (out_weight z v Hz Hv) as (a & Pa & G). apply (agree_pos _ _ _ (G k Hk)). apply Rmult_lt_0_compat; [exact Pa|].
  apply (outw_pos ws V M edges sx SF r par dep RT msg mn_pos); auto.
Qed.

Definition draw_err (v : nat) : R := 56 * eta + INR (cnt v) * (16 * eta).

Lemma rv_near X l : (forall v, In v l -> (v < V)%nat) -> forall z x, (forall u, (z u < M)%nat) ->
  agree (sumf l draw_err) (rv32 ws M edges s r par counts mn (hits ws V X) l z x) (rv ws M edges sx r par counts msg (hits ws V X) l z x).
Proof.
  induction l as [|v l IH]; intros HI z x Hz.
  - cbn [rv32 rv]. change (sumf [] draw_err) with 0. apply agree_refl; [lra|]. rewrite (hits_eq ws V M edges sx SF counts row CL RL). destruct (forallb _ _); lra.
  - cbn [rv32 rv]. rewrite sumf_cons. apply agree_sum. intros k Ik. pose proof Ik as Ik'. apply in_seq in Ik'. assert (Hv : (v < V)%nat) by (apply HI; now left).
    destruct (out_weight z v Hz Hv) as (a & Pa & G). unfold draw_err at 1.
    replace (56 * eta + INR (cnt v) * (16 * eta) + sumf l draw_err) with (2 * (28 * eta) + (sumf l draw_err + INR (cnt v) * (2 * (8 * eta)))) by ring.
    apply agree_mul.
    + apply (share_agree (28 * eta) a); auto.
      * intros j I. apply in_seq in I. apply (outw_pos ws V M edges sx SF r par dep RT msg mn_pos); auto; lia.
      * intros j I. apply in_seq in I. apply G. lia.
    + apply cellstep_agree; [lra| | |].
      * intros q I. apply (sf_feat _ _ _ _ _ SF v); auto. lia.
      * intros q I. rewrite (SFe v q k Hv I). apply (ta_feat _ _ _ _ _ _ TA); auto. lia.
      * intros y. apply IH; [intros; apply HI; now right|]. intros u. unfold set1. destruct (u =? v)%nat; [lia|apply Hz].
Qed.

Lemma kap_all : exists kap : nat -> R, (forall v, (v < V)%nat -> 0 < kap v) /\ forall v k, (v < V)%nat -> (k < M)%nat ->
  agree (msg_err ws V eta row r par v) (val (mn v k)) (kap v * (L_Inward.node ws sx row v k * prodf (L_BP.kids V r par v) (fun u => up M PSI msg u k))).
Proof.
  destruct PS as (P1 & _).
  assert (G : forall n, (n <= V)%nat -> exists kap : nat -> R, forall v, (v < n)%nat -> 0 < kap v /\ forall k, (k < M)%nat ->
    agree (msg_err ws V eta row r par v) (val (mn v k)) (kap v * (L_Inward.node ws sx row v k * prodf (L_BP.kids V r par v) (fun u => up M PSI msg u k)))).
  { induction n0 as [|i IH]; intros Hi; [exists (fun _ => 0); intros; lia|].
    destruct (IH ltac:(lia)) as (kap & K). destruct (P1 i (in_np i ltac:(lia))) as (_ & kp & Pk & G).
    exists (set1 kap i kp). intros v Hv. destruct (Nat.eq_dec v i) as [->|NE].
    - rewrite set1_same. split; [exact Pk|]. intros k Hk. unfold L_Inward.node. rewrite SV. now apply G.
    - rewrite set1_other by auto. apply K. lia. }
  destruct (G V (le_n V)) as (kap & K). exists kap. split; [intros v Hv; now apply K|intros v k Hv Hk; now apply K].
Qed.
End Msg.

Definition row_err : R := sumf (seq 0 V) (fun v => 2 * msg_err ws V eta row r par v + draw_err v).

Lemma sample32_law X : length X = n -> (forall x, In x X -> legal_row ws counts x) ->
  agree (INR n * row_err) (prob_of (ideal (sample32 lib s n counts (Some row))) X)
    (prodf X (fun x => arrangements ws counts x * (row_prob ws m (merge row x) / row_prob ws m row))).
Proof.
  intros LX LR. unfold prob_of, prob, sample32, sample32_with.
  rewrite (t3_R _ _ _ _ _ _ TB), (t3_V _ _ _ _ _ _ TB), RL, CL, !Nat.eqb_refl. cbn [assert_ flift fbind].
  rewrite ideal_bind, EP. unfold prog_of.
  destruct (inward_law lib ws V M N d m A W b c eta lambda s sx row edges LIB ACC C CB HA HE WM Hb Hc HL DG TB TA RL RN RC RF SF ST SV SE SFe r par dep RT np BL n counts SMALL
     (fun v _ k => s3_vert s v k) (fun _ _ => 0%nat) (fun _ _ => 0%Z)) as (mn & E & PS).
  rewrite (ffold_app _ _ _ _ _ E). rewrite ideal_fold, expect_bind.
  rewrite (root_out_expect32 ws V M edges sx s SF r par dep RT np BL lib n counts row CL RL CW (t3_V _ _ _ _ _ _ TB) (t3_M _ _ _ _ _ _ TB) (t3_ri _ _ _ _ _ _ TB))
    with (fin := fun i => hits ws V (fun q => nth q (nth i X []) 0%Z)).
  - rewrite (prodf_nth X []), LX. replace (INR n * row_err) with (sumf (seq 0 n) (fun _ => row_err)) by (now rewrite sumf_const, seq_length).
    apply agree_prodf. intros i Hi. apply in_seq in Hi.
    assert (LE : legal_row ws counts (nth i X [])) by (apply LR, nth_In; lia). pose proof LE as (L1 & L2 & L3). pose proof (sf_ws _ _ _ _ _ SF) as LW.
    unfold row_err. rewrite sumf_plus, Rplus_comm.
    assert (OIN : forall v, In v (order np) -> (v < V)%nat).
    { intros v I. eapply Permutation_in in I; [|apply (order_perm V r par np BL)]. apply in_seq in I. lia. }
    eapply agree_trans.
    + rewrite <- (sumf_perm _ _ _ (order_perm V r par np BL)). apply (rv_near mn PS _ (order np) OIN). intros; lia.
    + rewrite (rv_val ws V M edges sx SF r par counts row CL RL _ (fun q => nth q (nth i X []) 0%Z)) with (done := []).
      * unfold prodf at 1. cbn [fold_right map]. rewrite Rmult_1_l, sumf_scal.
        rewrite <- !(total_eq ws V M m edges sx SF ST (proj1 (cm_M _ _ _ _ _ C)) SV SE SFe).
        destruct (kap_all mn PS) as (kap & KP & AG).
        exact (val_near ws V M edges sx SF r par dep RT np BL counts row CL RL CW (fun v k => val (mn v k)) (mn_pos mn PS) (fun v => msg_err ws V eta row r par v) kap KP AG (nth i X []) LE).
      * intros v q Hv Hq. apply L2, nth_In. rewrite L1. eapply in_block_lt; eauto.
      * intros v Hv. apply L3. lia.
      * intros v Hv. now apply C0.
      * apply (order_perm V r par np BL).
      * auto.
  - intros v q k Hv Hq Hk. apply (t3_feat _ _ _ _ _ _ TB v q k Hv Hq Hk).
  - intros z v k. apply (w32_pos mn PS).
  - intros mi mo vs fs. cbn [expect ideal]. rewrite <- (rows_eq ws V M edges sx SF n counts row CL RL); auto.
    + destruct (list_eq_dec _ _ X); reflexivity.
    + intros x Hx. apply LR, Hx.
  - intros v i. lia.
Qed.
End LAW.
