(** The float32 messages of [TreeCatServer.sample]: the whole inward pass. *)
From Coq Require Import List Arith Bool ZArith Reals Lra Lia Permutation.
From Flocq Require Import Core Relative IEEE754.BinarySingleNaN.
From Verif Require Import Base L_Base Spec_Graph L_Graph Spec_Sum L_Sum M_Structure L_Pairing L_MakeTree L_Program L_ProgramValid Spec_Program L_Center L_Prop1 M_Util Spec_Ragged L_Ragged M_Array M_Training Spec_MST Spec_Stats L_Stats L_Trainer Spec_Conditional L_Asg L_BP L_BPVec L_AddRow
  M_Float32 M_Train32 Spec_Float32 L_Float32 L_Sample32 L_Train32 L_Train32c L_Train32d L_Train32i M_Serving Spec_Serving L_Server L_Inward L_Serve1 M_Serving32 Spec_Serving32 L_Serving32a L_Serving32b L_Serving32c L_Serving32d M_Sample32 Spec_Accuracy L_Acc1 L_Acc2 L_Acc3 L_Law1.
Import ListNotations.
Open Scope R_scope.

(** ** Going through the entries of a program, leaves first *)
Section ENTRIES.
Variables (V : nat) (es : list (nat * nat)) (r : nat) (par dep : nat -> nat).
Hypothesis RT : rooted V es r par dep.
Variable np : list (nat * option nat * list nat).
Hypothesis BL : bfs_list V r par np.
Variables (St : Type) (run : (nat * option nat * list nat) -> St -> St -> Prop) (Inv : list nat -> St -> Prop).
Hypothesis STEP : forall x P st, good V r par x -> ~ In (ev x) P -> NoDup P -> (forall v, In v P -> (v < V)%nat) ->
  (forall c, (c < V)%nat -> c <> r -> par c = ev x -> In c P) -> (forall c, (c < V)%nat -> c <> r -> In (par c) P -> In c P) ->
  Inv P st -> exists st', run x st st' /\ Inv (ev x :: P) st'.

Fixpoint runs (l : list (nat * option nat * list nat)) (st st' : St) : Prop :=
  match l with [] => st' = st | x :: l => exists st1, run x st st1 /\ runs l st1 st' end.

Lemma runs_all st0 : Inv [] st0 -> exists st, runs (rev np) st0 st /\ Inv (map ev np) st.
Proof.
  intros I0. pose proof (bl_perm _ _ _ _ BL) as BP. pose proof (bl_good _ _ _ _ BL) as BG. pose proof (bl_first _ _ _ _ BL) as BF.
  assert (G : forall todo done_, np = todo ++ done_ -> forall st1, Inv (map ev done_) st1 -> exists st, runs (rev todo) st1 st /\ Inv (map ev np) st).
  { induction todo as [|x todo IH] using rev_ind; intros done_ E st1 PR.
    - exists st1. split; [reflexivity|]. now rewrite E.
    - rewrite rev_app_distr. cbn [rev app runs]. rewrite E in BP, BG, BF.
      assert (ND : NoDup (map ev ((todo ++ [x]) ++ done_))).
      { eapply Permutation_NoDup; [apply Permutation_sym; exact BP|apply seq_NoDup]. }
      rewrite !map_app in ND. cbn [map] in ND.
      assert (INV : forall v, In v (map ev ((todo ++ [x]) ++ done_)) <-> (v < V)%nat).
      { intros v. split; intros I.
        - eapply Permutation_in in I; [|exact BP]. apply in_seq in I. lia.
        - eapply Permutation_in; [apply Permutation_sym; exact BP|]. apply in_seq. lia. }
      assert (AFTER : forall c, (c < V)%nat -> c <> r -> In (par c) (map ev (x :: done_)) -> In c (map ev done_)).
      { intros c Hc N I. apply INV in Hc as Hc'. rewrite !map_app in Hc'. apply in_app_iff in Hc'.
        destruct Hc' as [Hc'|]; auto. exfalso.
        rewrite <- map_app in Hc'. apply in_split in Hc'. destruct Hc' as (pre & post & E1).
        assert (E2 : map ev ((todo ++ [x]) ++ done_) = pre ++ c :: post ++ map ev done_).
        { rewrite map_app, E1. rewrite <- app_assoc. reflexivity. }
        pose proof (BF pre c _ E2 N) as I2.
        assert (PC : par c = ev x \/ In (par c) (map ev done_)) by (destruct I; auto).
        destruct PC as [PC|PC].
        + rewrite map_app in E1. cbn [map] in E1. destruct post as [|q post] using rev_ind.
          * apply app_inj_tail in E1. destruct E1 as [_ E1]. apply (par_neq _ _ _ _ _ RT c Hc N). congruence.
          * clear IHpost. rewrite app_comm_cons, app_assoc in E1. apply app_inj_tail in E1. destruct E1 as [E1 _].
            rewrite <- app_assoc in ND. apply NoDup_app_inv in ND. destruct ND as (_ & _ & D).
            apply (D (par c)); [rewrite E1; apply in_app_iff; auto|]. rewrite PC. now left.
        + apply NoDup_app_inv in ND. destruct ND as (_ & _ & D).
          rewrite map_app in E1. cbn [map] in E1. apply (D (par c)); [rewrite E1; apply in_app_iff; auto|auto]. }
      destruct (STEP x (map ev done_) st1) as (st2 & R2 & PR2); auto.
      + rewrite Forall_forall in BG. apply BG. apply in_app_iff. left. apply in_app_iff. right. now left.
      + rewrite <- app_assoc in ND. apply NoDup_app_inv in ND. destruct ND as (_ & ND & _). now inversion ND.
      + apply NoDup_app_inv in ND. tauto.
      + intros v I. apply INV. rewrite !map_app. apply in_app_iff. now right.
      + intros c Hc N Ec. apply AFTER; auto. rewrite Ec. now left.
      + intros c Hc N I. apply AFTER; auto. now right.
      + destruct (IH (x :: done_) ltac:(rewrite E, <- app_assoc; reflexivity) st2 PR2) as (st & R & I). exists st. split; [|exact I]. eauto. }
  apply (G np [] (eq_sym (app_nil_r np)) st0 I0).
Qed.
End ENTRIES.

(** ** Children *)
Lemma kids_degree V edges r par dep m d : rooted V (grid_edges (make_tree edges)) r par dep ->
  ts_get_edges (d_tree m) = grid_edges (make_tree edges) -> ts_V (d_tree m) = V -> degree_at_most d m -> forall v, (v < V)%nat -> (length (kids V r par v) <= d)%nat.
Proof.
  intros RT ET EV DG v Hv. specialize (DG v ltac:(lia)). rewrite ET in DG. eapply Nat.le_trans; [|exact DG].
  rewrite <- (map_length (fun c => norm (c, v)) (kids V r par v)). apply NoDup_incl_length.
  - assert (X : forall l, NoDup l -> NoDup (map (fun c => norm (c, v)) l)).
    { induction l as [|x l IH]; intros ND; [constructor|]. inversion ND; subst. cbn [map]. constructor; [|now apply IH]. intros I. apply in_map_iff in I.
      destruct I as (y & E & I). unfold norm in E. cbn in E. injection E as E1 E2. assert (x = y) by lia. subst y. contradiction. }
    apply X, kids_NoDup.
  - intros f I. apply in_map_iff in I. destruct I as (c & <- & I). apply in_kids in I. destruct I as (Hc & NR & EP).
    destruct (eidx_spec _ _ _ _ _ RT c Hc NR) as (E & _). rewrite EP in E. apply filter_In. split; [now apply nth_error_In in E|].
    unfold norm. cbn. apply orb_true_iff. rewrite !Nat.eqb_eq. lia.
Qed.

(** ** The float program *)
Lemma ffold_app {A T} (f : T -> A -> fprog T) l1 l2 : forall s t, ffold f l1 s = FRet t -> ffold f (l1 ++ l2) s = ffold f l2 t.
Proof.
  induction l1 as [|a l1 IH]; intros s t E; cbn [ffold app] in *; [injection E as ->; reflexivity|].
  destruct (f s a) as [x|e|w k]; cbn [fbind] in *; [now apply IH|discriminate|discriminate].
Qed.

Section PASS.
Variables (lib : numlib) (ws : list nat) (V M N d : nat) (m : smodel) (A W b c : Z) (eta lambda : R) (s : server32) (sx : server) (row : list Z) (edges : list (nat * nat)).
Hypothesis LIB : lib_ok lib.
Hypothesis ACC : accurate W eta lambda lib.
Hypothesis C : consistent ws V M N m.
Hypothesis CB : counts_below A ws N m.
Hypothesis HA : (6 <= A <= 16)%Z.
Hypothesis HE : bp (-23) <= eta.
Hypothesis WM : (Z.of_nat (M * M) <= W)%Z.
Hypothesis Hb : (0 <= b <= 140)%Z.
Hypothesis Hc : (0 <= c)%Z.
Notation L := (A + 3 + (b + 4) * c)%Z.
Hypothesis HL : (2 * L + (A + 8) * Z.of_nat d + 24 <= 126)%Z.
Hypothesis DG : degree_at_most d m.
Hypothesis TB : tables32 ws V M A m s.
Hypothesis TA : atables ws V M m eta s.
Hypothesis RL : length row = list_sum ws.
Hypothesis RN : Forall (fun x => (0 <= x)%Z) row.
Hypothesis RC : forall v, (v < V)%nat -> (block_sum ws row v <= c)%Z.
Hypothesis RF : forall v q k, (v < V)%nat -> In q (block ws v) -> (k < M)%nat -> nth q row 0%Z <> 0%Z -> bp (- b) <= feat_prob ws m v q k.
Hypothesis SF : sfacts ws V M edges sx.
Hypothesis ST : sv_tree sx = d_tree m.
Hypothesis SV : forall v k, sv_vert sx v k = vert_prob m v k.
Hypothesis SE : forall e c1 c2, sv_edge sx e c1 c2 = edge_prob m e c1 c2.
Hypothesis SFe : forall v q k, (v < V)%nat -> In q (block ws v) -> sv_feat sx q k = feat_prob ws m v q k.
Notation es := (grid_edges (make_tree edges)).
Variables (r : nat) (par dep : nat -> nat).
Hypothesis RT : rooted V es r par dep.
Variable np : list (nat * option nat * list nat).
Hypothesis BL : bfs_list V r par np.
Notation PSI := (opair edges par (sv_trans sx)).

Let HM : (1 <= M <= 128)%nat.
Proof. apply (cm_M _ _ _ _ _ C). Qed.
Let E0 : 0 < eta.
Proof. pose proof eps_pos. lra. Qed.
Let HL' : (2 * L + 20 <= 126)%Z.
Proof. nia. Qed.
Let HLo : (2 * L + A + 11 <= 149)%Z.
Proof. nia. Qed.
Let ETS : ts_get_edges (d_tree m) = es.
Proof. destruct (sf_tree _ _ _ _ _ SF) as (E & _). rewrite ST in E. rewrite E. reflexivity. Qed.
Let EVV : ts_V (d_tree m) = V.
Proof. destruct (cm_tree _ _ _ _ _ C) as (l & _ & ->). reflexivity. Qed.

(** The weight of class [k] of feature [v] and of what is observed of it. *)
Definition node (v k : nat) : R := vert_prob m v k * likeli ws sx row v k.

Lemma nonzero_both v : (v < V)%nat -> forall l msg mx p e D, incl l (block ws v) -> (zsum (map (fun q => nth q row 0%Z) l) <= c)%Z ->
  (0 <= p)%Z -> (p + (b + 4) * zsum (map (fun q => nth q row 0%Z) l) <= 126)%Z ->
  (forall k, (k < M)%nat -> fin32 (msg k) = true /\ bp (- p) <= val (msg k) <= 1 /\ agree e (val (msg k)) (mx k)) -> ranged M D mx ->
  exists msg', foldM (fun message r => power <- get IndexError row r ;;
            Ok (if (power =? 0)%Z then message else fun m => fmul (message m) (l_pow lib (s3_feat s r m) power))) l msg = Ok msg' /\
    (forall k, (k < M)%nat -> fin32 (msg' k) = true /\ bp (- (p + (b + 4) * zsum (map (fun q => nth q row 0%Z) l))) <= val (msg' k) <= 1 /\
      agree (e + charge eta row l) (val (msg' k)) (mx k * prodf l (fun q => powerRZ (sv_feat sx q k) (nth q row 0%Z)))) /\
    ranged M (D + b * zsum (map (fun q => nth q row 0%Z) l)) (fun k => mx k * prodf l (fun q => powerRZ (sv_feat sx q k) (nth q row 0%Z))).
Proof.
  intros Hv. induction l as [|q l IH]; intros msg mx p e D IL HS Hp HB G RD.
  - exists msg. split; [reflexivity|]. unfold charge. cbn [map zsum fold_right length]. rewrite !Z.mul_0_r, !Z.add_0_r. change (2 * Z.of_nat 0 + 8 * 0)%Z with 0%Z.
    rewrite Rmult_0_l, Rplus_0_r. unfold prodf. cbn [map fold_right]. split; [intros k Hk; rewrite Rmult_1_r; auto|]. destruct RD as (D1 & D2). split; intros; rewrite ?Rmult_1_r; auto.
  - unfold charge in *. cbn [foldM map zsum fold_right length] in *. fold (zsum (map (fun q => nth q row 0%Z) l)) in *.
    assert (Iq : In q (block ws v)) by (apply IL; now left). pose proof (nonneg_at row RN q) as P0. pose proof (zsum_nonneg ws V M N m W row C WM RL RN l) as Z0.
    assert (Q : (q < length row)%nat) by (rewrite RL; now apply (block_lt ws V M N m C v)).
    unfold get at 1. rewrite (nth_error_nth' row 0%Z Q). cbn [bind]. set (n := nth q row 0%Z) in *.
    assert (PX : forall k, mx k * prodf (q :: l) (fun q => powerRZ (sv_feat sx q k) (nth q row 0%Z)) =
      mx k * powerRZ (sv_feat sx q k) n * prodf l (fun q => powerRZ (sv_feat sx q k) (nth q row 0%Z))).
    { intros k. rewrite prodf_cons. fold n. ring. }
    destruct (IH (if (n =? 0)%Z then msg else fun k => fmul (msg k) (l_pow lib (s3_feat s q k) n)) (fun k => mx k * powerRZ (sv_feat sx q k) n) (p + (b + 4) * n)%Z (e + (eta + IZR n * (8 * eta)) + bp (-23)) (D + b * n)%Z) as (msg' & E1 & R & RR).
    + intros k I. apply IL. now right.
    + lia.
    + nia.
    + nia.
    + intros k Hk. destruct (G k Hk) as (G1 & G2 & G3). destruct (Z.eqb_spec n 0) as [N0|NZ].
      { rewrite N0. cbn [powerRZ]. rewrite Rmult_1_r, Z.mul_0_r, Z.add_0_r. split; [exact G1|]. split; [exact G2|]. eapply agree_weak; [|exact G3]. pose proof eps_pos. lra. }
      pose proof (bp_pos (- p)) as Pp. assert (G2' : 0 <= val (msg k) <= 1) by lra.
      destruct (power_low lib ws V M N m A b c s row LIB C HA Hb HLo TB RL RN RF v q k Hv Iq Hk ltac:(lia)) as (W1 & W2 & W3). fold n in W1, W2, W3.
      pose proof (power_agree lib ws V M N m A W b c eta lambda s row ACC C HA WM Hb Hc HL' TB TA RL RN RF v q k Hv Iq Hk ltac:(fold n; lia)) as PA. fold n in PA.
      destruct (mul_pow M HM (msg k) (l_pow lib (s3_feat s q k) n) 0 0 (- p) (- ((b + 4) * n)) G1 W1 G2' W2 ltac:(lia)) as (X1 & X2 & X3).
      split; [exact X1|]. split; [split; [|apply X2]|].
      * replace (- (p + (b + 4) * n))%Z with (- p + - ((b + 4) * n))%Z by lia. apply X3; [nia|tauto|tauto].
      * rewrite (SFe v q k Hv Iq).
        destruct (fmul_agree (msg k) (l_pow lib (s3_feat s q k) n) G1 W1) as (_ & Y).
        { split.
          - apply Rle_trans with (bp (- p + - ((b + 4) * n))); [apply bpow_le; nia|]. rewrite bpow_plus. apply Rmult_le_compat; try apply bpow_ge_0; tauto.
          - apply Rle_trans with (bp 0); [change (bp 0) with 1; nra|apply bpow_le; lia]. }
        replace (e + (eta + IZR n * (8 * eta)) + bp (-23)) with (bp (-23) + (e + (eta + IZR n * (8 * eta)))) by ring.
        eapply agree_trans; [exact Y|]. now apply agree_mul.
    + apply ranged_mul; [exact RD|].
      destruct (power_ranged ws V M N m A W b row C CB HA WM RL RN RF v q Hv Iq) as (PR1 & PR2). fold n in PR1, PR2. split; intros; rewrite !(SFe v q _ Hv Iq) by auto; auto.
    + exists msg'. split; [exact E1|]. split.
      * intros k Hk. destruct (R k Hk) as (R1 & R2 & R3). split; [exact R1|]. split.
        -- replace (p + (b + 4) * (n + zsum (map (fun q => nth q row 0%Z) l)))%Z with (p + (b + 4) * n + (b + 4) * zsum (map (fun q => nth q row 0%Z) l))%Z by lia. exact R2.
        -- rewrite PX. eapply agree_weak; [|exact R3]. rewrite !plus_IZR, !mult_IZR, !plus_IZR, Nat2Z.inj_succ, succ_IZR. nra.
      * destruct RR as (RR1 & RR2). replace (D + b * (n + zsum (map (fun q => nth q row 0%Z) l)))%Z with (D + b * n + b * zsum (map (fun q => nth q row 0%Z) l))%Z by lia.
        split; intros; rewrite !PX; auto.
Qed.

(** ** One feature *)
Variables (n : nat) (counts : list Z).
Notation STEP := (sample_instr32_with lib (observe_nonzero32 lib) s n counts row).
Notation DX := (A + 1 + b * c)%Z.
Notation val2 mn := (fun u k => val (mn u k : f32)).

Definition node_err (v : nat) : R := 8 * eta + charge eta row (block ws v).

Lemma node_start v : (v < V)%nat -> exists msg', observe_nonzero32 lib s row v (s3_vert s v) = Ok msg' /\
  (forall k, (k < M)%nat -> fin32 (msg' k) = true /\ bp (- L) <= val (msg' k) <= 1 /\ agree (node_err v) (val (msg' k)) (node v k)) /\
  ranged M DX (node v).
Proof.
  intros Hv. unfold observe_nonzero32. rewrite (t3_ri _ _ _ _ _ _ TB). pose proof (cm_width _ _ _ _ _ C) as WD. rewrite !mri_get by lia. cbn [bind].
  assert (E : (list_sum (firstn (v + 1) ws) - list_sum (firstn v ws) = nth v ws 0)%nat).
  { rewrite Nat.add_1_r, sum_firstn_S by lia. lia. }
  rewrite E. fold (block ws v). pose proof (RC v Hv) as Rv. rewrite block_sum_zsum in Rv.
  pose proof (zsum_nonneg ws V M N m W row C WM RL RN (block ws v)) as Z0.
  destruct (nonzero_both v Hv (block ws v) (s3_vert s v) (vert_prob m v) (A + 3)%Z (8 * eta) (A + 1)%Z) as (msg' & E' & R & RR); auto; [apply incl_refl|lia|nia| | |].
  { intros k Hk. destruct (t3_vert _ _ _ _ _ _ TB v k Hv Hk) as (B1 & B2). split; [exact B1|]. split; [exact B2|]. now apply (ta_vert _ _ _ _ _ _ TA). }
  { now apply (vert_ranged ws V M N m A W row C CB HA WM RL). }
  exists msg'. split; [exact E'|]. split.
  - intros k Hk. destruct (R k Hk) as (R1 & R2 & R3). split; [exact R1|]. split; [|exact R3]. split; [|apply R2].
    eapply Rle_trans; [|apply R2]. apply bpow_le. nia.
  - apply (ranged_weak M (A + 1 + b * zsum (map (fun q => nth q row 0%Z) (block ws v)))); [nia|exact RR].
Qed.

Definition mgood' (f : nat -> f32) : Prop :=
  (forall k, (k < M)%nat -> fin32 (f k) = true /\ bp (- (L + (A + 8) * Z.of_nat d)) <= val (f k) <= 1) /\ exists k, (k < M)%nat /\ bp (- L) <= val (f k).

Lemma children v mo vs fs : (v < V)%nat -> forall cs mn fx kap ef j, NoDup cs -> ~ In v cs ->
  (forall u, In u cs -> (u < V)%nat /\ u <> r /\ par u = v /\ mgood' (mn u)) -> 0 < kap ->
  (forall k, (k < M)%nat -> fin32 (mn v k) = true /\ bp (- (L + (A + 8) * Z.of_nat j)) <= val (mn v k) <= 1 /\ agree ef (val (mn v k)) (kap * fx k)) ->
  (exists k, (k < M)%nat /\ bp (- L) <= val (mn v k)) -> ranged M (DX + (A + 8) * Z.of_nat j) fx ->
  (j + length cs <= d)%nat -> ef + 29 * eta * INR (length cs) <= 1 / 4 ->
  exists mn' kap', ffold STEP (map (fun u => I OP_IN v u (eidx edges par u)) cs) (mn, mo, vs, fs) = FRet (mn', mo, vs, fs) /\
    (forall w, w <> v -> mn' w = mn w) /\ 0 < kap' /\
    (forall k, (k < M)%nat -> fin32 (mn' v k) = true /\ bp (- (L + (A + 8) * Z.of_nat (j + length cs))) <= val (mn' v k) <= 1 /\
      agree (ef + 29 * eta * INR (length cs)) (val (mn' v k)) (kap' * (fx k * prodf cs (fun u => up M PSI (val2 mn) u k)))) /\
    (exists k, (k < M)%nat /\ bp (- L) <= val (mn' v k)) /\
    ranged M (DX + (A + 8) * Z.of_nat (j + length cs)) (fun k => fx k * prodf cs (fun u => up M PSI (val2 mn) u k)).
Proof.
  intros Hv. induction cs as [|u cs IH]; intros mn fx kap ef j ND NI G Pk F FK RF' Hd Hsm.
  - exists mn, kap. split; [reflexivity|]. split; [auto|]. split; [exact Pk|]. cbn [length]. rewrite Nat.add_0_r. unfold prodf. cbn [map fold_right INR].
    split; [intros k Hk; rewrite !Rmult_1_r, Rmult_0_r, Rplus_0_r; now apply F|]. split; [exact FK|]. destruct RF' as (D1 & D2). split; intros; rewrite !Rmult_1_r; auto.
  - destruct (G u ltac:(now left)) as (Hu & NR & EP & GU1 & GU2). apply NoDup_cons_iff in ND. destruct ND as [NU ND].
    assert (Huv : u <> v) by (intros ->; apply NI; now left). cbn [length] in *. rewrite S_INR in *. pose proof (pos_INR (length cs)) as PI.
    destruct (in_one lib ws V M N m A W b c eta lambda s sx row edges LIB ACC C CB HA HE WM Hb Hc HL' TB TA RL SF ST SV SE r par dep RT u (mn v) mn fx kap ef
      (DX + (A + 8) * Z.of_nat j)%Z (L + (A + 8) * Z.of_nat j)%Z (L + (A + 8) * Z.of_nat d)%Z Hu NR Pk F GU1 GU2 RF') as (RM & kap1 & P1 & FK1 & F1); [nia|nia|nia|nia|nra|].
    set (f1 := rescaled M (fun k => fmul (mn v k) (l_dot lib (vec M (t32 s edges par u k)) (vec M (mn u))))) in *.
    set (mn1 := set1 mn v f1).
    assert (OT : forall w, w <> v -> mn1 w = mn w) by (intros w Hw; unfold mn1; now rewrite set1_other).
    assert (SM : mn1 v = f1) by (unfold mn1; now rewrite set1_same).
    set (fx1 := fun k => fx k * up M PSI (val2 mn) u k) in *.
    destruct (IH mn1 fx1 kap1 (ef + 29 * eta) (j + 1)%nat) as (mn' & kap' & R1 & R2 & R3 & R4 & R5 & R6); auto.
    + intros I. apply NI. now right.
    + intros w I. rewrite OT by (intros ->; apply NI; now right). apply G. now right.
    + intros k Hk. rewrite SM. destruct (F1 k Hk) as (a1 & a2 & a3). split; [exact a1|]. split; [|exact a3]. split; [|apply a2].
      eapply Rle_trans; [|apply a2]. apply bpow_le. nia.
    + rewrite SM. destruct FK1 as (k & Hk & B). exists k. split; [exact Hk|]. eapply Rle_trans; [|exact B]. change 1 with (bp 0). apply bpow_le. nia.
    + eapply ranged_weak; [|exact RM]. lia.
    + lia.
    + lra.
    + assert (PX : forall k, fx1 k * prodf cs (fun u => up M PSI (val2 mn1) u k) = fx k * prodf (u :: cs) (fun u => up M PSI (val2 mn) u k)).
      { intros k. rewrite prodf_cons. unfold fx1. rewrite Rmult_assoc. f_equal. f_equal. apply prodf_ext. intros w I. unfold up. apply sumf_ext. intros x _.
        rewrite OT; [reflexivity|]. intros ->. apply NI. now right. }
      exists mn', kap'. split; [|split; [|split; [exact R3|split; [|split; [exact R5|]]]]].
      * cbn [map ffold]. cbn [sample_instr32_with]. pose proof (eidx_lt V edges r par dep RT M ltac:(lia) u Hu NR) as He.
        rewrite (t3_V _ _ _ _ _ _ TB), (t3_M _ _ _ _ _ _ TB). unfold index. rewrite !(proj2 (Nat.ltb_lt _ V)), (proj2 (Nat.ltb_lt _ (V - 1))) by auto.
        cbn [flift fbind andb]. rewrite <- R1. unfold mn1, f1, t32. rewrite EP. reflexivity.
      * intros w Hw. rewrite R2, OT; auto.
      * intros k Hk. destruct (R4 k Hk) as (a1 & a2 & a3). split; [exact a1|]. rewrite <- PX. replace (j + S (length cs))%nat with (j + 1 + length cs)%nat by lia.
        split; [exact a2|]. eapply agree_weak; [|exact a3]. lra.
      * destruct R6 as (D1 & D2). replace (j + S (length cs))%nat with (j + 1 + length cs)%nat by lia. split; intros; rewrite <- !PX; auto.
Qed.

(** ** All features *)
Definition msg_err (v : nat) : R := node_err v + 29 * eta * INR (length (kids V r par v)).
Hypothesis SMALL : forall v, (v < V)%nat -> msg_err v <= 1 / 4.

Definition passed (P : list nat) (mn : nat -> nat -> f32) : Prop :=
  (forall v, In v P -> mgood' (mn v) /\ exists kap, 0 < kap /\ forall k, (k < M)%nat ->
     agree (msg_err v) (val (mn v k)) (kap * (node v k * prodf (kids V r par v) (fun u => up M PSI (val2 mn) u k)))) /\
  (forall v, ~ In v P -> mn v = s3_vert s v) /\
  (forall v, In v P -> ranged M (DX + (A + 8) * Z.of_nat d) (fun k => node v k * prodf (kids V r par v) (fun u => up M PSI (val2 mn) u k))).

Lemma inward_law mo vs fs : exists mn, ffold STEP (concat (map (ins_of edges par) (rev np))) (s3_vert s, mo, vs, fs) = FRet (mn, mo, vs, fs) /\ passed (map ev np) mn.
Proof.
  destruct (runs_all V es r par dep RT np BL (nat -> nat -> f32) (fun x mn mn' => ffold STEP (ins_of edges par x) (mn, mo, vs, fs) = FRet (mn', mo, vs, fs)) passed) with (st0 := s3_vert s)
    as (mn & R & I).
  - intros [[v p] cs] P mn (Hv & _ & SS & IC) NV ND PV CH CL (P1 & P2 & P3). unfold ev in *. cbn [fst snd] in *.
    assert (NDc : NoDup cs) by (now apply ssorted_NoDup).
    assert (PK : Permutation cs (kids V r par v)) by (apply NoDup_Permutation; [exact NDc|apply kids_NoDup|]; intros u; now rewrite in_kids, IC).
    assert (NVC : ~ In v cs). { intros I. apply IC in I. destruct I as (Iv & NR & E). pose proof (par_neq _ _ _ _ _ RT v Hv NR). auto. }
    destruct (node_start v Hv) as (f0 & EO & F0 & RD). set (mn0 := set1 mn v f0).
    assert (OT0 : forall w, w <> v -> mn0 w = mn w) by (intros w Hw; unfold mn0; now rewrite set1_other).
    assert (SM0 : mn0 v = f0) by (unfold mn0; now rewrite set1_same).
    assert (LK : length cs = length (kids V r par v)) by (now apply Permutation_length).
    pose proof (kids_degree V edges r par dep m d RT ETS EVV DG v Hv) as KD.
    destruct (children v mo vs fs Hv cs mn0 (node v) 1 (node_err v) 0%nat) as (mn' & kap & R1 & R2 & R3 & R4 & R5 & R6); auto; try lra.
    + intros u I. pose proof (proj1 (IC u) I) as (Hu & NR & EP). split; [exact Hu|]. split; [exact NR|]. split; [exact EP|].
      rewrite OT0 by (intros ->; contradiction). apply (P1 u). now apply CH.
    + intros k Hk. rewrite SM0, Z.mul_0_r, Z.add_0_r, Rmult_1_l. now apply F0.
    + rewrite SM0. exists 0%nat. split; [lia|]. apply (F0 0%nat). lia.
    + rewrite Z.mul_0_r, Z.add_0_r. exact RD.
    + lia.
    + rewrite LK. exact (SMALL v Hv).
    + exists mn'. assert (OT : forall w, w <> v -> mn' w = mn w) by (intros w Hw; rewrite R2, OT0; auto).
      assert (UPK : forall w k, (w = v \/ In w P) -> prodf (kids V r par w) (fun u => up M PSI (val2 mn') u k) = prodf (kids V r par w) (fun u => up M PSI (val2 mn) u k)).
      { intros w k D. apply prodf_ext. intros u I. unfold up. apply sumf_ext. intros x _. rewrite OT; [reflexivity|]. intros ->. apply in_kids in I. destruct I as (_ & NR & EP).
        destruct D as [-> |D]; [exact (par_neq _ _ _ _ _ RT v Hv NR EP)|]. apply NV. apply CL; auto. now rewrite EP. }
      assert (UP0 : forall k, prodf cs (fun u => up M PSI (val2 mn0) u k) = prodf (kids V r par v) (fun u => up M PSI (val2 mn) u k)).
      { intros k. rewrite (prodf_perm _ _ _ PK). apply prodf_ext. intros u I. unfold up. apply sumf_ext. intros x _. rewrite OT0; [reflexivity|]. intros ->.
        apply NVC. eapply Permutation_in; [apply Permutation_sym; exact PK|exact I]. }
      split.
      * cbn [ins_of ffold]. cbn [sample_instr32_with]. rewrite (t3_V _ _ _ _ _ _ TB). unfold index. rewrite (proj2 (Nat.ltb_lt _ V)) by auto. cbn [flift fbind].
        rewrite (P2 v NV), EO. cbn [flift fbind]. exact R1.
      * assert (HV' : forall k, (k < M)%nat -> agree (msg_err v) (val (mn' v k)) (kap * (node v k * prodf (kids V r par v) (fun u => up M PSI (val2 mn') u k)))).
        { intros k Hk. rewrite UPK by auto. rewrite <- UP0. unfold msg_err. rewrite <- LK. apply (R4 k Hk). }
        split; [|split].
        -- intros w I. destruct (Nat.eq_dec w v) as [-> |NE].
           ++ split; [|exists kap; auto]. split; [|exact R5]. intros k Hk. destruct (R4 k Hk) as (a1 & a2 & _). split; [exact a1|]. split; [|apply a2].
              eapply Rle_trans; [|apply a2]. apply bpow_le. nia.
           ++ destruct I as [E|I]; [now rewrite E in NE|]. destruct (P1 w I) as (g1 & kp & g2 & g3). rewrite OT by auto. split; [exact g1|]. exists kp. split; [exact g2|].
              intros k Hk. rewrite UPK by auto. now apply g3.
        -- intros w NW. rewrite OT; [apply P2|]; intros X; apply NW; [now right|]. left. congruence.
        -- intros w I. destruct (Nat.eq_dec w v) as [-> |NE].
           ++ apply (ranged_weak M (DX + (A + 8) * Z.of_nat (0 + length cs))); [nia|]. destruct R6 as (D1 & D2). split; intros; rewrite !UPK, <- !UP0 by auto; auto.
           ++ destruct I as [E|I]; [now rewrite E in NE|]. destruct (P3 w I) as (D1 & D2). split; intros; rewrite !UPK by auto; auto.
  - split; [intros v []|]. split; [auto|intros v []].
  - exists mn. split; [|exact I]. clear I. revert R. generalize (s3_vert s). induction (rev np) as [|x l IH]; intros m0 R.
    + cbn [runs] in R. subst. reflexivity.
    + cbn [runs] in R. destruct R as (m1 & R1 & R2). cbn [map concat]. rewrite (ffold_app _ _ _ _ _ R1). now apply IH.
Qed.
End PASS.
