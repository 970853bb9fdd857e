(** Drawing the classes of a row outward with float32 messages that are nearly right. *)
From Coq Require Import List Arith Bool ZArith Reals Lra Lia Permutation.
From Flocq Require Import Core Relative IEEE754.BinarySingleNaN.
From Verif Require Import Base L_Base Spec_Graph L_Graph Spec_Sum L_Sum M_Structure L_Pairing L_MakeTree L_Program L_ProgramValid Spec_Program L_Center L_Prop1 M_Rand L_Rand M_Util Spec_Ragged L_Ragged M_Array Spec_Joint M_Training Spec_MST Spec_Stats L_Stats L_Trainer Spec_Conditional L_Asg L_BP L_BPVec L_AddRow
  M_Float32 M_Train32 Spec_Float32 L_Float32 L_Sample32 L_Train32 L_Train32b L_Train32c L_Train32d L_Train32e Spec_Accuracy L_Acc1 L_Acc3 Spec_Law L_Law1 L_Law2 L_Law3 L_Law4 L_TLaw1 L_TLaw2 Spec_TrainLaw L_TLaw3.
From Verif Require Import L_Server.
Import ListNotations.
Open Scope R_scope.

(** ** Any tree *)
Section Near.
Variables (V M : nat) (edges : list (nat * nat)) (r : nat) (par dep : nat -> nat).
Notation es := (grid_edges (make_tree edges)).
Hypothesis RT : rooted V es r par dep.
Variable np : list (nat * option nat * list nat).
Hypothesis BL : bfs_list V r par np.
Hypothesis HM : (0 < M)%nat.
Variables (node : nat -> nat -> R) (pair : nat -> nat -> nat -> R) (msg : nat -> nat -> R).
Notation PSI := (opair edges par pair).
Hypothesis NP : forall v k, (v < V)%nat -> (k < M)%nat -> 0 < node v k.
Hypothesis PP : forall u m m', (u < V)%nat -> u <> r -> (m < M)%nat -> (m' < M)%nat -> 0 < PSI u m m'.
Hypothesis MP : forall v k, (v < V)%nat -> (k < M)%nat -> 0 < msg v k.
Variables (E kap : nat -> R).
Hypothesis KP : forall v, (v < V)%nat -> 0 < kap v.
Hypothesis AG : forall v k, (v < V)%nat -> (k < M)%nat ->
  agree (E v) (msg v k) (kap v * (node v k * prodf (kids V r par v) (fun u => up M PSI msg u k))).

Definition tphi (v k : nat) : R := msg v k / prodf (kids V r par v) (fun u => up M PSI msg u k).

Lemma tprod_up_pos v k : (v < V)%nat -> (k < M)%nat -> 0 < prodf (kids V r par v) (fun u => up M PSI msg u k).
Proof.
  intros Hv Hk. apply prodf_pos. intros u I. apply in_kids in I. destruct I as (Hu & NR & _). unfold up. apply sumf_pos'; [destruct M; [lia|discriminate]|].
  intros j J. apply in_seq in J. apply Rmult_lt_0_compat; [apply PP; auto; lia|apply MP; auto; lia].
Qed.
Lemma tphi_pos v k : (v < V)%nat -> (k < M)%nat -> 0 < tphi v k.
Proof. intros Hv Hk. apply Rdiv_lt_0_compat; [now apply MP|now apply tprod_up_pos]. Qed.
Lemma tphi_up : upward V r par M tphi PSI msg.
Proof. intros v k Hv Hk. unfold tphi. field. apply Rgt_not_eq. now apply tprod_up_pos. Qed.
Lemma tphi_agree v k : (v < V)%nat -> (k < M)%nat -> agree (E v) (tphi v k) (kap v * node v k).
Proof.
  intros Hv Hk. pose proof (tprod_up_pos v k Hv Hk) as P. unfold tphi.
  replace (kap v * node v k) with (kap v * (node v k * prodf (kids V r par v) (fun u => up M PSI msg u k)) / prodf (kids V r par v) (fun u => up M PSI msg u k)) by (field; lra).
  replace (E v) with (E v + 0) by ring. apply agree_div; [now apply AG|apply agree_refl; lra|exact P].
Qed.
Lemma tjoint_agree z : (forall v, (v < V)%nat -> (z v < M)%nat) ->
  agree (sumf (seq 0 V) E) (jointw V r par tphi PSI z) (prodf (seq 0 V) kap * jointw V r par node PSI z).
Proof.
  intros Hz. unfold jointw. rewrite <- Rmult_assoc, <- prodf_mult. replace (sumf (seq 0 V) E) with (sumf (seq 0 V) E + 0) by ring. apply agree_mul.
  - apply agree_prodf. intros v I. apply in_seq in I. apply tphi_agree; [lia|apply Hz; lia].
  - apply agree_refl; [lra|]. left. apply prodf_pos. intros u I. apply in_nonroot in I. destruct I as (Hu & NR).
    apply PP; auto. apply Hz. eapply par_lt; eauto.
Qed.

Lemma draws_near {A} (w : (nat -> nat) -> nat -> nat -> R) ew (k : (nat -> nat) -> rprog A) G (H : list nat -> R) z : (forall v, (v < V)%nat -> (z v < M)%nat) ->
  looks_back w (order np) ->
  (forall z' v, (forall u, (u < V)%nat -> (z' u < M)%nat) -> (v < V)%nat -> exists a, 0 < a /\ forall m, (m < M)%nat -> agree ew (w z' v m) (a * ffw r par PSI msg z' v m)) ->
  (forall z', fills M (order np) z z' -> expect (k z') G = H (map z' (seq 0 V))) -> (forall l, 0 <= H l) ->
  agree (sumf (seq 0 V) (fun v => 2 * E v + 2 * ew)) (expect (draw_all M w (order np) k z) G)
    (sumf (vectors V M) (fun zz => tree_weight V es node pair zz / sumf (vectors V M) (tree_weight V es node pair) * H zz)).
Proof.
  intros Hz LB WA HK H0. pose proof (order_perm V r par np BL) as OP. pose proof (order_nodup V r par np BL) as ON.
  assert (OIN : forall v, In v (order np) -> (v < V)%nat).
  { intros v I. eapply Permutation_in in I; [|exact OP]. apply in_seq in I. lia. }
  assert (FC : forall z', fills M (order np) z z' -> forall v, (v < V)%nat -> (z' v < M)%nat).
  { intros z' F. exact (fills_classes V M HM (order np) OP _ z' F). }
  assert (FP : forall z' v m, (forall u, (u < V)%nat -> (z' u < M)%nat) -> (v < V)%nat -> (m < M)%nat -> 0 < ffw r par PSI msg z' v m).
  { intros z' v m F Hv Hm. unfold ffw. destruct (Nat.eqb_spec v r) as [->|NR]; [now apply MP|]. apply Rmult_lt_0_compat; [|now apply MP]. apply PP; auto. apply F. eapply par_lt; eauto. }
  rewrite draw_all_expect; auto.
  2:{ intros z' v m F I Hm. pose proof (FC z' F) as F'. destruct (WA z' v F' (OIN v I)) as (a & Pa & Q). apply (agree_pos _ _ _ (Q m Hm)). apply Rmult_lt_0_compat; auto. }
  set (S0 := sumf (seq 0 V) E). set (K := prodf (seq 0 V) kap).
  assert (PK : 0 < K) by (apply prodf_pos; intros v I; apply in_seq in I; apply KP; lia).
  assert (ZT : Ztot r M msg = sumall M (order np) (jointw V r par tphi PSI) z).
  { symmetry. apply (jointw_total V es r par dep M RT HM tphi PSI msg tphi_pos PP tphi_up (order np) OP (order_first V r par np BL)). }
  set (TW := sumf (vectors V M) (tree_weight V es node pair)).
  assert (TE : TW = sumall M (order np) (jointw V r par node PSI) z).
  { unfold TW. rewrite <- (sumall_vectors V r par np BL M _ z). apply sumall_ext; [exact ON|]. intros z' _. symmetry. now apply (jointw_tree V edges r par dep RT M HM). }
  assert (JP : forall z', (forall v, (v < V)%nat -> (z' v < M)%nat) -> 0 < jointw V r par node PSI z').
  { intros z' F. unfold jointw. apply Rmult_lt_0_compat; apply prodf_pos; intros v I; [apply in_seq in I; apply NP; [lia|apply F; lia]|].
    apply in_nonroot in I. destruct I as (Hu & NR). apply PP; auto. apply F. eapply par_lt; eauto. }
  assert (TP : 0 < TW) by (rewrite TE; apply sumall_pos; auto).
  rewrite <- (sumall_vectors V r par np BL M _ z). apply agree_sumall; [exact ON|]. intros z' F. pose proof (FC z' F) as F'.
  rewrite (HK z' F).
  replace (sumf (seq 0 V) (fun v => 2 * E v + 2 * ew)) with (sumf (order np) (fun _ => 2 * ew) + (S0 + S0) + 0).
  2:{ rewrite (sumf_perm _ _ _ OP), sumf_plus. unfold S0. rewrite (sumf_scal (seq 0 V) E 2). ring. }
  apply agree_mul; [|apply agree_refl; [lra|apply H0]].
  eapply agree_trans.
  - apply (agree_prodf (fun _ => 2 * ew) _ (fun v => ffw r par PSI msg z' v (z' v) / wtot M (ffw r par PSI msg) z' v)).
    intros v I. pose proof (OIN v I) as Hv. destruct (WA z' v F' Hv) as (a & Pa & Q). unfold wtot.
    apply (share_agree ew a (w z' v) (ffw r par PSI msg z' v) (seq 0 M) (z' v)); auto.
    + apply in_seq. specialize (F' v Hv). lia.
    + intros m I'. apply in_seq in I'. apply FP; auto. lia.
    + intros m I'. apply in_seq in I'. apply Q. lia.
  - rewrite (ffw_prod V es r par dep M RT HM tphi PSI msg tphi_pos PP tphi_up (order np) OP z' F').
    rewrite <- (jointw_tree V edges r par dep RT M HM).
    replace (jointw V r par node PSI z' / TW) with (K * jointw V r par node PSI z' / (K * TW)) by (field; lra).
    apply agree_div; [now apply tjoint_agree| |now apply Rmult_lt_0_compat].
    rewrite ZT, TE, <- sumall_scal. apply agree_sumall; [exact ON|]. intros z1 F1. now apply tjoint_agree, FC.
Qed.
End Near.

(** ** The float program, outward *)
Section TOut.
Variables (dot : list f32 -> list f32 -> f32) (tb : table) (M : nat) (row : list Z) (s : tstate) (ep : nat -> nat -> nat -> f32).
Hypothesis HM : (1 <= M <= 128)%nat.
Notation V := (num_cols tb).
Variables (edges : list (nat * nat)) (r : nat) (par dep : nat -> nat).
Notation es := (grid_edges (make_tree edges)).
Hypothesis RT : rooted V es r par dep.
Variable np : list (nat * option nat * list nat).
Hypothesis BL : bfs_list V r par np.
Notation STEP := (fun st i => ideal (add_instr32_with treecat_add_cell32 dot (tb_types tb) (tb_ri tb) row V (V - 1) M (vp s) ep st i)).
Variable mn : nat -> nat -> f32.

(** The weights class [k] of feature [v] is drawn by. *)
Definition w3 (z : nat -> nat) (v k : nat) : R :=
  val (if (v =? r)%nat then mn r k else fdiv (fmul (mn v k) (t3 ep edges par v (z (par v)) k)) (vp s v k)).

Lemma tout_pass {A} (k : (nat -> nat) -> rprog A) : forall l, (forall x, In x l -> good V r par x /\ ev x <> r) -> NoDup (map ev l) ->
  forall msgs fp mp z, (forall v, In v (map ev l) -> msgs v = mn v) -> (forall v, (v < V)%nat -> (z v < M)%nat) ->
  rsim (rbind (rfold STEP (concat (map (outs_of edges r par) l)) (msgs, fp, mp, z)) (fun st => k (snd st)))
       (draw_all M w3 (map ev l) k z).
Proof.
  induction l as [|[[v p] cs] l IH]; intros G ND msgs fp mp z EM Hz.
  - simpl. apply rsim_refl.
  - destruct (G _ (or_introl eq_refl)) as ((Hv & _) & N). unfold ev in N. cbn [fst] in N.
    cbn [map concat]. unfold ev at 1. cbn [fst]. unfold outs_of at 1. rewrite (proj2 (Nat.eqb_neq v r)) by auto.
    cbn [draw_all]. cbn [app rfold].
    cbn [map] in ND, EM. inversion ND; subst. unfold ev at 1 in H1. cbn [fst] in H1.
    unfold add_instr32_with at 1. unfold check. rewrite (proj2 (Nat.ltb_lt v V)) by auto.
    pose proof (par_lt _ _ _ _ _ RT v Hv) as Hp.
    rewrite (proj2 (Nat.ltb_lt (par v) V)), (proj2 (Nat.ltb_lt (z (par v)) M)) by auto.
    rewrite (proj2 (Nat.ltb_lt _ (V - 1))) by (eapply (eidx_lt V edges r par dep RT M); auto; lia). cbn [flift fbind andb ideal rbind].
    rewrite (EM v) by (now left). rewrite map_val_vec.
    set (mm := fun m => val (fdiv (fmul (mn v m) ((if (v <? par v)%nat then transpose (ep (eidx edges par v)) else ep (eidx edges par v)) (z (par v)) m)) (vp s v m))).
    assert (EW : w3 z v = mm). { unfold w3, mm, t3. now rewrite (proj2 (Nat.eqb_neq v r)). }
    rewrite EW. constructor. intros i Hi. rewrite vec_length in Hi.
    cbn [rbind rfold]. unfold add_instr32_with at 1. unfold check. rewrite (proj2 (Nat.ltb_lt v V)) by auto. cbn [flift fbind ideal rbind].
    apply IH.
    + intros x Hx. apply G. now right.
    + auto.
    + intros w Hw. rewrite set1_other by (intro; subst; auto). apply EM. now right.
    + intros w Hw. unfold set1. destruct (Nat.eqb_spec w v); auto.
Qed.

Lemma troot_out_pass {A} (k : (nat -> nat) -> rprog A) fp mp z : (forall v, (v < V)%nat -> (z v < M)%nat) ->
  rsim (rbind (rfold STEP ([I OP_ROOT r 0 0] ++ concat (map (outs_of edges r par) np)) (mn, fp, mp, z)) (fun st => k (snd st)))
       (draw_all M w3 (order np) k z).
Proof.
  intros Hz. pose proof (rt_root _ _ _ _ _ RT) as Hr.
  destruct (order_cons V edges r par dep RT np BL M ltac:(lia)) as ([[v p] cs] & np' & E & Er & NI). cbn [fst] in Er. subst v.
  pose proof (order_nodup V r par np BL) as ND. pose proof (bl_good _ _ _ _ BL) as G. rewrite Forall_forall in G.
  unfold order in *. rewrite E in *. cbn [map fst concat] in *. unfold outs_of at 1. rewrite Nat.eqb_refl.
  cbn [app rfold draw_all]. unfold add_instr32_with at 1. unfold check. rewrite (proj2 (Nat.ltb_lt r V)) by auto. cbn [flift fbind ideal rbind].
  rewrite map_val_vec.
  replace (w3 z r) with (fun k => val (mn r k)) by (unfold w3; rewrite Nat.eqb_refl; reflexivity).
  constructor. intros i Hi. rewrite vec_length in Hi. cbn [rbind rfold]. unfold add_instr32_with at 1. unfold check.
  rewrite (proj2 (Nat.ltb_lt r V)) by auto. cbn [flift fbind ideal rbind].
  inversion ND; subst. apply tout_pass.
  - intros x Hx. split; [apply G; now right|]. intros Ex. apply H1. rewrite <- Ex. apply in_map_iff. exists x. auto.
  - auto.
  - auto.
  - intros w Hw. unfold set1. destruct (Nat.eqb_spec w r); auto.
Qed.

Lemma w3_looks_back : looks_back w3 (order np).
Proof.
  intros pre v post E z z' m H. unfold w3. destruct (Nat.eqb_spec v r); auto. rewrite H; auto.
  pose proof (order_first V r par np BL pre v post E n) as I.
  pose proof (order_nodup V r par np BL) as ND. rewrite E in ND. apply NoDup_app_inv in ND. destruct ND as (_ & _ & D). apply D, I.
Qed.
End TOut.
