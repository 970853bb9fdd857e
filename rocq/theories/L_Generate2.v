(** Proofs of C59 and C61: the datasets of generate_clean_dataset. *)
From Coq Require Import List Arith Lia Bool ZArith Reals Lra Permutation.
From Verif Require Import Base L_Base Spec_Graph L_Graph Spec_Sum L_Sum M_Structure L_Pairing L_MakeTree L_Program L_ProgramValid Spec_Program L_Center L_Prop1 M_Rand L_Rand M_Util Spec_Ragged L_Ragged M_Array M_SampleTree M_EstimateTree Spec_Trees Spec_MST L_Estimate L_AllTrees L_Quantize M_Training Spec_Stats L_Stats L_Trainer Spec_Joint Spec_Conditional L_Asg L_BP L_BPVec L_AddRow L_EdgeLogits L_Train M_Serving Spec_Serving L_Server L_Inward L_Logprob L_Path L_Marginals L_MargPost L_Serve1 L_Serve2 L_Serve3 L_Entropy L_Corr Spec_Summary L_Summary L_Observed M_Generate Spec_Generate L_Generate.
Import ListNotations.
Open Scope nat_scope.

Lemma sum_repeat C V : list_sum (repeat C V) = V * C.
Proof. induction V; cbn; auto. Qed.
Lemma firstn_repeat C V v : v <= V -> list_sum (firstn v (repeat C V)) = v * C.
Proof. revert v. induction V; intros [|v] H; cbn; try lia. cbn in IHV. specialize (IHV v ltac:(lia)). unfold list_sum in IHV. lia. Qed.
Lemma nth_rep0 C V v : v < V -> nth v (repeat C V) 0 = C.
Proof. revert v. induction V; intros [|v] H; cbn; try lia. apply IHV. lia. Qed.
Lemma mri_repeat C V : make_ragged_index (repeat C V) = map (fun i => i * C) (seq 0 (V + 1)).
Proof.
  unfold make_ragged_index. assert (G : forall V a, make_ragged_index_from (a * C) (repeat C V) = map (fun i => i * C) (seq a (V + 1))).
  { induction V0; intros a; cbn; [reflexivity|]. f_equal. rewrite <- IHV0. f_equal. lia. }
  apply (G V 0).
Qed.
Lemma arange_Ok C V : 1 <= C -> arange C V = Ok (make_ragged_index (repeat C V)).
Proof. intros H. unfold arange. destruct C; [lia|]. cbn [Nat.eqb]. now rewrite mri_repeat. Qed.
Lemma block_repeat C V v : v < V -> block (repeat C V) v = seq (v * C) C.
Proof. intros H. unfold block. rewrite firstn_repeat by lia. now rewrite nth_rep0. Qed.

Lemma eye_total C c : c < C -> total (seq 0 C) (fun c2 => eye c c2) = 1%Z /\ total (seq 0 C) (fun c1 => eye c1 c) = 1%Z.
Proof.
  intros H. unfold eye. split.
  - rewrite (total_single _ c); [now rewrite Nat.eqb_refl|apply seq_NoDup|apply in_seq; lia|]. intros n _ D. now rewrite (proj2 (Nat.eqb_neq c n)) by auto.
  - rewrite (total_single _ c); [now rewrite Nat.eqb_refl|apply seq_NoDup|apply in_seq; lia|]. intros n _ D. now rewrite (proj2 (Nat.eqb_neq n c)) by auto.
Qed.

Lemma clean_edges grid (init : nat -> nat -> nat -> Z) e i j :
  fold_left (fun (ss : nat -> nat -> nat -> Z) '(e, _, _) => fun e' i j => if e' =? e then (1 * eye i j)%Z else ss e' i j) grid init e i j =
  if existsb (fun t : triple => fst (fst t) =? e) grid then eye i j else init e i j.
Proof.
  revert init. induction grid as [|[[x a] b] grid IH]; intros init; cbn [fold_left existsb]; [reflexivity|].
  rewrite IH. cbn [fst]. destruct (existsb _ grid); [now rewrite orb_true_r|]. rewrite orb_false_r, (Nat.eqb_sym x e). destruct (e =? x); auto. lia.
Qed.

Lemma seq_add b n : map (Nat.add b) (seq 0 n) = seq b n.
Proof. revert b. induction n; intros b; cbn; auto. f_equal; [lia|]. rewrite <- seq_shift, map_map, <- (IHn (S b)). apply map_ext. intros. lia. Qed.

Section Clean.
Variables (V C : nat) (es : list (nat * nat)).
Hypothesis TREE : spanning_tree V es.
Hypothesis HC : 1 <= C <= 128.
Notation ws := (repeat C V).
Notation tree := (TS V (make_tree es)).

Lemma clean_Ok : exists m, clean_model tree C = Ok m /\ consistent ws V C C m /\ d_tree m = tree /\
  (forall v c, d_vert m v c = 1%Z) /\ (forall e c1 c2, e < V - 1 -> d_edge m e c1 c2 = eye c1 c2) /\
  (forall v k c, v < V -> k < C -> d_feat m (v * C + k) c = (100 * eye k c)%Z).
Proof.
  unfold clean_model. cbv zeta. cbn [ts_V ts_grid]. rewrite arange_Ok by lia. cbn [bind].
  assert (FE : forall K, K <= V -> exists fs, foldM (fun (ss : nat -> nat -> Z) v =>
                beg <- get IndexError (make_ragged_index ws) v ;; fin <- get IndexError (make_ragged_index ws) (v + 1) ;;
                Ok (fun r m => if (beg <=? r) && (r <? fin) then (100 * eye (r - beg) m)%Z else ss r m))
                (seq 0 K) (fun _ _ => 0%Z) = Ok fs /\
     forall v k c, v < V -> k < C -> fs (v * C + k) c = if v <? K then (100 * eye k c)%Z else 0%Z).
  { induction K as [|K IH]; intros HK. { eexists. split; reflexivity. }
    destruct IH as (fs & EF & HF); [lia|]. rewrite seq_S, foldM_app, EF. cbn [bind foldM Nat.add].
    rewrite !mri_get by (rewrite repeat_length; lia). cbn [bind]. rewrite !firstn_repeat by lia.
    eexists. split; [reflexivity|]. intros v k c Hv Hk. cbn beta.
    destruct (Nat.lt_trichotomy v K) as [L|[->|L]].
    - assert (v * C + k < K * C) by nia. destruct (Nat.leb_spec (K * C) (v * C + k)); [lia|]. cbn [andb]. rewrite HF by auto.
      destruct (Nat.ltb_spec v K), (Nat.ltb_spec v (S K)); lia || reflexivity.
    - destruct (Nat.leb_spec (K * C) (K * C + k)); [|lia]. destruct (Nat.ltb_spec (K * C + k) ((K + 1) * C)); [|nia]. cbn [andb].
      destruct (Nat.ltb_spec K (S K)); [|lia]. do 2 f_equal. lia.
    - assert ((K + 1) * C <= v * C + k) by nia. destruct (Nat.ltb_spec (v * C + k) ((K + 1) * C)); [lia|]. rewrite andb_false_r, HF by auto.
      destruct (Nat.ltb_spec v K), (Nat.ltb_spec v (S K)); lia || reflexivity. }
  destruct (FE V ltac:(lia)) as (fs & EF & HF). rewrite EF. cbn [bind]. eexists. split; [reflexivity|].
  assert (HE : forall e, e < V - 1 -> existsb (fun t : triple => fst (fst t) =? e) (make_tree es) = true).
  { intros e He. apply existsb_exists. destruct (make_tree_spanning V es TREE) as (L & _).
    destruct (nth_error (make_tree es) e) as [[[x a] b]|] eqn:E.
    - exists (x, a, b). split; [eapply nth_error_In; eauto|]. cbn. destruct (make_tree_canonical es) as (_ & CN & _). destruct (CN _ _ _ _ E) as [-> _]. apply Nat.eqb_refl.
    - exfalso. apply nth_error_None in E. unfold grid_edges in L. rewrite map_length in L. lia. }
  assert (HFF : forall v k c, v < V -> k < C -> fs (v * C + k) c = (100 * eye k c)%Z).
  { intros v k c Hv Hk. rewrite HF by auto. now rewrite (proj2 (Nat.ltb_lt v V)). }
  split; [|split; [reflexivity|split; [reflexivity|split; [|exact HFF]]]].
  - constructor; cbn [d_ri d_M d_tree d_vert d_edge d_feat d_logits]; auto.
    + apply repeat_length.
    + exists es. auto.
    + intros v Hv. now rewrite total_const1, seq_length.
    + intros e v1 v2 c He Hc. assert (e < V - 1).
      { assert (e < length (ts_get_edges tree)) by (apply nth_error_Some; congruence). destruct (make_tree_spanning V es TREE) as (L & _).
        change (e < length (grid_edges (make_tree es))) in H. lia. }
      destruct (eye_total C c Hc) as (E1 & E2). split; [etransitivity; [|exact E1]|etransitivity; [|exact E2]]; apply total_ext; intros; rewrite clean_edges, HE by auto; reflexivity.
    + intros; lia.
    + intros e c1 c2 He _ _. rewrite clean_edges, HE by auto. unfold eye. destruct (_ =? _); lia.
    + intros q c Hq Hc. rewrite sum_repeat in Hq. pose proof (Nat.div_mod q C ltac:(lia)) as DM. pose proof (Nat.mod_upper_bound q C ltac:(lia)).
      replace q with (q / C * C + q mod C) by lia. rewrite HFF; auto.
      * unfold eye. destruct (_ =? _); lia.
      * apply Nat.div_lt_upper_bound; lia.
    + now rewrite repeat_length.
  - intros e c1 c2 He. cbn [d_edge]. now rewrite clean_edges, HE.
Qed.
End Clean.

Lemma legal_le1 ws x n : legal_row ws (repeat 1%Z (length ws)) x -> In n x -> (0 <= n <= 1)%Z.
Proof.
  intros (LX & NN & T) I. apply In_nth with (d := 0%Z) in I. destruct I as (q & Hq & <-).
  split; [apply NN, nth_In; auto|]. rewrite LX in Hq. destruct (proj1 (owns_exists ws q) Hq) as (v & Hv & O1 & O2).
  specialize (T v Hv). rewrite L_Serve2.nth_rep in T by auto. rewrite <- T.
  assert (P : forall q', (0 <= nth q' x 0)%Z).
  { intros q'. destruct (Nat.lt_ge_cases q' (length x)); [apply NN, nth_In; auto|rewrite nth_overflow by auto; lia]. }
  assert (I : In q (block ws v)) by (apply in_seq; lia). revert I. generalize (block ws v). clear - P.
  induction l as [|a l IH]; intros I; [destruct I|]. rewrite total_cons.
  assert (0 <= total l (fun q => nth q x 0))%Z by (apply total_nonneg; auto). specialize (P a). destruct I as [->|I]; [lia|]. specialize (IH I). lia.
Qed.

Lemma make_table_Ok ws rows types : Forall (fun t => t = TY_MULTINOMIAL) types -> length types = length ws ->
  (forall row, In row rows -> length row = list_sum ws /\ forall x, In x row -> (0 <= x <= 127)%Z) ->
  make_table types (make_ragged_index ws) (list_sum ws) rows = Ok (Tab types (make_ragged_index ws) rows) /\
  table_ok ws (Tab types (make_ragged_index ws) rows).
Proof.
  intros TY LT HR. split.
  - unfold make_table. assert (L : length (make_ragged_index ws) = 1 + length types).
    { rewrite LT. apply mri_length. }
    rewrite L, Nat.eqb_refl. cbn [assert_ bind]. rewrite mri_last. cbn [bind]. rewrite Nat.eqb_refl. cbn [assert_ bind].
    do 2 f_equal. rewrite <- (map_id rows) at 2. apply map_ext_in. intros row I. rewrite <- (map_id row) at 2. apply map_ext_in. intros x Ix.
    apply int8_id. destruct (HR row I) as (_ & B). specialize (B x Ix). lia.
  - constructor; cbn; auto. apply Forall_forall. intros row I. now apply HR.
Qed.

Lemma C59_proof : forall mst V C N tree, proper_tree V tree -> 1 <= C <= 128 -> mst_contract mst ->
  always (fun tb => table_ok (repeat C V) tb /\ num_cols tb = V /\ num_rows tb = N /\
                    forall row, In row (tb_rows tb) -> legal_row (repeat C V) (repeat 1%Z V) row)
    (generate_clean_dataset mst tree N C).
Proof.
  intros mst V C N tree (es & T & ->) HC MC. unfold generate_clean_dataset.
  destruct (clean_Ok V C es T HC) as (m & -> & CO & _). apply always_lift_Ok.
  destruct (C25_proof _ _ _ _ _ mst CO MC) as (s & ES & _). rewrite ES. apply always_lift_Ok. cbn [ts_V].
  apply always_bind. eapply always_mono; [|apply (C28_proof _ _ _ _ _ mst s N (repeat 1%Z V) None CO MC ES)].
  - intros rows (LR & LG). rewrite (cm_ri _ _ _ _ _ CO), <- sum_repeat.
    destruct (make_table_Ok (repeat C V) rows (repeat TY_MULTINOMIAL V)) as (-> & TK).
    + apply Forall_forall. intros x I. now apply repeat_spec in I.
    + now rewrite !repeat_length.
    + intros row I. split; [apply (LG row I)|]. intros x Ix. pose proof (legal_le1 (repeat C V) row x) as B. rewrite repeat_length in B. specialize (B (LG row I) Ix). lia.
    + cbn [lift always]. split; [exact TK|]. unfold num_cols, num_rows. cbn. rewrite repeat_length. auto.
  - apply repeat_length.
  - intros v Hv. rewrite L_Serve2.nth_rep by auto. lia.
  - intros v Hv _. rewrite nth_rep0 by auto. lia.
  - discriminate.
Qed.

(** ** Distances *)
Open Scope R_scope.
Section Decay.
Variables (V C : nat) (edges : list (nat * nat)) (mst : list (list R) -> list (nat * nat)) (m : smodel).
Hypothesis TREE : spanning_tree V edges.
Hypothesis HC : (1 <= C <= 128)%nat.
Hypothesis MC : mst_contract mst.
Hypothesis EM : clean_model (TS V (make_tree edges)) C = Ok m.
Notation ws := (repeat C V).

Lemma Cpos : 0 < INR C.
Proof. apply lt_0_INR. lia. Qed.

Lemma facts : consistent ws V C C m /\ d_tree m = TS V (make_tree edges) /\
  (forall v c, d_vert m v c = 1%Z) /\ (forall e c1 c2, (e < V - 1)%nat -> d_edge m e c1 c2 = eye c1 c2) /\
  (forall v k c, (v < V)%nat -> (k < C)%nat -> d_feat m (v * C + k) c = (100 * eye k c)%Z).
Proof. destruct (clean_Ok V C edges TREE HC) as (m' & E & H). rewrite EM in E. injection E as <-. exact H. Qed.

Lemma eye_sum c : (c < C)%nat -> sumf (seq 0 C) (fun k => IZR (eye k c)) = 1 /\ sumf (seq 0 C) (fun k => IZR (eye c k)) = 1.
Proof. intros H. destruct (eye_total C c H) as (A & B). rewrite <- (IZR_total (seq 0 C) (fun k => eye k c)), <- (IZR_total (seq 0 C) (fun k => eye c k)), A, B. auto. Qed.

Lemma clean_vert v c : vert_prob m v c = / INR C.
Proof.
  destruct facts as (CO & _ & FV & _). unfold vert_prob. destruct (cm_M _ _ _ _ _ CO) as (-> & _).
  rewrite (sumf_ext _ _ (fun _ => 3 / 2)); [|intros; rewrite FV; lra]. rewrite FV, sumf_const, seq_length. pose proof Cpos. field. lra.
Qed.
Lemma clean_edge e c1 c2 : (e < V - 1)%nat -> edge_prob m e c1 c2 = / INR C * (2 / 3 * IZR (eye c1 c2) + 1 / 3 / INR C).
Proof.
  intros He. destruct facts as (CO & _ & _ & FE & _). unfold edge_prob. destruct (cm_M _ _ _ _ _ CO) as (-> & _). rewrite FE by auto.
  rewrite (sumf_ext (seq 0 C) (fun c0 => sumf _ _) (fun _ => 3 / 2)).
  - rewrite sumf_const, seq_length. pose proof Cpos. field. lra.
  - intros c Ic. apply in_seq in Ic. rewrite (sumf_ext _ _ (fun c3 => IZR (eye c c3) + 1 / 2 / INR C)) by (intros; now rewrite FE).
    rewrite sumf_plus, (proj2 (eye_sum c ltac:(lia))), sumf_const, seq_length. pose proof Cpos. field. lra.
Qed.
Lemma clean_feat v k c : (v < V)%nat -> (k < C)%nat -> (c < C)%nat ->
  feat_prob ws m v (v * C + k) c = (200 * IZR (eye k c) + / INR C) / 201.
Proof.
  intros Hv Hk Hc. destruct facts as (CO & _ & _ & _ & FF). unfold feat_prob. destruct (cm_M _ _ _ _ _ CO) as (-> & _). rewrite FF, block_repeat by auto.
  assert (SS : sumf (seq (v * C) C) (fun q => IZR (d_feat m q c) + 1 / 2 / INR C) = 100 + 1 / 2).
  { replace (seq (v * C) C) with (map (Nat.add (v * C)) (seq 0 C)) by apply seq_add. rewrite sumf_map.
    rewrite (sumf_ext _ _ (fun k => 100 * IZR (eye k c) + 1 / 2 / INR C)).
    - rewrite sumf_plus, sumf_scal, (proj1 (eye_sum c Hc)), sumf_const, seq_length. pose proof Cpos. field. lra.
    - intros j Ij. apply in_seq in Ij. rewrite FF by (auto; lia). now rewrite mult_IZR. }
  rewrite SS, mult_IZR. pose proof Cpos. field. lra.
Qed.

Lemma uniform v k : (v < V)%nat -> (k < C)%nat -> row_prob ws m (bump (repeat 0%Z (list_sum ws)) (v * C + k)) = / INR C.
Proof.
  intros Hv Hk. destruct facts as (CO & _).
  destruct (build_server ws V C C m CO mst MC) as (s & es & ES & SF & ST & SV & SE & SFe & _).
  rewrite (first_prob ws V C m es s SF ST (proj1 (cm_M _ _ _ _ _ CO)) SV SE SFe v) by (auto; rewrite block_repeat by auto; apply in_seq; lia).
  rewrite (sumf_ext _ _ (fun a => / INR C / 201 * (200 * IZR (eye k a) + / INR C))).
  - rewrite sumf_scal, sumf_plus, sumf_scal, (proj2 (eye_sum k Hk)), sumf_const, seq_length. pose proof Cpos. field. lra.
  - intros a Ia. apply in_seq in Ia. rewrite clean_feat, clean_vert by (auto; lia). pose proof Cpos. field. lra.
Qed.

Lemma decay u v a b d : (u < V)%nat -> (v < V)%nat -> (a < C)%nat -> (b < C)%nat ->
  dist (ts_get_edges (d_tree m)) u v d ->
  pair_prob m u v a b = / INR C * ((2 / 3) ^ d * IZR (eye a b) + (1 - (2 / 3) ^ d) / INR C).
Proof.
  intros Hu Hv Ha Hb D. destruct facts as (CO & DT & _).
  destruct (build_server ws V C C m CO mst MC) as (s & es & ES & SF & ST & SV & SE & SFe & _).
  pose proof (proj1 (cm_M _ _ _ _ _ CO)) as SM.
  destruct (sf_tree _ _ _ _ _ SF) as (ET & T).
  destruct (tree_rooted V _ v (make_tree_spanning _ _ T) Hv) as (par & dep & RT).
  destruct (make_program_rooted_Ok _ _ _ _ _ RT) as (np & _ & BL).
  rewrite (pair_PW ws V C m es s SF ST SM SV SE SFe v u a b).
  rewrite (PW_ind ws V C es s SF v par dep RT np BL m SM u a b) by auto.
  assert (DU : dep u = d).
  { pose proof (rt_dist _ _ _ _ _ RT u Hu) as Q. rewrite <- ST, ET in D. apply dist_sym in D. eapply dist_fun; eauto. }
  rewrite <- DU. clear D DU.
  assert (G : forall n x i, (x < V)%nat -> dep x = n -> (i < C)%nat ->
     Mn C es s par n x i b = / INR C * ((2 / 3) ^ n * IZR (eye i b) + (1 - (2 / 3) ^ n) / INR C)).
  { induction n as [|n IH]; intros x i Hx Dx Hi; cbn [Mn].
    - rewrite SV, clean_vert. unfold eye. pose proof Cpos. destruct (i =? b)%nat; cbn [pow]; field; lra.
    - assert (NR : x <> v) by (intros ->; rewrite (rt_dep _ _ _ _ _ RT) in Dx; discriminate).
      destruct (rt_par _ _ _ _ _ RT x Hx NR) as (Hp & DP & _).
      destruct (eidx_spec _ _ _ _ _ RT x Hx NR) as (EE & _).
      assert (LE : (eidx es par x < V - 1)%nat).
      { assert (eidx es par x < length (grid_edges (make_tree es)))%nat by (apply nth_error_Some; congruence). pose proof (rt_len _ _ _ _ _ RT). lia. }
      assert (VT : forall k, (k < C)%nat -> vtrans es s par x i k = / INR C * (2 / 3 * IZR (eye i k) + 1 / 3 / INR C)).
      { intros k Hk. unfold vtrans. destruct (par x <? x)%nat; unfold transpose; rewrite SE, clean_edge by auto; [|reflexivity].
        unfold eye. now rewrite Nat.eqb_sym. }
      rewrite (sumf_ext _ _ (fun k => (2 / 3 * IZR (eye i k) + 1 / 3 / INR C) * (/ INR C * ((2 / 3) ^ n * IZR (eye k b) + (1 - (2 / 3) ^ n) / INR C)))).
      2:{ intros k Ik. apply in_seq in Ik. rewrite VT by lia. rewrite SV, clean_vert, IH by (auto; lia). pose proof Cpos. field. lra. }
      set (p := (2 / 3) ^ n).
      assert (E2 : sumf (seq 0 C) (fun k => IZR (eye i k) * IZR (eye k b)) = IZR (eye i b)).
      { rewrite (sumf_ext _ _ (fun k => ind i k * IZR (eye k b))).
        - now rewrite (sum_ind C i (fun k => IZR (eye k b))) by auto.
        - intros k _. unfold eye, ind. rewrite (Nat.eqb_sym i k). now destruct (k =? i)%nat. }
      rewrite (sumf_ext _ _ (fun k => / INR C * (2 / 3 * p) * (IZR (eye i k) * IZR (eye k b)) + (/ INR C * (2 / 3) * ((1 - p) / INR C) * IZR (eye i k) +
         (/ INR C * (1 / 3 / INR C * p) * IZR (eye k b) + / INR C * (1 / 3 / INR C) * ((1 - p) / INR C))))) by (intros; ring).
      rewrite !sumf_plus, !sumf_scal, E2, (proj2 (eye_sum i Hi)), (proj1 (eye_sum b Hb)), sumf_const, seq_length. cbn [pow]. fold p. pose proof Cpos. field. lra. }
  apply G; auto.
Qed.
End Decay.
