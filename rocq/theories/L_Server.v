(** The tables of a server built from a consistent model. *)
From Coq Require Import List Arith Lia Bool ZArith Reals Lra Permutation FunctionalExtensionality.
From Verif Require Import Base L_Base Spec_Graph L_Graph Spec_Sum L_Sum M_Structure L_Pairing L_MakeTree L_Program L_ProgramValid Spec_Program L_Center L_Prop1 M_Rand L_Rand M_Util Spec_Ragged L_Ragged M_Array M_SampleTree M_EstimateTree Spec_Trees Spec_MST L_Estimate M_Training Spec_Stats L_Stats L_Trainer Spec_Joint Spec_Conditional L_Asg L_BP L_BPVec L_AddRow M_Serving Spec_Serving.
Import ListNotations.
Open Scope R_scope.

(** What the query methods need to know about a server. *)
Record sfacts (ws : list nat) (V M : nat) (edges : list (nat * nat)) (s : server) : Prop := {
  sf_M : sv_M s = M /\ (1 <= M)%nat;
  sf_tree : sv_tree s = TS V (make_tree edges) /\ spanning_tree V edges;
  sf_ws : length ws = V;
  sf_ri : sv_ri s = make_ragged_index ws;
  sf_R : sv_R s = list_sum ws;
  sf_vert : forall v m, (v < V)%nat -> (m < M)%nat -> 0 < sv_vert s v m;
  sf_edge : forall e m m', (e < V - 1)%nat -> (m < M)%nat -> (m' < M)%nat -> 0 < sv_edge s e m m';
  sf_trans : forall e v1 v2 m m', nth_error (grid_edges (make_tree edges)) e = Some (v1, v2) ->
    sv_trans s e m m' = sv_edge s e m m' / sv_vert s v1 m / sv_vert s v2 m';
  sf_feat : forall v q m, (v < V)%nat -> In q (block ws v) -> (m < M)%nat -> 0 < sv_feat s q m;
  sf_vsum : forall v, (v < V)%nat -> sumf (seq 0 M) (sv_vert s v) = 1;
  sf_e1 : forall e v1 v2 m, nth_error (grid_edges (make_tree edges)) e = Some (v1, v2) -> (m < M)%nat ->
    sumf (seq 0 M) (fun m2 => sv_edge s e m m2) = sv_vert s v1 m;
  sf_e2 : forall e v1 v2 m, nth_error (grid_edges (make_tree edges)) e = Some (v1, v2) -> (m < M)%nat ->
    sumf (seq 0 M) (fun m1 => sv_edge s e m1 m) = sv_vert s v2 m;
  sf_fsum : forall v m, (v < V)%nat -> (m < M)%nat -> block ws v <> [] -> sumf (block ws v) (fun q => sv_feat s q m) = 1
}.

Lemma nth_number l : forall b i, (i < length l)%nat ->
  nth_error (number_from b l) i = Some ((b + i)%nat, fst (nth i l (0, 0)%nat), snd (nth i l (0, 0)%nat)).
Proof.
  induction l as [|[x y] l IH]; intros b i Hi; simpl in *; [lia|].
  destruct i; simpl; [now rewrite Nat.add_0_r|]. rewrite IH by lia. do 3 f_equal; lia.
Qed.

Lemma trans_fold V (vert : nat -> nat -> R) l : forall b t, (b + length l <= V - 1)%nat ->
  (forall x y, In (x, y) l -> (x < V)%nat /\ (y < V)%nat) ->
  exists t', foldM (fun trans '(e, v1, v2) =>
           _ <- index ((e <? V - 1) && (v1 <? V) && (v2 <? V))%nat ;;
           Ok (set1 trans e (fun m1 m2 => trans e m1 m2 / vert v1 m1 / vert v2 m2)%R)) (number_from b l) t = Ok t' /\
    (forall e, (e < b)%nat -> t' e = t e) /\
    forall i, (i < length l)%nat -> forall m m',
      t' (b + i)%nat m m' = t (b + i)%nat m m' / vert (fst (nth i l (0, 0)%nat)) m / vert (snd (nth i l (0, 0)%nat)) m'.
Proof.
  induction l as [|[x y] l IH]; intros b t HB HR.
  - exists t. split; [reflexivity|]. split; [auto|]. simpl. intros; lia.
  - simpl in HB. destruct (HR x y (or_introl eq_refl)) as (Hx & Hy).
    cbn [number_from foldM]. unfold index. rewrite (proj2 (Nat.ltb_lt b (V - 1))), (proj2 (Nat.ltb_lt x V)), (proj2 (Nat.ltb_lt y V)) by lia.
    cbn [andb bind].
    destruct (IH (S b) (set1 t b (fun m1 m2 => t b m1 m2 / vert x m1 / vert y m2))) as (t' & E & A & B); [lia|intros; apply HR; now right|].
    exists t'. split; [exact E|]. split.
    + intros e He. rewrite A by lia. apply set1_other. lia.
    + intros i Hi m m'. destruct i.
      * rewrite Nat.add_0_r. rewrite A by lia. rewrite set1_same. reflexivity.
      * simpl in Hi. specialize (B i ltac:(lia) m m'). replace (b + S i)%nat with (S b + i)%nat by lia.
        rewrite B. rewrite set1_other by lia. reflexivity.
Qed.

Lemma feat_fold ws : forall n b (f : nat -> nat -> R),
  (b + n <= length ws)%nat ->
  exists f', foldM (fun feat v =>
           beg <- get IndexError (make_ragged_index ws) v ;; fin <- get IndexError (make_ragged_index ws) (v + 1) ;;
           let tot := fun m => rsum (map (fun r => feat r m) (seq beg (fin - beg))) in
           Ok (fun r m => if ((beg <=? r) && (r <? fin))%nat then feat r m / tot m else feat r m)%R) (seq b n) f = Ok f' /\
    (forall v q c, (v < b \/ b + n <= v)%nat -> (v < length ws)%nat -> In q (block ws v) -> f' q c = f q c) /\
    (forall v q c, (b <= v < b + n)%nat -> In q (block ws v) -> f' q c = f q c / sumf (block ws v) (fun q => f q c)).
Proof.
  induction n; intros b f HB.
  - exists f. split; [reflexivity|]. split; [auto|]. intros; lia.
  - cbn [seq foldM]. rewrite !mri_get by lia. cbn [bind].
    set (f1 := fun r m : nat => if ((list_sum (firstn b ws) <=? r) && (r <? list_sum (firstn (b + 1) ws)))%nat
       then f r m / rsum (map (fun r => f r m) (seq (list_sum (firstn b ws)) (list_sum (firstn (b + 1) ws) - list_sum (firstn b ws)))) else f r m).
    destruct (IHn (S b) f1) as (f' & E & A & B); [lia|].
    exists f'. split; [exact E|].
    assert (W : (list_sum (firstn (b + 1) ws) = list_sum (firstn b ws) + nth b ws 0)%nat).
    { rewrite Nat.add_1_r. apply sum_firstn_S. lia. }
    assert (OUT : forall v q c, (v < length ws)%nat -> v <> b -> In q (block ws v) -> f1 q c = f q c).
    { intros v q c Hv N I. unfold f1. destruct ((_ <=? q) && (q <? _))%nat eqn:D; auto.
      apply andb_true_iff in D. destruct D as (D1 & D2). apply Nat.leb_le in D1. apply Nat.ltb_lt in D2.
      exfalso. apply N. apply (owns_unique ws v b q); split; try lia.
      - apply in_seq in I. unfold block in I. lia. }
    split.
    + intros v q c D Hv I. rewrite (A v); auto; [|lia]. apply (OUT v); auto. lia.
    + intros v q c D I. destruct (Nat.eq_dec v b) as [->|N].
      * rewrite (A b) by (auto; lia). unfold f1. unfold block in I. apply in_seq in I.
        rewrite (proj2 (Nat.leb_le _ q)), (proj2 (Nat.ltb_lt q _)) by lia. cbn [andb]. f_equal.
        unfold rsum. rewrite sumf_map. unfold block. rewrite W. f_equal. f_equal. lia.
      * rewrite (B v) by (auto; lia). f_equal.
        -- apply (OUT v); auto. lia.
        -- apply sumf_ext. intros q' I'. apply (OUT v); auto. lia.
Qed.

Lemma foldM_ext_in {X S} (f g : S -> X -> result S) l s : (forall s x, f s x = g s x) -> foldM f l s = foldM g l s.
Proof. apply foldM_ext. Qed.

Lemma sumf_pos' {A} (l : list A) f : l <> [] -> (forall x, In x l -> 0 < f x) -> 0 < sumf l f.
Proof.
  intros N P. apply sumf_pos; [intros; left; auto|]. destruct l as [|a l]; [congruence|]. exists a. split; [now left|apply P; now left].
Qed.

Section Build.
Variables (ws : list nat) (V M N : nat) (m : smodel).
Hypothesis C : consistent ws V M N m.

Lemma cons_V : (1 <= V)%nat.
Proof. destruct (cm_tree _ _ _ _ _ C) as (es & (L & _) & _). lia. Qed.

Lemma cons_tree : ts_V (d_tree m) = V /\ spanning_tree V (ts_get_edges (d_tree m)).
Proof.
  destruct (cm_tree _ _ _ _ _ C) as (es & T & E). rewrite E. split; [reflexivity|].
  apply (make_tree_spanning _ _ T).
Qed.

Lemma inrM_pos : 0 < 1 / 2 / INR M.
Proof. destruct (cm_M _ _ _ _ _ C). assert (0 < INR M) by (apply lt_0_INR; lia). apply Rdiv_lt_0_compat; lra. Qed.

Lemma seqM : seq 0 M <> [].
Proof. destruct (cm_M _ _ _ _ _ C) as (_ & ? & _). destruct M; [lia|discriminate]. Qed.

Lemma vcount_pos v c : (v < V)%nat -> (c < M)%nat -> 0 < IZR (d_vert m v c) + 1 / 2.
Proof. intros. pose proof (cm_vert_nonneg _ _ _ _ _ C v c H H0) as P. apply IZR_le in P. lra. Qed.
Lemma ecount_pos e c1 c2 : (e < V - 1)%nat -> (c1 < M)%nat -> (c2 < M)%nat -> 0 < IZR (d_edge m e c1 c2) + 1 / 2 / INR M.
Proof. intros. pose proof (cm_edge_nonneg _ _ _ _ _ C e c1 c2 H H0 H1) as P. apply IZR_le in P. pose proof inrM_pos. lra. Qed.

Lemma block_lt v q : (v < V)%nat -> In q (block ws v) -> (q < list_sum ws)%nat.
Proof.
  intros Hv I. apply (proj2 (owns_exists ws q)). exists v. unfold block in I. apply in_seq in I.
  split; [|lia]. rewrite (cm_width _ _ _ _ _ C). auto.
Qed.

Lemma fcount_pos v q c : (v < V)%nat -> In q (block ws v) -> (c < M)%nat -> 0 < IZR (d_feat m q c) + 1 / 2 / INR M.
Proof. intros. pose proof (cm_feat_nonneg _ _ _ _ _ C q c (block_lt v q H H0) H1) as P. apply IZR_le in P. pose proof inrM_pos. lra. Qed.

Lemma vert_total v : (v < V)%nat -> sumf (seq 0 M) (fun c => IZR (d_vert m v c) + 1 / 2) = INR N + INR M / 2.
Proof.
  intros Hv. rewrite sumf_plus, sumf_const, seq_length, <- IZR_total, (cm_vert _ _ _ _ _ C) by auto.
  rewrite <- INR_IZR_INZ. lra.
Qed.

Lemma edge_row e v1 v2 c : nth_error (ts_get_edges (d_tree m)) e = Some (v1, v2) -> (c < M)%nat ->
  sumf (seq 0 M) (fun c2 => IZR (d_edge m e c c2) + 1 / 2 / INR M) = IZR (d_vert m v1 c) + 1 / 2 /\
  sumf (seq 0 M) (fun c1 => IZR (d_edge m e c1 c) + 1 / 2 / INR M) = IZR (d_vert m v2 c) + 1 / 2.
Proof.
  intros E Hc. destruct (cm_edge _ _ _ _ _ C e v1 v2 c E Hc) as (E1 & E2).
  assert (0 < INR M) by (apply lt_0_INR; destruct (cm_M _ _ _ _ _ C); lia).
  split; rewrite sumf_plus, sumf_const, seq_length.
  - rewrite <- (IZR_total (seq 0 M) (fun c2 => d_edge m e c c2)), E1. field. lra.
  - rewrite <- (IZR_total (seq 0 M) (fun c1 => d_edge m e c1 c)), E2. field. lra.
Qed.

Lemma edge_total e v1 v2 : nth_error (ts_get_edges (d_tree m)) e = Some (v1, v2) ->
  sumf (seq 0 M) (fun c1 => sumf (seq 0 M) (fun c2 => IZR (d_edge m e c1 c2) + 1 / 2 / INR M)) = INR N + INR M / 2.
Proof.
  intros E. rewrite <- (vert_total v1).
  - apply sumf_ext. intros c Hc. apply in_seq in Hc. apply (edge_row e v1 v2); auto. lia.
  - apply nth_error_In in E. destruct cons_tree as (_ & _ & RG & _). apply (RG _ _ E).
Qed.

Lemma tot_pos : 0 < INR N + INR M / 2.
Proof. pose proof (pos_INR N). assert (0 < INR M) by (apply lt_0_INR; destruct (cm_M _ _ _ _ _ C); lia). lra. Qed.

Lemma build_server mst : mst_contract mst -> exists s edges, tree_server mst m = Ok s /\ sfacts ws V M edges s /\
  sv_tree s = d_tree m /\
  (forall v c, sv_vert s v c = vert_prob m v c) /\
  (forall e c1 c2, sv_edge s e c1 c2 = edge_prob m e c1 c2) /\
  (forall v q c, (v < V)%nat -> In q (block ws v) -> sv_feat s q c = feat_prob ws m v q c) /\
  sv_logits s = d_logits m /\
  (exists T, sv_est s = T /\ canonical_tree V T /\ forall T', spanning_tree V T' ->
     sumf T' (fun '(x, y) => nth (find_complete_edge x y) (d_logits m) 0) <= sumf T (fun '(x, y) => nth (find_complete_edge x y) (d_logits m) 0)) /\
  make_propagation_program (ts_grid (sv_tree s)) None = Ok (sv_prog s).
Proof.
  intros MC. destruct (cm_tree _ _ _ _ _ C) as (es & T & ET). destruct (cm_M _ _ _ _ _ C) as (EM & HM & _).
  pose proof (cm_width _ _ _ _ _ C) as W.
  destruct (find_center_Ok V es T) as (ctr & EC & CC).
  destruct (tree_rooted V _ ctr (make_tree_spanning _ _ T) (proj1 CC)) as (par & dep & RT).
  destruct (make_program_rooted_Ok _ _ _ _ _ RT) as (np & EP & BL).
  pose proof (make_tree_spanning _ _ T) as (L' & RG' & _).
  unfold tree_server. rewrite ET, EM, (cm_ri _ _ _ _ _ C). cbn [ts_grid ts_V].
  assert (EPP : make_propagation_program (make_tree es) None = Ok (prog_of es ctr par np)).
  { unfold make_propagation_program. rewrite EC. cbn [bind]. exact EP. }
  rewrite EPP. cbn [bind]. rewrite mri_last. cbn [bind]. cbv zeta.
  unfold edge_trans_of. unfold make_tree at 1.
  set (l := pair_sort (map sort_pair es)).
  assert (EL : grid_edges (make_tree es) = l) by (unfold make_tree, grid_edges; apply number_from_edges).
  destruct (trans_fold V (vert_probs_of M (d_vert m)) l 0 (edge_probs_of M (d_edge m))) as (tr & E1 & _ & TR).
  { rewrite EL in L'. lia. }
  { intros x y I. rewrite <- EL in I. now apply RG'. }
  rewrite E1. cbn [bind].
  unfold feat_cond_of. destruct (feat_fold ws) with (n := V) (b := 0%nat) (f := fun r c => IZR (d_feat m r c) + 1 / 2 / INR M) as (ft & E2 & _ & FT).
  { lia. }
  match goal with |- context[foldM ?f ?l ?i] => replace (foldM f l i) with (Ok ft) by (symmetry; exact E2) end.
  cbn [bind]. rewrite make_complete_graph_Ok. cbn [bind].
  destruct (estimate_tree_Ok mst V (complete_grid V) (d_logits m) MC cons_V (make_complete_graph_Ok V)) as (ET' & E3 & CT & MX).
  { rewrite (cm_logits _ _ _ _ _ C). unfold complete_grid. rewrite map_length, pair_loop_length. reflexivity. }
  rewrite E3. cbn [bind].
  set (vert := vert_probs_of M (d_vert m)) in *. set (eprob := edge_probs_of M (d_edge m)) in *.
  assert (VE : forall v c, vert v c = vert_prob m v c).
  { intros. unfold vert, vert_probs_of, vert_prob. rewrite rsum_vec, EM. reflexivity. }
  assert (EE : forall e c1 c2, eprob e c1 c2 = edge_prob m e c1 c2).
  { intros. unfold eprob, edge_probs_of, edge_prob. rewrite EM. f_equal. unfold rsum. rewrite sumf_flat_map. apply sumf_ext.
    intros. fold (rsum (vec M (fun m1 => IZR (d_edge m e x m1) + 1 / 2 / INR M))). now rewrite rsum_vec. }
  assert (GE : ts_get_edges (d_tree m) = grid_edges (make_tree es)) by (rewrite ET; reflexivity).
  assert (VT : forall v c, (v < V)%nat -> vert v c = (IZR (d_vert m v c) + 1 / 2) / (INR N + INR M / 2)).
  { intros. rewrite VE. unfold vert_prob. rewrite EM, vert_total by auto. reflexivity. }
  assert (EX : forall e, (e < V - 1)%nat -> exists v1 v2, nth_error (grid_edges (make_tree es)) e = Some (v1, v2)).
  { intros e He. destruct (nth_error (grid_edges (make_tree es)) e) as [[a b]|] eqn:D; eauto. apply nth_error_None in D. lia. }
  assert (ER : forall e v1 v2, nth_error (grid_edges (make_tree es)) e = Some (v1, v2) -> (v1 < V /\ v2 < V)%nat).
  { intros e v1 v2 D. apply nth_error_In in D. now apply RG'. }
  assert (ETT : forall e v1 v2 c1 c2, nth_error (grid_edges (make_tree es)) e = Some (v1, v2) ->
     eprob e c1 c2 = (IZR (d_edge m e c1 c2) + 1 / 2 / INR M) / (INR N + INR M / 2)).
  { intros e v1 v2 c1 c2 D. rewrite EE. unfold edge_prob. rewrite EM. rewrite (edge_total e v1 v2) by (rewrite GE; exact D). reflexivity. }
  pose proof tot_pos as TP.
  assert (FF : forall v q c, (v < V)%nat -> In q (block ws v) -> ft q c = feat_prob ws m v q c).
  { intros v q c Hv I. rewrite (FT v) by (auto; lia). unfold feat_prob. rewrite EM. reflexivity. }
  eexists. exists es. split; [reflexivity|]. cbn [sv_tree sv_vert sv_edge sv_feat sv_logits sv_est sv_prog].
  split; [|repeat split; auto; exists ET'; split; [reflexivity|auto]].
  split; cbn [sv_tree sv_vert sv_edge sv_feat sv_logits sv_est sv_prog sv_M sv_ri sv_R sv_trans]; auto.
  - intros v c Hv Hc. rewrite VT by auto. apply Rdiv_lt_0_compat; auto. now apply vcount_pos.
  - intros e c1 c2 He H1 H2. destruct (EX e He) as (v1 & v2 & D). rewrite (ETT _ _ _ _ _ D).
    apply Rdiv_lt_0_compat; auto. now apply ecount_pos.
  - intros e v1 v2 c1 c2 D. rewrite EL in D. assert (e < length l)%nat by (apply nth_error_Some; congruence).
    rewrite (TR e H). rewrite (nth_error_nth _ _ _ D). reflexivity.
  - intros v q c Hv I Hc. rewrite (FF v) by auto. unfold feat_prob. rewrite EM.
    assert (P : forall q, In q (block ws v) -> 0 < IZR (d_feat m q c) + 1 / 2 / INR M) by (intros; apply (fcount_pos v); auto).
    apply Rdiv_lt_0_compat; auto. apply sumf_pos'; auto. intro Z. rewrite Z in I. destruct I.
  - intros v Hv. rewrite (sumf_ext _ _ (fun c => (IZR (d_vert m v c) + 1 / 2) / (INR N + INR M / 2))) by (intros; now rewrite VT).
    rewrite sumf_div, vert_total by auto. field. lra.
  - intros e v1 v2 c D Hc. destruct (ER _ _ _ D). rewrite (sumf_ext _ _ (fun c2 => (IZR (d_edge m e c c2) + 1 / 2 / INR M) / (INR N + INR M / 2))) by (intros; now rewrite (ETT _ _ _ _ _ D)).
    rewrite sumf_div. rewrite (proj1 (edge_row e v1 v2 c ltac:(rewrite GE; exact D) Hc)). now rewrite VT.
  - intros e v1 v2 c D Hc. destruct (ER _ _ _ D). rewrite (sumf_ext _ _ (fun c1 => (IZR (d_edge m e c1 c) + 1 / 2 / INR M) / (INR N + INR M / 2))) by (intros; now rewrite (ETT _ _ _ _ _ D)).
    rewrite sumf_div. rewrite (proj2 (edge_row e v1 v2 c ltac:(rewrite GE; exact D) Hc)). now rewrite VT.
  - intros v c Hv Hc NE. rewrite (sumf_ext _ _ (fun q => (IZR (d_feat m q c) + 1 / 2 / INR M) / sumf (block ws v) (fun q => IZR (d_feat m q c) + 1 / 2 / INR M))).
    + rewrite sumf_div. field. apply Rgt_not_eq, sumf_pos'; auto. intros; apply (fcount_pos v); auto.
    + intros q I. rewrite (FF v) by auto. unfold feat_prob. rewrite EM. reflexivity.
Qed.
End Build.
