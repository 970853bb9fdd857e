(** Proofs of C57 - C60. *)
From Coq Require Import List Arith Lia Bool ZArith Reals Lra Permutation.
From Verif Require Import Base L_Base Spec_Graph L_Graph Spec_Sum L_Sum M_Structure L_Pairing L_MakeTree L_Program L_Center L_Prop1 M_Rand L_Rand M_Util Spec_Ragged L_Ragged M_Array M_SampleTree M_EstimateTree Spec_Trees Spec_MST L_Estimate L_AllTrees M_Training Spec_Stats L_Stats L_Trainer Spec_Conditional L_Train M_Serving Spec_Serving M_Generate Spec_Generate.
Import ListNotations.
Open Scope nat_scope.

(** ** C57 *)
Lemma ts_init_proper V : 1 <= V -> exists t, ts_init V = Ok t /\ proper_tree V t.
Proof.
  intros HV. unfold ts_init. destruct (ts_set_edges_spec (TS V []) (map (fun v => (v, v + 1)) (seq 0 (V - 1)))) as [S1 _].
  rewrite S1 by (cbn; rewrite map_length, seq_length; lia). eexists. split; [reflexivity|]. eexists. split; [apply path_spanning; auto|reflexivity].
Qed.
Lemma tri_grid V : V * (V - 1) / 2 = length (complete_grid V).
Proof. rewrite complete_grid_length, <- tri2, Nat.mul_comm. apply Nat.div_mul. lia. Qed.

Lemma generate_tree_always : forall logits V, 1 <= V -> length logits = V * (V - 1) / 2 ->
  always (proper_tree V) (generate_tree logits V).
Proof.
  intros logits V HV LL. unfold generate_tree. destruct (ts_init_proper V HV) as (t & -> & es & T & ->). apply always_lift_Ok.
  rewrite make_complete_graph_Ok. apply always_lift_Ok. apply always_bind.
  apply always_mono with (P := spanning_tree V).
  - intros E TE. destruct (ts_set_edges_spec (TS V (make_tree es)) E) as (SE & _). cbn [ts_V] in SE.
    rewrite SE by (destruct TE; lia). cbn [lift always]. exists E. auto.
  - apply (always_rfold _ _ _ (spanning_tree V)).
    + apply (make_tree_spanning V es T).
    + intros E _ TE _. eapply always_mono; [|apply (C05_proof V _ (map Some logits) E (make_complete_graph_Ok V) TE); rewrite map_length, LL; apply tri_grid].
      intros T1 (S1 & _). exact S1.
Qed.

(** ** C58 *)
Lemma count_occ_total (f : nat -> nat) c rows : Z.of_nat (count_occ Nat.eq_dec (map f rows) c) = total rows (fun n => one_if (f n =? c)).
Proof.
  induction rows as [|n rows IH]; [reflexivity|]. cbn [map count_occ]. rewrite total_cons, <- IH.
  destruct (Nat.eq_dec (f n) c) as [->|D]; [rewrite Nat.eqb_refl|rewrite (proj2 (Nat.eqb_neq _ _) D)]; cbn [one_if]; lia.
Qed.

Section Fake.
Variables (ws : list nat) (tb : table) (M C : nat) (asg : nat -> nat -> nat) (es : list (nat * nat)) (logits : list R).
Hypothesis TK : table_ok ws tb.
Notation V := (num_cols tb).
Notation N := (num_rows tb).
Hypothesis AS : forall n v, n < N -> v < V -> asg n v < M.
Hypothesis FIT : list_sum ws <= V * C.
Hypothesis HM : 1 <= M.
Hypothesis TREE : spanning_tree V es.

Lemma fake_Ok : exists m, fake_model (TS V (make_tree es)) asg tb N V C M logits = Ok m /\
  d_tree m = TS V (make_tree es) /\ d_ri m = tb_ri tb /\ d_M m = M /\ d_logits m = logits /\ counted ws tb M asg m.
Proof.
  assert (LW : length ws = V) by apply TK. assert (ERI : tb_ri tb = make_ragged_index ws) by apply TK.
  unfold fake_model. cbv zeta.
  destruct (foldM_inv _ _ (fun (ss : nat -> nat -> Z) v =>
                let column := map (fun a : nat -> nat => a v) (map asg (seq 0 N)) in
                if forallb (fun m => m <? M) column
                then Ok (fun v' m => if v' =? v then Z.of_nat (count_occ Nat.eq_dec column m) else ss v' m)
                else Raise ValueError)
     (fun pre f => forall v c, In v pre -> f v c = total (seq 0 N) (fun n => one_if (asg n v =? c)))
     (seq 0 V) (fun _ _ => 0%Z)) as (vs & EV & HV).
  { intros; contradiction. }
  { intros pre v f IH Hin. apply in_seq in Hin. cbv zeta. rewrite map_map.
    rewrite (proj2 (forallb_forall _ _)).
    2:{ intros m Im. apply in_map_iff in Im. destruct Im as (n & <- & In_). apply in_seq in In_. apply Nat.ltb_lt. apply AS; lia. }
    eexists. split; [reflexivity|]. intros v' c I. cbn beta. destruct (Nat.eqb_spec v' v) as [->|D].
    - apply (count_occ_total (fun n => asg n v)).
    - apply IH. apply in_app_iff in I. destruct I as [I|[I|[]]]; [auto|congruence]. }
  cbv zeta in EV. rewrite EV. cbn [bind]. clear EV.
  pose proof (make_tree_spanning V es TREE) as TE'. destruct (grid_facts tb M HM es TREE) as (G1 & G2 & G3).
  destruct (foldM_inv _ _ (fun (ss : nat -> nat -> nat -> Z) '(e, v1, v2) =>
                let pairs := map (fun a : nat -> nat => a v1 * M + a v2) (map asg (seq 0 N)) in
                if forallb (fun p => p <? M * M) pairs
                then Ok (fun e' m1 m2 => if e' =? e then Z.of_nat (count_occ Nat.eq_dec pairs (m1 * M + m2)) else ss e' m1 m2)
                else Raise ValueError)
     (fun pre (f : nat -> nat -> nat -> Z) => forall e v1 v2 m1 m2, In (e, v1, v2) pre -> m1 < M -> m2 < M ->
        (forall v1' v2', In (e, v1', v2') pre -> (v1', v2') = (v1, v2)) ->
        f e m1 m2 = total (seq 0 N) (fun n => one_if ((asg n v1 =? m1) && (asg n v2 =? m2))))
     (make_tree es) (fun _ _ _ => 0%Z)) as (edg & EE & HE).
  { intros; contradiction. }
  { intros pre [[x a] b] f IH Hin. destruct (G1 _ _ _ Hin) as (Ha & Hb). cbv zeta.
    destruct (count_pairs_Ok M HM (seq 0 N) asg a b) as (cnt & EC & HC).
    { apply (spanning_no_loop tb _ _ _ TE'). apply in_map_iff. exists (x, a, b). auto. }
    { intros n Hn. apply in_seq in Hn. split; apply AS; auto; lia. }
    unfold count_pairs in EC.
    destruct (negb (a =? b)); cbn [assert_ bind] in EC; [|discriminate].
    destruct (forallb (fun p => p <? M * M) (map (fun a0 : nat -> nat => a0 a * M + a0 b) (map asg (seq 0 N)))); [|discriminate].
    injection EC as EC. eexists. split; [reflexivity|].
    intros e v1 v2 m1 m2 I H1 H2 U. cbn beta. destruct (Nat.eqb_spec e x) as [->|D].
    - assert (Q : (a, b) = (v1, v2)) by (apply U; apply in_app_iff; right; now left). inversion Q; subst. rewrite <- HC by auto. reflexivity.
    - apply in_app_iff in I. destruct I as [I|[I|[]]]; [|congruence]. apply IH; auto.
      intros v1' v2' I'. apply U. apply in_app_iff. now left. }
  cbn [ts_grid]. cbv zeta in EE. rewrite EE. cbn [bind]. clear EE.

  assert (HF : forall k, k <= V -> exists fs, foldM (fun (ss : nat -> nat -> Z) v =>
                beg <- get IndexError (tb_ri tb) v ;; fin <- get IndexError (tb_ri tb) (v + 1) ;;
                foldM (fun ss n =>
                  row <- get IndexError (tb_rows tb) n ;;
                  _ <- index (asg n v <? M) ;;
                  _ <- (if fin <=? V * C then Ok tt else Raise ValueError) ;;
                  Ok (slice_add ss beg fin (asg n v) (fun r => nth r row 0%Z))) (seq 0 N) ss)
     (seq 0 k) (fun _ _ => 0%Z) = Ok fs /\
     forall v r c, owns ws v r -> fs r c = if v <? k then total (seq 0 N) (fun n => one_if (asg n v =? c)%nat * datum tb n r)%Z else 0%Z).
  { induction k as [|k IH]; intros Hk. { eexists. split; reflexivity. }
    destruct IH as (fs & EF & HF); [lia|]. rewrite seq_S, foldM_app. rewrite EF. cbn [bind foldM Nat.add].
    rewrite ERI, !mri_get by lia. cbn [bind].
    assert (FL : list_sum (firstn (k + 1) ws) <= V * C).
    { rewrite <- (firstn_skipn (k + 1) ws), list_sum_app in FIT. lia. }
    rewrite (proj2 (Nat.leb_le _ _) FL).
    assert (FS : list_sum (firstn (k + 1) ws) = list_sum (firstn k ws) + nth k ws 0).
    { rewrite Nat.add_1_r. apply sum_firstn_S. lia. }
    rewrite FS. set (beg := list_sum (firstn k ws)) in *.
    assert (IN : forall j, j <= N -> exists gs, foldM (fun ss n =>
                  row <- get IndexError (tb_rows tb) n ;;
                  _ <- index (asg n k <? M) ;;
                  _ <- Ok tt ;;
                  Ok (slice_add ss beg (beg + nth k ws 0) (asg n k) (fun r => nth r row 0%Z))) (seq 0 j) fs = Ok gs /\
                  forall v r c, owns ws v r -> gs r c = (fs r c + if (v =? k)%nat then total (seq 0 j) (fun n => one_if (asg n k =? c)%nat * datum tb n r) else 0)%Z).
    { induction j as [|j IHj]; intros Hj. { eexists. split; [reflexivity|]. intros. destruct (v =? k); cbn; lia. }
      destruct IHj as (gs & EG & HG); [lia|]. rewrite seq_S, foldM_app, EG. cbn [bind foldM Nat.add].
      rewrite (get_row tb j IndexError) by lia. cbn [bind]. rewrite (proj2 (Nat.ltb_lt _ _) (AS j k ltac:(lia) ltac:(lia))). cbn [index bind].
      eexists. split; [reflexivity|]. intros v r c O. unfold slice_add. rewrite (HG v r c O). rewrite total_app, total_cons.
      change (total [] _) with 0%Z. change (nth r (nth j (tb_rows tb) []) 0%Z) with (datum tb j r).
      destruct (Nat.eqb_spec v k) as [->|D].
      - destruct O as (_ & O1 & O2). fold beg in O1, O2. rewrite (proj2 (Nat.leb_le _ _) O1), (proj2 (Nat.ltb_lt _ _) O2). cbn [andb].
        rewrite (Nat.eqb_sym (asg j k)). destruct (c =? asg j k); cbn [one_if]; lia.
      - assert (NO : (beg <=? r) && (r <? beg + nth k ws 0) = false).
        { apply not_true_iff_false. intros Q. apply andb_true_iff in Q. destruct Q as [Q1 Q2]. apply Nat.leb_le in Q1. apply Nat.ltb_lt in Q2.
          apply D. eapply owns_unique; [exact O|]. split; [lia|]. fold beg. lia. }
        rewrite NO. cbn [andb]. lia. }
    destruct (IN N ltac:(lia)) as (gs & EG & HG). rewrite EG. cbn [bind]. eexists. split; [reflexivity|].
    intros v r c O. rewrite (HG v r c O), (HF v r c O). destruct (Nat.eqb_spec v k) as [->|D].
    - rewrite Nat.ltb_irrefl, (proj2 (Nat.ltb_lt k (S k))) by lia. lia.
    - destruct (Nat.ltb_spec v k), (Nat.ltb_spec v (S k)); lia. }
  destruct (HF V ltac:(lia)) as (fs & EF & HFF). rewrite EF. cbn [bind]. eexists. split; [reflexivity|].
  cbn. repeat (split; [reflexivity|]). constructor; cbn [d_vert d_edge d_feat d_tree].
  - intros v c Hv Hc. apply HV. apply in_seq. lia.
  - intros e v1 v2 c1 c2 Ee H1 H2. change (nth_error (grid_edges (make_tree es)) e = Some (v1, v2)) in Ee.
    pose proof (G3 e) as GE. rewrite Ee in GE. cbn [option_map fst snd] in GE.
    apply HE; auto. { eapply nth_error_In; eauto. }
    intros a b I. apply In_nth_error in I. destruct I as (i & Hi).
    destruct (make_tree_canonical es) as (_ & CN & _). destruct (CN _ _ _ _ Hi) as [-> _].
    rewrite GE in Hi. inversion Hi; auto.
  - intros v r c O Hc. rewrite (HFF v r c O). destruct O as (Ov & _). rewrite LW in Ov. now rewrite (proj2 (Nat.ltb_lt _ _) Ov).
Qed.

Lemma counted_consistent m : 1 <= M <= 128 -> nonneg_data tb -> d_tree m = TS V (make_tree es) -> d_ri m = tb_ri tb -> d_M m = M ->
  length (d_logits m) = V * (V - 1) / 2 -> counted ws tb M asg m -> consistent ws V M N m.
Proof.
  intros HM2 ND ET ER EM EL [CV CE CF].
  assert (LW : length ws = V) by apply TK. assert (ERI : tb_ri tb = make_ragged_index ws) by apply TK.
  assert (AS' : forall n v, In n (seq 0 N) -> v < V -> asg n v < M) by (intros n v I; apply in_seq in I; apply AS; lia).
  assert (ED : forall e v1 v2, nth_error (ts_get_edges (d_tree m)) e = Some (v1, v2) -> v1 < V /\ v2 < V).
  { intros e v1 v2 H. apply nth_error_In in H. rewrite ET in H. destruct (make_tree_spanning V es TREE) as (_ & RG & _). now apply RG. }
  assert (SC : forall k, k < M -> total (seq 0 M) (fun m => one_if (k =? m)) = 1%Z).
  { intros k Hk. rewrite (total_single _ k).
    - now rewrite Nat.eqb_refl.
    - apply seq_NoDup.
    - apply in_seq. lia.
    - intros m0 _ Hm. rewrite (proj2 (Nat.eqb_neq k m0)); auto. }
  constructor; auto.
  - congruence.
  - exists es. auto.
  - intros v Hv. rewrite (total_ext _ _ (fun m => total (seq 0 N) (fun n => one_if (asg n v =? m)))).
    + rewrite total_swap. rewrite (total_ext _ _ (fun _ => 1%Z)).
      * now rewrite total_const1, seq_length.
      * intros n I. apply SC. now apply AS'.
    + intros c I. apply in_seq in I. apply CV; auto; lia.
  - intros e v1 v2 c H Hc. destruct (ED e v1 v2 H) as (H1 & H2). split.
    + rewrite (total_ext _ _ (fun m2 => total (seq 0 N) (fun n => one_if ((asg n v1 =? c) && (asg n v2 =? m2))))).
      * rewrite total_swap, CV by auto. apply total_ext. intros n I.
        destruct (asg n v1 =? c); cbn [andb]; [apply SC; now apply AS'|apply total_zero; reflexivity].
      * intros m2 I. apply in_seq in I. apply (CE e v1 v2); auto; lia.
    + rewrite (total_ext _ _ (fun m1 => total (seq 0 N) (fun n => one_if ((asg n v1 =? m1) && (asg n v2 =? c))))).
      * rewrite total_swap, CV by auto. apply total_ext. intros n I.
        destruct (asg n v2 =? c).
        -- rewrite (total_ext _ _ (fun m1 => one_if (asg n v1 =? m1))); [apply SC; now apply AS'|].
           intros. now rewrite andb_true_r.
        -- apply total_zero. intros. now rewrite andb_false_r.
      * intros m1 I. apply in_seq in I. apply (CE e v1 v2); auto; lia.
  - intros v c Hv Hc. rewrite CV by auto. apply total_nonneg. intros. unfold one_if. destruct (_ =? _); lia.
  - intros e c1 c2 He H1 H2. destruct (nth_error (ts_get_edges (d_tree m)) e) as [[v1 v2]|] eqn:E.
    + rewrite (CE e v1 v2) by auto. apply total_nonneg. intros. unfold one_if. destruct (_ && _); lia.
    + exfalso. apply nth_error_None in E. rewrite ET in E. destruct (make_tree_spanning V es TREE) as (L & _). unfold ts_get_edges in E. cbn [ts_grid] in E.
      change (length (grid_edges (make_tree es)) <= e) in E. lia.
  - intros q c Hq Hc. destruct (proj1 (owns_exists ws q) Hq) as (v & Ow). rewrite (CF v) by auto. apply total_nonneg. intros n _.
    specialize (ND n q). unfold one_if. destruct (_ =? _); lia.
Qed.
End Fake.

Lemma C58_proof : forall ws tb asg M C tree_logits logits, table_ok ws tb -> nonneg_data tb -> 1 <= num_cols tb -> 1 <= M <= 128 ->
  (forall n v, n < num_rows tb -> v < num_cols tb -> asg n v < M) -> list_sum ws <= num_cols tb * C ->
  length tree_logits = num_cols tb * (num_cols tb - 1) / 2 -> length logits = num_cols tb * (num_cols tb - 1) / 2 ->
  always (fun m => consistent ws (num_cols tb) M (num_rows tb) m /\ counted ws tb M asg m)
    (generate_fake_model tree_logits asg tb (num_rows tb) (num_cols tb) C M logits).
Proof.
  intros ws tb asg M C tl logits TK ND HV HM AS FIT L1 L2. unfold generate_fake_model. apply always_bind.
  eapply always_mono; [|apply generate_tree_always; auto]. intros t (es & T & ->).
  destruct (fake_Ok ws tb M C asg es logits TK AS FIT (proj1 HM) T) as (m & -> & ET & ER & EM & EL & CT). cbn [lift always]. split; auto.
  eapply counted_consistent; eauto; [apply HM|now rewrite EL].
Qed.
