(** What TreeCatServer.sample returns, for every outcome of its draws. *)
From Coq Require Import List Arith Lia Bool ZArith Reals Lra Permutation FunctionalExtensionality.
From Verif Require Import Base L_Base Spec_Graph L_Graph Spec_Sum L_Sum M_Structure L_Pairing L_MakeTree L_Program L_ProgramValid Spec_Program L_Center L_Prop1 M_Rand L_Rand M_Util L_Quantize Spec_Ragged L_Ragged M_Array Spec_Trees Spec_MST M_Training Spec_Stats L_Stats L_Trainer Spec_Joint Spec_Conditional L_Asg L_BP L_BPVec L_AddRow L_Train M_Serving Spec_Serving L_Server L_Inward L_Logprob L_Draws L_Sample.
Import ListNotations.
Open Scope R_scope.

Section Counts.
Variables (ws : list nat) (V M : nat) (edges : list (nat * nat)) (s : server).
Hypothesis SF : sfacts ws V M edges s.
Notation es := (grid_edges (make_tree edges)).
Variables (r : nat) (par dep : nat -> nat).
Hypothesis RT : rooted V es r par dep.
Variable np : list (nat * option nat * list nat).
Hypothesis BL : bfs_list V r par np.
Variables (N : nat) (counts data : list Z).
Hypothesis CL : length counts = V.
Hypothesis DL : length data = list_sum ws.
Hypothesis CB : forall v, (v < V)%nat -> (0 <= nth v counts 0 <= 127)%Z.
Notation cnt v := (Z.to_nat (nth v counts 0%Z)).
Hypothesis CW : forall v, (v < V)%nat -> (0 < nth v counts 0%Z)%Z -> block ws v <> [].
Notation SAMP := (sample_instr s N counts data).
Notation off v := (list_sum (firstn v ws)).

(** Counts of one row: [k] observations in the block of [v]. *)
Definition has (v : nat) (k : Z) (x : nat -> Z) : Prop :=
  (forall q, In q (block ws v) -> (0 <= x q <= k)%Z) /\ total (block ws v) x = k.

Lemma has_ext v k x x' : (forall q, In q (block ws v) -> x q = x' q) -> has v k x -> has v k x'.
Proof.
  intros E (A & B). split.
  - intros q Hq. rewrite <- E by auto. auto.
  - rewrite <- B. apply total_ext. intros q Hq. symmetry. auto.
Qed.

Lemma total_set1 l q x y : NoDup l -> In q l -> total l (set1 x q y) = (total l x + (y - x q))%Z.
Proof.
  induction l; intros ND I; [destruct I|]. inversion ND; subst. rewrite !total_cons. destruct I as [->|I].
  - rewrite set1_same. rewrite (total_ext l _ x); [lia|]. intros n Hn. apply set1_other. intro; subst; auto.
  - rewrite IHl by auto. rewrite set1_other; [lia|]. intro; subst; auto.
Qed.

Lemma has_step v k x q : In q (block ws v) -> (k < 127)%Z -> has v k x -> has v (k + 1) (set1 x q (int8 (x q + 1))).
Proof.
  intros Hq Hk (A & B). pose proof (A q Hq) as Aq. rewrite int8_id by lia. split.
  - intros q' H'. unfold set1. destruct (Nat.eqb_spec q' q) as [->|]; [lia|]. specialize (A q' H'). lia.
  - rewrite total_set1; auto; [lia|]. apply seq_NoDup.
Qed.

Lemma draw_cells_surely v (Hv : (v < V)%nat) cls fs k : block ws v <> [] -> (0 <= k < 127)%Z ->
  (forall n, (n < N)%nat -> has v k (fs n)) ->
  surely (fun fs' => forall n, (n < N)%nat -> has v (k + 1) (fs' n) /\ forall q, ~ In q (block ws v) -> fs' n q = fs n q)
    (draw_cells s N (off v) (off (v + 1)) cls fs).
Proof.
  intros NE Hk H0. unfold draw_cells.
  assert (BW : seq (off v) (off (v + 1) - off v) = block ws v) by (eapply block_width; eauto).
  pose proof (surely_rfold_seq (fun (fs : nat -> nat -> Z) n => Cat (map (fun r0 => sv_feat s r0 (cls n)) (seq (off v) (off (v + 1) - off v)))
      (fun i => Ret (set2 fs n (off v + i) (int8 (fs n (off v + i)%nat + 1)))))
    (fun j (fs' : nat -> nat -> Z) => (forall n, (n < N)%nat -> has v (if (n <? j)%nat then k + 1 else k)%Z (fs' n) /\ forall q, ~ In q (block ws v) -> fs' n q = fs n q)) N 0 fs) as AR.
  cbn [Nat.add] in AR. eapply surely_mono; [|apply AR].
  - intros fs' H n Hn. specialize (H n Hn). rewrite (proj2 (Nat.ltb_lt n N)) in H by auto. exact H.
  - intros n Hn. split; [|auto]. cbn. auto.
  - intros i fs1 Hi H. cbn [surely]. rewrite BW. split; [destruct (block ws v); [congruence|discriminate]|].
    intros c Hc. rewrite map_length in Hc. unfold block in Hc. rewrite seq_length in Hc.
    assert (IB : In (off v + c)%nat (block ws v)) by (unfold block; apply in_seq; lia).
    intros n Hn. destruct (H n Hn) as (H1 & H2). unfold set2.
    destruct (Nat.eq_dec n i) as [->|NI].
    + rewrite Nat.eqb_refl. cbn [andb]. rewrite (proj2 (Nat.ltb_lt i (i + 1))) by lia. rewrite (proj2 (Nat.ltb_ge i i)) in H1 by lia. split.
      * apply (has_step v k (fs1 i) (off v + c)%nat IB); auto. lia.
      * intros q Hq. destruct (Nat.eqb_spec q (off v + c)) as [->|]; [tauto|auto].
    + rewrite (proj2 (Nat.eqb_neq n i)) by auto. cbn [andb].
      replace (n <? i + 1)%nat with (n <? i)%nat; [auto|]. destruct (Nat.ltb_spec n i), (Nat.ltb_spec n (i + 1)); auto; lia.
Qed.

Lemma cells_surely v (Hv : (v < V)%nat) cls fs :
  (forall n, (n < N)%nat -> has v 0 (fs n)) ->
  surely (fun fs' => forall n, (n < N)%nat -> has v (nth v counts 0%Z) (fs' n) /\ forall q, ~ In q (block ws v) -> fs' n q = fs n q)
    (rfold (fun fs (_ : nat) => draw_cells s N (off v) (off (v + 1)) cls fs) (seq 0 (cnt v)) fs).
Proof.
  intros H0. pose proof (CB v Hv).
  pose proof (surely_rfold_seq (fun fs (_ : nat) => draw_cells s N (off v) (off (v + 1)) cls fs)
    (fun j (fs' : nat -> nat -> Z) => (forall n, (n < N)%nat -> has v (Z.of_nat j) (fs' n) /\ forall q, ~ In q (block ws v) -> fs' n q = fs n q)) (cnt v) 0 fs) as AR.
  cbn [Nat.add] in AR. eapply surely_mono; [|apply AR].
  - intros fs' HH n Hn. rewrite <- (Z2Nat.id (nth v counts 0%Z)) by lia. auto.
  - intros n Hn. split; auto.
  - intros j fs1 Hj H1. eapply surely_mono; [|apply (draw_cells_surely v Hv cls fs1 (Z.of_nat j))].
    + intros fs' H2 n Hn. destruct (H2 n Hn) as (A & B). split.
      * replace (Z.of_nat (j + 1)) with (Z.of_nat j + 1)%Z by lia. auto.
      * intros q Hq. rewrite B by auto. now apply H1.
    + apply CW; auto. lia.
    + lia.
    + intros n Hn. now apply H1.
Qed.

(** Blocks still to be filled are empty, the others have their counts. *)
Definition filled (todo : list nat) (fs : nat -> nat -> Z) : Prop :=
  forall n v, (n < N)%nat -> (v < V)%nat -> has v (if in_dec Nat.eq_dec v todo then 0 else nth v counts 0)%Z (fs n).

Lemma has_other u v k x x' : (u < V)%nat -> (v < V)%nat -> u <> v -> (forall q, ~ In q (block ws v) -> x' q = x q) -> has u k x -> has u k x'.
Proof. intros. apply has_ext with x; auto. intros q Hq. symmetry. apply H2. apply (block_disj ws V M edges s SF counts data CL DL u v); auto. Qed.

Lemma down_surely v t (Hv : (v < V)%nat) mi mo vs fs : ~ In v t -> classes_ok M vs -> filled (v :: t) fs ->
  surely (fun '(mi', mo', vs', fs') => mi' = mi /\ classes_ok M vs' /\ filled t fs') (SAMP (mi, mo, vs, fs) (I OP_DOWN v 0 0)).
Proof.
  intros NI CO FL. pose proof (HM ws V M edges s SF) as HM. cbn [sample_instr]. rewrite (sv_V_eq ws V M edges s SF), (sv_M_eq ws V M edges s SF).
  unfold index at 1. rewrite (proj2 (Nat.ltb_lt v V)) by auto. cbn [lift rbind]. apply surely_bind.
  eapply surely_mono with (P := classes_ok M).
  - intros vs' C'. rewrite !(sri_get ws V M edges s SF) by lia. cbn [lift rbind].
    rewrite (get_Ok _ IndexError counts v 0%Z) by lia. cbn [lift rbind]. unfold index.
    assert (FB : forallb (fun n => vs' v n <? M)%nat (seq 0 N) = true).
    { apply forallb_forall. intros n _. apply Nat.ltb_lt. apply C'. }
    rewrite FB. cbn [lift rbind]. apply surely_bind. eapply surely_mono; [|apply (cells_surely v Hv (vs' v) fs)].
    + intros fs' H. cbn [surely]. split; [reflexivity|]. split; [auto|]. intros n u Hn Hu. destruct (H n Hn) as (A & B).
      specialize (FL n u Hn Hu). destruct (Nat.eq_dec u v) as [->|NE].
      * destruct (in_dec Nat.eq_dec v t); [contradiction|]. exact A.
      * apply (has_other u v _ (fs n)); auto. destruct (in_dec Nat.eq_dec u (v :: t)) as [[E|I1]|N1], (in_dec Nat.eq_dec u t) as [I2|N2]; auto; try congruence; try contradiction.
        exfalso. apply N1. now right.
    + intros n Hn. specialize (FL n v Hn Hv). destruct (in_dec Nat.eq_dec v (v :: t)) as [_|N1]; [exact FL|]. exfalso. apply N1. now left.
  - unfold draw_classes. apply surely_rfold; auto. intros vs' n C' _. cbn [surely]. split.
    + intros E. apply (f_equal (@length R)) in E. rewrite vec_length in E. simpl in E. lia.
    + intros m Hm. rewrite vec_length in Hm. intros u n'. unfold set2. destruct ((u =? v)%nat && (n' =? n)%nat); auto.
Qed.

Lemma out_surely l : (forall x, In x l -> good V r par x /\ ev x <> r) -> NoDup (map ev l) ->
  forall mi mo vs fs, classes_ok M vs -> filled (map ev l) fs ->
  surely (fun '(_, _, _, fs') => filled [] fs') (rfold SAMP (concat (map (outs_of edges r par) l)) (mi, mo, vs, fs)).
Proof.
  pose proof (HM ws V M edges s SF) as HM.
  induction l as [|[[v p] cs] l IH]; intros GD ND mi mo vs fs CO FL.
  - exact FL.
  - destruct (GD _ (or_introl eq_refl)) as ((Hv & _) & NR). unfold ev in NR. cbn [fst] in NR.
    cbn [map] in ND, FL. apply NoDup_cons_iff in ND. destruct ND as (NI1 & ND1). change (ev (v, p, cs)) with v in *.
    cbn [map concat]. unfold outs_of at 1. rewrite (proj2 (Nat.eqb_neq v r)) by auto.
    pose proof (par_lt _ _ _ _ _ RT v Hv) as Hp.
    cbn [app rfold]. unfold sample_instr at 1. rewrite (sv_V_eq ws V M edges s SF), (sv_M_eq ws V M edges s SF).
    unfold index. rewrite (proj2 (Nat.ltb_lt v V)), (proj2 (Nat.ltb_lt (par v) V)) by auto.
    rewrite (proj2 (Nat.ltb_lt _ (V - 1))) by (eapply eidx_lt; eauto).
    assert (FB : forallb (fun n => vs (par v) n <? M)%nat (seq 0 N) = true).
    { apply forallb_forall. intros n _. apply Nat.ltb_lt. apply CO. }
    rewrite FB. cbn [lift rbind andb]. apply surely_bind.
    eapply surely_mono; [|apply (down_surely v (map ev l) Hv); auto].
    intros [[[mi' mo'] vs'] fs'] (_ & C' & F'). apply IH; auto. intros x Hx. apply GD. now right.
Qed.

Lemma sample_surely : sv_prog s = prog_of edges r par np ->
  surely (fun X => length X = N /\ forall x, In x X -> legal_row ws counts x) (sample s N counts (Some data)).
Proof.
  intros EP. unfold sample. pose proof (HM ws V M edges s SF) as HM. pose proof (sf_ws _ _ _ _ _ SF) as LW.
  pose proof (rt_root _ _ _ _ _ RT) as Hr.
  rewrite (sf_R _ _ _ _ _ SF), (sv_V_eq ws V M edges s SF), DL, CL, !Nat.eqb_refl. cbn [assert_ lift rbind].
  rewrite EP. unfold prog_of. rewrite rfold_app.
  destruct (samp_in ws V M edges s SF r par dep RT np BL N counts data CL DL (fun v _ m => sv_vert s v m) (fun _ _ => 0%nat) (fun _ _ => 0%Z)) as (msg & acc & E & RUN & MP).
  rewrite E. cbn [rbind]. apply surely_bind.
  destruct (order_cons V edges r par dep RT np BL M HM) as ([[v p] cs] & np' & En & Er & NI). cbn [fst] in Er. subst v.
  pose proof (bl_good _ _ _ _ BL) as GD. rewrite Forall_forall in GD. pose proof (order_nodup V r par np BL) as ND. unfold order in ND. pose proof (order_perm V r par np BL) as OP. unfold order in OP.
  rewrite En in GD, ND, OP |- *. cbn [map fst concat] in GD, ND, OP |- *. unfold outs_of at 1. rewrite Nat.eqb_refl.
  cbn [app rfold]. unfold sample_instr at 1. rewrite (sv_V_eq ws V M edges s SF). unfold index. rewrite (proj2 (Nat.ltb_lt r V)) by auto. cbn [lift rbind].
  apply surely_bind. apply NoDup_cons_iff in ND. destruct ND as (NI1 & ND1).
  eapply surely_mono; [|apply (down_surely r (map ev np') Hr); auto; [intros v n; lia|]].
  - intros [[[mi' mo'] vs'] fs'] (_ & C' & F'). eapply surely_mono; [|apply out_surely; auto].
    + intros [[[mi2 mo2] vs2] fs2] F2. cbn [surely]. split; [now rewrite map_length, seq_length|].
      intros x Hx. apply in_map_iff in Hx. destruct Hx as (n & <- & Hn). apply in_seq in Hn.
      assert (NTH : forall q, (q < list_sum ws)%nat -> nth q (map (fs2 n) (seq 0 (list_sum ws))) 0%Z = fs2 n q).
      { intros q Hq. rewrite nth_indep with (d' := fs2 n 0%nat) by (rewrite map_length, seq_length; lia). rewrite map_nth, seq_nth by lia. reflexivity. }
      split; [now rewrite map_length, seq_length|]. split.
      * intros y Hy. apply in_map_iff in Hy. destruct Hy as (q & <- & Hq). apply in_seq in Hq.
        destruct (proj1 (owns_exists ws q) ltac:(lia)) as (v & Hv & O). destruct (F2 n v ltac:(lia) ltac:(lia)) as (A & _). apply A.
        unfold block. apply in_seq. lia.
      * intros v Hv. destruct (F2 n v ltac:(lia) ltac:(lia)) as (_ & T). cbn in T. rewrite <- T. apply total_ext. intros q Hq. apply NTH.
        apply (in_block_lt ws V M edges s SF v q); auto. lia.
    + intros x Hx. split; [apply GD; now right|]. intros Ex. apply NI. rewrite <- Ex. apply in_map_iff. exists x. auto.
  - intros n v Hn Hv.
    assert (IV : In v (r :: map ev np')).
    { eapply Permutation_in; [apply Permutation_sym, OP|]. apply in_seq. lia. }
    destruct (in_dec Nat.eq_dec v (r :: map ev np')); [|contradiction]. split; [intros; lia|]. apply total_zero. auto.
Qed.
Lemma sample_always : sv_prog s = prog_of edges r par np ->
  always (fun X => length X = N /\ forall x, In x X -> legal_row ws counts x) (sample s N counts (Some data)).
Proof. intros EP. apply surely_always, sample_surely; auto. Qed.
End Counts.
