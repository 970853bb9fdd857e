(** add_row draws the latent classes from their full conditional. *)
From Coq Require Import List Arith Lia Bool ZArith Reals Lra Permutation FunctionalExtensionality Sorted.
From Verif Require Import Base L_Base Spec_Graph L_Graph Spec_Sum L_Sum M_Structure L_MakeTree L_Program L_ProgramValid Spec_Program L_Center L_Prop1 M_Rand L_Rand M_Util Spec_Ragged L_Ragged M_Array M_SampleTree M_EstimateTree M_Schedule M_Training Spec_Stats L_Stats L_Trainer Spec_Joint Spec_Conditional L_Asg L_BP L_BPVec.
Import ListNotations.
Open Scope R_scope.

(** ** Rising factorials *)
Lemma rising_pos k : forall x, 0 < x -> 0 < rising x k.
Proof. induction k; simpl; intros; [lra|]. apply Rmult_lt_0_compat; auto. apply IHk. lra. Qed.

Lemma rising_app a b : forall x, rising x (a + b) = rising x a * rising (x + INR a) b.
Proof.
  induction a; intros x; cbn [Nat.add rising].
  - simpl INR. rewrite Rplus_0_r. lra.
  - rewrite IHa. replace (x + INR (S a)) with (x + 1 + INR a) by (rewrite S_INR; lra). ring.
Qed.

(** ** One cell *)
Definition cstate := ((nat -> R) * (nat -> nat -> R) * (nat -> nat -> R))%type.

Lemma iter_shift {A} (f : A -> A) k x : Nat.iter (S k) f x = Nat.iter k f (f x).
Proof. induction k; auto. cbn [Nat.iter nat_rect] in *. now rewrite IHk. Qed.

Lemma cell_iter v r k : forall msg fp mp msg' fp' mp', Nat.iter k (cell_draw v r) (msg, fp, mp) = (msg', fp', mp') ->
  (forall m, 0 < mp v m -> msg' m = msg m * rising (fp r m) k / rising (mp v m) k) /\
  (forall r', r' <> r -> fp' r' = fp r') /\
  (forall v', v' <> v -> mp' v' = mp v') /\
  (forall m, mp' v m = mp v m + INR k).
Proof.
  induction k; intros msg fp mp msg' fp' mp' E.
  - simpl in E. inversion E; subst. split; [|split; [auto|split; [auto|]]]; intros; simpl; lra.
  - rewrite iter_shift in E. apply IHk in E. destruct E as (E1 & E2 & E3 & E4). split; [|split; [|split]].
    + intros m Hm. rewrite E1 by (rewrite set1_same; lra). rewrite !set1_same. simpl rising.
      assert (0 < rising (mp v m + 1) k) by (apply rising_pos; lra). field. lra.
    + intros r' Hr. rewrite E2 by auto. now apply set1_other.
    + intros v' Hv. rewrite E3 by auto. now apply set1_other.
    + intros m. rewrite E4, set1_same, S_INR. lra.
Qed.

Lemma cell_fold v l : NoDup (map fst l) -> forall msg fp mp msg' fp' mp',
  fold_left (cell_category v) l (msg, fp, mp) = (msg', fp', mp') ->
  (forall m, l = [] \/ 0 < mp v m ->
     msg' m = msg m * prodf l (fun rc => rising (fp (fst rc) m) (Z.to_nat (snd rc))) / rising (mp v m) (list_sum (map (fun rc => Z.to_nat (snd rc)) l))) /\
  (forall r', ~ In r' (map fst l) -> fp' r' = fp r') /\
  (forall v', v' <> v -> mp' v' = mp v').
Proof.
  induction l as [|[r c] l IH]; intros ND msg fp mp msg' fp' mp' E.
  - simpl in E. inversion E; subst. split; [|split; auto]. intros. simpl. unfold prodf. simpl. lra.
  - cbn [fold_left] in E. unfold cell_category at 2 in E. cbn [fst snd] in E.
    destruct (Nat.iter (Z.to_nat c) (cell_draw v r) (msg, fp, mp)) as [[m1 f1] p1] eqn:E1.
    apply cell_iter in E1. destruct E1 as (A1 & A2 & A3 & A4).
    cbn [map fst] in ND. inversion ND; subst. apply (IH H2) in E. destruct E as (B1 & B2 & B3).
    split; [|split].
    + intros m [Hm|Hm]; [discriminate|]. assert (P1 : 0 < p1 v m) by (rewrite A4; pose proof (pos_INR (Z.to_nat c)); lra).
      rewrite B1, A1 by auto. rewrite prodf_cons. cbn [map list_sum fold_right fst snd].
      fold (list_sum (map (fun rc : nat * Z => Z.to_nat (snd rc)) l)).
      rewrite rising_app, <- A4.
      rewrite (prodf_ext l (fun rc => rising (f1 (fst rc) m) (Z.to_nat (snd rc))) (fun rc => rising (fp (fst rc) m) (Z.to_nat (snd rc)))).
      * pose proof (rising_pos (Z.to_nat c) (mp v m) Hm).
        pose proof (rising_pos (list_sum (map (fun rc : nat * Z => Z.to_nat (snd rc)) l)) (p1 v m) P1). field. lra.
      * intros [r' c'] Hr. cbn [fst snd]. rewrite A2; auto. intro; subst. apply H1. apply in_map_iff. exists (r, c'). auto.
    + intros r' Hr. cbn [map fst] in Hr. rewrite B2 by (intro; apply Hr; now right). apply A2. intro; apply Hr; left; auto.
    + intros v' Hv. rewrite B3, A3; auto.
Qed.

(** ** The program of a tree *)
Lemma prog_shape V es root prog : spanning_tree V es -> (forall r, root = Some r -> (r < V)%nat) ->
  make_propagation_program (make_tree es) root = Ok prog ->
  exists r par dep np, rooted V (grid_edges (make_tree es)) r par dep /\ bfs_list V r par np /\ prog = prog_of es r par np.
Proof.
  intros T HR E.
  assert (exists r, (r < V)%nat /\ make_program_rooted (make_tree es) r = Ok prog) as (r & Hr & ER).
  { unfold make_propagation_program in E. destruct root as [r|].
    - exists r. split; auto.
    - destruct (find_center_Ok V es T) as (c & EC & C). rewrite EC in E. cbn [bind] in E. exists c. split; [apply C|auto]. }
  destruct (tree_rooted V _ r (make_tree_spanning _ _ T) Hr) as (par & dep & RT).
  destruct (make_program_rooted_Ok _ _ _ _ _ RT) as (np & E2 & BL).
  rewrite ER in E2. inversion E2; subst. exists r, par, dep, np. auto.
Qed.

Section AddRow.
Variables (ws : list nat) (tb : table) (M : nat).
Hypothesis TK : table_ok ws tb.
Hypothesis HM : (1 <= M)%nat.
Notation V := (num_cols tb).
Variables (edges : list (nat * nat)) (r : nat) (par dep : nat -> nat).
Notation es := (grid_edges (make_tree edges)).
Hypothesis RT : rooted V es r par dep.
Variable np : list (nat * option nat * list nat).
Hypothesis BL : bfs_list V r par np.
Variable row : list Z.
Hypothesis RL : length row = list_sum ws.
Variables (vp fp0 mp0 : nat -> nat -> R) (ep : nat -> nat -> nat -> R).
Hypothesis VP : forall v m, (v < V)%nat -> (m < M)%nat -> 0 < vp v m.
Hypothesis EP : forall e m m', (e < V - 1)%nat -> (m < M)%nat -> (m' < M)%nat -> 0 < ep e m m'.
Hypothesis FP : forall v q m, (v < V)%nat -> In q (block ws v) -> (m < M)%nat -> 0 < fp0 q m.
Hypothesis MP : forall v m, (v < V)%nat -> (m < M)%nat -> block ws v = [] \/ 0 < mp0 v m.

Notation ADD := (add_instr (tb_types tb) (tb_ri tb) row V (V - 1) M vp ep).

Definition cellw (v m : nat) : R :=
  prodf (block ws v) (fun q => rising (fp0 q m) (Z.to_nat (nth q row 0%Z))) /
  rising (mp0 v m) (list_sum (map (fun q => Z.to_nat (nth q row 0%Z)) (block ws v))).

Lemma cellw_pos v m : (v < V)%nat -> (m < M)%nat -> 0 < cellw v m.
Proof.
  intros Hv Hm. apply Rdiv_lt_0_compat.
  - apply prodf_pos. intros. apply rising_pos. eauto.
  - destruct (MP v m Hv Hm) as [E|P]; [rewrite E; simpl; lra|now apply rising_pos].
Qed.

Definition epair (e m1 m2 : nat) : R :=
  let '(v1, v2) := nth e es (0, 0)%nat in ep e m1 m2 / (vp v1 m1 * vp v2 m2).

Notation PSI := (opair edges par epair).

Lemma epair_pos e m m' : (e < V - 1)%nat -> (m < M)%nat -> (m' < M)%nat -> 0 < epair e m m'.
Proof.
  intros He Hm Hm'. unfold epair. destruct (nth e es (0, 0)%nat) as [v1 v2] eqn:E.
  pose proof (rt_len _ _ _ _ _ RT) as L.
  assert (I : In (v1, v2) es) by (rewrite <- E; apply nth_In; lia).
  destruct (rt_range _ _ _ _ _ RT _ _ I).
  apply Rdiv_lt_0_compat; [apply EP; auto|]. apply Rmult_lt_0_compat; apply VP; auto.
Qed.

Lemma psi_eq c mp mc : (c < V)%nat -> c <> r ->
  PSI c mp mc = (if (c <? par c)%nat then ep (eidx edges par c) mc mp else ep (eidx edges par c) mp mc) / (vp (par c) mp * vp c mc).
Proof.
  intros Hc N. unfold opair, epair. destruct (eidx_spec _ _ _ _ _ RT c Hc N) as (E & _).
  rewrite (nth_error_nth _ _ _ E). pose proof (par_neq _ _ _ _ _ RT c Hc N). unfold norm. simpl.
  destruct (Nat.ltb_spec c (par c)).
  - rewrite Nat.min_l, Nat.max_r by lia. f_equal. ring.
  - rewrite Nat.min_r, Nat.max_l by lia. reflexivity.
Qed.

Lemma combine_block v : (v < V)%nat ->
  combine (seq (list_sum (firstn v ws)) (list_sum (firstn (v + 1) ws) - list_sum (firstn v ws)))
          (slice row (list_sum (firstn v ws)) (list_sum (firstn (v + 1) ws))) =
  map (fun q => (q, nth q row 0%Z)) (block ws v).
Proof.
  intros Hv. pose proof (tk_width _ _ TK) as W. unfold block.
  rewrite Nat.add_1_r, sum_firstn_S by lia.
  set (b := list_sum (firstn v ws)). set (w := nth v ws 0%nat).
  replace (b + w - b)%nat with w by lia.
  assert (b + w <= length row)%nat.
  { unfold b, w. rewrite <- sum_firstn_S by lia. rewrite RL. apply sum_firstn_all. }
  rewrite slice_map by auto. clear - w. generalize b. induction w; intros b0; [reflexivity|].
  cbn [seq combine map]. f_equal. f_equal. f_equal. lia.
  rewrite <- IHw. f_equal. rewrite <- seq_shift, map_map. apply map_ext. intros. f_equal. lia.
Qed.

Lemma block_disjoint u v q : (u < V)%nat -> (v < V)%nat -> u <> v -> In q (block ws u) -> ~ In q (block ws v).
Proof.
  intros Hu Hv N I1 I2. pose proof (tk_width _ _ TK) as W. unfold block in *. apply in_seq in I1, I2.
  apply N. apply (owns_unique ws u v q); split; lia.
Qed.

(** ** Inward pass *)
Definition fresh (l : list nat) (fp mp : nat -> nat -> R) : Prop :=
  forall v, In v l -> mp v = mp0 v /\ forall q, In q (block ws v) -> fp q = fp0 q.

Definition mpos (msg : nat -> nat -> R) : Prop := forall v m, (v < V)%nat -> (m < M)%nat -> 0 < msg v m.

Lemma up_step v rest msg fp mp z acc : (v < V)%nat -> ~ In v rest -> (forall u, In u rest -> (u < V)%nat) ->
  fresh (v :: rest) fp mp -> mpos msg ->
  exists msg' fp' mp', ADD (msg, fp, mp, z) (I OP_UP v 0 0) = Ret (msg', fp', mp', z) /\
    in_step M cellw PSI (I OP_UP v 0 0) (msg, acc) (msg', acc) /\ fresh rest fp' mp' /\ mpos msg'.
Proof.
  intros Hv NI RB FR MPO. unfold add_instr, check. rewrite (proj2 (Nat.ltb_lt v V)) by auto. cbn [lift rbind].
  rewrite (ty_get _ _ TK) by auto. cbn [lift rbind]. unfold treecat_add_cell.
  replace (TY_MULTINOMIAL =? TY_MULTINOMIAL)%nat with true by reflexivity.
  rewrite !(ri_get _ _ TK) by lia. cbn [bind lift rbind]. rewrite combine_block by auto.
  destruct (fold_left (cell_category v) (map (fun q => (q, nth q row 0%Z)) (block ws v)) (msg v, fp, mp)) as [[m1 f1] p1] eqn:E.
  apply cell_fold in E.
  2:{ rewrite map_map. cbn [fst]. rewrite map_id. apply seq_NoDup. }
  destruct E as (E1 & E2 & E3). rewrite map_map in E2. cbn [fst] in E2. rewrite map_id in E2.
  exists (set1 msg v m1), f1, p1. split; [reflexivity|].
  destruct (FR v (or_introl eq_refl)) as (FR1 & FR2).
  assert (EM : forall m, (m < M)%nat -> m1 m = msg v m * cellw v m).
  { intros m Hm. rewrite E1 by (rewrite FR1; destruct (MP v m Hv Hm) as [E|]; [left; now rewrite E|auto]). rewrite prodf_map. cbn [fst snd]. rewrite map_map. cbn [snd].
    unfold cellw. rewrite FR1. rewrite (prodf_ext (block ws v) (fun x => rising (fp x m) (Z.to_nat (nth x row 0%Z)))
      (fun q => rising (fp0 q m) (Z.to_nat (nth q row 0%Z)))). unfold Rdiv; ring.
    intros q Hq. now rewrite FR2. }
  split; [|split].
  - constructor.
    + intros m Hm. rewrite set1_same. auto.
    + intros w Hw. now apply set1_other.
  - intros u Hu. destruct (FR u (or_intror Hu)) as (A & B). assert (u <> v) by (intro; subst; auto). split.
    + rewrite E3; auto.
    + intros q Hq. rewrite E2; [now apply B|]. apply (block_disjoint u v); auto.
  - intros w m Hw Hm. unfold set1. destruct (Nat.eqb_spec w v); [|auto]. rewrite EM by auto.
    apply Rmult_lt_0_compat; [apply MPO; auto|apply cellw_pos; auto].
Qed.

Lemma rmax_vec_pos f : (forall m, (m < M)%nat -> 0 < f m) -> 0 < rmax (vec M f).
Proof.
  intros P. apply Rlt_le_trans with (f 0%nat); [apply P; lia|]. apply rmax_ge. unfold vec. apply in_map. apply in_seq. lia.
Qed.

Lemma in_step_add v c msg fp mp z acc : (c < V)%nat -> c <> r -> par c = v -> mpos msg ->
  exists msg' acc', ADD (msg, fp, mp, z) (I OP_IN v c (eidx edges par c)) = Ret (msg', fp, mp, z) /\
    in_step M cellw PSI (I OP_IN v c (eidx edges par c)) (msg, acc) (msg', acc') /\ mpos msg'.
Proof.
  intros Hc N Ep MPO. pose proof (par_lt _ _ _ _ _ RT c Hc) as Hv. rewrite Ep in Hv.
  unfold add_instr, check. rewrite (proj2 (Nat.ltb_lt v V)), (proj2 (Nat.ltb_lt c V)) by auto.
  rewrite (proj2 (Nat.ltb_lt _ (V - 1))) by (eapply eidx_lt; eauto). cbn [lift rbind andb].
  set (mm := fun m => (msg v m * sumf (seq 0 M) (fun m2 => (if (c <? v)%nat then transpose (ep (eidx edges par c)) else ep (eidx edges par c)) m m2 * (msg c m2 / vp c m2)) / vp v m)).
  assert (EU : forall m, (m < M)%nat -> mm m = msg v m * up M PSI msg c m).
  { intros m Hm. unfold mm, up. unfold Rdiv at 1. rewrite Rmult_assoc. f_equal. rewrite <- sumf_scal_r. apply sumf_ext.
    intros m2 Hm2. apply in_seq in Hm2. rewrite psi_eq by auto. rewrite Ep.
    assert (0 < vp v m) by (apply VP; auto). assert (0 < vp c m2) by (apply VP; auto; lia).
    unfold transpose. destruct (c <? v)%nat; field; lra. }
  assert (PU : forall m, (m < M)%nat -> 0 < up M PSI msg c m).
  { intros m Hm. unfold up.
    assert (P : forall m2, (m2 < M)%nat -> 0 < PSI c m m2 * msg c m2).
    { intros m2 Hm2. apply Rmult_lt_0_compat; [|apply MPO; auto]. apply (opair_pos V edges r par dep RT M); auto. apply epair_pos. }
    apply sumf_pos.
    - intros m2 Hm2. apply in_seq in Hm2. left. apply P. lia.
    - exists 0%nat. split; [apply in_seq; lia|apply P; lia]. }
  assert (PM : forall m, (m < M)%nat -> 0 < mm m).
  { intros m Hm. rewrite EU by auto. apply Rmult_lt_0_compat; auto. }
  pose proof (rmax_vec_pos mm PM) as TP.
  exists (set1 msg v (fun m => mm m / rmax (vec M mm))), (acc * rmax (vec M mm)). split; [reflexivity|]. split.
  - constructor; auto.
    + intros m Hm. rewrite set1_same. now rewrite EU.
    + intros w Hw. now apply set1_other.
  - intros w m Hw Hm. unfold set1. destruct (Nat.eqb_spec w v); [|auto]. apply Rdiv_lt_0_compat; auto.
Qed.

Lemma in_children_add v cs : (forall c, In c cs -> (c < V)%nat /\ c <> r /\ par c = v) -> forall msg fp mp z acc, mpos msg ->
  exists msg' acc', rfold ADD (map (fun c => I OP_IN v c (eidx edges par c)) cs) (msg, fp, mp, z) = Ret (msg', fp, mp, z) /\
    in_run M cellw PSI (map (fun c => I OP_IN v c (eidx edges par c)) cs) (msg, acc) (msg', acc') /\ mpos msg'.
Proof.
  induction cs as [|c cs IH]; intros HC msg fp mp z acc MPO.
  - exists msg, acc. split; [reflexivity|]. split; [constructor|auto].
  - destruct (HC c (or_introl eq_refl)) as (C1 & C2 & C3).
    destruct (in_step_add v c msg fp mp z acc C1 C2 C3 MPO) as (m1 & a1 & E1 & S1 & P1).
    destruct (IH (fun d H => HC d (or_intror H)) m1 fp mp z a1 P1) as (m2 & a2 & E2 & S2 & P2).
    exists m2, a2. cbn [map rfold]. rewrite E1. cbn [rbind]. split; [exact E2|]. split; [|auto]. econstructor; eauto.
Qed.

Lemma in_pass : forall l, (forall x, In x l -> good V r par x) -> NoDup (map ev l) ->
  forall msg fp mp z acc, fresh (map ev l) fp mp -> mpos msg ->
  exists msg' fp' mp' acc', rfold ADD (concat (map (ins_of edges par) l)) (msg, fp, mp, z) = Ret (msg', fp', mp', z) /\
    in_run M cellw PSI (concat (map (ins_of edges par) l)) (msg, acc) (msg', acc').
Proof.
  induction l as [|[[v p] cs] l IH]; intros G ND msg fp mp z acc FR MPO.
  - exists msg, fp, mp, acc. split; [reflexivity|constructor].
  - destruct (G _ (or_introl eq_refl)) as (Hv & _ & _ & IC). cbn [map] in ND, FR. inversion ND; subst.
    change (ev (v, p, cs)) with v in *.
    assert (RB : forall u, In u (map ev l) -> (u < V)%nat).
    { intros u Hu. apply in_map_iff in Hu. destruct Hu as ([[u' p'] cs'] & <- & Hu). destruct (G _ (or_intror Hu)) as (Hu' & _). exact Hu'. }
    destruct (up_step v (map ev l) msg fp mp z acc Hv H1 RB FR MPO) as (m1 & f1 & p1 & E1 & S1 & F1 & P1).
    destruct (in_children_add v cs (fun c Hc => proj1 (IC c) Hc) m1 f1 p1 z acc P1) as (m2 & a2 & E2 & S2 & P2).
    destruct (IH (fun x Hx => G x (or_intror Hx)) H2 m2 f1 p1 z a2 F1 P2) as (m3 & f3 & p3 & a3 & E3 & S3).
    exists m3, f3, p3, a3. cbn [map concat]. rewrite rfold_app. unfold ins_of at 1 3. cbn [rfold]. rewrite E1. cbn [rbind].
    rewrite E2. cbn [rbind]. split; [exact E3|].
    rewrite <- app_comm_cons. econstructor; [exact S1|].
    clear - S2 S3. revert S2. generalize (map (fun c => I OP_IN v c (eidx edges par c)) cs) (m1, acc). intros l1 s S2.
    induction S2; simpl; auto. econstructor; eauto.
Qed.

(** ** Outward pass *)
Section Out.
Variable msg : nat -> nat -> R.

Definition outw (z : nat -> nat) (v m : nat) : R :=
  if (v =? r)%nat then msg r m else
  msg v m * (if (v <? par v)%nat then transpose (ep (eidx edges par v)) else ep (eidx edges par v)) (z (par v)) m / vp v m.

Lemma out_pass {A} (k : (nat -> nat) -> rprog A) : forall l, (forall x, In x l -> good V r par x /\ ev x <> r) -> NoDup (map ev l) ->
  forall msgs fp mp z, (forall v, In v (map ev l) -> msgs v = msg v) -> (forall v, (v < V)%nat -> (z v < M)%nat) ->
  rsim (rbind (rfold ADD (concat (map (outs_of edges r par) l)) (msgs, fp, mp, z)) (fun st => k (snd st)))
       (draw_all M outw (map ev l) k z).
Proof.
  induction l as [|[[v p] cs] l IH]; intros G ND msgs fp mp z EM Hz.
  - simpl. apply rsim_refl.
  - destruct (G _ (or_introl eq_refl)) as ((Hv & _) & N). unfold ev in N. cbn [fst] in N.
    cbn [map concat]. unfold ev at 1. cbn [fst]. unfold outs_of at 1. rewrite (proj2 (Nat.eqb_neq v r)) by auto.
    cbn [draw_all]. cbn [app rfold].
    cbn [map] in ND, EM. inversion ND; subst. unfold ev at 1 in H1. cbn [fst] in H1.
    unfold add_instr at 1. unfold check. rewrite (proj2 (Nat.ltb_lt v V)) by auto.
    pose proof (par_lt _ _ _ _ _ RT v Hv) as Hp.
    rewrite (proj2 (Nat.ltb_lt (par v) V)), (proj2 (Nat.ltb_lt (z (par v)) M)) by auto.
    rewrite (proj2 (Nat.ltb_lt _ (V - 1))) by (eapply eidx_lt; eauto). cbn [lift rbind andb].
    rewrite (EM v) by (now left).
    set (mm := fun m => msg v m * (if (v <? par v)%nat then transpose (ep (eidx edges par v)) else ep (eidx edges par v)) (z (par v)) m / vp v m).
    assert (EW : outw z v = mm). { unfold outw. now rewrite (proj2 (Nat.eqb_neq v r)). }
    rewrite EW. constructor. intros i Hi. rewrite vec_length in Hi.
    cbn [rbind rfold]. unfold add_instr at 1. unfold check. rewrite (proj2 (Nat.ltb_lt v V)) by auto. cbn [lift rbind].
    apply IH.
    + intros x Hx. apply G. now right.
    + auto.
    + intros w Hw. rewrite set1_other by (intro; subst; auto). apply EM. now right.
    + intros w Hw. unfold set1. destruct (Nat.eqb_spec w v); auto.
Qed.

Lemma root_out_pass {A} (k : (nat -> nat) -> rprog A) fp mp z : (forall v, (v < V)%nat -> (z v < M)%nat) ->
  rsim (rbind (rfold ADD ([I OP_ROOT r 0 0] ++ concat (map (outs_of edges r par) np)) (msg, fp, mp, z)) (fun st => k (snd st)))
       (draw_all M outw (order np) k z).
Proof.
  intros Hz. pose proof (rt_root _ _ _ _ _ RT) as Hr.
  destruct (order_cons V edges r par dep RT np BL M HM) as ([[v p] cs] & np' & E & Er & NI). cbn [fst] in Er. subst v.
  pose proof (order_nodup V r par np BL) as ND. pose proof (bl_good _ _ _ _ BL) as G. rewrite Forall_forall in G.
  unfold order in *. rewrite E in *. cbn [map fst concat] in *. unfold outs_of at 1. rewrite Nat.eqb_refl.
  cbn [app rfold draw_all]. unfold add_instr at 1. unfold check. rewrite (proj2 (Nat.ltb_lt r V)) by auto. cbn [lift rbind].
  replace (outw z r) with (msg r) by (unfold outw; rewrite Nat.eqb_refl; reflexivity).
  constructor. intros i Hi. rewrite vec_length in Hi. cbn [rbind rfold]. unfold add_instr at 1. unfold check.
  rewrite (proj2 (Nat.ltb_lt r V)) by auto. cbn [lift rbind].
  inversion ND; subst. apply out_pass.
  - intros x Hx. split; [apply G; now right|]. intros Ex. apply H1. rewrite <- Ex. apply in_map_iff. exists x. auto.
  - auto.
  - auto.
  - intros w Hw. unfold set1. destruct (Nat.eqb_spec w r); auto.
Qed.

Lemma outw_looks_back : looks_back outw (order np).
Proof.
  intros pre v post E z z' m H. unfold outw. destruct (Nat.eqb_spec v r); auto. rewrite H; auto.
  pose proof (order_first V r par np BL pre v post E n) as I.
  pose proof (order_nodup V r par np BL) as ND. rewrite E in ND. apply NoDup_app_inv in ND. destruct ND as (_ & _ & D). apply D, I.
Qed.
End Out.

(** ** The whole program *)
Definition nodew (v m : nat) : R := vp v m * cellw v m.

Lemma nodew_pos v m : (v < V)%nat -> (m < M)%nat -> 0 < nodew v m.
Proof. intros. apply Rmult_lt_0_compat; auto. apply cellw_pos; auto. Qed.

Lemma prog_draws {A} z : (forall v, (v < V)%nat -> (z v < M)%nat) -> exists msg acc,
  in_run M cellw PSI (concat (map (ins_of edges par) (rev np))) (vp, 1) (msg, acc) /\
  forall k : (nat -> nat) -> rprog A,
  rsim (rbind (rfold ADD (prog_of edges r par np) (vp, fp0, mp0, z)) (fun st => k (snd st)))
       (draw_all M (outw msg) (order np) k z).
Proof.
  intros Hz. pose proof (bl_good _ _ _ _ BL) as G. rewrite Forall_forall in G.
  destruct (in_pass (rev np)) with (msg := vp) (fp := fp0) (mp := mp0) (z := z) (acc := 1) as (msg & fp & mp & acc & E & RUN).
  - intros x Hx. apply G. now apply in_rev.
  - rewrite map_rev. apply NoDup_rev. apply (order_nodup V r par np BL).
  - intros v _. split; auto.
  - exact VP.
  - exists msg, acc. split; auto. intros k. unfold prog_of. rewrite rfold_app, E. cbn [rbind]. now apply root_out_pass.
Qed.

Lemma prog_expect {A} z (k : (nat -> nat) -> rprog A) G (H : list nat -> R) : (forall v, (v < V)%nat -> (z v < M)%nat) ->
  (forall z', fills M (order np) z z' -> expect (k z') G = H (map z' (seq 0 V))) ->
  expect (rbind (rfold ADD (prog_of edges r par np) (vp, fp0, mp0, z)) (fun st => k (snd st))) G =
  sumf (vectors V M) (fun zz => tree_weight V es nodew epair zz / sumf (vectors V M) (tree_weight V es nodew epair) * H zz).
Proof.
  intros Hz HK. destruct (@prog_draws A z Hz) as (msg & acc & RUN & SIM). rewrite (rsim_expect _ _ G (SIM k)).
  apply (run_sample V edges r par dep RT np BL M HM nodew epair nodew_pos epair_pos cellw vp vp msg acc); auto.
  - apply outw_looks_back.
  - intros z' v F Hv.
    assert (Hv' : (v < V)%nat). { eapply Permutation_in in Hv; [|apply (order_perm V r par np BL)]. apply in_seq in Hv. lia. }
    unfold outw. destruct (Nat.eqb_spec v r) as [->|N].
    + exists 1. split; [lra|]. intros. lra.
    + pose proof (par_lt _ _ _ _ _ RT v Hv') as Hp.
      assert (Zp : (z' (par v) < M)%nat).
      { destruct F as (F1 & _). apply F1. eapply Permutation_in; [apply Permutation_sym, (order_perm V r par np BL)|]. apply in_seq. lia. }
      exists (vp (par v) (z' (par v))). split; [apply VP; auto|]. intros m Hm. rewrite psi_eq by auto.
      pose proof (VP (par v) _ Hp Zp). pose proof (VP v m Hv' Hm). unfold transpose.
      destruct (v <? par v)%nat; field; lra.
Qed.

(** Every class vector is a possible outcome. *)
Lemma prog_may {A} z (k : (nat -> nat) -> rprog A) zt res : (forall v, (v < V)%nat -> (z v < M)%nat) ->
  (forall v, (v < V)%nat -> (zt v < M)%nat) -> (forall v, ~ (v < V)%nat -> zt v = z v) ->
  may_return (k zt) res ->
  may_return (rbind (rfold ADD (prog_of edges r par np) (vp, fp0, mp0, z)) (fun st => k (snd st))) res.
Proof.
  intros Hz Hzt Ho HK. destruct (@prog_draws A z Hz) as (msg & acc & RUN & SIM).
  apply (rsim_may _ _ _ (rsim_sym _ _ (SIM k))).
  assert (OIN : forall v, In v (order np) <-> (v < V)%nat).
  { intros v. split; intros I.
    - eapply Permutation_in in I; [|apply (order_perm V r par np BL)]. apply in_seq in I. lia.
    - eapply Permutation_in; [apply Permutation_sym, (order_perm V r par np BL)|]. apply in_seq. lia. }
  apply draw_all_may with (zt := zt); auto.
  - apply (order_nodup V r par np BL).
  - split; intros v Hv. apply Hzt, OIN, Hv. apply Ho. intro. apply Hv, OIN. auto.
  - intros z' v m Q1 Q2 Hv Hm. apply OIN in Hv. unfold outw.
    assert (PM : forall u m, (u < V)%nat -> (m < M)%nat -> 0 < msg u m).
    { intros u m' Hu Hm'. apply (run_msg_pos V edges r par dep RT np BL M HM nodew epair nodew_pos epair_pos cellw vp vp msg acc); auto. }
    destruct (Nat.eqb_spec v r) as [->|N]; [apply PM; auto|].
    pose proof (par_lt _ _ _ _ _ RT v Hv) as Hp.
    assert (Zp : (z' (par v) < M)%nat). { destruct (Q2 (par v)) as [->| ->]; auto. apply OIN; auto. }
    apply Rdiv_lt_0_compat; [|apply VP; auto]. apply Rmult_lt_0_compat; [apply PM; auto|].
    pose proof (eidx_lt V edges r par dep RT M HM v Hv N). unfold transpose. destruct (v <? par v)%nat; apply EP; auto.
Qed.
End AddRow.

(** ** The trainer *)
Section Conditional.
Variables (ws : list nat) (tb : table) (M : nat).
Hypothesis TK : table_ok ws tb.
Hypothesis HM : (1 <= M)%nat.
Hypothesis ND : nonneg_data tb.
Notation V := (num_cols tb).

Lemma block_owns v q : (v < V)%nat -> In q (block ws v) <-> owns ws v q.
Proof.
  intros Hv. pose proof (tk_width _ _ TK). unfold block, owns. rewrite in_seq. intuition lia.
Qed.

Lemma one_if_nonneg b : (0 <= one_if b)%Z.
Proof. destruct b; simpl; lia. Qed.

Lemma inrM : 0 < 1 / 2 / INR M.
Proof. assert (0 < INR M) by (apply lt_0_INR; lia). apply Rdiv_lt_0_compat; lra. Qed.

Section St.
Variable s : tstate.
Hypothesis TI : tinv ws tb M s.

Lemma vert_nonneg v m : (v < V)%nat -> (m < M)%nat -> 0 <= IZR (s_vert s v m).
Proof.
  intros Hv Hm. apply IZR_le. rewrite (fs_vert _ _ _ _ (ti_fs _ _ _ _ TI)) by auto. apply total_nonneg. intros; apply one_if_nonneg.
Qed.

Lemma edge_nonneg e m1 m2 : (e < V - 1)%nat -> (m1 < M)%nat -> (m2 < M)%nat -> 0 <= IZR (s_edge s e m1 m2).
Proof.
  intros He H1 H2. destruct (fs_tree _ _ _ _ (ti_fs _ _ _ _ TI)) as (_ & L & _).
  destruct (nth_error (ts_get_edges (s_tree s)) e) as [[v1 v2]|] eqn:E; [|apply nth_error_None in E; lia].
  apply IZR_le. rewrite (fs_edge _ _ _ _ (ti_fs _ _ _ _ TI) _ _ _ _ _ E) by auto. apply total_nonneg. intros; apply one_if_nonneg.
Qed.

Lemma feat_nonneg v q m : owns ws v q -> (m < M)%nat -> 0 <= IZR (s_feat s q m).
Proof.
  intros O Hm. apply IZR_le. rewrite (fs_feat _ _ _ _ (ti_fs _ _ _ _ TI) v) by auto. apply total_nonneg. intros.
  apply Z.mul_nonneg_nonneg; [apply one_if_nonneg|apply ND].
Qed.

Lemma block_sum_total n v : block_sum ws (nth n (tb_rows tb) []) v = total (block ws v) (datum tb n).
Proof.
  unfold block_sum, block, datum. generalize (nth n (tb_rows tb) []). intros row.
  generalize (nth v ws 0%nat) (list_sum (firstn v ws)). intros w b.
  assert (E : map (fun i => nth (b + i) row 0%Z) (seq 0 w) = map (fun q => nth q row 0%Z) (seq b w)).
  { rewrite <- (map_map (fun i => (b + i)%nat) (fun q => nth q row 0%Z)). f_equal.
    clear. revert b. induction w; intros b; [reflexivity|]. cbn [seq map]. f_equal; [lia|].
    rewrite <- (IHw (S b)), <- (seq_shift w 0), map_map. apply map_ext. intros. lia. }
  rewrite E. generalize (seq b w). induction l; simpl; auto. now rewrite IHl.
Qed.

Lemma IZR_total l f : IZR (total l f) = sumf l (fun x => IZR (f x)).
Proof. induction l; [reflexivity|]. rewrite total_cons, plus_IZR, IHl, sumf_cons. reflexivity. Qed.

(** The measurement statistics are the sums of the feature statistics. *)
Lemma meas_feat v m : (v < V)%nat -> (m < M)%nat ->
  IZR (s_meas s v m) + meas_prior (tb_ri tb) M v = sumf (block ws v) (fun q => IZR (s_feat s q m) + 1 / 2 / INR M).
Proof.
  intros Hv Hm. rewrite sumf_plus, sumf_const. f_equal.
  - rewrite <- (IZR_total (block ws v) (fun q => s_feat s q m)). f_equal.
    rewrite (fs_meas _ _ _ _ (ti_fs _ _ _ _ TI)) by auto.
    transitivity (total (s_added s) (fun n => total (block ws v) (fun q => one_if (s_asg s n v =? m)%nat * datum tb n q)%Z)).
    + apply total_ext. intros n _. now rewrite total_scal, block_sum_total.
    + rewrite total_swap. apply total_ext. intros q Hq. apply block_owns in Hq; auto.
      now rewrite (fs_feat _ _ _ _ (ti_fs _ _ _ _ TI) v).
  - unfold meas_prior, feat_prior. rewrite !(ri_nth _ _ TK) by lia. unfold block. rewrite seq_length.
    pose proof (tk_width _ _ TK). rewrite Nat.add_1_r, sum_firstn_S by lia.
    replace (list_sum (firstn v ws) + nth v ws 0 - list_sum (firstn v ws))%nat with (nth v ws 0%nat) by lia. ring.
Qed.

Variables (root : option nat) (prog : list instr).
Hypothesis ROOT : forall r, root = Some r -> (r < V)%nat.
Hypothesis PROG : make_propagation_program (ts_grid (s_tree s)) root = Ok prog.
Variable n : nat.
Hypothesis Hn : (n < num_rows tb)%nat.
Hypothesis NI : ~ In n (s_added s).

Notation sp := (with_program s prog).
Notation row := (nth n (tb_rows tb) []).
Notation vp := (fun v m => IZR (s_vert s v m) + vert_prior).
Notation fp := (fun q m => IZR (s_feat s q m) + feat_prior M).
Notation mp := (fun v m => IZR (s_meas s v m) + meas_prior (tb_ri tb) M v).

Definition after_draw (assignments : nat -> nat) : rprog (tstate * option exn) :=
  let s1 := TSt (s_tree s) prog (set_add n (s_added s)) (set1 (s_asg s) n assignments)
               (s_vert s) (s_edge s) (s_feat s) (s_meas s) (s_eprobs s) in
  rbind (lift (update_stats V M 1 (tb_types tb) (tb_ri tb) row (ts_grid (s_tree s)) assignments s1)) (fun s2 => Ret (s2, None)).

Lemma add_row_eq : add_row tb M sp n =
  rbind (rfold (add_instr (tb_types tb) (tb_ri tb) row V (V - 1) M vp (s_eprobs s)) prog (vp, fp, mp, s_asg s n))
        (fun st => after_draw (snd st)).
Proof.
  unfold add_row. cbn [with_program s_added]. destruct (set_mem n (s_added s)) eqn:E.
  { apply set_mem_In in E. contradiction. }
  rewrite get_row by auto. cbn [lift rbind]. f_equal. apply functional_extensionality. intros [[[a b] c] z]. reflexivity.
Qed.

Lemma after_draw_Ok z : (forall v, (v < V)%nat -> (z v < M)%nat) ->
  exists s', after_draw z = Ret (s', None) /\ s_asg s' = set1 (s_asg s) n z /\ s_tree s' = s_tree s /\ s_prog s' = prog /\ s_added s' = set_add n (s_added s).
Proof.
  intros Hz. destruct TI as [_ _ _ (es & T & ET)]. unfold after_draw. cbv zeta.
  set (s1 := TSt (s_tree s) prog (set_add n (s_added s)) (set1 (s_asg s) n z) (s_vert s) (s_edge s) (s_feat s) (s_meas s) (s_eprobs s)).
  destruct (update_stats_Ok ws tb M TK HM 1%Z n z s1 es T ET Hn Hz) as (a & b & c & d & e & EU & _).
  change (ts_grid (s_tree s)) with (ts_grid (s_tree s1)). rewrite EU. eexists. split; [reflexivity|]. auto.
Qed.

Lemma vp_pos v m : (v < V)%nat -> (m < M)%nat -> 0 < vp v m.
Proof. intros Hv Hm. pose proof (vert_nonneg v m Hv Hm). unfold vert_prior. lra. Qed.
Lemma ep_pos e m m' : (e < V - 1)%nat -> (m < M)%nat -> (m' < M)%nat -> 0 < s_eprobs s e m m'.
Proof.
  intros He Hm Hm'. rewrite (fs_eprobs _ _ _ _ (ti_fs _ _ _ _ TI)) by auto. pose proof (edge_nonneg e m m' He Hm Hm'). pose proof inrM. lra.
Qed.
Lemma fp_pos v q m : (v < V)%nat -> In q (block ws v) -> (m < M)%nat -> 0 < fp q m.
Proof. intros Hv Hq Hm. apply block_owns in Hq; auto. pose proof (feat_nonneg v q m Hq Hm). pose proof inrM. unfold feat_prior. lra. Qed.
Lemma mp_pos v m : (v < V)%nat -> (m < M)%nat -> block ws v = [] \/ 0 < mp v m.
Proof.
  intros Hv Hm. cbv beta; rewrite meas_feat by auto. destruct (block ws v) as [|q l] eqn:E; [now left|right].
  rewrite <- E. assert (P : forall x, In x (block ws v) -> 0 < IZR (s_feat s x m) + 1 / 2 / INR M) by (intros; apply (fp_pos v); auto).
  apply sumf_pos; [intros; left; auto|]. exists q. rewrite E. split; [now left|]. apply P. rewrite E. now left.
Qed.

Lemma weights_eq z : In z (vectors V M) ->
  tree_weight V (grid_edges (ts_grid (s_tree s))) (nodew ws row vp fp mp)
    (fun e m1 m2 => let '(v1, v2) := nth e (grid_edges (ts_grid (s_tree s))) (0, 0)%nat in s_eprobs s e m1 m2 / (vp v1 m1 * vp v2 m2)) z =
  conditional_weight ws tb M s n z.
Proof.
  intros I. apply in_vectors in I. destruct I as (L & B).
  assert (BN : forall v, (v < V)%nat -> (nth v z 0 < M)%nat) by (intros; apply B, nth_In; lia).
  destruct (fs_tree _ _ _ _ (ti_fs _ _ _ _ TI)) as (_ & LE & RG & _).
  unfold conditional_weight, tree_weight. change (grid_edges (ts_grid (s_tree s))) with (ts_get_edges (s_tree s)). f_equal.
  - apply prodf_ext. intros v Hv. apply in_seq in Hv. unfold nodew, node_factor, cellw, class_weight, polya, vert_prior, feat_prior.
    f_equal. rewrite meas_feat by (try apply BN; lia). reflexivity.
  - apply prodf_ext. intros [e [v1 v2]] Hc.
    pose proof (in_combine_l _ _ _ _ Hc) as H1. pose proof (in_combine_r _ _ _ _ Hc) as H2. apply in_seq in H1.
    destruct (RG _ _ H2) as (R1 & R2).
    unfold pair_factor, class_weight. destruct (nth e (ts_get_edges (s_tree s)) (0, 0)%nat) as [a b].
    rewrite (fs_eprobs _ _ _ _ (ti_fs _ _ _ _ TI)) by (try apply BN; auto; lia). reflexivity.
Qed.

Lemma add_row_expect G (H : list nat -> R) :
  (forall z s', (forall v, (v < V)%nat -> (z v < M)%nat) -> (forall v, ~ (v < V)%nat -> z v = s_asg s n v) -> after_draw z = Ret (s', None) ->
     G (Ok (s', None)) = H (map z (seq 0 V))) ->
  expect (add_row tb M sp n) G =
  sumf (vectors V M) (fun z => conditional_weight ws tb M s n z / sumf (vectors V M) (conditional_weight ws tb M s n) * H z).
Proof.
  intros HG. rewrite add_row_eq. destruct TI as [FS _ AL (es & T & ET)]. pose proof PROG as PROG'.
  assert (EG : ts_grid (s_tree s) = make_tree es) by (rewrite ET; reflexivity).
  rewrite EG in PROG'.
  destruct (prog_shape V es root prog T ROOT PROG') as (r & par & dep & np & RT & BL & ->).
  rewrite (prog_expect ws tb M TK HM es r par dep RT np BL row (row_len _ _ TK n Hn) vp fp mp (s_eprobs s)
     vp_pos ep_pos fp_pos mp_pos (s_asg s n) after_draw G H (AL n)).
  - pose proof weights_eq as W. rewrite EG in W. unfold epair.
    rewrite (sumf_ext (vectors V M) (tree_weight V (grid_edges (make_tree es)) (nodew ws row vp fp mp) _) (conditional_weight ws tb M s n)) by (intros; apply W; auto).
    apply sumf_ext. intros z Hz. now rewrite W.
  - intros z (F1 & F2).
    assert (OIN : forall v, In v (order np) <-> (v < V)%nat).
    { intros v. split; intros I.
      - eapply Permutation_in in I; [|apply (order_perm V r par np BL)]. apply in_seq in I. lia.
      - eapply Permutation_in; [apply Permutation_sym, (order_perm V r par np BL)|]. apply in_seq. lia. }
    assert (Hz : forall v, (v < V)%nat -> (z v < M)%nat) by (intros v Hv; apply F1, OIN, Hv).
    destruct (after_draw_Ok z Hz) as (s' & E & _). rewrite E. cbn [expect]. apply HG; auto.
    intros v Hv. apply F2. intro. apply Hv, OIN; auto.
Qed.

Lemma add_row_may zt s' : (forall v, (v < V)%nat -> (zt v < M)%nat) -> (forall v, ~ (v < V)%nat -> zt v = s_asg s n v) ->
  after_draw zt = Ret (s', None) -> may_return (add_row tb M sp n) (Ok (s', None)).
Proof.
  intros Hz Ho E. rewrite add_row_eq. destruct TI as [FS _ AL (es & T & ET)]. pose proof PROG as PROG'.
  assert (EG : ts_grid (s_tree s) = make_tree es) by (rewrite ET; reflexivity).
  rewrite EG in PROG'.
  destruct (prog_shape V es root prog T ROOT PROG') as (r & par & dep & np & RT & BL & ->).
  apply (prog_may ws tb M TK HM es r par dep RT np BL row (row_len _ _ TK n Hn) vp fp mp (s_eprobs s)
     vp_pos ep_pos fp_pos mp_pos (s_asg s n) after_draw zt _ (AL n) Hz Ho). rewrite E. reflexivity.
Qed.
End St.
End Conditional.
