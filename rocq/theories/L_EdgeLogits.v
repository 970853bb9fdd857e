(** compute_edge_logits. *)
From Coq Require Import List Arith Bool ZArith Reals Lia Lra Permutation.
From Verif Require Import Base L_Base Spec_Graph Spec_Sum L_Sum Spec_Ragged M_Structure L_Pairing L_Prop1 L_MakeTree M_Util M_Rand L_Rand M_Array M_Training
  Spec_Joint Spec_Stats L_Asg L_Stats L_Trainer Spec_Conditional L_AddRow L_Conditional Spec_EdgeLogits.
Import ListNotations.
Open Scope nat_scope.

Definition pcount (pairs : list (nat * nat)) (m1 m2 : nat) : nat :=
  length (filter (fun '(x, y) => (x =? m1) && (y =? m2)) pairs).

Lemma counts_Ok M (pairs : list (nat * nat)) : forall c0, (forall x y, In (x, y) pairs -> x < M /\ y < M) ->
  exists c, foldM (fun counts '(a1, a2) => (_ <- check ((a1 <? M) && (a2 <? M)) ;;
              Ok (set2 counts a1 a2 (counts a1 a2 + 1)))%res) pairs c0 = Ok c /\
    forall m1 m2, c m1 m2 = c0 m1 m2 + pcount pairs m1 m2.
Proof.
  induction pairs as [|[x y] pairs IH]; intros c0 H; cbn [foldM].
  - exists c0. split; [reflexivity|]. intros. unfold pcount. simpl. lia.
  - destruct (H x y (or_introl eq_refl)) as (Hx & Hy).
    rewrite (proj2 (Nat.ltb_lt x M) Hx), (proj2 (Nat.ltb_lt y M) Hy). cbn [andb check bind].
    destruct (IH (set2 c0 x y (c0 x y + 1))) as (c & E & HC).
    { intros; apply H; now right. }
    exists c. split; [exact E|]. intros m1 m2. rewrite HC. unfold set2, pcount. cbn [filter].
    rewrite (Nat.eqb_sym m1 x), (Nat.eqb_sym m2 y). destruct (Nat.eqb_spec x m1), (Nat.eqb_spec y m2); subst; simpl; lia.
Qed.

Lemma pcount_le pairs m1 m2 : pcount pairs m1 m2 <= length pairs.
Proof. unfold pcount. induction pairs as [|[x y] l IH]; simpl; [lia|]. destruct ((x =? m1) && (y =? m2)); simpl; lia. Qed.

Lemma pcount_total (l : list nat) (asg : nat -> nat -> nat) a b m1 m2 :
  Z.of_nat (pcount (map (fun n => (asg n a, asg n b)) l) m1 m2) =
  total l (fun n => one_if ((asg n a =? m1) && (asg n b =? m2))).
Proof.
  induction l as [|n l IH]; [reflexivity|]. rewrite total_cons, <- IH. unfold pcount. cbn [map filter].
  destruct ((asg n a =? m1) && (asg n b =? m2)); cbn [length one_if]; lia.
Qed.

Lemma acc_sum {A} (l : list A) (F : R -> A -> result R) (f : A -> R) : forall acc,
  (forall acc x, In x l -> F acc x = Ok (acc + f x)%R) -> foldM F l acc = Ok (acc + sumf l f)%R.
Proof.
  induction l as [|a l IH]; intros acc H; cbn [foldM].
  - rewrite sumf_nil, Rplus_0_r. reflexivity.
  - rewrite H by now left. cbn [bind]. rewrite IH by (intros; apply H; now right). rewrite sumf_cons. f_equal. lra.
Qed.

Lemma edge_logit_Ok lg N M (pairs : list (nat * nat)) : length pairs <= N -> (forall x y, In (x, y) pairs -> x < M /\ y < M) ->
  treecat_compute_edge_logit lg N M pairs =
  Ok (sumf (seq 0 M) (fun m1 => sumf (seq 0 M) (fun m2 => lg (INR (pcount pairs m1 m2) + 1 / 2 / INR M))))%R.
Proof.
  intros L B. unfold treecat_compute_edge_logit. destruct (counts_Ok M pairs (fun _ _ => 0) B) as (c & -> & HC). cbn [bind].
  rewrite (acc_sum _ _ (fun m1 => sumf (seq 0 M) (fun m2 => lg (INR (pcount pairs m1 m2) + 1 / 2 / INR M))%R)).
  - now rewrite Rplus_0_l.
  - intros acc m1 _. rewrite (acc_sum _ _ (fun m2 => lg (INR (pcount pairs m1 m2) + 1 / 2 / INR M))%R); [reflexivity|].
    intros acc' m2 _. unfold gammaln_table. rewrite HC. cbn [Nat.add].
    rewrite (proj2 (Nat.leb_le _ _)) by (pose proof (pcount_le pairs m1 m2); lia). reflexivity.
Qed.

Lemma mapM_Ok {A B} (f : A -> result B) (g : A -> B) l : (forall a, In a l -> f a = Ok (g a)) -> mapM f l = Ok (map g l).
Proof. induction l; intros H; [reflexivity|]. cbn [mapM map]. rewrite H by now left. cbn [bind]. rewrite IHl by (intros; apply H; now right). reflexivity. Qed.

(** The score of an edge from the rows [l]. *)
Definition rows_score (lg : R -> R) (M : nat) (asg : nat -> nat -> nat) (vl : nat -> R) (l : list nat) (a b : nat) : R :=
  (sumf (seq 0 M) (fun m1 => sumf (seq 0 M) (fun m2 =>
     lg (IZR (total l (fun n => one_if ((asg n a =? m1)%nat && (asg n b =? m2)%nat))) + 1 / 2 / INR M))) - vl a - vl b)%R.

Lemma seq_logits_Ok lg N M V (asg : nat -> nat -> nat) (l : list nat) vl :
  length l <= N -> (forall n v, In n l -> v < V -> asg n v < M) ->
  compute_edge_logits_seq lg N M V (complete_grid V) (map asg l) vl =
  Ok (map (fun '(_, a, b) => rows_score lg M asg vl l a b) (complete_grid V)).
Proof.
  intros L B. unfold compute_edge_logits_seq. apply mapM_Ok. intros [[k a] b] I.
  apply In_nth_error in I. destruct I as (j & E). apply complete_grid_nth in E. destruct E as (_ & Hab & Hb & _).
  unfold edge_logit_of. rewrite (proj2 (Nat.ltb_lt a V)), (proj2 (Nat.ltb_lt b V)) by lia. cbn [andb check bind].
  rewrite map_map. rewrite edge_logit_Ok.
  - cbn [bind]. unfold rows_score. f_equal. f_equal. f_equal. apply sumf_ext. intros m1 _. apply sumf_ext. intros m2 _.
    rewrite <- pcount_total, INR_IZR_INZ. reflexivity.
  - rewrite map_length. exact L.
  - intros x y I. apply in_map_iff in I. destruct I as (n & E & I). inversion E; subst. split; apply B; auto; lia.
Qed.

Lemma sumf_vec (f : nat -> Z) M (g : Z -> R) : sumf (vec M f) g = sumf (seq 0 M) (fun m => g (f m)).
Proof. unfold vec. apply sumf_map. Qed.

Section Logits.
Variables (ws : list nat) (tb : table) (prior : list R) (M : nat).
Hypothesis TK : table_ok ws tb.
Hypothesis HM : 1 <= M.
Notation V := (num_cols tb).
Notation N := (num_rows tb).

(** The rows read by compute_edge_logits. *)
Definition read_rows (s : tstate) : list nat := if length (s_added s) =? V then seq 0 N else s_added s.

Definition vlog (lg : R -> R) (s : tstate) (v : nat) : R := sumf (seq 0 M) (fun m => lg (IZR (class_count s v m) + 1 / 2)%R).

Lemma added_le s : tinv ws tb M s -> length (s_added s) <= N.
Proof.
  intros TI. destruct (fs_rows _ _ _ _ (ti_fs _ _ _ _ TI)) as (ND & B).
  rewrite <- (seq_length N 0). apply NoDup_incl_length; auto. intros n I. apply in_seq. specialize (B n I). lia.
Qed.

Lemma logits_Ok lg s : tinv ws tb M s -> length prior = tri V ->
  exists logits, compute_edge_logits lg tb prior M s = Ok logits /\ length logits = tri V /\
    forall a b, a < b -> b < V ->
      nth_error logits (find_complete_edge a b) =
      Some (rows_score lg M (s_asg s) (vlog lg s) (read_rows s) a b + nth (find_complete_edge a b) prior 0)%R.
Proof.
  intros TI LP. unfold compute_edge_logits. rewrite make_complete_graph_Ok. cbn [bind].
  assert (ER : (if length (s_added s) =? V then map (s_asg s) (seq 0 N) else map (s_asg s) (s_added s)) = map (s_asg s) (read_rows s)).
  { unfold read_rows. destruct (length (s_added s) =? V); reflexivity. }
  rewrite ER. rewrite seq_logits_Ok.
  - cbn [bind]. eexists. split; [reflexivity|]. split.
    { rewrite map_length, combine_length, map_length, complete_grid_length, LP. lia. }
    intros a b Hab Hb. rewrite nth_error_map.
    assert (RNG : find_complete_edge a b < tri V) by (apply fce_range; lia).
    assert (EC : forall X Y (l : list X) (l' : list Y) i x y, nth_error l i = Some x -> nth_error l' i = Some y -> nth_error (combine l l') i = Some (x, y)).
    { induction l; destruct l', i; simpl; intros; try discriminate; auto. congruence. }
    erewrite EC.
    + cbn [option_map]. reflexivity.
    + rewrite nth_error_map, complete_grid_fce by auto. cbn [option_map]. f_equal. unfold rows_score. f_equal.
      * f_equal. unfold logprob_dc. rewrite sumf_vec. unfold vlog. apply sumf_ext. intros m Hm. apply in_seq in Hm.
        rewrite (fs_vert _ _ _ _ (ti_fs _ _ _ _ TI)) by lia. reflexivity.
      * unfold logprob_dc. rewrite sumf_vec. unfold vlog. apply sumf_ext. intros m Hm. apply in_seq in Hm.
        rewrite (fs_vert _ _ _ _ (ti_fs _ _ _ _ TI)) by lia. reflexivity.
    + apply nth_error_nth'. lia.
  - unfold read_rows. destruct (length (s_added s) =? V); [rewrite seq_length; lia|]. now apply added_le.
  - intros n v _ Hv. apply (ti_all _ _ _ _ TI); auto.
Qed.

Lemma rows_score_perm lg asg vl l l' a b : Permutation l l' -> rows_score lg M asg vl l a b = rows_score lg M asg vl l' a b.
Proof.
  intros P. unfold rows_score. f_equal. f_equal. apply sumf_ext. intros m1 _. apply sumf_ext. intros m2 _.
  now rewrite (total_perm _ _ _ P).
Qed.

Lemma all_added s : tinv ws tb M s -> length (s_added s) = N -> Permutation (s_added s) (seq 0 N).
Proof.
  intros TI L. destruct (fs_rows _ _ _ _ (ti_fs _ _ _ _ TI)) as (ND & B). apply NoDup_Permutation_bis; auto.
  - rewrite seq_length. lia.
  - intros n I. apply in_seq. specialize (B n I). lia.
Qed.

Lemma prior_length s : reachable tb prior M s -> length prior = tri V.
Proof.
  clear TK HM. intros (s0 & _ & E & _). unfold init_trainer in E.
  destruct (V <=? 2 ^ 15); cbn [assert_ bind] in E; [|discriminate].
  destruct (Nat.eqb_spec (length prior) (V * (V - 1) / 2)) as [EL|]; cbn [assert_ bind] in E; [|discriminate]. exact EL.
Qed.

Lemma logits_subsample lg s : reachable tb prior M s ->
  length (s_added s) <> V \/ length (s_added s) = N ->
  exists logits, compute_edge_logits lg tb prior M s = Ok logits /\ length logits = tri V /\
    forall a b, a < b -> b < V ->
      nth_error logits (find_complete_edge a b) =
      Some (edge_score lg M s a b + nth (find_complete_edge a b) prior 0)%R.
Proof.
  intros RE C. pose proof (prior_length s RE) as LP. pose proof (reachable_tinv ws tb M TK HM prior s RE) as TI.
  destruct (logits_Ok lg s TI LP) as (logits & E & L & H). exists logits. split; [exact E|]. split; [exact L|].
  intros a b Hab Hb. rewrite H by auto. do 2 f_equal.
  assert (P : Permutation (read_rows s) (s_added s)).
  { unfold read_rows. destruct (Nat.eqb_spec (length (s_added s)) V); [|reflexivity].
    destruct C as [C|C]; [contradiction|]. now apply Permutation_sym, all_added. }
  rewrite (rows_score_perm _ _ _ _ _ _ _ P). reflexivity.
Qed.
End Logits.

(** ** A row outside the subsample that matters *)
Definition cx_tb : table := Tab [0; 0] [0; 2; 4] [[1; 0; 0; 1]; [0; 1; 1; 0]; [1; 0; 1; 0]]%Z.

Lemma cx_ok : table_ok [2; 2] cx_tb.
Proof. split; try reflexivity; repeat constructor. Qed.

Lemma cx_nonneg : nonneg_data cx_tb.
Proof.
  intros n r. unfold datum, cx_tb. cbn [tb_rows].
  destruct n as [|[|[|[|n]]]]; cbn [nth]; (destruct r as [|[|[|[|[|r]]]]]; cbn; lia).
Qed.

Lemma cx_init : exists s0, init_trainer cx_tb [0%R] 2 = Ok s0 /\ reachable cx_tb [0%R] 2 s0.
Proof.
  assert (E : exists s0, init_trainer cx_tb [0%R] 2 = Ok s0).
  { unfold init_trainer.
    replace (num_cols cx_tb <=? 2 ^ 15) with true by (symmetry; apply Nat.leb_le; change (num_cols cx_tb) with 2; apply (Nat.pow_le_mono_r 2 1 15); lia).
    eexists. reflexivity. }
  destruct E as (s0 & E). exists s0. split; [exact E|]. exists s0, []. split; [exact E|]. split; [constructor|reflexivity].
Qed.

Lemma ln_94 : (ln (9 / 4) <> ln (1 / 4))%R.
Proof. intros E. apply ln_inv in E; lra. Qed.

Lemma logits_stale : forall lg, (forall x, 0 < x -> lg (x + 1) = lg x + ln x)%R ->
  exists ws tb prior M s1 s2 k,
    table_ok ws tb /\ nonneg_data tb /\ reachable tb prior M s1 /\ reachable tb prior M s2 /\
    s_tree s1 = s_tree s2 /\ s_added s1 = s_added s2 /\ (forall n, In n (s_added s1) -> s_asg s1 n = s_asg s2 n) /\
    exists l1 l2 x1 x2, compute_edge_logits lg tb prior M s1 = Ok l1 /\ compute_edge_logits lg tb prior M s2 = Ok l2 /\
      nth_error l1 k = Some x1 /\ nth_error l2 k = Some x2 /\ x1 <> x2.
Proof.
  intros lg REC. pose proof cx_ok as TK. pose proof cx_nonneg as ND. destruct cx_init as (s0 & E0 & R0).
  destruct (init_Ok [2; 2] cx_tb 2 ltac:(lia) _ _ E0) as (_ & A0 & _).
  assert (AS0 : s_asg s0 = fun _ _ => 0).
  { unfold init_trainer in E0.
    destruct (num_cols cx_tb <=? 2 ^ 15); cbn [assert_ bind] in E0; [|discriminate].
    inversion E0. reflexivity. }
  set (z0 := fun _ : nat => 0).
  destruct (reach_add [2; 2] cx_tb [0%R] 2 s0 0 z0 TK ltac:(lia) ND R0) as (sa & Ra & Aa & Ta & Da);
    [cbn; lia|rewrite A0; intros []|unfold z0; intros; lia|rewrite AS0; reflexivity|].
  rewrite A0 in Da. cbn in Da.
  destruct (reach_add [2; 2] cx_tb [0%R] 2 sa 1 z0 TK ltac:(lia) ND Ra) as (s1 & R1 & A1 & T1 & D1);
    [cbn; lia|rewrite Da; cbn; lia|unfold z0; intros; lia|rewrite Aa, AS0; reflexivity|].
  rewrite Da in D1. cbn in D1.
  set (z1 := fun v : nat => if v <? 2 then 1 else 0).
  destruct (reach_add [2; 2] cx_tb [0%R] 2 s1 2 z1 TK ltac:(lia) ND R1) as (sb & Rb & Ab & Tb & Db);
    [cbn; lia|rewrite D1; cbn; lia|unfold z1; intros v _; destruct (v <? 2); lia| |].
  { intros v Hv. unfold z1. destruct (Nat.ltb_spec v 2); [cbn in Hv; lia|]. now rewrite A1, Aa, AS0. }
  rewrite D1 in Db. cbn in Db.
  destruct (reach_remove [2; 2] cx_tb [0%R] 2 sb 2 TK ltac:(lia) Rb) as (s2 & R2 & A2 & T2 & D2); [rewrite Db; cbn; auto|].
  rewrite Db in D2. cbn in D2.
  exists [2; 2], cx_tb, [0%R], 2, s1, s2, (find_complete_edge 0 1).
  split; [exact TK|]. split; [exact ND|]. split; [exact R1|]. split; [exact R2|]. split; [congruence|]. split; [congruence|]. split.
  { intros n In1. rewrite A2, Ab. unfold set1. destruct (Nat.eqb_spec n 2); [|reflexivity].
    subst. rewrite D1 in In1. cbn in In1. lia. }
  pose proof (reachable_tinv [2; 2] cx_tb 2 TK ltac:(lia) _ _ R1) as I1.
  pose proof (reachable_tinv [2; 2] cx_tb 2 TK ltac:(lia) _ _ R2) as I2.
  destruct (logits_Ok [2; 2] cx_tb [0%R] 2 ltac:(lia) lg s1 I1 eq_refl) as (l1 & E1 & _ & H1).
  destruct (logits_Ok [2; 2] cx_tb [0%R] 2 ltac:(lia) lg s2 I2 eq_refl) as (l2 & E2 & _ & H2).
  eexists l1, l2, _, _. split; [exact E1|]. split; [exact E2|].
  split; [apply H1; cbn; lia|]. split; [apply H2; cbn; lia|].
  assert (VL : vlog 2 lg s1 = vlog 2 lg s2).
  { unfold vlog, class_count. rewrite D1, D2, A2, Ab, A1. reflexivity. }
  rewrite <- VL. unfold rows_score, read_rows. rewrite D1, D2, A2, Ab, A1, Aa, AS0.
  cbn [length num_cols cx_tb tb_types Nat.eqb num_rows tb_rows].
  cbn [total fold_right seq sumf set1 Nat.eqb z0 z1 Nat.ltb Nat.leb andb one_if Z.add Pos.add Pos.succ].
  pose proof (REC (2 + 1 / 2 / INR 2)%R ltac:(simpl; lra)) as Q1. pose proof (REC (0 + 1 / 2 / INR 2)%R ltac:(simpl; lra)) as Q2.
  simpl INR in *.
  replace (2 + 1 / 2 / (1 + 1) + 1)%R with (3 + 1 / 2 / (1 + 1))%R in Q1 by lra.
  replace (0 + 1 / 2 / (1 + 1) + 1)%R with (1 + 1 / 2 / (1 + 1))%R in Q2 by lra.
  rewrite Q1, Q2. pose proof ln_94 as LN.
  replace (9 / 4)%R with (2 + 1 / 2 / (1 + 1))%R in LN by lra. replace (1 / 4)%R with (0 + 1 / 2 / (1 + 1))%R in LN by lra.
  intros EQ. apply LN. lra.
Qed.

Lemma cx_case : table_ok [2; 2] cx_tb /\ nonneg_data cx_tb /\
  (exists s0, init_trainer cx_tb [0%R] 2 = Ok s0 /\ reachable cx_tb [0%R] 2 s0) /\
  Forall (op_ok cx_tb) [OpAdd 2; OpAdd 2; OpAdd 0; OpSetEdges [(0, 1)]; OpSetEdges []; OpRemove 2; OpRemove 1].
Proof.
  split; [exact cx_ok|]. split; [exact cx_nonneg|]. split; [exact cx_init|].
  repeat (apply Forall_cons; [cbn [op_ok]|]); try apply Forall_nil; try (cbn; lia).
  - left. exact (path_spanning 2 ltac:(lia)).
Qed.

Lemma cx_case22 : exists s, reachable cx_tb [0%R] 2 s /\ s_added s = [1] /\
  classes_of cx_tb s 1 = [1; 0] /\ 2 < num_rows cx_tb /\ ~ In 2 (s_added s) /\
  (exists prog, make_propagation_program (ts_grid (s_tree s)) (Some 0) = Ok prog) /\
  (exists prog, make_propagation_program (ts_grid (s_tree s)) (Some 1) = Ok prog) /\
  In [1; 1] (vectors (num_cols cx_tb) 2).
Proof.
  destruct cx_init as (s0 & E0 & R0). destruct (init_Ok [2; 2] cx_tb 2 ltac:(lia) _ _ E0) as (_ & A0 & _).
  unfold init_trainer in E0. destruct (num_cols cx_tb <=? 2 ^ 15); cbn [assert_ bind] in E0; [|discriminate]. inversion E0 as [EQ].
  destruct (reach_add [2; 2] cx_tb [0%R] 2 s0 1 (fun v => if v =? 0 then 1 else 0) cx_ok ltac:(lia) cx_nonneg R0) as (s & R1 & A1 & T1 & D1).
  - cbn. lia.
  - rewrite A0. intros [].
  - intros v _. destruct (v =? 0); lia.
  - intros v Hv. rewrite <- EQ. cbn in Hv |- *. destruct v; [lia|reflexivity].
  - exists s. rewrite A0 in D1. cbn in D1. split; [exact R1|]. split; [exact D1|]. split.
    { unfold classes_of. rewrite A1. reflexivity. }
    split; [cbn; lia|]. split; [rewrite D1; cbn; lia|].
    rewrite T1, <- EQ. cbn. split; [eexists; reflexivity|]. split; [eexists; reflexivity|]. auto.
Qed.

Lemma seq_defined : forall lg N M V grid (rows : list (nat -> nat)) vl,
  make_complete_graph V = Ok grid -> length rows <= N -> (forall a v, In a rows -> v < V -> a v < M) ->
  exists logits, compute_edge_logits_seq lg N M V grid rows vl = Ok logits.
Proof.
  intros lg N M V grid rows vl E L B. rewrite make_complete_graph_Ok in E. inversion E; subst grid.
  set (asg := fun n => nth n rows (fun _ => 0)).
  assert (ER : rows = map asg (seq 0 (length rows))).
  { apply nth_ext with (d := fun _ => 0) (d' := fun _ => 0); [now rewrite map_length, seq_length|].
    intros n Hn. rewrite (nth_indep (map _ _) _ (asg 0)) by (now rewrite map_length, seq_length). rewrite map_nth.
    rewrite seq_nth by auto. reflexivity. }
  rewrite ER. eexists. apply seq_logits_Ok.
  - now rewrite seq_length.
  - intros n v I Hv. apply in_seq in I. apply B; auto. apply nth_In. lia.
Qed.

Lemma trainer_logits_defined : forall ws tb prior M lg s, table_ok ws tb -> 1 <= M -> reachable tb prior M s ->
  exists logits, compute_edge_logits lg tb prior M s = Ok logits.
Proof.
  intros ws tb prior M lg s TK HM RE. pose proof (prior_length tb prior M s RE) as LP.
  pose proof (reachable_tinv ws tb M TK HM prior s RE) as TI.
  destruct (logits_Ok ws tb prior M HM lg s TI LP) as (l & E & _). eauto.
Qed.
