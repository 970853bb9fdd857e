(** The inward pass of the server's query methods. *)
From Coq Require Import List Arith Lia Bool ZArith Reals Lra Permutation FunctionalExtensionality.
From Verif Require Import Base L_Base Spec_Graph L_Graph Spec_Sum L_Sum M_Structure L_Pairing L_MakeTree L_Program L_ProgramValid Spec_Program L_Center L_Prop1 M_Rand L_Rand M_Util Spec_Ragged L_Ragged M_Array M_Training Spec_Stats L_Stats L_Trainer Spec_Joint Spec_Conditional L_Asg L_BP L_BPVec L_AddRow M_Serving Spec_Serving L_Server.
Import ListNotations.
Open Scope R_scope.

(** Chains of steps. *)
Inductive steps {St} (step : St -> instr -> St -> Prop) : list instr -> St -> St -> Prop :=
| st_nil x : steps step [] x x
| st_cons i l x y z : step x i y -> steps step l y z -> steps step (i :: l) x z.

Lemma steps_app {St} (step : St -> instr -> St -> Prop) l1 l2 x y z :
  steps step l1 x y -> steps step l2 y z -> steps step (l1 ++ l2) x z.
Proof. induction 1; simpl; auto. intros. econstructor; eauto. Qed.

Lemma in_run_app_intro M u psi l1 l2 x y z : in_run M u psi l1 x y -> in_run M u psi l2 y z -> in_run M u psi (l1 ++ l2) x z.
Proof. induction 1; simpl; auto. intros. econstructor; eauto. Qed.

Lemma steps_foldM {St} (f : St -> instr -> result St) l x y : steps (fun x i y => f x i = Ok y) l x y -> foldM f l x = Ok y.
Proof. induction 1; simpl; auto. rewrite H. auto. Qed.

Lemma steps_rfold {St} (f : St -> instr -> rprog St) l x y : steps (fun x i y => f x i = Ret y) l x y -> rfold f l x = Ret y.
Proof. induction 1; simpl; auto. rewrite H. auto. Qed.

Lemma powerRZ_pos x z : 0 < x -> 0 < powerRZ x z.
Proof. intros. now apply powerRZ_lt. Qed.

Section Serve.
Variables (ws : list nat) (V M : nat) (edges : list (nat * nat)) (s : server).
Hypothesis SF : sfacts ws V M edges s.
Notation es := (grid_edges (make_tree edges)).

Lemma sv_V_eq : sv_V s = V.
Proof. unfold sv_V. now rewrite (proj1 (sf_tree _ _ _ _ _ SF)). Qed.
Lemma sv_M_eq : sv_M s = M.
Proof. apply SF. Qed.
Lemma HM : (0 < M)%nat.
Proof. destruct (sf_M _ _ _ _ _ SF). lia. Qed.

Lemma sri_get v : (v <= V)%nat -> get IndexError (sv_ri s) v = Ok (list_sum (firstn v ws)).
Proof. intros. rewrite (sf_ri _ _ _ _ _ SF). apply mri_get. now rewrite (sf_ws _ _ _ _ _ SF). Qed.

Lemma block_width v : (v < V)%nat ->
  seq (list_sum (firstn v ws)) (list_sum (firstn (v + 1) ws) - list_sum (firstn v ws)) = block ws v.
Proof.
  intros Hv. unfold block. f_equal. rewrite Nat.add_1_r, sum_firstn_S by (rewrite (sf_ws _ _ _ _ _ SF); auto). lia.
Qed.

Lemma in_block_lt v q : (v < V)%nat -> In q (block ws v) -> (q < list_sum ws)%nat.
Proof.
  intros Hv I. apply (proj2 (owns_exists ws q)). exists v. unfold block in I. apply in_seq in I.
  split; [|lia]. rewrite (sf_ws _ _ _ _ _ SF). auto.
Qed.

Definition likeli (row : list Z) (v m : nat) : R :=
  prodf (block ws v) (fun q => powerRZ (sv_feat s q m) (nth q row 0%Z)).

Lemma likeli_pos row v m : (v < V)%nat -> (m < M)%nat -> 0 < likeli row v m.
Proof. intros. apply prodf_pos. intros q I. apply powerRZ_pos. apply (sf_feat _ _ _ _ _ SF v); auto. Qed.

Lemma observe_Ok row v msg : (v < V)%nat -> length row = list_sum ws ->
  exists msg', observe s row v msg = Ok msg' /\ forall m, msg' m = msg m * likeli row v m.
Proof.
  intros Hv RL. unfold observe. rewrite !sri_get by lia. cbn [bind]. rewrite block_width by auto. unfold likeli.
  assert (G : forall l, (forall q, In q l -> (q < length row)%nat) -> forall msg,
    exists msg', foldM (fun message r => power <- get IndexError row r ;; Ok (fun m => message m * powerRZ (sv_feat s r m) power)) l msg = Ok msg' /\
    forall m, msg' m = msg m * prodf l (fun q => powerRZ (sv_feat s q m) (nth q row 0%Z))).
  { induction l as [|q l IH]; intros HB ms.
    - exists ms. split; [reflexivity|]. intros. unfold prodf; simpl. lra.
    - cbn [foldM]. rewrite (get_Ok _ IndexError row q 0%Z) by (apply HB; now left). cbn [bind].
      destruct (IH (fun x H => HB x (or_intror H)) (fun m => ms m * powerRZ (sv_feat s q m) (nth q row 0%Z))) as (msg' & E & H).
      exists msg'. split; [exact E|]. intros m. rewrite H, prodf_cons. ring. }
  apply G. intros q I. rewrite RL. apply (in_block_lt v); auto.
Qed.

Lemma observe_nonzero_Ok row v msg : (v < V)%nat -> length row = list_sum ws ->
  exists msg', observe_nonzero s row v msg = Ok msg' /\ forall m, msg' m = msg m * likeli row v m.
Proof.
  intros Hv RL. unfold observe_nonzero. rewrite !sri_get by lia. cbn [bind]. rewrite block_width by auto. unfold likeli.
  assert (G : forall l, (forall q, In q l -> (q < length row)%nat) -> forall msg : nat -> R,
    exists msg', foldM (fun message r => power <- get IndexError row r ;; Ok (if (power =? 0)%Z then message else fun m => message m * powerRZ (sv_feat s r m) power)) l msg = Ok msg' /\
    forall m, msg' m = msg m * prodf l (fun q => powerRZ (sv_feat s q m) (nth q row 0%Z))).
  { induction l as [|q l IH]; intros HB ms.
    - exists ms. split; [reflexivity|]. intros. unfold prodf; simpl. lra.
    - cbn [foldM]. rewrite (get_Ok _ IndexError row q 0%Z) by (apply HB; now left). cbn [bind].
      destruct (IH (fun x H => HB x (or_intror H)) (if (nth q row 0 =? 0)%Z then ms else fun m => ms m * powerRZ (sv_feat s q m) (nth q row 0%Z))) as (msg' & E & H).
      exists msg'. split; [exact E|]. intros m. rewrite H, prodf_cons.
      destruct (Z.eqb_spec (nth q row 0%Z) 0) as [->|]; [simpl; ring|ring]. }
  apply G. intros q I. rewrite RL. apply (in_block_lt v); auto.
Qed.

Section Rooted.
Variables (r : nat) (par dep : nat -> nat).
Hypothesis RT : rooted V es r par dep.
Variable np : list (nat * option nat * list nat).
Hypothesis BL : bfs_list V r par np.

Notation PSI := (opair edges par (sv_trans s)).

Lemma trans_pos e m m' : (e < V - 1)%nat -> (m < M)%nat -> (m' < M)%nat -> 0 < sv_trans s e m m'.
Proof.
  intros He Hm Hm'. pose proof (rt_len _ _ _ _ _ RT) as L.
  destruct (nth_error es e) as [[v1 v2]|] eqn:E; [|apply nth_error_None in E; lia].
  rewrite (sf_trans _ _ _ _ _ SF _ _ _ _ _ E). apply nth_error_In in E. destruct (rt_range _ _ _ _ _ RT _ _ E).
  apply Rdiv_lt_0_compat; [apply Rdiv_lt_0_compat|]; apply SF; auto.
Qed.

Definition mpos (msg : nat -> nat -> R) : Prop := forall v m, (v < V)%nat -> (m < M)%nat -> 0 < msg v m.

Lemma psi_pos c m m' : (c < V)%nat -> c <> r -> (m < M)%nat -> (m' < M)%nat -> 0 < PSI c m m'.
Proof. intros. apply (opair_pos V edges r par dep RT M HM); auto. apply trans_pos. Qed.

Lemma up_pos_msg msg c m : mpos msg -> (c < V)%nat -> c <> r -> (m < M)%nat -> 0 < up M PSI msg c m.
Proof.
  intros MP Hc N Hm. unfold up. apply sumf_pos'.
  - pose proof HM. destruct M; [lia|discriminate].
  - intros m2 I. apply in_seq in I. apply Rmult_lt_0_compat; [apply psi_pos; auto; lia|apply MP; auto; lia].
Qed.

(** The dot product of OP_IN is the upward message. *)
Lemma dot_up msg c v m : (c < V)%nat -> c <> r -> par c = v ->
  dot (sv_M s) (oriented s (eidx edges par c) (c <? v)%nat) (msg c) m = up M PSI msg c m.
Proof.
  intros Hc N Ep. unfold dot, up. rewrite sv_M_eq, rsum_vec. apply sumf_ext. intros m2 _. f_equal.
  unfold oriented, opair. rewrite Ep. destruct (c <? v)%nat; reflexivity.
Qed.

(** Any program that treats OP_UP and OP_IN in the usual way follows [in_run]. *)
Section Pass.
Context {St : Type}.
Variables (step : St -> instr -> St -> Prop) (Rel : St -> (nat -> nat -> R) -> R -> Prop) (u : nat -> nat -> R).
Hypothesis SUP : forall st msg acc v, (v < V)%nat -> mpos msg -> 0 < acc -> Rel st msg acc ->
  exists st' msg', step st (I OP_UP v 0 0) st' /\ in_step M u PSI (I OP_UP v 0 0) (msg, acc) (msg', acc) /\ mpos msg' /\ Rel st' msg' acc.
Hypothesis SIN : forall st msg acc c, (c < V)%nat -> c <> r -> mpos msg -> 0 < acc -> Rel st msg acc ->
  exists st' msg' acc', step st (I OP_IN (par c) c (eidx edges par c)) st' /\
    in_step M u PSI (I OP_IN (par c) c (eidx edges par c)) (msg, acc) (msg', acc') /\ mpos msg' /\ 0 < acc' /\ Rel st' msg' acc'.

Lemma pass_children v cs : (forall c, In c cs -> (c < V)%nat /\ c <> r /\ par c = v) -> forall st msg acc, mpos msg -> 0 < acc -> Rel st msg acc ->
  exists st' msg' acc', steps step (map (fun c => I OP_IN v c (eidx edges par c)) cs) st st' /\
    in_run M u PSI (map (fun c => I OP_IN v c (eidx edges par c)) cs) (msg, acc) (msg', acc') /\ mpos msg' /\ 0 < acc' /\ Rel st' msg' acc'.
Proof.
  induction cs as [|c cs IH]; intros HC st msg acc MP AP RE.
  - exists st, msg, acc. split; [constructor|]. split; [constructor|]. auto.
  - destruct (HC c (or_introl eq_refl)) as (C1 & C2 & C3). rewrite <- C3 in *.
    destruct (SIN st msg acc c C1 C2 MP AP RE) as (st1 & m1 & a1 & S1 & R1 & P1 & A1 & E1).
    destruct (IH (fun d H => HC d (or_intror H)) st1 m1 a1 P1 A1 E1) as (st2 & m2 & a2 & S2 & R2 & P2 & A2 & E2).
    exists st2, m2, a2. split; [econstructor; eauto|]. split; [econstructor; eauto|]. auto.
Qed.

Lemma pass l : (forall x, In x l -> good V r par x) -> forall st msg acc, mpos msg -> 0 < acc -> Rel st msg acc ->
  exists st' msg' acc', steps step (concat (map (ins_of edges par) l)) st st' /\
    in_run M u PSI (concat (map (ins_of edges par) l)) (msg, acc) (msg', acc') /\ mpos msg' /\ 0 < acc' /\ Rel st' msg' acc'.
Proof.
  induction l as [|[[v p] cs] l IH]; intros G st msg acc MP AP RE.
  - exists st, msg, acc. split; [constructor|]. split; [constructor|]. auto.
  - destruct (G _ (or_introl eq_refl)) as (Hv & _ & _ & IC).
    destruct (SUP st msg acc v Hv MP AP RE) as (st1 & m1 & S1 & R1 & P1 & E1).
    destruct (pass_children v cs (fun c Hc => proj1 (IC c) Hc) st1 m1 acc P1 AP E1) as (st2 & m2 & a2 & S2 & R2 & P2 & A2 & E2).
    destruct (IH (fun x Hx => G x (or_intror Hx)) st2 m2 a2 P2 A2 E2) as (st3 & m3 & a3 & S3 & R3 & P3 & A3 & E3).
    exists st3, m3, a3. cbn [map concat]. unfold ins_of at 1 3.
    split; [|split; [|auto]].
    + eapply steps_app; [|exact S3]. econstructor; eauto.
    + eapply in_run_app_intro; [|exact R3]. econstructor; eauto.
Qed.

Lemma pass_all st0 : Rel st0 (sv_vert s) 1 ->
  exists st' msg' acc', steps step (concat (map (ins_of edges par) (rev np))) st0 st' /\
    in_run M u PSI (concat (map (ins_of edges par) (rev np))) (sv_vert s, 1) (msg', acc') /\ mpos msg' /\ 0 < acc' /\ Rel st' msg' acc'.
Proof.
  intros R0. apply pass; auto; [|intros v m; apply SF|lra].
  intros x Hx. pose proof (bl_good _ _ _ _ BL) as G. rewrite Forall_forall in G. apply G. now apply in_rev.
Qed.
End Pass.

(** ** logprob *)
Definition node (row : list Z) (v m : nat) : R := sv_vert s v m * likeli row v m.
Lemma node_pos row v m : (v < V)%nat -> (m < M)%nat -> 0 < node row v m.
Proof. intros. apply Rmult_lt_0_compat; [apply SF; auto|apply likeli_pos; auto]. Qed.

Definition total_weight (row : list Z) : R := sumf (vectors V M) (tree_weight V es (node row) (sv_trans s)).

Lemma total_weight_pos row : 0 < total_weight row.
Proof.
  apply (wsum_pos V edges r par dep RT M HM (node row) (sv_trans s)).
  - apply node_pos.
  - apply trans_pos.
Qed.

Definition lp_step (row : list Z) (x : (nat -> nat -> R) * R) (i : instr) (y : (nat -> nat -> R) * R) : Prop :=
  forall rest, logprob_loop s row (i :: rest) (fst x) (snd x) = logprob_loop s row rest (fst y) (snd y).

Lemma lp_steps row l x y : steps (lp_step row) l x y -> forall rest,
  logprob_loop s row (l ++ rest) (fst x) (snd x) = logprob_loop s row rest (fst y) (snd y).
Proof. induction 1; intros rest; [reflexivity|]. cbn [app]. rewrite (H (l ++ rest)). apply IHsteps. Qed.

Lemma logprob_rooted row : length row = list_sum ws ->
  logprob_loop s row (prog_of edges r par np) (sv_vert s) 0 = Ok (ln (total_weight row)).
Proof.
  intros RL. pose proof HM as HM'.
  destruct (pass_all (lp_step row) (fun st msg acc => st = (msg, ln acc)) (likeli row)) with (st0 := (sv_vert s, 0)) as (st & msg & acc & S1 & R1 & P1 & A1 & ->).
  - intros st msg acc v Hv MP AP ->. destruct (observe_Ok row v (msg v) Hv RL) as (msg' & E & H).
    exists (set1 msg v msg', ln acc), (set1 msg v msg'). split; [|split; [|split; [|reflexivity]]].
    + intros rest. cbn [logprob_loop fst snd]. rewrite sv_V_eq. unfold index. rewrite (proj2 (Nat.ltb_lt v V)) by auto. cbn [bind].
      rewrite E. reflexivity.
    + constructor; [intros; rewrite set1_same; auto|intros; now apply set1_other].
    + intros w m Hw Hm. unfold set1. destruct (Nat.eqb_spec w v); auto. rewrite H. apply Rmult_lt_0_compat; [auto|]. now apply likeli_pos.
  - intros st msg acc c Hc N MP AP ->. pose proof (par_lt _ _ _ _ _ RT c Hc) as Hp.
    set (mm := fun m => msg (par c) m * dot (sv_M s) (oriented s (eidx edges par c) (c <? par c)%nat) (msg c) m).
    assert (EM : forall m, mm m = msg (par c) m * up M PSI msg c m) by (intros; unfold mm; now rewrite dot_up).
    assert (PM : forall m, (m < M)%nat -> 0 < mm m).
    { intros m Hm. rewrite EM. apply Rmult_lt_0_compat; [auto|]. now apply up_pos_msg. }
    assert (PS : 0 < rsum (vec (sv_M s) mm)).
    { rewrite sv_M_eq, rsum_vec. apply sumf_pos'; [destruct M; [lia|discriminate]|]. intros m I. apply in_seq in I. apply PM. lia. }
    exists (set1 msg (par c) (fun m => mm m / rsum (vec (sv_M s) mm)), ln acc + ln (rsum (vec (sv_M s) mm))),
      (set1 msg (par c) (fun m => mm m / rsum (vec (sv_M s) mm))), (acc * rsum (vec (sv_M s) mm)).
    split; [|split; [|split; [|split]]].
    + intros rest. cbn [logprob_loop fst snd]. rewrite sv_V_eq. unfold index. rewrite (proj2 (Nat.ltb_lt (par c) V)), (proj2 (Nat.ltb_lt c V)) by auto.
      rewrite (proj2 (Nat.ltb_lt _ (V - 1))) by (eapply eidx_lt; eauto). reflexivity.
    + constructor; auto; [intros; rewrite set1_same; now rewrite EM|intros; now apply set1_other].
    + intros w m Hw Hm. unfold set1. destruct (Nat.eqb_spec w (par c)); auto. apply Rdiv_lt_0_compat; auto.
    + now apply Rmult_lt_0_compat.
    + f_equal. rewrite ln_mult; auto.
  - now rewrite ln_1.
  - pose proof (lp_steps _ _ _ _ S1) as L. cbn [fst snd] in L. unfold prog_of. rewrite L. cbn [app logprob_loop].
    pose proof (rt_root _ _ _ _ _ RT) as Hr. rewrite sv_V_eq. unfold index. rewrite (proj2 (Nat.ltb_lt r V)) by auto. cbn [bind].
    f_equal. rewrite sv_M_eq, rsum_vec.
    assert (PS : 0 < sumf (seq 0 M) (msg r)).
    { apply sumf_pos'; [destruct M; [lia|discriminate]|]. intros m I. apply in_seq in I. apply P1; auto; lia. }
    rewrite <- ln_mult by auto. f_equal. rewrite Rmult_comm.
    apply (run_total V edges r par dep RT np BL M HM (node row) (sv_trans s) (node_pos row) trans_pos (likeli row) (sv_vert s) (sv_vert s) msg acc); auto.
Qed.
End Rooted.
End Serve.
