(** Whole training runs converge to the joint posterior. *)
From Coq Require Import List Arith Bool ZArith Reals Lia Lra Permutation Sorted FunctionalExtensionality QArith.
From Verif Require Import Base L_Base Spec_Graph L_Graph Spec_Sum L_Sum Spec_Trees Spec_Ragged M_Structure L_Pairing L_Prop1 L_MakeTree M_Util
  M_Rand L_Rand M_SampleTree L_SampleTree L_TreeMCMC L_AllTrees M_EstimateTree L_Estimate M_Schedule Spec_Schedule L_Schedule
  M_Array M_Training Spec_Joint Spec_Stats L_Asg L_Stats L_Trainer
  Spec_Conditional L_AddRow L_Conditional Spec_EdgeLogits L_EdgeLogits Spec_Model Spec_Gibbs L_Gibbs L_Train Spec_Epoch L_Epoch L_TreeReach L_Converge.
From Verif Require Spec_MST L_Evidence3.
Import ListNotations.
Open Scope R_scope.

(** [averages P p]: the expectation of a function over [p] is between its bounds on [P]. *)
Definition averages {A} (P : A -> Prop) (p : rprog A) : Prop :=
  forall (G : result A -> R) lo hi, (forall a, P a -> lo <= G (Ok a) <= hi) -> lo <= expect p G <= hi.

Lemma averages_ret {A} (P : A -> Prop) a : P a -> averages P (Ret a).
Proof. intros H G lo hi HG. now apply HG. Qed.
Lemma averages_bind {A B} (P : A -> Prop) (Q : B -> Prop) p (f : A -> rprog B) : averages P p -> (forall a, P a -> averages Q (f a)) -> averages Q (rbind p f).
Proof. intros HP HF G lo hi HG. rewrite expect_bind. apply HP. intros a Pa. now apply (HF a Pa). Qed.
Lemma averages_mono {A} (P Q : A -> Prop) p : (forall a, P a -> Q a) -> averages P p -> averages Q p.
Proof. intros PQ HP G lo hi HG. apply HP. auto. Qed.
Lemma perm_between {A} n (k : list nat -> rprog A) G lo hi :
  (forall s, Permutation s (seq 0 n) -> lo <= expect (k s) G <= hi) -> lo <= expect (Perm n k) G <= hi.
Proof.
  intros H. cbn [expect]. pose proof (perms_length_pos _ (seq 0 n)) as LPos.
  assert (B : forall s, In s (perms (seq 0 n)) -> lo <= expect (k s) G <= hi) by (intros s I; apply perms_Permutation in I; now apply (H s I)).
  assert (B1 : INR (length (perms (seq 0 n))) * lo <= sumf (perms (seq 0 n)) (fun s => expect (k s) G)) by (rewrite <- sumf_const; apply sumf_le; intros; now apply B).
  assert (B2 : sumf (perms (seq 0 n)) (fun s => expect (k s) G) <= INR (length (perms (seq 0 n))) * hi) by (rewrite <- sumf_const; apply sumf_le; intros; now apply B).
  split; apply (Rmult_le_reg_l _ _ _ LPos).
  - replace (INR (length (perms (seq 0 n))) * (sumf (perms (seq 0 n)) (fun s => expect (k s) G) / INR (length (perms (seq 0 n))))) with (sumf (perms (seq 0 n)) (fun s => expect (k s) G)) by (field; lra). exact B1.
  - replace (INR (length (perms (seq 0 n))) * (sumf (perms (seq 0 n)) (fun s => expect (k s) G) / INR (length (perms (seq 0 n))))) with (sumf (perms (seq 0 n)) (fun s => expect (k s) G)) by (field; lra). exact B2.
Qed.

Lemma mixture {A} (l : list A) (w f : A -> R) lo hi : (forall x, In x l -> 0 <= w x) -> 0 < sumf l w ->
  (forall x, In x l -> lo <= f x <= hi) -> lo <= sumf l (fun x => w x / sumf l w * f x) <= hi.
Proof.
  intros W WP F. set (Wt := sumf l w) in *.
  assert (C : forall c, sumf l (fun x => w x / Wt * c) = c).
  { intros c. rewrite sumf_scal_r, sumf_div. fold Wt. field. lra. }
  split.
  - rewrite <- (C lo). apply sumf_le. intros x I. apply Rmult_le_compat_l; [|now apply F]. apply Rmult_le_pos; [auto|]. left. now apply Rinv_0_lt_compat.
  - rewrite <- (C hi). apply sumf_le. intros x I. apply Rmult_le_compat_l; [|now apply F]. apply Rmult_le_pos; [auto|]. left. now apply Rinv_0_lt_compat.
Qed.

(** ** sample_tree *)
Lemma Ksweep_between V logits lo hi g : (forall c, labelled V c -> lo <= g c <= hi) ->
  forall order cur, labelled V cur -> (forall e, In e order -> (e < length cur)%nat) -> lo <= Ksweep V logits order g cur <= hi.
Proof.
  intros HG. induction order as [|e order IH]; intros cur LC HO; cbn [Ksweep]; [now apply HG|].
  unfold Kstep. destruct (Req_EM_T _ _) as [E|E]; [apply IH; auto; intros; apply HO; now right|].
  apply mixture.
  - intros; apply wt_nonneg.
  - assert (0 <= Wtot V logits (removed cur e)) by (apply sumf_nonneg; intros; apply wt_nonneg). unfold Wtot in *. lra.
  - intros p I. apply IH.
    + apply labelled_move; auto. apply HO; now left.
    + intros. rewrite upd_length. apply HO; now right.
Qed.

Lemma sample_tree_averages V logits T : canonical V T -> length logits = tri V -> averages (canonical V) (sample_tree (complete_grid V) logits T).
Proof.
  intros CT LL G lo hi HG. destruct (le_lt_dec 2 (length T)) as [H2|H2].
  - rewrite (sample_tree_expect V logits); auto; [|apply CT].
    assert (B : forall s, In s (perms (seq 0 (length T))) -> lo <= Ksweep V logits s (fun l => G (Ok (pair_sort l))) T <= hi).
    { intros s I. apply perms_Permutation in I. apply Ksweep_between.
      - intros c LC. apply HG. split; [|apply pair_sort_sorted]. eapply labelled_perm; [|exact LC]. symmetry. apply pair_sort_perm.
      - apply CT.
      - intros e J. apply (Permutation_in _ I) in J. apply in_seq in J. lia. }
    unfold Kbar. pose proof (mixture (perms (seq 0 (length T))) (fun _ => 1) (fun s => Ksweep V logits s (fun l => G (Ok (pair_sort l))) T) lo hi) as MX.
    rewrite sumf_const, perms_length, seq_length, Rmult_1_r in MX.
    assert (FP : 0 < INR (fact (length T))) by (apply lt_0_INR, lt_O_fact).
    specialize (MX (fun _ _ => Rle_0_1) FP B). rewrite sumf_scal in MX.
    replace (_ / _) with (1 / INR (fact (length T)) * sumf (perms (seq 0 (length T))) (fun s => Ksweep V logits s (fun l => G (Ok (pair_sort l))) T)) by (field; lra). exact MX.
  - unfold sample_tree. destruct (Nat.leb_spec (length T) 1); [|lia]. cbn [expect]. now apply HG.
Qed.

Lemma make_tree_number es : make_tree es = number_from 0 (grid_edges (make_tree es)).
Proof. rewrite make_tree_edges. unfold make_tree. now rewrite (map_ext _ _ sort_pair_norm). Qed.

Section Train2.
Variable lg : R -> R.
Variables (ws : list nat) (tb : table) (prior : list R) (M : nat).
Hypothesis TK : table_ok ws tb.
Hypothesis HM : (1 <= M)%nat.
Hypothesis ND : nonneg_data tb.
Notation V := (num_cols tb).
Notation N := (num_rows tb).
Hypothesis LP : length prior = tri V.

Lemma tinv_canonical s : tinv ws tb M s -> canonical_tree V (ts_get_edges (s_tree s)) /\ s_tree s = with_tree tb (ts_get_edges (s_tree s)).
Proof.
  intros TI. destruct (ti_grid _ _ _ _ TI) as (es & T & E). rewrite E. pose proof (L_Evidence3.canonical_grid V es T) as C. split; [exact C|].
  unfold with_tree. f_equal. apply canonical_edges in C. change (grid_edges (make_tree (grid_edges (make_tree es))) = grid_edges (make_tree es)) in C.
  transitivity (number_from 0 (grid_edges (make_tree es))); [apply make_tree_number|]. rewrite <- C at 1. symmetry. apply make_tree_number.
Qed.

Lemma unless_averages p (P : tstate -> Prop) : averages (fun '(s, x) => x = None /\ P s) p -> averages P (unless_raised p).
Proof. intros H. unfold unless_raised. eapply averages_bind; [exact H|]. intros [s x] (-> & HP). now apply averages_ret. Qed.

Lemma resample_averages s : tinv ws tb M s ->
  averages (fun s' => tinv ws tb M s' /\ s_added s' = s_added s /\ s_asg s' = s_asg s) (resample_tree lg tb prior M s).
Proof.
  intros TI. destruct (tinv_tree ws tb M s TI) as (EV & _). destruct (tinv_canonical s TI) as (CT & _).
  destruct (logits_Ok ws tb prior M HM lg s TI LP) as (l & E & LL & _).
  unfold resample_tree, trainer_sample_tree. rewrite EV, make_complete_graph_Ok, E. cbn [lift rbind].
  rewrite LL, complete_grid_length, Nat.eqb_refl. cbn [assert_ lift rbind].
  eapply averages_bind.
  - apply sample_tree_averages; [|now rewrite map_length].
    unfold canonical_tree in CT. unfold canonical, labelled. tauto.
  - intros T ((ST & _) & _). destruct (set_edges_Ok ws tb M HM s T TI ST) as (s' & E' & TI' & EA & EG & _).
    rewrite E'. apply unless_averages. cbn [lift]. apply averages_ret. auto.
Qed.

Lemma add_averages s n : tinv ws tb M s -> (n < N)%nat -> ~ In n (s_added s) ->
  averages (fun s' => tinv ws tb M s' /\ Permutation (s_added s') (n :: s_added s)) (unless_raised (add_row tb M s n)).
Proof.
  intros TI Hn NI. pose proof (add_always ws tb M TK HM s n TI Hn NI) as AL.
  unfold unless_raised in *. intros G lo hi HG. rewrite expect_bind.
  set (zf := fun (z : list nat) v => if (v <? V)%nat then nth v z 0%nat else s_asg s n v).
  set (F := fun r : result (tstate * option exn) => match r with Ok a => expect (let '(s, x) := a in match x with None => Ret s | Some e => Fail e end) G | Raise e => G (Raise e) end).
  assert (EX : expect (add_row tb M s n) F = sumf (vectors V M) (fun z => conditional_weight ws tb M s n z / sumf (vectors V M) (conditional_weight ws tb M s n) *
     expect (after_draw tb M s (s_prog s) n (zf z)) F)).
  { rewrite <- (with_own_program s) at 1.
    apply (add_row_expect ws tb M TK HM ND s TI None (s_prog s)) with (H := fun z => expect (after_draw tb M s (s_prog s) n (zf z)) F); auto; try discriminate.
    - apply (fs_prog _ _ _ _ (ti_fs _ _ _ _ TI)).
    - intros z s' Hz Ho EQ. assert (EZ : zf (map z (seq 0 V)) = z).
      { apply functional_extensionality. intros v. unfold zf. destruct (Nat.ltb_spec v V); [|symmetry; apply Ho; lia].
        rewrite (nth_indep _ 0%nat (z 0%nat)) by (rewrite map_length, seq_length; lia). rewrite map_nth, seq_nth by lia. reflexivity. }
      rewrite EZ, EQ. reflexivity. }
  rewrite EX. apply mixture.
  - intros z Hz. left. now apply cond_weight_pos.
  - apply sumf_pos; [intros; left; now apply cond_weight_pos|]. exists (classes_of tb s n).
    pose proof (classes_in ws tb M HM s n TI) as CI. split; [exact CI|now apply cond_weight_pos].
  - intros z Hz. apply in_vectors in Hz. destruct Hz as (Lz & Bz).
    assert (BZ : forall v, (v < V)%nat -> (zf z v < M)%nat).
    { intros v Hv. unfold zf. destruct (Nat.ltb_spec v V); [|lia]. apply Bz, nth_In. lia. }
    destruct (after_draw_Ok ws tb M TK HM s TI (s_prog s) n Hn (zf z) BZ) as (s' & EQ & _). rewrite EQ. cbn [expect].
    apply HG. assert (MR : may_return (add_row tb M s n) (Ok (s', None))).
    { rewrite <- (with_own_program s) at 1. apply (add_row_may ws tb M TK HM ND s TI None (s_prog s)) with (zt := zf z); auto; try discriminate.
      - apply (fs_prog _ _ _ _ (ti_fs _ _ _ _ TI)).
      - intros v Hv. unfold zf. destruct (Nat.ltb_spec v V); [lia|reflexivity]. }
    assert (MR2 : may_return (' (s, x) <~ add_row tb M s n ;; match x with None => Ret s | Some e => Fail e end)%rp (Ok s')) by (apply may_bind with (a := (s', None)); [exact MR|reflexivity]).
    destruct (always_may _ _ _ _ AL MR2) as (s3 & E3 & P3). inversion E3; subst s3. exact P3.
Qed.

Lemma remove_averages s n : tinv ws tb M s -> In n (s_added s) ->
  averages (fun s' => tinv ws tb M s' /\ Permutation (s_added s) (n :: s_added s')) (unless_raised (lift (remove_row tb M s n))).
Proof.
  intros TI I. destruct (remove_row_Ok ws tb M TK HM s n TI I) as (s' & E & TI' & EA & _). rewrite E.
  apply unless_averages. cbn [lift]. apply averages_ret. split; [reflexivity|]. split; [exact TI'|]. rewrite EA. now apply set_remove_perm.
Qed.

Lemma actions_averages acts : forall R R' s, replays N R acts R' -> tinv ws tb M s -> Permutation (s_added s) R ->
  averages (fun s' => tinv ws tb M s' /\ Permutation (s_added s') R') (rfold (train_action lg tb prior M) acts s).
Proof.
  induction acts as [|a acts IH]; intros R R' s RP TI PA.
  - inversion RP; subst. cbn. now apply averages_ret.
  - cbn [rfold]. inversion RP; subst; cbn [train_action].
    + eapply averages_bind; [apply add_averages; auto|].
      * intros I. apply (Permutation_in _ PA) in I. contradiction.
      * intros s' (TI' & P'). eapply IH; eauto. rewrite P', PA. apply Permutation_cons_append.
    + eapply averages_bind; [apply remove_averages; auto|].
      * apply (Permutation_in _ (Permutation_sym PA)). apply in_or_app. right. now left.
      * intros s' (TI' & P'). eapply IH; eauto. apply (Permutation_cons_inv (a := r)). rewrite <- P', PA.
        symmetry. apply Permutation_middle.
    + eapply averages_bind; [apply resample_averages; auto|].
      intros s' (TI' & EA & _). eapply IH; eauto. now rewrite EA.
Qed.
End Train2.

Lemma Rabs_between x c d : c - d <= x <= c + d <-> Rabs (x - c) <= d.
Proof. split; [intros; apply Rabs_le; lra|]. intros H. unfold Rabs in H. destruct (Rcase_abs (x - c)); lra. Qed.

Lemma C65_proof : forall lg, (forall x, 0 < x -> lg (x + 1) = lg x + ln x) ->
  forall ws tb prior M TT s0, table_ok ws tb -> nonneg_data tb -> (1 <= M)%nat -> enumerates_trees (num_cols tb) TT -> init_trainer tb prior M = Ok s0 ->
  exists lp rho, 0 <= rho < 1 /\
  (forall T A s, In T TT -> full_state tb prior M (with_tree tb T) A s -> logprob lg tb M s = Ok (lp T A)) /\
  let mass T A := exp (lp T A + tree_prior_mass prior T) in
  let total b := sumf TT (fun T => sumf (matrices (num_rows tb) (num_cols tb) M) (fun A => if b T A : bool then mass T A else 0)) in
  let posterior b := total b / total (fun _ _ => true) in
  (forall b T A s k, In T TT -> full_state tb prior M (with_tree tb T) A s ->
     Rabs (prob (epochs lg tb prior M k s) (fun s' => b (ts_get_edges (s_tree s')) (class_matrix tb s')) - posterior b) <= rho ^ k) /\
  (forall b mst cfg, config_ok cfg -> Spec_MST.mst_contract mst -> c_clusters cfg = M ->
     (c_estimate_tree cfg = false \/ forall T T' A, b T A = b T' A) ->
     Rabs (prob (train lg mst tb prior cfg s0) (fun '(s', _) => b (ts_get_edges (s_tree s')) (class_matrix tb s')) - posterior b) <= rho ^ c_full_epochs cfg).
Proof.
  intros lg REC ws tb prior M TT s0 TK ND HM ET E0.
  destruct (L_Evidence3.C62_states ws tb prior M s0 TT TK ND HM E0 ET) as (St & FS).
  assert (LP : length prior = tri (num_cols tb)).
  { apply (prior_length tb prior M s0). exists s0, []. split; [exact E0|]. split; [constructor|reflexivity]. }
  destruct (init_Ok ws tb M HM prior s0 E0) as (TI0 & A0 & HV).
  assert (SG : forall T A, In T TT -> In A (matrices (num_rows tb) (num_cols tb) M) -> gfull ws tb M (with_tree tb T) A (St T A)).
  { intros T A IT IA. apply (full_gfull ws tb prior); auto. }
  assert (NE : TT <> []).
  { intros E. destruct (tinv_canonical ws tb M s0 TI0) as (C & _). apply (proj2 ET) in C. rewrite E in C. destruct C. }
  destruct (epochs_converge lg REC ws tb prior M TK HM ND LP TT ET St SG NE) as (rho & HR & CV).
  exists (fun T A => Lform lg tb M (St T A)), rho. split; [exact HR|]. split.
  { intros T A s IT F. rewrite logprob_Ok by apply F. f_equal. apply (full_gfull ws tb prior) in F; auto.
    apply (gf_Lform lg ws tb prior M TK HM LP TT ET T A); auto. apply SG; auto. refine (gfull_in ws tb M _ (with_tree tb T) A s F). exact HM. }
  cbv zeta. set (post := fun b : list edge -> list (list nat) -> bool => _ / _).
  assert (PE : forall b, sumf (states tb M TT) (fun y => L_Converge.post lg tb prior M TT St y * ind (b (fst y) (snd y))) = post b).
  { intros b. unfold post, states. unfold L_Converge.post, L_Converge.Z, states.
    rewrite (sumf_ext _ _ (fun y => (if b (fst y) (snd y) then joint lg tb prior M St (fst y) (snd y) else 0) / sumf (list_prod TT (matrices (num_rows tb) (num_cols tb) M)) (fun y => joint lg tb prior M St (fst y) (snd y)))).
    2: { intros y _. destruct (b (fst y) (snd y)); cbn [ind]; unfold Rdiv; ring. }
    rewrite sumf_div, !sumf_list_prod. reflexivity. }
  split.
  - intros b T A s k IT F. rewrite <- PE. unfold prob. apply (CV b _ k s T A); auto.
    + intros s' T' B IT' GF. now apply (gf_event ws tb M TT ET b).
    + now apply (full_gfull ws tb prior).
  - intros b mst cfg CO MC EM HB. unfold prob. apply Rabs_between. revert CO. intros (_ & HE & HRt).
    set (F := fun r : result (tstate * list R) => _).
    unfold train. rewrite EM. rewrite A0. cbn [length Nat.eqb assert_ lift rbind].
    apply perm_between. intros ids PI. assert (LI : length ids = num_rows tb) by (rewrite (Permutation_length PI); apply seq_length).
    destruct (mas_enough _ ids (c_init_epochs cfg) (c_tree_rate cfg) PI HE HRt) as (acts & EA).
    unfold sched_fuel. rewrite <- LI. unfold qn in EA. rewrite EA. cbn [lift rbind]. rewrite LI.
    destruct (mas_spec _ ids _ _ _ acts PI HE HRt EA) as ((Rw & RP & PR) & _).
    rewrite expect_bind.
    apply (actions_averages lg ws tb prior M TK HM ND LP acts [] Rw s0 RP TI0); [rewrite A0; constructor|].
    intros s1 (T1 & P1). rewrite PR in P1. rewrite (Permutation_length P1), seq_length, Nat.eqb_refl. cbn [assert_ lift rbind].
    rewrite expect_bind. apply Rabs_between. rewrite <- PE. destruct (tinv_canonical ws tb M s1 T1) as (C1 & E1).
    apply (CV b _ (c_full_epochs cfg) s1 (ts_get_edges (s_tree s1)) (class_matrix tb s1)).
    2: { now apply (proj2 ET). }
    2: { split; [exact T1|]. split; [exact E1|]. split; [|reflexivity]. now rewrite (Permutation_length P1), seq_length. }
    intros s2 T A IT GF. pose proof GF as (T2 & E2 & L2 & C2). cbv beta iota.
    rewrite L2, Nat.eqb_refl. cbn [assert_ lift rbind].
    destruct (tinv_tree ws tb M s2 T2) as (EV & ST). rewrite EV, make_complete_graph_Ok. cbn [lift rbind].
    destruct (final_logits ws tb prior M lg HM LP s2 T2 L2) as (logits & EL & LL & SC). rewrite EL. cbn [lift rbind].
    destruct (estimate_tree_Ok mst (num_cols tb) (complete_grid (num_cols tb)) logits MC HV (make_complete_graph_Ok _)) as (T' & ET' & (CT' & _) & MX).
    { now rewrite LL, complete_grid_length. }
    rewrite ET'. cbn [lift rbind]. destruct (c_estimate_tree cfg) eqn:EE.
    + destruct HB as [HB|HB]; [discriminate|].
      destruct (set_edges_Ok ws tb M HM s2 T' T2 CT') as (s3 & E3 & T3 & A3 & G3 & ET3). rewrite E3. cbn [unless_raised lift rbind expect].
      unfold F. rewrite (HB _ T (class_matrix tb s3)). assert (CE : class_matrix tb s3 = A) by (unfold class_matrix, classes_of; rewrite G3; exact C2).
      rewrite CE. reflexivity.
    + cbn [rbind expect]. unfold F. now apply (gf_event ws tb M TT ET b).
Qed.

Lemma C65_reach : forall V grid l T T', make_complete_graph V = Ok grid -> length l = length grid ->
  canonical_tree V T -> canonical_tree V T' ->
  0 < prob (sample_tree grid (map Some l) T) (fun E => if edge_list_eq_dec E T' then true else false).
Proof.
  intros V grid l T T' EG LL CT CT'. rewrite make_complete_graph_Ok in EG. inversion EG; subst grid. rewrite complete_grid_length in LL.
  apply sample_tree_reaches; [exact LL| |]; unfold canonical_tree in *; unfold canonical, labelled; tauto.
Qed.

Lemma star_tree : canonical_tree 3 [(0, 1); (0, 2)]%nat.
Proof.
  split; [|split].
  - split; [reflexivity|]. split.
    + intros x y [E|[E|[]]]; inversion E; lia.
    + assert (R1 : reach [(0, 1); (0, 2)]%nat 0 1) by (apply reach_adj; left; now left).
      assert (R2 : reach [(0, 1); (0, 2)]%nat 0 2) by (apply reach_adj; left; right; now left).
      assert (R : forall u, (u < 3)%nat -> reach [(0, 1); (0, 2)]%nat 0 u).
      { intros [|[|[|u]]] Hu; [apply reach_refl|exact R1|exact R2|lia]. }
      intros u v Hu Hv. eapply reach_trans; [apply reach_sym, R, Hu|now apply R].
  - intros x y [E|[E|[]]]; inversion E; lia.
  - repeat constructor; unfold pair_le; cbn; lia.
Qed.
