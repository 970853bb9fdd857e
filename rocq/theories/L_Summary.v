(** Proofs of C33 and C34. *)
From Coq Require Import List Arith Lia Bool ZArith Reals Lra.
From Verif Require Import Base L_Base Spec_Graph L_Graph Spec_Sum L_Sum M_Structure L_MakeTree L_Program Spec_Program L_Center M_Rand L_Rand M_Util Spec_Ragged L_Ragged M_Array M_SampleTree M_EstimateTree Spec_Trees Spec_MST M_Training Spec_Stats L_Stats Spec_Joint Spec_Conditional L_Asg L_BP L_BPVec L_AddRow L_EdgeLogits L_Train M_Serving Spec_Serving L_Server L_Inward L_Logprob L_Path L_Marginals L_MargPost L_Serve3 L_Entropy L_Corr Spec_Summary.
Import ListNotations.
Open Scope R_scope.

Section Sum.
Variables (ws : list nat) (V M : nat) (m : smodel) (edges : list (nat * nat)) (s : server).
Hypothesis SF : sfacts ws V M edges s.
Hypothesis ST : sv_tree s = d_tree m.
Hypothesis SM : d_M m = M.
Hypothesis SV : forall v c, sv_vert s v c = vert_prob m v c.
Hypothesis SE : forall e c1 c2, sv_edge s e c1 c2 = edge_prob m e c1 c2.
Hypothesis SFe : forall v q c, (v < V)%nat -> In q (block ws v) -> sv_feat s q c = feat_prob ws m v q c.
Notation es := (grid_edges (make_tree edges)).

Lemma latent_weight z : In z (vectors V M) -> latent_prob m z = tree_weight V es (sv_vert s) (sv_trans s) z.
Proof.
  intros I. pose proof (weight_eq ws V M m edges s SF ST SM SV SE SFe (repeat 0%Z (list_sum ws)) _ I) as W.
  assert (RG : row_given ws m (repeat 0%Z (list_sum ws)) z = 1).
  { unfold row_given. apply prodf_one. intros v _. apply prodf_one. intros q _. rewrite nth_repeat. reflexivity. }
  rewrite RG in W. rewrite Rmult_1_r in W. rewrite <- W. unfold tree_weight. f_equal. apply prodf_ext. intros v _.
  unfold node, likeli. rewrite prodf_one; [ring|]. intros q _. rewrite nth_repeat. reflexivity.
Qed.

Lemma dtree' : d_tree m = TS V (make_tree edges).
Proof. rewrite <- ST. apply (sf_tree _ _ _ _ _ SF). Qed.

Lemma pair_PW r u a b : pair_prob m u r a b = PW V M edges s r (ind a) (ind b) u.
Proof.
  unfold pair_prob, PW. rewrite dtree', SM. cbn [ts_V]. apply sumf_ext. intros z I. rewrite latent_weight by auto. unfold ind.
  destruct (nth u z 0 =? a)%nat, (nth r z 0 =? b)%nat; cbn [andb]; ring.
Qed.

Lemma pair_sym u v a b : pair_prob m u v a b = pair_prob m v u b a.
Proof. unfold pair_prob. apply sumf_ext. intros. now rewrite andb_comm. Qed.

Lemma latent_pos z : In z (vectors V M) -> 0 < latent_prob m z.
Proof.
  intros I. rewrite latent_weight by auto. apply in_vectors in I. destruct I as (L & B).
  assert (NB : forall v, (v < V)%nat -> (nth v z 0 < M)%nat) by (intros v Hv; apply B, nth_In; lia).
  destruct (sf_tree _ _ _ _ _ SF) as (_ & T).
  unfold tree_weight. apply Rmult_lt_0_compat; apply prodf_pos.
  - intros v Iv. apply in_seq in Iv. apply SF; [lia|apply NB; lia].
  - intros [e [v1 v2]] Ie. assert (E : nth_error es e = Some (v1, v2)).
    { clear - Ie. assert (G : forall (l : list (nat * nat)) k, In (e, (v1, v2)) (combine (seq k (length l)) l) -> (k <= e)%nat /\ nth_error l (e - k) = Some (v1, v2)).
      { induction l as [|x l IH]; intros k H; [destruct H|]. cbn [length seq combine] in H. destruct H as [H|H].
        - injection H as -> ->. rewrite Nat.sub_diag. auto.
        - apply IH in H. destruct H as (H1 & H2). split; [lia|]. replace (e - k)%nat with (S (e - S k)) by lia. exact H2. }
      apply G in Ie. rewrite Nat.sub_0_r in Ie. apply Ie. }
    assert (R12 : (v1 < V /\ v2 < V)%nat).
    { pose proof (make_tree_spanning _ _ T) as T'. apply nth_error_In in E. destruct T' as (_ & IR & _). unfold in_range in IR. first [apply IR; exact E | rewrite Forall_forall in IR; apply (IR _ E)]. }
    assert (LE : (e < V - 1)%nat).
    { assert (e < length es)%nat by (apply nth_error_Some; rewrite E; discriminate). pose proof (make_tree_spanning _ _ T) as T'. destruct T' as (SZ & _). lia. }
    rewrite (sf_trans _ _ _ _ _ SF _ _ _ _ _ E). 
    assert (P1 := sf_edge _ _ _ _ _ SF e (nth v1 z 0%nat) (nth v2 z 0%nat) LE (NB v1 (proj1 R12)) (NB v2 (proj2 R12))).
    assert (P2 := sf_vert _ _ _ _ _ SF v1 (nth v1 z 0%nat) (proj1 R12) (NB v1 (proj1 R12))).
    assert (P3 := sf_vert _ _ _ _ _ SF v2 (nth v2 z 0%nat) (proj2 R12) (NB v2 (proj2 R12))).
    apply Rdiv_lt_0_compat; [apply Rdiv_lt_0_compat; auto|auto].
Qed.

Definition class_total (u a : nat) : R := sumf (vectors V M) (fun z => if (nth u z 0 =? a)%nat then latent_prob m z else 0).

Lemma sum_if {A} (l : list A) (k : A -> nat) n (f : A -> R) : (forall x, In x l -> (k x < n)%nat) ->
  sumf (seq 0 n) (fun a => sumf l (fun x => if (k x =? a)%nat then f x else 0)) = sumf l f.
Proof.
  intros H. rewrite sumf_swap. apply sumf_ext. intros x I. rewrite (sumf_ext _ _ (fun a => ind (k x) a * f x)).
  - now rewrite (sum_ind n (k x) (fun _ => f x)) by auto.
  - intros a _. unfold ind. rewrite (Nat.eqb_sym a). destruct (k x =? a)%nat; ring.
Qed.

Lemma nth_bound u z : (u < V)%nat -> In z (vectors V M) -> (nth u z 0 < M)%nat.
Proof. intros Hu I. apply in_vectors in I. destruct I as (L & B). apply B, nth_In. lia. Qed.

Lemma pair_nonneg u v a b : 0 <= pair_prob m u v a b.
Proof.
  unfold pair_prob. rewrite dtree', SM. cbn [ts_V]. apply sumf_nonneg. intros z I. destruct (_ && _); [|lra]. now apply Rlt_le, latent_pos.
Qed.

Lemma pair_sum_l u v b : (u < V)%nat -> sumf (seq 0 M) (fun a => pair_prob m u v a b) = class_total v b.
Proof.
  intros Hu. unfold pair_prob, class_total. rewrite dtree', SM. cbn [ts_V].
  rewrite <- (sum_if (vectors V M) (fun z => nth u z 0%nat) M) by (intros; now apply nth_bound).
  apply sumf_ext. intros a _. apply sumf_ext. intros z _. destruct (nth u z 0 =? a)%nat, (nth v z 0 =? b)%nat; reflexivity.
Qed.

Lemma pair_total u v : (u < V)%nat -> (v < V)%nat -> sumf (seq 0 M) (fun a => sumf (seq 0 M) (pair_prob m u v a)) = 1.
Proof.
  intros Hu Hv. rewrite sumf_swap. rewrite (sumf_ext _ _ (class_total v)) by (intros; now apply pair_sum_l).
  unfold class_total. rewrite sum_if by (intros; now apply nth_bound). eapply (latent_total ws V M m edges s); eauto.
Qed.

Lemma pair_diag u a b : pair_prob m u u a b = if (a =? b)%nat then class_total u a else 0.
Proof.
  unfold pair_prob, class_total. rewrite dtree', SM. cbn [ts_V]. destruct (Nat.eqb_spec a b) as [-> | N].
  - apply sumf_ext. intros. now rewrite andb_diag.
  - apply sumf_zero. intros z _. destruct (Nat.eqb_spec (nth u z 0%nat) a), (Nat.eqb_spec (nth u z 0%nat) b); cbn [andb]; auto. congruence.
Qed.

Lemma minfo_mi J : minfo M J = mutual_information M J.
Proof. reflexivity. Qed.

Lemma mi_nonneg u v : (u < V)%nat -> (v < V)%nat -> 0 <= mutual_information M (pair_prob m u v).
Proof. intros. apply (minfo_nonneg M); [intros; apply pair_nonneg|now apply pair_total]. Qed.

Lemma mi_sym u v : mutual_information M (pair_prob m u v) = mutual_information M (pair_prob m v u).
Proof. rewrite <- !minfo_mi, <- minfo_swap. apply minfo_ext. intros. apply pair_sym. Qed.

Lemma mi_diag u : (u < V)%nat -> mutual_information M (pair_prob m u u) = sumf (seq 0 M) (fun b => plp (class_total u b)).
Proof.
  intros Hu. unfold mutual_information. rewrite (sumf_ext _ _ (fun a => sumf (seq 0 M) (fun b => ind a b * plp (class_total u b)))).
  - apply sumf_ext. intros a I. apply in_seq in I. apply (sum_ind M a (fun b => plp (class_total u b))). lia.
  - intros a Ia. apply in_seq in Ia. apply sumf_ext. intros b Ib. apply in_seq in Ib. rewrite pair_diag, pair_sum_l by auto. unfold ind.
    rewrite (Nat.eqb_sym b a). destruct (Nat.eqb_spec a b) as [<- | N]; [|ring].
    rewrite (sumf_ext (seq 0 M) (pair_prob m u u a) (fun b => pair_prob m u u b a)) by (intros; apply pair_sym). rewrite pair_sum_l by auto.
    assert (NN : 0 <= class_total u a). { rewrite <- (pair_sum_l u u a Hu). apply sumf_nonneg. intros. apply pair_nonneg. }
    unfold plp. destruct (Req_dec (class_total u a) 0) as [-> | N0]; [ring|].
    replace (class_total u a / (class_total u a * class_total u a)) with (/ class_total u a) by (field; auto). rewrite ln_Rinv by lra. ring.
Qed.

Lemma mi_diag_max u v : (u < V)%nat -> (v < V)%nat -> mutual_information M (pair_prob m v u) <= mutual_information M (pair_prob m u u).
Proof.
  intros Hu Hv. rewrite mi_diag by auto. rewrite <- minfo_mi. eapply Rle_trans; [apply minfo_le_entropy; intros; apply pair_nonneg|].
  right. apply sumf_ext. intros b _. now rewrite pair_sum_l.
Qed.

Lemma corr_row root junk : (root < V)%nat -> exists prog ms, make_propagation_program (ts_grid (sv_tree s)) (Some root) = Ok prog /\
  foldM (correlate_instr s) prog junk = Ok ms /\
  forall v, (v < V)%nat -> correlation (sv_M s) (ms v) = sqrt (1 - exp (-2 * mutual_information M (pair_prob m v root))).
Proof.
  intros HR. destruct (sf_tree _ _ _ _ _ SF) as (ET & T). rewrite ET. cbn [ts_grid].
  destruct (tree_rooted V _ root (make_tree_spanning _ _ T) HR) as (par & dep & RT).
  destruct (make_program_rooted_Ok _ _ _ _ _ RT) as (np & E2 & BL).
  destruct (corr_fold ws V M edges s SF root par dep RT np BL m SM junk) as (ms & E3 & H3).
  exists (prog_of edges root par np), ms. split; [exact E2|]. split; [exact E3|].
  intros v Hv. rewrite (proj1 (sf_M _ _ _ _ _ SF)).
  assert (E : forall i j, (i < M)%nat -> (j < M)%nat -> ms v i j = pair_prob m v root i j).
  { intros i j Hi Hj. rewrite H3 by auto. rewrite pair_PW. symmetry. apply (PW_ind ws V M edges s SF root par dep RT np BL m SM); auto. }
  rewrite <- minfo_mi, <- (minfo_ext M (ms v)) by auto. apply correlation_minfo.
  - intros i j Hi Hj. rewrite E by auto. apply pair_nonneg.
  - rewrite <- (pair_total v root Hv HR). apply sumf_ext. intros i Ii. apply in_seq in Ii. apply sumf_ext. intros j Ij. apply in_seq in Ij. apply E; lia.
Qed.

Lemma corr_all junk : exists rows, latent_correlation s junk = Ok rows /\ length rows = V /\
  forall u v, (u < V)%nat -> (v < V)%nat -> length (nth u rows []) = V /\
    nth v (nth u rows []) 0 = sqrt (1 - exp (-2 * mutual_information M (pair_prob m u v))).
Proof.
  unfold latent_correlation. rewrite (sv_V_eq ws V M edges s SF).
  set (P := fun u row => length row = V /\ forall v, (v < V)%nat -> nth v row 0 = sqrt (1 - exp (-2 * mutual_information M (pair_prob m u v)))).
  match goal with |- context[mapM ?f _] => destruct (mapM_nth f (seq 0 V) P 0%nat []) as (rows & E & L & H) end.
  - intros root I. apply in_seq in I. destruct (corr_row root (junk root)) as (prog & ms & E1 & E2 & H); [lia|]. rewrite E1. cbn [bind]. rewrite E2. cbn [bind].
    eexists. split; [reflexivity|]. split; [now rewrite map_length, seq_length|]. intros v Hv.
    rewrite (nth_indep _ 0 (correlation (sv_M s) (ms 0%nat))) by (rewrite map_length, seq_length; auto).
    rewrite (map_nth (fun v => correlation (sv_M s) (ms v))), seq_nth by auto. cbn [Nat.add]. rewrite H by auto. now rewrite mi_sym.
  - rewrite seq_length in *. exists rows. split; [exact E|]. split; [exact L|]. intros u v Hu Hv. specialize (H u Hu). rewrite seq_nth in H by auto.
    split; [apply H|]. now apply H.
Qed.
End Sum.

Lemma C34_proof : forall ws V M N m mst s junk, consistent ws V M N m -> mst_contract mst -> tree_server mst m = Ok s ->
  exists rows, latent_correlation s junk = Ok rows /\ length rows = V /\
    forall u v, (u < V)%nat -> (v < V)%nat ->
      let entry u v := nth v (nth u rows []) 0 in
      length (nth u rows []) = V /\
      entry u v = sqrt (1 - exp (-2 * mutual_information M (pair_prob m u v))) /\
      0 <= mutual_information M (pair_prob m u v) /\
      entry u v = entry v u /\ 0 <= entry u v < 1 /\ entry u v <= entry u u.
Proof.
  intros ws V M N m mst s junk C MC E.
  destruct (build_server ws V M N m C mst MC) as (s' & edges & E' & SF & ST & SV & SE & SFe & _). rewrite E in E'. inversion E'; subst s'.
  pose proof (proj1 (cm_M _ _ _ _ _ C)) as SM.
  destruct (corr_all ws V M m edges s SF ST SM SV SE SFe junk) as (rows & E1 & L1 & H1).
  exists rows. split; [exact E1|]. split; [exact L1|]. intros u v Hu Hv. cbn zeta.
  pose proof (mi_nonneg ws V M m edges s SF ST SM SV SE SFe u v Hu Hv) as NN.
  split; [apply (H1 u v Hu Hv)|]. rewrite (proj2 (H1 u v Hu Hv)), (proj2 (H1 v u Hv Hu)), (proj2 (H1 u u Hu Hu)).
  split; [reflexivity|]. split; [exact NN|]. rewrite (mi_sym M m v u). split; [reflexivity|]. split; [now apply corr_range|].
  apply corr_mono. split; [exact NN|]. rewrite (mi_sym M m u v). apply (mi_diag_max ws V M m edges s SF ST SM SV SE SFe); auto.
Qed.

Lemma C33_proof : forall ws V M N m mst s, consistent ws V M N m -> mst_contract mst -> tree_server mst m = Ok s ->
  length (latent_perplexity s) = V /\
  forall v, (v < V)%nat -> nth v (latent_perplexity s) 0 = exp (shannon (seq 0 M) (vert_prob m v)) /\
    1 <= nth v (latent_perplexity s) 0 <= INR M.
Proof.
  intros ws V M N m mst s C MC E.
  destruct (build_server ws V M N m C mst MC) as (s' & edges & E' & SF & ST & SV & SE & SFe & _). rewrite E in E'. inversion E'; subst s'.
  unfold latent_perplexity. rewrite (sv_V_eq ws V M edges s SF). split; [now rewrite map_length, seq_length|]. intros v Hv.
  rewrite (nth_indep _ 0 (exp (entropy (vec (sv_M s) (sv_vert s 0%nat))))) by (rewrite map_length, seq_length; auto).
  rewrite (map_nth (fun v => exp (entropy (vec (sv_M s) (sv_vert s v))))), seq_nth by auto. cbn [Nat.add].
  rewrite (proj1 (sf_M _ _ _ _ _ SF)).
  assert (RS : rsum (vec M (sv_vert s v)) = 1) by (rewrite rsum_vec; now apply SF).
  rewrite entropy_one by auto.
  assert (B : 0 <= sumf (vec M (sv_vert s v)) plp <= ln (INR (length (vec M (sv_vert s v))))).
  { apply entropy_bounds; [|exact RS]. intros x I. unfold vec in I. apply in_map_iff in I. destruct I as (c & <- & I). apply in_seq in I. apply Rlt_le. apply SF; [auto|lia]. }
  assert (LV : length (vec M (sv_vert s v)) = M) by (unfold vec; now rewrite map_length, seq_length). rewrite LV in B.
  assert (MP : 0 < INR M) by (apply lt_0_INR; pose proof (proj2 (sf_M _ _ _ _ _ SF)); lia).
  split.
  - f_equal. unfold vec, shannon. rewrite sumf_map. apply sumf_ext. intros c _. unfold plp. now rewrite SV.
  - split.
    + rewrite <- exp_0. destruct (Req_dec (sumf (vec M (sv_vert s v)) plp) 0) as [-> |]; [lra|]. left. apply exp_increasing. lra.
    + rewrite <- (exp_ln (INR M)) by auto. destruct (Req_dec (sumf (vec M (sv_vert s v)) plp) (ln (INR M))) as [-> |]; [lra|]. left. apply exp_increasing. lra.
Qed.
