(** logprob is the logarithm of the row probability; the row probabilities are
    normalised. *)
From Coq Require Import List Arith Lia Bool ZArith Reals Lra Permutation FunctionalExtensionality.
From Verif Require Import Base L_Base Spec_Graph L_Graph Spec_Sum L_Sum M_Structure L_Pairing L_MakeTree L_Program L_ProgramValid Spec_Program L_Center L_Prop1 M_Rand L_Rand M_Util Spec_Ragged L_Ragged M_Array Spec_Trees Spec_MST M_Training Spec_Stats L_Stats L_Trainer Spec_Joint Spec_Conditional L_Asg L_BP L_BPVec L_AddRow M_Serving Spec_Serving L_Server L_Inward.
Import ListNotations.
Open Scope R_scope.

Section Logprob.
Variables (ws : list nat) (V M : nat) (m : smodel) (edges : list (nat * nat)) (s : server).
Hypothesis SF : sfacts ws V M edges s.
Hypothesis ST : sv_tree s = d_tree m.
Hypothesis SM : d_M m = M.
Hypothesis SV : forall v c, sv_vert s v c = vert_prob m v c.
Hypothesis SE : forall e c1 c2, sv_edge s e c1 c2 = edge_prob m e c1 c2.
Hypothesis SFe : forall v q c, (v < V)%nat -> In q (block ws v) -> sv_feat s q c = feat_prob ws m v q c.
Notation es := (grid_edges (make_tree edges)).

Lemma dtree : d_tree m = TS V (make_tree edges).
Proof. rewrite <- ST. apply SF. Qed.

Lemma weight_eq row z : In z (vectors V M) ->
  tree_weight V es (node ws s row) (sv_trans s) z = latent_prob m z * row_given ws m row z.
Proof.
  intros I. apply in_vectors in I. destruct I as (L & B).
  assert (BN : forall v, (v < V)%nat -> (nth v z 0 < M)%nat) by (intros; apply B, nth_In; lia).
  unfold latent_prob, row_given, tree_weight. rewrite dtree. cbn [ts_V].
  change (ts_get_edges (TS V (make_tree edges))) with es.
  rewrite (prodf_ext (seq 0 V) (fun v => node ws s row v (nth v z 0%nat))
     (fun v => vert_prob m v (nth v z 0%nat) * prodf (block ws v) (fun q => powerRZ (feat_prob ws m v q (nth v z 0%nat)) (nth q row 0%Z)))).
  - rewrite prodf_mult. rewrite (prodf_ext (combine _ _) (fun '(e, (v1, v2)) => sv_trans s e (nth v1 z 0%nat) (nth v2 z 0%nat))
      (fun '(e, (v1, v2)) => let '(v3, v4) := nth e es (0, 0)%nat in
         edge_prob m e (nth v1 z 0%nat) (nth v2 z 0%nat) / (vert_prob m v3 (nth v1 z 0%nat) * vert_prob m v4 (nth v2 z 0%nat)))).
    + ring.
    + intros [e [v1 v2]] Hc.
      assert (D : nth_error es e = Some (v1, v2)).
      { clear - Hc. assert (G : forall (l : list (nat * nat)) b, In (e, (v1, v2)) (combine (seq b (length l)) l) -> (b <= e)%nat /\ nth_error l (e - b) = Some (v1, v2)).
        { induction l as [|x l IH]; intros b H; simpl in H; [tauto|]. destruct H as [H|H].
          - inversion H; subst. rewrite Nat.sub_diag. auto.
          - destruct (IH _ H). split; [lia|]. replace (e - b)%nat with (S (e - S b)) by lia. auto. }
        destruct (G es 0%nat Hc) as (_ & G'). now rewrite Nat.sub_0_r in G'. }
      rewrite (nth_error_nth _ _ _ D).
      rewrite (sf_trans _ _ _ _ _ SF _ _ _ _ _ D), SE, !SV. unfold Rdiv. rewrite Rinv_mult. ring.
  - intros v Hv. apply in_seq in Hv. unfold node, likeli. rewrite SV. f_equal. apply prodf_ext. intros q Hq.
    rewrite (SFe v) by (auto; lia). reflexivity.
Qed.

Lemma total_eq row : total_weight ws V M edges s row = row_prob ws m row.
Proof.
  unfold total_weight, row_prob. rewrite dtree, SM. cbn [ts_V]. apply sumf_ext. intros. now apply weight_eq.
Qed.

Lemma tree_root : exists r par dep, rooted V es r par dep.
Proof.
  destruct (sf_tree _ _ _ _ _ SF) as (_ & T).
  assert (H0 : (0 < V)%nat) by (destruct T; lia).
  destruct (tree_rooted V _ 0%nat (make_tree_spanning _ _ T) H0) as (par & dep & RT). eauto.
Qed.

Lemma row_prob_pos row : 0 < row_prob ws m row.
Proof.
  rewrite <- total_eq. destruct tree_root as (r & par & dep & RT). eapply (total_weight_pos ws V M edges s SF); eauto.
Qed.

Lemma logprob_any root prog row : (forall r, root = Some r -> (r < V)%nat) ->
  make_propagation_program (ts_grid (sv_tree s)) root = Ok prog -> length row = list_sum ws ->
  logprob_row (with_prog s prog) row = Ok (ln (row_prob ws m row)).
Proof.
  intros HR EP RL. destruct (sf_tree _ _ _ _ _ SF) as (ET & T). rewrite ET in EP. cbn [ts_grid] in EP.
  destruct (prog_shape V edges root prog T HR EP) as (r & par & dep & np & RT & BL & ->).
  assert (SF' : sfacts ws V M edges (with_prog s (prog_of edges r par np))).
  { destruct SF. constructor; auto. }
  unfold logprob_row. cbn [sv_R with_prog sv_prog sv_vert].
  rewrite (sf_R _ _ _ _ _ SF), RL, Nat.eqb_refl. cbn [assert_ bind].
  pose proof (logprob_rooted ws V M edges _ SF' r par dep RT np BL row RL) as LR. cbn [sv_vert with_prog] in LR.
  rewrite <- total_eq. etransitivity; [exact LR|]. reflexivity.
Qed.

(** ** Normalisation *)
Lemma up_unit r par dep c mp : rooted V es r par dep -> (c < V)%nat -> c <> r -> (mp < M)%nat ->
  up M (opair edges par (sv_trans s)) (sv_vert s) c mp = 1.
Proof.
  intros RT Hc N Hm. unfold up. pose proof (par_lt _ _ _ _ _ RT c Hc) as Hp.
  destruct (eidx_spec _ _ _ _ _ RT c Hc N) as (E & _). pose proof (par_neq _ _ _ _ _ RT c Hc N) as NE.
  assert (VP : forall v q, (v < V)%nat -> (q < M)%nat -> 0 < sv_vert s v q) by apply SF.
  unfold opair. unfold norm in E. simpl in E. destruct (Nat.ltb_spec c (par c)).
  - rewrite Nat.min_l, Nat.max_r in E by lia.
    rewrite (sumf_ext _ _ (fun m' => sv_edge s (eidx edges par c) m' mp / sv_vert s (par c) mp)).
    + rewrite sumf_div, (sf_e2 _ _ _ _ _ SF _ _ _ _ E) by auto. field. apply Rgt_not_eq. apply VP; auto.
    + intros m' I. apply in_seq in I. rewrite (sf_trans _ _ _ _ _ SF _ _ _ _ _ E). field.
      split; apply Rgt_not_eq; apply VP; auto; lia.
  - rewrite Nat.min_r, Nat.max_l in E by lia.
    rewrite (sumf_ext _ _ (fun m' => sv_edge s (eidx edges par c) mp m' / sv_vert s (par c) mp)).
    + rewrite sumf_div, (sf_e1 _ _ _ _ _ SF _ _ _ _ E) by auto. field. apply Rgt_not_eq. apply VP; auto.
    + intros m' I. apply in_seq in I. rewrite (sf_trans _ _ _ _ _ SF _ _ _ _ _ E). field.
      split; apply Rgt_not_eq; apply VP; auto; lia.
Qed.

Lemma latent_total : sumf (vectors V M) (latent_prob m) = 1.
Proof.
  destruct tree_root as (r & par & dep & RT).
  assert (UPW : upward V r par M (sv_vert s) (opair edges par (sv_trans s)) (sv_vert s)).
  { intros v c Hv Hc. rewrite prodf_one; [lra|]. intros d Hd. apply in_kids in Hd. destruct Hd as (Hd & N & _).
    eapply up_unit; eauto. }
  pose proof (HM ws V M edges s SF) as HM.
  destruct (make_program_rooted_Ok _ _ _ _ _ RT) as (np & _ & BL).
  pose proof (jointw_total V es r par dep M RT HM (sv_vert s) (opair edges par (sv_trans s)) (sv_vert s)
    (sf_vert _ _ _ _ _ SF) (psi_pos ws V M edges s SF r par dep RT) UPW (order np) (order_perm V r par np BL) (order_first V r par np BL) (fun _ => 0%nat)) as T.
  unfold Ztot in T. rewrite (sf_vsum _ _ _ _ _ SF) in T by apply RT. rewrite <- T.
  rewrite <- (sumall_vectors V r par np BL M _ (fun _ => 0%nat)).
  apply sumall_ext; [apply (order_nodup V r par np BL)|]. intros z' F.
  rewrite (jointw_tree V edges r par dep RT M HM).
  assert (I : In (map z' (seq 0 V)) (vectors V M)).
  { apply in_vectors. split; [now rewrite map_length, seq_length|]. intros c Hc. apply in_map_iff in Hc. destruct Hc as (v & <- & Hv).
    destruct F as (F1 & _). apply F1. eapply Permutation_in; [apply Permutation_sym, (order_perm V r par np BL)|auto]. }
  pose proof (weight_eq (repeat 0%Z (list_sum ws)) _ I) as W.
  assert (RG : row_given ws m (repeat 0%Z (list_sum ws)) (map z' (seq 0 V)) = 1).
  { unfold row_given. apply prodf_one. intros v _. apply prodf_one. intros q _. rewrite nth_repeat. reflexivity. }
  rewrite RG in W. rewrite Rmult_1_r in W. rewrite <- W. unfold tree_weight. f_equal. apply prodf_ext. intros v _.
  unfold node, likeli. rewrite prodf_one; [ring|]. intros q _. rewrite nth_repeat. reflexivity.
Qed.

Lemma empty_row : row_prob ws m (repeat 0%Z (list_sum ws)) = 1.
Proof.
  unfold row_prob. rewrite dtree, SM. cbn [ts_V]. rewrite <- latent_total. apply sumf_ext. intros z _.
  unfold row_given. rewrite prodf_one; [ring|]. intros v _. apply prodf_one. intros q _. rewrite nth_repeat. reflexivity.
Qed.

Lemma bump_length row q : length (bump row q) = length row.
Proof. unfold bump. now rewrite map_length, seq_length. Qed.

Lemma bump_nth row q i : (i < length row)%nat -> nth i (bump row q) 0%Z = (nth i row 0 + if (i =? q)%nat then 1 else 0)%Z.
Proof.
  intros Hi. unfold bump.
  rewrite nth_indep with (d' := (fun i => (nth i row 0 + (if (i =? q)%nat then 1 else 0))%Z) 0%nat) by (now rewrite map_length, seq_length).
  rewrite (map_nth (fun i => (nth i row 0 + (if (i =? q)%nat then 1 else 0))%Z)). rewrite seq_nth by auto. reflexivity.
Qed.

Lemma prodf_factor {A} (l : list A) f g x k : NoDup l -> In x l -> f x = g x * k -> (forall y, In y l -> y <> x -> f y = g y) ->
  prodf l f = prodf l g * k.
Proof.
  induction l as [|y l IH]; intros ND I Ex En; [destruct I|]. inversion ND; subst. rewrite !prodf_cons. destruct I as [->|I].
  - rewrite Ex. rewrite (prodf_ext l f g); [ring|]. intros y Hy. apply En; [now right|]. intro; subst; auto.
  - rewrite (IH H2 I Ex) by (intros; apply En; auto; now right). rewrite (En y); [ring|now left|]. intro; subst; auto.
Qed.

Lemma feat_prob_pos v q c : (v < V)%nat -> In q (block ws v) -> (c < M)%nat -> 0 < feat_prob ws m v q c.
Proof. intros. rewrite <- SFe by auto. now apply (sf_feat _ _ _ _ _ SF v). Qed.

Lemma row_given_bump row v q z : length row = list_sum ws -> (v < V)%nat -> In q (block ws v) -> In z (vectors V M) ->
  row_given ws m (bump row q) z = row_given ws m row z * feat_prob ws m v q (nth v z 0%nat).
Proof.
  intros RL Hv Hq I. apply in_vectors in I. destruct I as (L & B).
  assert (BN : forall v, (v < V)%nat -> (nth v z 0 < M)%nat) by (intros; apply B, nth_In; lia).
  assert (LT : forall u p, (u < V)%nat -> In p (block ws u) -> (p < length row)%nat).
  { intros. rewrite RL. eapply in_block_lt; eauto. }
  unfold row_given. rewrite dtree. cbn [ts_V]. apply prodf_factor with (x := v).
  - apply seq_NoDup.
  - apply in_seq. lia.
  - apply prodf_factor with (x := q).
    + apply seq_NoDup.
    + auto.
    + rewrite bump_nth by eauto. rewrite Nat.eqb_refl. rewrite powerRZ_add.
      * simpl. ring.
      * apply Rgt_not_eq. apply feat_prob_pos; auto.
    + intros p Hp N. rewrite bump_nth by eauto. apply Nat.eqb_neq in N. rewrite N. now rewrite Z.add_0_r.
  - intros u Hu N. apply in_seq in Hu. apply prodf_ext. intros p Hp. rewrite bump_nth by (apply (LT u); auto; lia).
    destruct (Nat.eqb_spec p q) as [->|]; [|now rewrite Z.add_0_r]. exfalso. apply N.
    pose proof (sf_ws _ _ _ _ _ SF). unfold block in *. apply in_seq in Hp, Hq. apply (owns_unique ws u v q); split; lia.
Qed.

Lemma sum_bump row v : length row = list_sum ws -> (v < V)%nat -> block ws v <> [] ->
  sumf (block ws v) (fun q => row_prob ws m (bump row q)) = row_prob ws m row.
Proof.
  intros RL Hv NE. unfold row_prob. rewrite dtree, SM. cbn [ts_V]. rewrite sumf_swap. apply sumf_ext. intros z I.
  rewrite (sumf_ext _ _ (fun q => latent_prob m z * row_given ws m row z * feat_prob ws m v q (nth v z 0%nat))).
  - rewrite sumf_scal. rewrite (sumf_ext _ _ (fun q => sv_feat s q (nth v z 0%nat))) by (intros; now rewrite (SFe v)).
    rewrite (sf_fsum _ _ _ _ _ SF); auto; [ring|]. apply in_vectors in I. destruct I as (L & B). apply B, nth_In. lia.
  - intros q Hq. rewrite (row_given_bump row v q z) by auto. ring.
Qed.
End Logprob.

(** ** The complete rows *)
Lemma complete_rows_snoc ws w :
  complete_rows (ws ++ [w]) = flat_map (fun row => map (fun c => row ++ one_hot w c) (seq 0 w)) (complete_rows ws).
Proof.
  induction ws as [|a ws IH]; cbn [app complete_rows flat_map].
  - rewrite app_nil_r. assert (G : forall l, flat_map (fun c => map (app (one_hot w c)) [[]]) l = map (fun c => [] ++ one_hot w c) l); [|apply G].
    induction l as [|c l IHl]; [reflexivity|]. simpl. rewrite app_nil_r. f_equal. exact IHl.
  - rewrite IH. induction (seq 0 a) as [|c l IHl]; [reflexivity|]. cbn [flat_map]. rewrite flat_map_app, IHl. f_equal.
    clear.     induction (complete_rows ws) as [|x L IHL]; [reflexivity|]. cbn [flat_map map]. rewrite map_app, IHL. f_equal.
    rewrite map_map. apply map_ext. intros. now rewrite app_assoc.
Qed.

Lemma complete_rows_length ws : forall row, In row (complete_rows ws) -> length row = list_sum ws.
Proof.
  induction ws as [|w ws IH]; intros row I.
  - simpl in I. destruct I as [<-|[]]. reflexivity.
  - cbn [complete_rows] in I. apply in_flat_map in I. destruct I as (c & _ & I). apply in_map_iff in I. destruct I as (x & <- & I).
    rewrite app_length, (IH x I). unfold one_hot. rewrite map_length, seq_length. reflexivity.
Qed.

Lemma bump_zeros (row : list Z) w n c : (c < w)%nat ->
  bump (row ++ repeat 0%Z (w + n)) (length row + c) = (row ++ one_hot w c) ++ repeat 0%Z n.
Proof.
  intros Hc. apply (nth_ext _ _ 0%Z 0%Z).
  - rewrite bump_length, !app_length, !repeat_length. unfold one_hot. rewrite map_length, seq_length. lia.
  - rewrite bump_length, app_length, repeat_length. intros i Hi. rewrite bump_nth by (now rewrite app_length, repeat_length).
    destruct (lt_dec i (length row)).
    + rewrite !app_nth1 by (rewrite ?app_length; lia). destruct (Nat.eqb_spec i (length row + c)); [lia|]. lia.
    + rewrite (app_nth2 row) by lia. rewrite nth_repeat. 
      destruct (lt_dec i (length row + w)).
      * rewrite app_nth1 by (rewrite app_length; unfold one_hot; rewrite map_length, seq_length; lia).
        rewrite app_nth2 by lia. unfold one_hot.
        rewrite nth_indep with (d' := (fun i => if (i =? c)%nat then 1%Z else 0%Z) 0%nat) by (rewrite map_length, seq_length; lia).
        rewrite (map_nth (fun i => if (i =? c)%nat then 1%Z else 0%Z)), seq_nth by lia.
        destruct (Nat.eqb_spec i (length row + c)), (Nat.eqb_spec (0 + (i - length row)) c); lia.
      * rewrite app_nth2 by (rewrite app_length; unfold one_hot; rewrite map_length, seq_length; lia).
        rewrite nth_repeat. destruct (Nat.eqb_spec i (length row + c)); lia.
Qed.

Lemma firstn_snoc (l : list nat) k : (k < length l)%nat -> firstn (S k) l = firstn k l ++ [nth k l 0%nat].
Proof.
  revert k. induction l as [|a l IH]; intros k Hk; [simpl in Hk; lia|]. destruct k; [reflexivity|].
  cbn [firstn app nth] in *. f_equal. apply IH. simpl in Hk. lia.
Qed.

Lemma skipn_sum (l : list nat) k : (k < length l)%nat -> list_sum (skipn k l) = (nth k l 0 + list_sum (skipn (S k) l))%nat.
Proof.
  revert k. induction l as [|a l IH]; intros k Hk; [simpl in Hk; lia|]. destruct k; [reflexivity|].
  change (skipn (S k) (a :: l)) with (skipn k l). change (skipn (S (S k)) (a :: l)) with (skipn (S k) l).
  apply IH. simpl in Hk. lia.
Qed.

Section Complete.
Variables (ws : list nat) (V M : nat) (m : smodel) (edges : list (nat * nat)) (s : server).
Hypothesis SF : sfacts ws V M edges s.
Hypothesis ST : sv_tree s = d_tree m.
Hypothesis SM : d_M m = M.
Hypothesis SV : forall v c, sv_vert s v c = vert_prob m v c.
Hypothesis SE : forall e c1 c2, sv_edge s e c1 c2 = edge_prob m e c1 c2.
Hypothesis SFe : forall v q c, (v < V)%nat -> In q (block ws v) -> sv_feat s q c = feat_prob ws m v q c.
Hypothesis WP : forall v, (v < V)%nat -> (1 <= nth v ws 0)%nat.

Lemma complete_upto k : (k <= V)%nat ->
  sumf (complete_rows (firstn k ws)) (fun row => row_prob ws m (row ++ repeat 0%Z (list_sum (skipn k ws)))) = 1.
Proof.
  pose proof (sf_ws _ _ _ _ _ SF) as LW.
  induction k; intros Hk.
  - cbn [firstn complete_rows]. rewrite sumf_cons, sumf_nil. cbn [app skipn].
    rewrite (empty_row ws V M m edges s SF ST SM SV SE SFe). lra.
  - assert (F : firstn (S k) ws = firstn k ws ++ [nth k ws 0%nat]).
    { apply firstn_snoc. lia. }
    assert (SK : list_sum (skipn k ws) = (nth k ws 0 + list_sum (skipn (S k) ws))%nat).
    { apply skipn_sum. lia. }
    rewrite F, complete_rows_snoc, sumf_flat_map. rewrite <- (IHk ltac:(lia)). apply sumf_ext. intros row I.
    apply complete_rows_length in I. rewrite sumf_map.
    rewrite <- (sum_bump ws V M m edges s SF ST SM SFe (row ++ repeat 0%Z (list_sum (skipn k ws))) k).
    + rewrite SK. unfold block. rewrite <- I.
      assert (G : forall f b n, sumf (seq 0 n) (fun c => f (b + c)%nat) = sumf (seq b n) f).
      { clear. intros f b n. revert b. induction n; intros b; [reflexivity|]. cbn [seq]. rewrite !sumf_cons. rewrite Nat.add_0_r. f_equal.
        rewrite <- (IHn (S b)), <- (seq_shift n 0), sumf_map. apply sumf_ext. intros. f_equal. lia. }
      rewrite <- (G _ (length row)). apply sumf_ext. intros c Hc. apply in_seq in Hc. rewrite bump_zeros by lia. reflexivity.
    + rewrite app_length, repeat_length, I. rewrite <- list_sum_app, firstn_skipn. reflexivity.
    + lia.
    + specialize (WP k ltac:(lia)). unfold block. destruct (nth k ws 0%nat); [lia|discriminate].
Qed.

Lemma complete_total : sumf (complete_rows ws) (row_prob ws m) = 1.
Proof.
  pose proof (complete_upto V (le_n V)) as H. pose proof (sf_ws _ _ _ _ _ SF) as LW.
  rewrite <- LW, firstn_all, skipn_all in H. rewrite <- H. apply sumf_ext. intros. simpl. now rewrite app_nil_r.
Qed.
End Complete.
