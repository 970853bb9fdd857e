(** The joint density of classes and data is normalised equally for every tree. *)
From Coq Require Import List Arith Bool ZArith Reals Lia Lra Permutation Sorted.
From Verif Require Import Base L_Base Spec_Graph L_Graph Spec_Sum L_Sum Spec_Trees Spec_Ragged L_Ragged M_Structure L_Pairing L_Prop1 L_MakeTree M_Util
  M_Rand L_Rand M_SampleTree L_SampleTree L_TreeMCMC L_AllTrees M_Array M_Training Spec_Joint Spec_Stats L_Asg L_Stats L_Trainer
  Spec_Conditional L_AddRow L_Conditional Spec_EdgeLogits L_EdgeLogits Spec_Gibbs L_Gibbs Spec_Model L_Train M_Serving Spec_Serving L_Server L_Logprob L_Serve1
  Spec_Epoch L_Epoch Spec_Evidence.
From Verif Require L_Estimate.
Import ListNotations.
Open Scope R_scope.

(** ** Rows with a pattern *)
Lemma one_hot_length w c : length (one_hot w c) = w.
Proof. unfold one_hot. now rewrite map_length, seq_length. Qed.

Lemma one_hot_nth w c i : (i < w)%nat -> nth i (one_hot w c) 0%Z = if (i =? c)%nat then 1%Z else 0%Z.
Proof.
  intros Hi. unfold one_hot. rewrite nth_indep with (d' := (fun i => if (i =? c)%nat then 1%Z else 0%Z) 0%nat) by (now rewrite map_length, seq_length).
  rewrite (map_nth (fun i => if (i =? c)%nat then 1%Z else 0%Z)), seq_nth by auto. reflexivity.
Qed.

Lemma pattern_snoc ws w : forall obs b, length obs = length ws -> pattern_rows (ws ++ [w]) (obs ++ [b]) =
  flat_map (fun row => map (app row) (pattern_rows [w] [b])) (pattern_rows ws obs).
Proof.
  assert (G : forall (l : list (list Z)) (a : list Z) L, map (app a) (flat_map (fun row => map (app row) L) l) = flat_map (fun row => map (app row) L) (map (app a) l)).
  { induction l as [|x l IHl]; intros a L; [reflexivity|]. cbn [flat_map map]. rewrite map_app, IHl. f_equal. rewrite map_map. apply map_ext. intros. now rewrite app_assoc. }
  induction ws as [|w0 ws IH]; intros [|b0 obs] b L; try discriminate.
  - cbn [app]. change (pattern_rows [] []) with [@nil Z]. cbn [flat_map]. rewrite app_nil_r.
    assert (I : forall l : list (list Z), map (app []) l = l) by (intros; etransitivity; [apply map_ext with (g := fun x => x); reflexivity|apply map_id]). now rewrite I.
  - injection L as L. cbn [app]. destruct b0; cbn [pattern_rows]; rewrite IH by auto.
    + induction (seq 0 w0) as [|c l IHl]; [reflexivity|]. cbn [flat_map]. rewrite flat_map_app, IHl, G. reflexivity.
    + apply G.
Qed.

Lemma pattern_length ws : forall obs x, length obs = length ws -> In x (pattern_rows ws obs) -> length x = list_sum ws.
Proof.
  induction ws as [|w ws IH]; intros [|b obs] x L I; try discriminate.
  - destruct I as [<-|[]]. reflexivity.
  - injection L as L. cbn [pattern_rows] in I. change (list_sum (w :: ws)) with (w + list_sum ws)%nat. destruct b.
    + apply in_flat_map in I. destruct I as (c & _ & I). apply in_map_iff in I. destruct I as (y & <- & I). rewrite app_length, one_hot_length. f_equal. eauto.
    + apply in_map_iff in I. destruct I as (y & <- & I). rewrite app_length, repeat_length. f_equal. eauto.
Qed.

Definition hot_block (ws : list nat) (x : list Z) (v : nat) : Prop :=
  (forall q, In q (block ws v) -> nth q x 0%Z = 0%Z) \/
  exists q0, In q0 (block ws v) /\ forall q, In q (block ws v) -> nth q x 0%Z = if (q =? q0)%nat then 1%Z else 0%Z.

Lemma block_0 w ws : block (w :: ws) 0 = seq 0 w.
Proof. reflexivity. Qed.
Lemma block_S w ws v q : In q (block (w :: ws) (S v)) <-> exists q', q = (w + q')%nat /\ In q' (block ws v).
Proof.
  unfold block. cbn [firstn nth]. change (list_sum (w :: firstn v ws)) with (w + list_sum (firstn v ws))%nat. rewrite in_seq. split.
  - intros H. exists (q - w)%nat. rewrite in_seq. lia.
  - intros (q' & -> & H). apply in_seq in H. lia.
Qed.

Lemma pattern_hot ws : forall obs x v, length obs = length ws -> In x (pattern_rows ws obs) -> (v < length ws)%nat -> hot_block ws x v.
Proof.
  assert (SH : forall w ws' (h y : list Z) v, length h = w -> hot_block ws' y v -> hot_block (w :: ws') (h ++ y) (S v)).
  { intros w ws' h y v Lh [Z|(q0 & I0 & H)].
    - left. intros q I. apply block_S in I. destruct I as (q' & -> & I). rewrite app_nth2 by lia. rewrite Lh.
      replace (w + q' - w)%nat with q' by lia. auto.
    - right. exists (w + q0)%nat. split; [apply block_S; eauto|]. intros q I. apply block_S in I. destruct I as (q' & -> & I).
      rewrite app_nth2 by lia. rewrite Lh. replace (w + q' - w)%nat with q' by lia. rewrite H by auto.
      destruct (Nat.eqb_spec q' q0), (Nat.eqb_spec (w + q') (w + q0)); auto; lia. }
  induction ws as [|w ws IH]; intros [|b obs] x v L I Hv; try discriminate; [cbn in Hv; lia|].
  injection L as L. cbn [pattern_rows] in I. destruct b.
  - apply in_flat_map in I. destruct I as (c & Hc & I). apply in_map_iff in I. destruct I as (y & <- & I). apply in_seq in Hc. destruct v.
    + right. exists c. rewrite block_0. split; [apply in_seq; lia|]. intros q Hq. apply in_seq in Hq.
      rewrite app_nth1 by (rewrite one_hot_length; lia). apply one_hot_nth. lia.
    + apply SH; [apply one_hot_length|]. apply (IH obs); auto. cbn in Hv. lia.
  - apply in_map_iff in I. destruct I as (y & <- & I). destruct v.
    + left. rewrite block_0. intros q Hq. apply in_seq in Hq. rewrite app_nth1 by (rewrite repeat_length; lia). apply nth_repeat.
    + apply SH; [apply repeat_length|]. apply (IH obs); auto. cbn in Hv. lia.
Qed.

Lemma pattern_nonneg ws : forall obs x, length obs = length ws -> In x (pattern_rows ws obs) -> forall c, In c x -> (0 <= c)%Z.
Proof.
  induction ws as [|w ws IH]; intros [|b obs] x L I c Hc; try discriminate.
  - destruct I as [<-|[]]. destruct Hc.
  - injection L as L. cbn [pattern_rows] in I. destruct b.
    + apply in_flat_map in I. destruct I as (k & _ & I). apply in_map_iff in I. destruct I as (y & <- & I). apply in_app_or in Hc. destruct Hc as [Hc|Hc]; [|eauto].
      unfold one_hot in Hc. apply in_map_iff in Hc. destruct Hc as (i & <- & _). destruct (i =? k)%nat; lia.
    + apply in_map_iff in I. destruct I as (y & <- & I). apply in_app_or in Hc. destruct Hc as [Hc|Hc]; [|eauto]. apply repeat_spec in Hc. lia.
Qed.

(** ** The rows of a pattern have total probability one *)
Section Pattern.
Variables (ws : list nat) (V M : nat) (m : smodel) (edges : list (nat * nat)) (s : server).
Hypothesis SF : sfacts ws V M edges s.
Hypothesis ST : sv_tree s = d_tree m.
Hypothesis SM : d_M m = M.
Hypothesis SV : forall v c, sv_vert s v c = vert_prob m v c.
Hypothesis SE : forall e c1 c2, sv_edge s e c1 c2 = edge_prob m e c1 c2.
Hypothesis SFe : forall v q c, (v < V)%nat -> In q (block ws v) -> sv_feat s q c = feat_prob ws m v q c.
Hypothesis WP : forall v, (v < V)%nat -> (1 <= nth v ws 0)%nat.
Variable obs : list bool.
Hypothesis LO : length obs = V.

Lemma firstn_snoc' {A} (l : list A) d k : (k < length l)%nat -> firstn (S k) l = firstn k l ++ [nth k l d].
Proof.
  revert k. induction l as [|a l IH]; intros k Hk; [simpl in Hk; lia|]. destruct k; [reflexivity|].
  cbn [firstn app nth] in *. f_equal. apply IH. simpl in Hk. lia.
Qed.

Lemma pattern_upto k : (k <= V)%nat ->
  sumf (pattern_rows (firstn k ws) (firstn k obs)) (fun row => row_prob ws m (row ++ repeat 0%Z (list_sum (skipn k ws)))) = 1.
Proof.
  pose proof (sf_ws _ _ _ _ _ SF) as LW.
  induction k; intros Hk.
  - cbn [firstn pattern_rows]. rewrite sumf_cons, sumf_nil. cbn [app skipn].
    rewrite (empty_row ws V M m edges s SF ST SM SV SE SFe). lra.
  - assert (SK : list_sum (skipn k ws) = (nth k ws 0 + list_sum (skipn (S k) ws))%nat) by (apply skipn_sum; lia).
    rewrite (firstn_snoc' ws 0%nat), (firstn_snoc' obs false) by lia.
    rewrite pattern_snoc by (rewrite !firstn_length; lia). rewrite sumf_flat_map. rewrite <- (IHk ltac:(lia)). apply sumf_ext. intros row I.
    apply pattern_length in I; [|rewrite !firstn_length; lia]. rewrite sumf_map. cbn [pattern_rows]. destruct (nth k obs false).
    + rewrite sumf_flat_map. rewrite (sumf_ext _ _ (fun c => row_prob ws m ((row ++ one_hot (nth k ws 0%nat) c) ++ repeat 0%Z (list_sum (skipn (S k) ws))))).
      2: { intros c _. cbn [map]. rewrite sumf_cons, sumf_nil, app_nil_r. lra. }
      rewrite <- (sum_bump ws V M m edges s SF ST SM SFe (row ++ repeat 0%Z (list_sum (skipn k ws))) k).
      * rewrite SK. unfold block. rewrite <- I.
        assert (G : forall f b n, sumf (seq 0 n) (fun c => f (b + c)%nat) = sumf (seq b n) f).
        { clear. intros f b n. revert b. induction n; intros b; [reflexivity|]. cbn [seq]. rewrite !sumf_cons. rewrite Nat.add_0_r. f_equal.
          rewrite <- (IHn (S b)), <- (seq_shift n 0), sumf_map. apply sumf_ext. intros. f_equal. lia. }
        rewrite <- (G _ (length row)). apply sumf_ext. intros c Hc. apply in_seq in Hc. rewrite bump_zeros by lia. reflexivity.
      * rewrite app_length, repeat_length, I. rewrite <- list_sum_app, firstn_skipn. reflexivity.
      * lia.
      * specialize (WP k ltac:(lia)). unfold block. destruct (nth k ws 0%nat); [lia|discriminate].
    + cbn [map]. rewrite sumf_cons, sumf_nil, app_nil_r, <- app_assoc, <- repeat_app, <- SK. lra.
Qed.

Lemma pattern_total : sumf (pattern_rows ws obs) (row_prob ws m) = 1.
Proof.
  pose proof (pattern_upto V (le_n V)) as H. pose proof (sf_ws _ _ _ _ _ SF) as LW.
  replace (firstn V obs) with obs in H by (symmetry; rewrite <- LO; apply firstn_all).
  replace (firstn V ws) with ws in H by (symmetry; rewrite <- LW; apply firstn_all).
  rewrite <- LW, skipn_all in H. rewrite <- H. apply sumf_ext. intros. cbn [list_sum fold_right repeat]. now rewrite app_nil_r.
Qed.
End Pattern.
