(** Proof of C31. *)
From Coq Require Import List Arith Lia Bool ZArith Reals Lra Classical.
From Verif Require Import Base L_Base Spec_Graph L_Graph Spec_Sum L_Sum M_Structure L_Center M_Rand M_Util L_Quantize Spec_Ragged L_Ragged M_Array M_EstimateTree Spec_MST M_Training Spec_Stats L_Stats Spec_Joint Spec_Conditional L_BP L_AddRow M_Serving Spec_Serving L_Server L_Inward L_Logprob L_Serve1 L_Serve3.
Import ListNotations.
Open Scope R_scope.

Lemma finite_choice {A} (d : A) n (P : nat -> A -> Prop) : (forall p, (p < n)%nat -> exists x, P p x) ->
  exists l, length l = n /\ forall p, (p < n)%nat -> P p (nth p l d).
Proof.
  induction n as [|n IH]; intros H.
  - exists []. split; [reflexivity|]. intros. lia.
  - destruct IH as (l & L & Hl); [intros; apply H; lia|]. destruct (H n (Nat.lt_succ_diag_r n)) as (x & Hx).
    exists (l ++ [x]). rewrite app_length, L. split; [simpl; lia|]. intros p Hp.
    destruct (Nat.eq_dec p n) as [-> | Ne]; [rewrite app_nth2, L, Nat.sub_diag by lia; exact Hx|]. rewrite app_nth1 by lia. apply Hl. lia.
Qed.

Lemma restricted_exists ws keep row : exists row', restricted ws keep row row'.
Proof.
  destruct (finite_choice 0%Z (list_sum ws) (fun q x => forall u, (u < length ws)%nat -> In q (block ws u) ->
    (keep u -> x = nth q row 0%Z) /\ (~ keep u -> x = 0%Z))) as (l & L & H).
  - intros q Hq. destruct (proj1 (owns_exists ws q) Hq) as (u & Hu).
    assert (U : forall u', (u' < length ws)%nat -> In q (block ws u') -> u' = u).
    { intros u' Hu' I. unfold block in I. apply in_seq in I. apply (owns_unique ws u' u q); [|exact Hu]. split; lia. }
    destruct (classic (keep u)) as [K|K].
    + exists (nth q row 0%Z). intros u' Hu' I. rewrite (U u' Hu' I). tauto.
    + exists 0%Z. intros u' Hu' I. rewrite (U u' Hu' I). tauto.
  - exists l. split; [exact L|]. intros u q Hu Hq. apply H; auto. apply owns_exists. exists u. unfold block in Hq. apply in_seq in Hq. split; lia.
Qed.

Lemma predictive_good ws V M N m mst s row v : consistent ws V M N m -> mst_contract mst -> tree_server mst m = Ok s ->
  (v < V)%nat -> (1 <= nth v ws 0)%nat ->
  (forall q, 0 < predictive ws m row v q) /\ sumf (block ws v) (predictive ws m row v) = 1.
Proof.
  intros C MC E Hv Hw.
  destruct (build_server ws V M N m C mst MC) as (s' & edges & E' & SF & ST & SV & SE & SFe & _). rewrite E in E'. inversion E'; subst s'.
  assert (P : forall row, 0 < row_prob ws m row).
  { intros. eapply (row_prob_pos ws V M m edges s); eauto. apply (cm_M _ _ _ _ _ C). }
  assert (T : 0 < sumf (block ws v) (fun q => row_prob ws m (bump row q))).
  { apply sumf_pos; [intros; apply Rlt_le, P|]. exists (list_sum (firstn v ws)). split; [|apply P]. unfold block. apply in_seq. lia. }
  split.
  - intros q. apply Rdiv_lt_0_compat; [apply P|exact T].
  - unfold predictive. unfold Rdiv. rewrite sumf_scal_r. now apply Rinv_r, Rgt_not_eq.
Qed.

Lemma nth_map_seq {A} (f : nat -> A) i w d : (i < w)%nat -> nth i (map f (seq 0 w)) d = f i.
Proof. intros H. rewrite (nth_indep _ d (f 0%nat)) by (rewrite map_length, seq_length; auto). rewrite map_nth, seq_nth by auto. reflexivity. Qed.

Lemma slice_nth {A} (d : A) (row : list A) beg w : (beg + w <= length row)%nat ->
  slice row beg (beg + w) = map (fun i => nth (beg + i) row d) (seq 0 w).
Proof.
  intros H. unfold slice. replace (beg + w - beg)%nat with w by lia. revert row beg H. induction w as [|w IH]; intros row beg H; [reflexivity|].
  destruct (skipn beg row) as [|x l] eqn:D.
  - exfalso. assert (L := skipn_length beg row). rewrite D in L. simpl in L. lia.
  - cbn [firstn seq map]. f_equal.
    + rewrite Nat.add_0_r. replace row with (firstn beg row ++ x :: l) by (rewrite <- D; apply firstn_skipn).
      rewrite app_nth2; rewrite firstn_length_le by lia; [|lia]. now rewrite Nat.sub_diag.
    + assert (D2 : skipn (S beg) row = l).
      { clear - D. revert row D. induction beg as [|b IHb]; intros row D; [now rewrite skipn_O in D; subst|]. destruct row as [|y row]; [discriminate|]. cbn [skipn] in *. now apply IHb. }
      rewrite <- D2. rewrite IH by lia. rewrite <- seq_shift, map_map. apply map_ext. intros i. f_equal. lia.
Qed.

Definition good_cells ws (counts : list Z) (marg : list R) (x : list Z) (v : nat) : Prop :=
  (forall q, In q (block ws v) -> (0 <= nth q x 0)%Z) /\
  total (block ws v) (fun q => nth q x 0%Z) = nth v counts 0%Z /\
  forall z, total (block ws v) z = nth v counts 0%Z ->
    sumf (block ws v) (fun q => Rabs (IZR (nth q x 0%Z) - IZR (nth v counts 0%Z) * nth q marg 0)) <=
    sumf (block ws v) (fun q => Rabs (IZR (z q) - IZR (nth v counts 0%Z) * nth q marg 0)).

Lemma block_shift ws v : block ws v = map (fun i => list_sum (firstn v ws) + i)%nat (seq 0 (nth v ws 0%nat)).
Proof.
  unfold block. generalize (list_sum (firstn v ws)). intros o. generalize (nth v ws 0%nat). intros w.
  revert o. induction w as [|w IH]; intros o; [reflexivity|]. cbn [seq map]. f_equal; [lia|]. rewrite IH, <- seq_shift, map_map. apply map_ext. intros. lia.
Qed.

Lemma total_map {A} (h : A -> nat) l f : total (map h l) f = fold_right (fun n acc => f (h n) + acc)%Z 0%Z l.
Proof. unfold total. induction l; simpl; congruence. Qed.

Lemma zsum_seq (c : list Z) : zsum c = fold_right (fun n acc => nth n c 0 + acc)%Z 0%Z (seq 0 (length c)).
Proof.
  induction c as [|x c IH]; [reflexivity|]. cbn [zsum fold_right length seq]. fold (zsum c). rewrite IH. cbn [nth]. f_equal.
  rewrite <- seq_shift. generalize (seq 0 (length c)). intros l. induction l as [|k l IHl]; [reflexivity|]. cbn [map fold_right nth]. now rewrite IHl.
Qed.

Lemma put_block {A} (d : A) (res c : list A) b w p : (b + w <= length res)%nat -> length c = w ->
  length (firstn b res ++ c ++ skipn (b + w) res) = length res /\
  nth p (firstn b res ++ c ++ skipn (b + w) res) d = if (b <=? p)%nat && (p <? b + w)%nat then nth (p - b) c d else nth p res d.
Proof.
  intros H L. split.
  - rewrite !app_length, skipn_length, firstn_length_le by lia. lia.
  - destruct (Nat.leb_spec b p); cbn [andb].
    + rewrite app_nth2; rewrite firstn_length_le by lia; [|lia]. destruct (Nat.ltb_spec p (b + w)).
      * now rewrite app_nth1 by lia.
      * rewrite app_nth2 by lia. rewrite L. rewrite <- (firstn_skipn (b + w) res) at 2. rewrite app_nth2; rewrite firstn_length_le by lia; [|lia]. f_equal. lia.
    + rewrite app_nth1 by (rewrite firstn_length_le; lia). rewrite <- (firstn_skipn b res) at 2. rewrite app_nth1; [reflexivity|]. rewrite firstn_length_le; lia.
Qed.

Section Median.
Variables (ws : list nat) (counts : list Z) (marg : list R).
Hypothesis LM : length marg = list_sum ws.
Hypothesis LC : length counts = length ws.
Hypothesis CB : forall v, (v < length ws)%nat -> (0 <= nth v counts 0 <= 127)%Z.
Hypothesis NN : forall v q, (v < length ws)%nat -> In q (block ws v) -> 0 <= nth q marg 0.
Hypothesis ONE : forall v, (v < length ws)%nat -> sumf (block ws v) (fun q => nth q marg 0) = 1.

Let off v := list_sum (firstn v ws).

Lemma off_end v : (v < length ws)%nat -> (off v + nth v ws 0 <= list_sum ws)%nat.
Proof. intros H. unfold off. rewrite <- sum_firstn_S by auto. apply sum_firstn_all. Qed.

Lemma quantize_cell v : (v < length ws)%nat ->
  exists c, quantize_row (Z.to_nat (nth v counts 0%Z)) (slice marg (off v) (off v + nth v ws 0)%nat) = Ok c /\ length c = nth v ws 0%nat /\ forall x, (forall i, (i < nth v ws 0)%nat -> nth (off v + i)%nat x 0%Z = nth i c 0%Z) -> good_cells ws counts marg x v.
Proof.
  intros Hv. pose proof (off_end v Hv) as OE. set (w := nth v ws 0%nat) in *.
  rewrite (slice_nth 0) by (rewrite LM; exact OE). set (row := map _ _).
  assert (LR : length row = w) by (unfold row; rewrite map_length, seq_length; reflexivity).
  assert (RS : rsum row = 1).
  { unfold rsum, row. rewrite sumf_map. rewrite <- (ONE v Hv), block_shift, sumf_map. reflexivity. }
  assert (RN : forall i, (i < w)%nat -> nth i row 0 = nth (off v + i) marg 0).
  { intros i Hi. unfold row. now rewrite nth_map_seq by auto. }
  destruct (quantize_row_Ok (Z.to_nat (nth v counts 0%Z)) row) as (c & E & LCC & CN & CS & TG).
  { specialize (CB v Hv). lia. }
  { intros x I. unfold row in I. apply in_map_iff in I. destruct I as (i & <- & I). apply in_seq in I. apply (NN v); auto. rewrite block_shift. apply in_map_iff. exists i. split; auto. apply in_seq. lia. }
  { rewrite RS. lra. }
  exists c. split; [exact E|]. split; [now rewrite LCC|]. rewrite LR in *. intros x Hx.
  assert (CE : IZR (nth v counts 0%Z) = INR (Z.to_nat (nth v counts 0%Z))).
  { rewrite INR_IZR_INZ, Z2Nat.id; [reflexivity|apply CB; auto]. }
  destruct TG as (_ & OPT). rewrite RS in OPT.
  assert (DIST : forall (z : nat -> Z) (zl : list Z), (forall i, (i < w)%nat -> z (off v + i)%nat = nth i zl 0%Z) ->
    sumf (block ws v) (fun q => Rabs (IZR (z q) - IZR (nth v counts 0%Z) * nth q marg 0)) =
    sumf (seq 0 w) (fun i => Rabs (IZR (nth i zl 0%Z) - nth i row 0 * INR (Z.to_nat (nth v counts 0%Z)) / 1))).
  { intros z zl Hz. rewrite block_shift, sumf_map. apply sumf_ext. intros i I. apply in_seq in I. fold (off v). rewrite Hz, RN, CE by lia. f_equal. field. }
  split; [|split].
  - intros q I. rewrite block_shift in I. apply in_map_iff in I. destruct I as (i & <- & I). apply in_seq in I. fold (off v). rewrite Hx by lia. apply CN. apply nth_In. lia.
  - rewrite block_shift, total_map. fold (off v) w. replace (nth v counts 0%Z) with (zsum c) by (rewrite CS, Z2Nat.id; [reflexivity|apply CB; auto]).
    rewrite zsum_seq, LCC. assert (F : forall l, (forall i, In i l -> (i < w)%nat) ->
      fold_right (fun n acc => nth (off v + n) x 0 + acc)%Z 0%Z l = fold_right (fun n acc => nth n c 0 + acc)%Z 0%Z l).
    { induction l as [|k l IH]; intros Hl; [reflexivity|]. cbn [fold_right]. rewrite IH by (intros; apply Hl; now right). rewrite Hx by (apply Hl; now left). reflexivity. }
    apply F. intros i I. apply in_seq in I. lia.
  - intros z TZ. set (zl := map (fun i => z (off v + i)%nat) (seq 0 w)).
    assert (ZN : forall i, (i < w)%nat -> z (off v + i)%nat = nth i zl 0%Z).
    { intros i Hi. unfold zl. now rewrite nth_map_seq by auto. }
    rewrite (DIST (fun q => nth q x 0%Z) c Hx), (DIST z zl ZN). apply OPT.
    + unfold zl. now rewrite map_length, seq_length.
    + rewrite Z2Nat.id by (apply CB; auto). rewrite <- TZ, block_shift, total_map. fold (off v) w. unfold zl, zsum. generalize (seq 0 w). intros l. induction l; simpl; congruence.
Qed.

Lemma good_ext v x x' : (forall q, In q (block ws v) -> nth q x 0%Z = nth q x' 0%Z) -> good_cells ws counts marg x v -> good_cells ws counts marg x' v.
Proof.
  intros H (A & B & C). split; [|split].
  - intros q I. rewrite <- H by auto. auto.
  - rewrite <- B. apply total_ext. intros. symmetry. now apply H.
  - intros z Hz. eapply Rle_trans; [|apply C, Hz]. right. apply sumf_ext. intros. now rewrite H.
Qed.

Lemma quantize_blocks_good : exists x, quantize_blocks (make_ragged_index ws) counts marg (repeat 0%Z (list_sum ws)) = Ok x /\
  length x = list_sum ws /\ forall v, (v < length ws)%nat -> good_cells ws counts marg x v.
Proof.
  unfold quantize_blocks. replace (length (make_ragged_index ws) - 1)%nat with (length ws) by (rewrite mri_length; lia).
  assert (H : forall k x, (k <= length ws)%nat -> length x = list_sum ws ->
     (forall v, (v < length ws - k)%nat -> good_cells ws counts marg x v) ->
     exists x', foldM (fun res v =>
           beg <- get IndexError (make_ragged_index ws) v ;; fin <- get IndexError (make_ragged_index ws) (v + 1) ;;
           count <- get IndexError counts v ;;
           q <- quantize_row (Z.to_nat count) (slice marg beg fin) ;;
           Ok (firstn beg res ++ q ++ skipn fin res)%list)%res (seq (length ws - k) k) x = Ok x' /\
       length x' = list_sum ws /\ forall v, (v < length ws)%nat -> good_cells ws counts marg x' v).
  { induction k as [|k IH]; intros x Hk L G.
    - exists x. split; [reflexivity|]. split; [exact L|]. intros v Hv. apply G. lia.
    - set (v := (length ws - S k)%nat) in *. cbn [seq foldM].
      assert (Hv : (v < length ws)%nat) by (unfold v; lia).
      rewrite !mri_get by lia. cbn [bind]. rewrite (get_Ok _ IndexError counts v 0%Z) by lia. cbn [bind].
      rewrite Nat.add_1_r, sum_firstn_S by auto. fold (off v).
      destruct (quantize_cell v Hv) as (c & EC & LCC & GC). rewrite EC. cbn [bind].
      replace (S v) with (length ws - k)%nat by (unfold v; lia).
      pose proof (off_end v Hv) as OE.
      apply IH; [lia|rewrite (proj1 (put_block 0%Z x c (off v) (nth v ws 0%nat) 0%nat ltac:(lia) LCC)); exact L|].
      intros u Hu. destruct (Nat.eq_dec u v) as [-> | Ne].
      + apply GC. intros i Hi. rewrite (proj2 (put_block 0%Z x c (off v) (nth v ws 0%nat) (off v + i)%nat ltac:(lia) LCC)).
        destruct (Nat.leb_spec (off v) (off v + i)); [|lia]. destruct (Nat.ltb_spec (off v + i) (off v + nth v ws 0)%nat); [|lia]. cbn [andb]. f_equal. lia.
      + apply good_ext with x; [|apply G; lia]. intros q I.
        rewrite (proj2 (put_block 0%Z x c (off v) (nth v ws 0%nat) q ltac:(lia) LCC)).
        destruct (Nat.leb_spec (off v) q); [|reflexivity]. destruct (Nat.ltb_spec q (off v + nth v ws 0)%nat); [|reflexivity]. exfalso. apply Ne.
        unfold block in I. apply in_seq in I. apply (owns_unique ws u v q); split; auto; try lia. }
  destruct (H (length ws) (repeat 0%Z (list_sum ws))) as (x & E & L & G); [lia|apply repeat_length|intros; lia|].
  rewrite Nat.sub_diag in E. exists x. auto.
Qed.
End Median.

Lemma C31_proof : forall ws V M N m mst s junk counts data, consistent ws V M N m -> mst_contract mst -> tree_server mst m = Ok s ->
  (forall w, In w ws -> (1 <= w)%nat) -> length counts = V -> (forall v, (v < V)%nat -> (0 <= nth v counts 0 <= 127)%Z) ->
  (forall row, In row data -> length row = list_sum ws) ->
  exists margs out, marginals s junk data = Ok margs /\ median s junk counts data = Ok out /\ length out = length data /\
    forall n, (n < length data)%nat -> legal_row ws counts (nth n out []) /\
      forall v, (v < V)%nat -> forall z, total (block ws v) z = nth v counts 0%Z ->
        sumf (block ws v) (fun q => Rabs (IZR (nth q (nth n out []) 0%Z) - IZR (nth v counts 0%Z) * nth q (nth n margs []) 0)) <=
        sumf (block ws v) (fun q => Rabs (IZR (z q) - IZR (nth v counts 0%Z) * nth q (nth n margs []) 0)).
Proof.
  intros ws V M N m mst s junk counts data C MC E W1 LC CB RL.
  destruct (C30_data ws V M N m mst s junk data C MC E RL) as (root & ER & HR & margs & E1 & L1 & H1).
  pose proof (cm_width _ _ _ _ _ C) as LW.
  destruct (build_server ws V M N m C mst MC) as (s' & edges & E' & SF & _). rewrite E in E'. inversion E'; subst s'.
  assert (GM : forall n, (n < length data)%nat -> forall v, (v < length ws)%nat ->
    (forall q, In q (block ws v) -> 0 <= nth q (nth n margs []) 0) /\ sumf (block ws v) (fun q => nth q (nth n margs []) 0) = 1).
  { intros n Hn v Hv. rewrite LW in Hv. destruct (H1 n Hn) as (_ & HP).
    destruct (restricted_exists ws (fun u => in_line (ts_get_edges (d_tree m)) root u v) (nth n data [])) as (row' & RR).
    destruct (predictive_good ws V M N m mst s row' v C MC E Hv) as (P1 & P2); [apply W1, nth_In; lia|]. split.
    - intros q Hq. rewrite (HP v row' Hv RR q Hq). apply Rlt_le, P1.
    - rewrite <- P2. apply sumf_ext. intros q Hq. apply (HP v row' Hv RR q Hq). }
  assert (QM : exists out, mapM (fun mm => quantize_blocks (sv_ri s) counts mm (repeat 0%Z (sv_R s))) margs = Ok out /\ length out = length margs /\
     forall n, (n < length margs)%nat -> length (nth n out []) = list_sum ws /\ forall v, (v < length ws)%nat -> good_cells ws counts (nth n margs []) (nth n out []) v).
  { apply (mapM_nth _ margs (fun marg x => length x = list_sum ws /\ forall v, (v < length ws)%nat -> good_cells ws counts marg x v) [] []).
    intros marg I. apply (In_nth _ _ []) in I. destruct I as (n & Hn & <-). rewrite L1 in Hn.
    destruct (quantize_blocks_good ws counts (nth n margs [])) as (x & EX & LX & GX).
    - apply H1, Hn.
    - congruence.
    - intros v Hv. apply CB. lia.
    - intros v q Hv Hq. apply (proj1 (GM n Hn v Hv) q Hq).
    - intros v Hv. apply (proj2 (GM n Hn v Hv)).
    - exists x. rewrite (sf_ri _ _ _ _ _ SF), (sf_R _ _ _ _ _ SF). auto. }
  destruct QM as (out & EO & LO & GO). rewrite L1 in *.
  exists margs, out. split; [exact E1|]. split; [|split; [exact LO|]].
  - unfold median. replace (forallb _ data) with true. cbn [assert_ bind]. rewrite E1. cbn [bind]. exact EO.
    symmetry. apply forallb_forall. intros row I. rewrite (sf_R _ _ _ _ _ SF). apply Nat.eqb_eq. auto.
  - intros n Hn. destruct (GO n Hn) as (LX & GX). split.
    + split; [exact LX|]. split.
      * intros k I. apply (In_nth _ _ 0%Z) in I. destruct I as (q & Hq & <-). rewrite LX in Hq. destruct (proj1 (owns_exists ws q) Hq) as (v & O).
        apply (GX v); [apply O|]. unfold block. apply in_seq. destruct O. lia.
      * intros v Hv. apply (GX v Hv).
    + intros v Hv. apply GX. lia.
Qed.
