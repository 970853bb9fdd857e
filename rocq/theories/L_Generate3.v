(** Proofs of C60 and C61. *)
From Coq Require Import List Arith Lia Bool ZArith Reals Lra Permutation Sorted.
From Verif Require Import Base L_Base Spec_Graph L_Graph Spec_Sum L_Sum M_Structure L_Pairing L_MakeTree L_Program L_ProgramValid Spec_Program L_Center L_Prop1 M_Rand L_Rand M_Util Spec_Ragged L_Ragged M_Array M_SampleTree M_EstimateTree Spec_Trees Spec_MST L_Estimate L_AllTrees L_Quantize M_Training Spec_Stats L_Stats L_Trainer Spec_Joint Spec_Conditional L_Train M_Serving Spec_Serving L_Server Spec_Summary L_Summary L_Median M_Generate Spec_Generate L_Generate L_Generate2.
Import ListNotations.
Open Scope R_scope.

Section Recover.
Variables (V C : nat) (edges : list (nat * nat)) (mst : list (list R) -> list (nat * nat)) (m : smodel).
Hypothesis TREE : spanning_tree V edges.
Hypothesis HC : (2 <= C <= 128)%nat.
Hypothesis MC : mst_contract mst.
Hypothesis EM : clean_model (TS V (make_tree edges)) C = Ok m.
Notation T0 := (grid_edges (make_tree edges)).
Let HC1 : (1 <= C <= 128)%nat. Proof. lia. Qed.

Lemma agree_at u v d : (u < V)%nat -> (v < V)%nat -> dist T0 u v d ->
  agreement m u v = (2 / 3) ^ d + (1 - (2 / 3) ^ d) / INR C.
Proof.
  intros Hu Hv D. destruct (facts V C edges m TREE HC1 EM) as (CO & DT & _).
  unfold agreement. rewrite (proj1 (cm_M _ _ _ _ _ CO)).
  rewrite (sumf_ext _ _ (fun _ => / INR C * ((2 / 3) ^ d + (1 - (2 / 3) ^ d) / INR C))).
  - rewrite sumf_const, seq_length. assert (0 < INR C) by (apply lt_0_INR; lia). field. lra.
  - intros c Ic. apply in_seq in Ic. rewrite (decay V C edges mst m TREE HC1 MC EM u v c c d) by (auto; try lia; rewrite DT; exact D).
    unfold eye. rewrite Nat.eqb_refl. ring.
Qed.

Lemma pow_decr d d' : (d < d')%nat -> (2 / 3) ^ d' < (2 / 3) ^ d.
Proof.
  intros H. assert (P : forall n, 0 < (2 / 3) ^ n) by (intros; apply pow_lt; lra).
  induction H as [|d' H IH]; cbn [pow]; [specialize (P d)|specialize (P d')]; lra.
Qed.
Lemma agree_decr u v d u' v' d' : (u < V)%nat -> (v < V)%nat -> dist T0 u v d -> (u' < V)%nat -> (v' < V)%nat -> dist T0 u' v' d' ->
  (d < d')%nat -> agreement m u' v' < agreement m u v.
Proof.
  intros Hu Hv D Hu' Hv' D' L. rewrite (agree_at u v d), (agree_at u' v' d') by auto. pose proof (pow_decr d d' L) as P.
  assert (2 <= INR C) by (apply (le_INR 2); lia). set (p := (2 / 3) ^ d) in *. set (q := (2 / 3) ^ d') in *.
  assert (Q : / INR C < 1) by (rewrite <- Rinv_1; apply Rinv_lt_contravar; lra).
  assert (p + (1 - p) / INR C - (q + (1 - q) / INR C) = (p - q) * (1 - / INR C)) by (field; lra).
  assert (0 < (p - q) * (1 - / INR C)) by (apply Rmult_lt_0_compat; lra). lra.
Qed.

Lemma dist_adj u v : adj T0 u v -> u <> v -> dist T0 u v 1.
Proof.
  intros A N. split; [eapply walk_cons; [exact A|apply walk_nil]|]. intros n W. destruct n; [|lia]. inversion W; subst. now elim N.
Qed.
Lemma dist_one u v : dist T0 u v 1 -> adj T0 u v.
Proof. intros (W & _). inversion W as [|? w ? ? A W']; subst. inversion W'; subst. exact A. Qed.

Lemma recover : forall grid, make_complete_graph V = Ok grid ->
  estimate_tree mst grid (map (fun '(_, u, v) => agreement m u v) grid) = Ok (ts_get_edges (TS V (make_tree edges))).
Proof.
  intros grid G. assert (HV : (1 <= V)%nat) by (destruct TREE; lia).
  destruct (estimate_tree_Ok mst V grid (map (fun '(_, u, v) => agreement m u v) grid) MC HV G (map_length _ _)) as (T & ET & (ST & LT & SO) & MX).
  rewrite ET. f_equal. change (T = T0). rewrite make_complete_graph_Ok in G. injection G as <-.
  pose proof (make_tree_spanning V edges TREE) as S0. pose proof S0 as (L0 & R0 & C0). destruct ST as (L1 & R1 & C1).
  assert (LT0 : forall x y, In (x, y) T0 -> (x < y)%nat).
  { intros x y I. pose proof I as I'. apply in_map_iff in I. destruct I as ([[i a] b] & E & I). injection E as <- <-. apply In_nth_error in I. destruct I as (k & Hk).
    destruct (make_tree_canonical edges) as (_ & CN & _). destruct (CN _ _ _ _ Hk) as [_ LE].
    assert (a <> b); [|lia]. intros ->. destruct (R0 _ _ I') as (Hb & _). destruct (tree_rooted V T0 b S0 Hb) as (par & dep & RT).
    destruct (rt_edge _ _ _ _ _ RT _ _ I') as [(X & _)|(X & _)]; now apply X. }
  assert (W : forall x y, (x < y)%nat -> (y < V)%nat ->
     nth (find_complete_edge x y) (map (fun '(_, u, v) => agreement m u v) (complete_grid V)) 0 = agreement m x y).
  { intros x y L B. apply nth_error_nth. rewrite nth_error_map, complete_grid_fce by auto. reflexivity. }
  set (w1 := 2 / 3 + (1 - 2 / 3) / INR C).
  assert (TOP : forall x y, (x < y)%nat -> (y < V)%nat -> agreement m x y <= w1 /\ (agreement m x y = w1 -> adj T0 x y)).
  { intros x y L B. destruct (dist_exists T0 x y) as (d & D). { apply C0; lia. }
    assert (d <> 0)%nat. { intros ->. destruct D as (WK & _). inversion WK. lia. }
    pose proof (agree_at x y d ltac:(lia) B D) as A. unfold w1. replace (2 / 3) with ((2 / 3) ^ 1) by (cbn; lra).
    destruct (Nat.eq_dec d 1) as [->|N].
    - rewrite A. split; [lra|]. intros _. now apply dist_one.
    - pose proof (pow_decr 1 d ltac:(lia)) as P. assert (2 <= INR C) by (apply (le_INR 2); lia).
      assert (Q : / INR C < 1) by (rewrite <- Rinv_1; apply Rinv_lt_contravar; lra).
      set (p := (2 / 3) ^ 1) in *. set (q := (2 / 3) ^ d) in *.
      assert (p + (1 - p) / INR C - (q + (1 - q) / INR C) = (p - q) * (1 - / INR C)) by (field; lra).
      assert (0 < (p - q) * (1 - / INR C)) by (apply Rmult_lt_0_compat; lra). split; lra. }
  specialize (MX T0 S0). unfold tree_logit in MX.
  rewrite (sumf_ext T0 _ (fun _ => w1)) in MX.
  2:{ intros [x y] I. pose proof (LT0 _ _ I) as L. destruct (R0 _ _ I) as (Hx & Hy). rewrite W by auto.
      rewrite (agree_at x y 1) by (auto; (apply dist_adj; [now left|lia])). unfold w1. cbn [pow]. now rewrite Rmult_1_r. }
  assert (ALL : forall l, incl l T -> INR (length l) * w1 <= sumf l (fun '(x, y) => nth (find_complete_edge x y) (map (fun '(_, u, v) => agreement m u v) (complete_grid V)) 0) ->
     sumf l (fun '(x, y) => nth (find_complete_edge x y) (map (fun '(_, u, v) => agreement m u v) (complete_grid V)) 0) <= INR (length l) * w1 /\
     forall x y, In (x, y) l -> agreement m x y = w1).
  { assert (UP : forall l, incl l T -> sumf l (fun '(x, y) => nth (find_complete_edge x y) (map (fun '(_, u, v) => agreement m u v) (complete_grid V)) 0) <= INR (length l) * w1).
    { induction l as [|[x y] l IH]; intros I. { change (0 <= 0 * w1). lra. }
      rewrite sumf_cons. cbn [length]. rewrite S_INR. pose proof (I _ (or_introl eq_refl)) as J. rewrite W by (try apply R1 with x; auto).
      pose proof (proj1 (TOP x y (LT _ _ J) (proj2 (R1 _ _ J)))). specialize (IH (fun z Z => I z (or_intror Z))). lra. }
    induction l as [|[x y] l IH]; intros I LE. { split; [apply UP; auto|]. intros ? ? []. }
    split; [now apply UP|]. rewrite sumf_cons in LE. cbn [length] in LE. rewrite S_INR in LE.
    pose proof (I _ (or_introl eq_refl)) as J. rewrite W in LE by (try apply R1 with x; auto).
    pose proof (proj1 (TOP x y (LT _ _ J) (proj2 (R1 _ _ J)))). pose proof (UP l (fun z Z => I z (or_intror Z))).
    intros a b [E|Q].
    - injection E as <- <-. lra.
    - apply (IH (fun z Z => I z (or_intror Z))); [lra|auto]. }
  rewrite sumf_const in MX. replace (length T0) with (length T) in MX by lia.
  destruct (ALL T (incl_refl _) MX) as (_ & EQ).
  assert (IN : incl T T0).
  { intros [x y] I. pose proof (LT _ _ I). destruct (R1 _ _ I). destruct (proj2 (TOP x y ltac:(auto) ltac:(auto)) (EQ x y I)) as [J|J]; auto.
    apply LT0 in J. lia. }
  assert (NDn : forall T, spanning_tree V T -> NoDup T).
  { intros T2 S2. destruct (Nat.eq_dec V 0); [lia|]. destruct (tree_rooted V T2 0 S2 ltac:(lia)) as (par & dep & RT). apply (NoDup_map_inv norm). apply RT. }
  apply sorted_perm_unique; auto.
  - apply make_tree_canonical.
  - apply NoDup_Permutation_bis; auto; [apply NDn; split; auto|lia].
Qed.
End Recover.

(** ** C60 *)
Open Scope nat_scope.
Lemma int8_idem z : int8 (int8 z) = int8 z.
Proof. apply int8_id. unfold int8. pose proof (Z.mod_pos_bound (z + 128) 256 ltac:(lia)). lia. Qed.

Section Dataset.
Variables (draw : nat -> nat -> list Z) (N V C : nat).
Hypothesis HC : 1 <= C.
Hypothesis DR : forall v n, v < V -> n < N -> length (draw v n) = C.
Notation ws := (repeat C V).

Definition dinv (done : nat -> nat -> bool) (data : list (list Z)) : Prop :=
  length data = N /\ (forall n, n < N -> length (nth n data []) = V * C) /\
  forall n v c, n < N -> v < V -> c < C -> nth (v * C + c) (nth n data []) 0%Z = if done v n then int8 (nth c (draw v n) 0%Z) else 0%Z.

Lemma dinv_ext d1 d2 data : (forall v n, v < V -> n < N -> d1 v n = d2 v n) -> dinv d1 data -> dinv d2 data.
Proof. intros H (A & B & D). repeat split; auto. intros. rewrite D by auto. now rewrite H. Qed.

Lemma dataset_Ok : exists tb, generate_dataset draw N V C = Ok tb /\ table_ok ws tb /\ num_rows tb = N /\ num_cols tb = V /\
  forall n v, n < N -> v < V -> cell C tb n v = map int8 (draw v n).
Proof.
  unfold generate_dataset. rewrite arange_Ok by auto. cbn [bind].
  set (body := fun (data : list (list Z)) v => beg <- get IndexError (make_ragged_index ws) v ;; fin <- get IndexError (make_ragged_index ws) (v + 1) ;;
             foldM (fun data n =>
               row <- get IndexError data n ;;
               let x := map int8 (draw v n) in
               if length x =? fin - beg then put IndexError data n (firstn beg row ++ x ++ skipn fin row)
               else Raise ValueError) (seq 0 N) data).
  assert (OUT : forall k, k <= V -> exists data, foldM body (seq 0 k) (repeat (repeat 0%Z (V * C)) N) = Ok data /\ dinv (fun v _ => v <? k) data).
  { induction k as [|k IH]; intros Hk.
    { eexists. split; [reflexivity|]. split; [apply repeat_length|]. split.
      - intros n Hn. rewrite L_Serve2.nth_rep by auto. apply repeat_length.
      - intros n v c Hn Hv Hc. rewrite L_Serve2.nth_rep by auto. now rewrite nth_repeat. }
    destruct IH as (data & ED & ID); [lia|]. rewrite seq_S, foldM_app, ED. cbn [bind foldM Nat.add].
    unfold body at 1. rewrite !mri_get by (rewrite repeat_length; lia). cbn [bind]. rewrite !firstn_repeat by lia.
    replace ((k + 1) * C - k * C) with C by nia. replace ((k + 1) * C) with (k * C + C) by nia.
    assert (INN : forall j, j <= N -> exists data', foldM (fun data n =>
               row <- get IndexError data n ;;
               let x := map int8 (draw k n) in
               if length x =? C then put IndexError data n (firstn (k * C) row ++ x ++ skipn (k * C + C) row)
               else Raise ValueError) (seq 0 j) data = Ok data' /\ dinv (fun v n => (v <? k) || ((v =? k) && (n <? j))) data').
    { induction j as [|j IHj]; intros Hj.
      { eexists. split; [reflexivity|]. eapply dinv_ext; [|exact ID]. intros v n _ _. cbn beta. change (n <? 0) with false. now rewrite andb_false_r, orb_false_r. }
      destruct IHj as (d1 & E1 & L1 & R1 & D1); [lia|]. rewrite seq_S, foldM_app, E1. cbn [bind foldM Nat.add].
      rewrite (get_Ok _ _ d1 j []) by lia. cbn [bind]. rewrite map_length, DR, Nat.eqb_refl by lia. rewrite put_Ok by lia. cbn [bind].
      eexists. split; [reflexivity|].
      assert (PB := fun p => put_block 0%Z (nth j d1 []) (map int8 (draw k j)) (k * C) C p ltac:(rewrite R1 by lia; nia) ltac:(rewrite map_length; apply DR; lia)).
      split; [now rewrite upd_length|]. split.
      - intros n Hn. rewrite nth_upd by lia. destruct (Nat.eq_dec j n) as [->|NE].
        + rewrite (proj1 (PB 0)). now apply R1.
        + now apply R1.
      - intros n v c Hn Hv Hc. rewrite nth_upd by lia. destruct (Nat.eq_dec j n) as [->|NE].
        + rewrite (proj2 (PB _)). destruct (Nat.eq_dec v k) as [->|NK].
          * rewrite (proj2 (Nat.leb_le _ _)), (proj2 (Nat.ltb_lt (k * C + c) _)) by lia. cbn [andb].
            rewrite Nat.eqb_refl, (proj2 (Nat.ltb_lt n (S n))) by lia. rewrite orb_true_r. replace (k * C + c - k * C) with c by lia.
            change 0%Z with (int8 0) at 1. apply map_nth.
          * rewrite (proj2 (Nat.eqb_neq v k)) by auto. cbn [andb]. rewrite orb_false_r.
            assert (NB : (k * C <=? v * C + c) && (v * C + c <? k * C + C) = false).
            { apply not_true_iff_false. rewrite andb_true_iff, Nat.leb_le, Nat.ltb_lt. intros (Q1 & Q2). apply NK. nia. }
            rewrite NB, D1 by auto. rewrite (proj2 (Nat.eqb_neq v k)) by auto. cbn [andb]. now rewrite orb_false_r.
        + rewrite D1 by auto.
          assert (Q : (n <? S j) = (n <? j)) by (destruct (Nat.ltb_spec n (S j)), (Nat.ltb_spec n j); lia || reflexivity). now rewrite Q. }
    destruct (INN N ltac:(lia)) as (d2 & E2 & I2). cbv zeta in E2. rewrite E2. cbn [bind]. eexists. split; [reflexivity|]. eapply dinv_ext; [|exact I2].
    intros v n Hv Hn. cbn beta. rewrite (proj2 (Nat.ltb_lt n N)) by auto. rewrite andb_true_r.
    destruct (Nat.ltb_spec v k), (Nat.eqb_spec v k), (Nat.ltb_spec v (S k)); lia || reflexivity. }
  destruct (OUT V ltac:(lia)) as (data & ED & L & R & D). rewrite ED. cbn [bind].
  assert (TE : make_table (repeat TY_MULTINOMIAL V) (make_ragged_index ws) (V * C) data =
               Ok (Tab (repeat TY_MULTINOMIAL V) (make_ragged_index ws) (map (map int8) data))).
  { unfold make_table. rewrite mri_length, !repeat_length, Nat.eqb_refl. cbn [assert_ bind]. rewrite mri_last, sum_repeat. cbn [bind]. now rewrite Nat.eqb_refl. }
  rewrite TE. eexists. split; [reflexivity|]. split; [|split; [|split]].
  - constructor; cbn.
    + apply Forall_forall. intros x I. now apply repeat_spec in I.
    + unfold num_cols. cbn. now rewrite !repeat_length.
    + reflexivity.
    + apply Forall_forall. intros row I. apply in_map_iff in I. destruct I as (row' & <- & I). rewrite map_length, sum_repeat.
      apply In_nth with (d := []) in I. destruct I as (n & Hn & <-). apply R. lia.
  - unfold num_rows. cbn. now rewrite map_length.
  - unfold num_cols. cbn. apply repeat_length.
  - intros n v Hn Hv. unfold cell, datum. cbn [tb_rows].
    apply nth_ext with (d := 0%Z) (d' := 0%Z). { now rewrite !map_length, seq_length, DR. }
    intros c Hc. rewrite map_length, seq_length in Hc.
    rewrite (nth_indep _ 0%Z (nth (v * C + 0) (nth n (map (map int8) data) []) 0%Z)) by (rewrite map_length, seq_length; auto).
    rewrite (map_nth (fun k => nth (v * C + k) (nth n (map (map int8) data) []) 0%Z)), seq_nth by auto. cbn [Nat.add].
    change (@nil Z) with (map int8 []). rewrite (map_nth (map int8)). change 0%Z with (int8 0). rewrite (map_nth int8).
    rewrite (map_nth int8). change (int8 0) with 0%Z. rewrite D by auto. rewrite (proj2 (Nat.ltb_lt v V)) by auto. apply int8_idem.
Qed.
End Dataset.

Lemma C60_proof : forall draw N V C, 1 <= C -> (forall v n, v < V -> n < N -> length (draw v n) = C) ->
  exists tb, generate_dataset draw N V C = Ok tb /\ table_ok (repeat C V) tb /\ num_rows tb = N /\ num_cols tb = V /\
  forall n v, n < N -> v < V -> cell C tb n v = map int8 (draw v n) /\
    ((forall x, In x (draw v n) -> (0 <= x <= 127)%Z) -> cell C tb n v = draw v n).
Proof.
  intros draw N V C HC DR. destruct (dataset_Ok draw N V C HC DR) as (tb & E & TK & A & B & D). exists tb. repeat (split; [assumption|]).
  intros n v Hn Hv. split; [now apply D|]. intros B8. rewrite D by auto. rewrite <- (map_id (draw v n)) at 2. apply map_ext_in. intros x I. apply int8_id. specialize (B8 x I). lia.
Qed.
Lemma C60_no_cats : forall draw N V, generate_dataset draw N V 0 = Raise ZeroDivisionError.
Proof. reflexivity. Qed.

Lemma fake_ensemble : forall draw seeds N V C M, 1 <= V -> 1 <= C -> 1 <= M <= 128 ->
  (forall v n, v < V -> n < N -> length (draw v n) = C /\ forall x, In x (draw v n) -> (0 <= x <= 127)%Z) ->
  (forall tree_logits asg logits, In (tree_logits, asg, logits) seeds ->
     length tree_logits = V * (V - 1) / 2 /\ length logits = V * (V - 1) / 2 /\ forall n v, n < N -> v < V -> asg n v < M) ->
  always (fun ensemble => length ensemble = length seeds /\ forall m, In m ensemble -> consistent (repeat C V) V M N m)
    (generate_fake_ensemble draw seeds N V C M).
Proof.
  intros draw seeds N V C M HV HC HM DR HS. unfold generate_fake_ensemble.
  destruct (dataset_Ok draw N V C HC (fun v n Hv Hn => proj1 (DR v n Hv Hn))) as (tb & -> & TK & EN & EV & CL). apply always_lift_Ok.
  assert (ND : nonneg_data tb).
  { intros n r. destruct (Nat.lt_ge_cases n N) as [Hn|Hn].
    2:{ unfold datum. rewrite (nth_overflow (tb_rows tb)) by (fold (num_rows tb); lia). destruct r; cbn; lia. }
    destruct (Nat.lt_ge_cases r (V * C)) as [Hr|Hr].
    2:{ unfold datum. rewrite nth_overflow; [lia|]. pose proof (tk_rows _ _ TK) as F. rewrite Forall_forall in F. rewrite F, sum_repeat; [lia|]. apply nth_In. fold (num_rows tb). lia. }
    pose proof (Nat.div_mod r C ltac:(lia)) as DM. pose proof (Nat.mod_upper_bound r C ltac:(lia)) as MB.
    assert (HQ : r / C < V) by (apply Nat.div_lt_upper_bound; lia).
    pose proof (CL n (r / C) Hn HQ) as E. destruct (DR (r / C) n HQ Hn) as (LD & BD).
    assert (E2 : datum tb n r = nth (r mod C) (cell C tb n (r / C)) 0%Z).
    { unfold cell. rewrite (nth_indep _ 0%Z (datum tb n (r / C * C + 0))) by (rewrite map_length, seq_length; auto).
      rewrite (map_nth (fun k => datum tb n (r / C * C + k))), seq_nth by auto. f_equal. cbn [Nat.add]. lia. }
    rewrite E2, E. change 0%Z with (int8 0) at 2. rewrite map_nth. rewrite int8_id.
    - apply BD. apply nth_In. lia.
    - pose proof (BD (nth (r mod C) (draw (r / C) n) 0%Z) ltac:(apply nth_In; lia)). lia. }
  assert (G : forall seeds acc, (forall tree_logits asg logits, In (tree_logits, asg, logits) seeds ->
     length tree_logits = V * (V - 1) / 2 /\ length logits = V * (V - 1) / 2 /\ forall n v, n < N -> v < V -> asg n v < M) ->
     (forall m, In m acc -> consistent (repeat C V) V M N m) ->
     always (fun ensemble => length ensemble = length acc + length seeds /\ forall m, In m ensemble -> consistent (repeat C V) V M N m)
       (rfold (fun ensemble '(tree_logits, asg, logits) =>
            model <~ generate_fake_model tree_logits asg tb N V C M logits ;;
            Ret (ensemble ++ [model])) seeds acc)%rp).
  { clear seeds HS. induction seeds as [|[[tl asg] lg] seeds IH]; intros acc HS HA; cbn [rfold].
    - cbn [always length]. split; [lia|auto].
    - destruct (HS tl asg lg (or_introl eq_refl)) as (L1 & L2 & AS).
      apply always_bind. apply always_bind.
      pose proof (C58_proof (repeat C V) tb asg M C tl lg TK ND) as P. rewrite EN, EV in P. 
      eapply always_mono; [|apply P; auto; now rewrite sum_repeat]. intros m (CO & _). cbn [always].
      eapply always_mono; [|apply (IH (acc ++ [m])); [intros; apply HS; now right|]].
      + intros e (LE & CE). rewrite app_length in LE. cbn [length] in *. split; [lia|auto].
      + intros m' I. apply in_app_iff in I. destruct I as [I|[<-|[]]]; auto. }
  eapply always_mono; [|apply (G seeds [] HS)]; [|intros ? []]. intros e H. exact H.
Qed.

Lemma eye_R i j : IZR (eye i j) = (if i =? j then 1 else 0)%R.
Proof. unfold eye. now destruct (i =? j). Qed.
Lemma reliable : forall V C es m v k c, spanning_tree V es -> 1 <= C <= 128 ->
  clean_model (TS V (make_tree es)) C = Ok m -> v < V -> k < C -> c < C ->
  feat_prob (repeat C V) m v (v * C + k) c = ((200 * (if k =? c then 1 else 0) + / INR C) / 201)%R.
Proof. intros. rewrite <- eye_R. eapply clean_feat; eauto. Qed.
Lemma decay_stmt : forall V C es mst m u v a b d, spanning_tree V es -> 1 <= C <= 128 -> mst_contract mst ->
  clean_model (TS V (make_tree es)) C = Ok m ->
  u < V -> v < V -> a < C -> b < C -> dist (ts_get_edges (d_tree m)) u v d ->
  pair_prob m u v a b = (/ INR C * ((2 / 3) ^ d * (if a =? b then 1 else 0) + (1 - (2 / 3) ^ d) / INR C))%R.
Proof. intros. rewrite <- eye_R. eapply decay; eauto. Qed.
Lemma nearer : forall V C es mst m u v d u' v' d', spanning_tree V es -> 2 <= C <= 128 -> mst_contract mst ->
  clean_model (TS V (make_tree es)) C = Ok m ->
  u < V -> v < V -> dist (ts_get_edges (d_tree m)) u v d -> u' < V -> v' < V -> dist (ts_get_edges (d_tree m)) u' v' d' -> d < d' ->
  (agreement m u' v' < agreement m u v)%R.
Proof.
  intros V C es mst m u v d u' v' d' T HC MC E Hu Hv D Hu' Hv' D' L. destruct (facts V C es m T ltac:(lia) E) as (_ & DT & _). rewrite DT in D, D'.
  exact (agree_decr V C es mst m T HC MC E u v d u' v' d' Hu Hv D Hu' Hv' D' L).
Qed.
