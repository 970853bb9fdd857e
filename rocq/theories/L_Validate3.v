From Coq Require Import String.
From Coq Require Import List Arith ZArith Permutation Bool Lia Reals Lra.
From Verif Require Import Base Spec_Sum Spec_Ragged Spec_MST Spec_Conditional Spec_Stats Spec_Serving M_Structure M_Util M_Config M_Strings M_Serving M_Validate Spec_Validate.
From Verif Require Import L_Base L_Ragged L_Config L_Sum L_Stats L_Serve1 L_Median L_Quantize L_Validate.
Import ListNotations.
Open Scope list_scope.
Open Scope nat_scope.

Lemma zsum_seq : forall A (f : A -> Z) l d, IZR (zsum (map f l)) = sumf (seq 0 (length l)) (fun i => IZR (f (nth i l d))).
Proof.
  intros A f l d. induction l as [|a l IH]; [reflexivity|]. cbn [map length]. change (zsum (f a :: map f l)) with (f a + zsum (map f l))%Z.
  rewrite plus_IZR, IH. cbn [seq]. rewrite <- seq_shift. unfold sumf. cbn [fold_right nth]. f_equal.
  generalize (seq 0 (length l)). induction l0 as [|j t IHt]; cbn; auto. now rewrite IHt.
Qed.

Lemma abs_diff : forall N Rr a b, shaped N Rr a -> shaped N Rr b ->
  (forall n p, n < N -> p < Rr -> (0 <= entry a n p <= 127)%Z /\ (0 <= entry b n p <= 127)%Z) ->
  IZR (abs_diff_sum a b) = sumf (seq 0 N) (fun n => sumf (seq 0 Rr) (fun p => Rabs (IZR (entry a n p) - IZR (entry b n p)))).
Proof.
  intros N Rr a b [A1 A2] [B1 B2] RG. unfold abs_diff_sum. rewrite (zsum_seq _ _ (combine a b) ([], [])).
  rewrite combine_length, A1, B1, Nat.min_id. apply sumf_ext. intros n Hn. apply in_seq in Hn.
  rewrite combine_nth by congruence.
  assert (LA : length (nth n a []) = Rr) by (apply A2, nth_In; lia). assert (LB : length (nth n b []) = Rr) by (apply B2, nth_In; lia).
  rewrite (zsum_seq _ _ (combine (nth n a []) (nth n b [])) (0%Z, 0%Z)). rewrite combine_length, LA, LB, Nat.min_id.
  apply sumf_ext. intros p Hp. apply in_seq in Hp. rewrite combine_nth by congruence. fold (entry a n p). fold (entry b n p).
  destruct (RG n p) as [R1 R2]; [lia|lia|]. rewrite <- minus_IZR, Rabs_Zabs. f_equal.
  assert (I8 : forall z, (-128 <= z <= 127)%Z -> int8 z = z). { intros z Hz. apply L_Quantize.int8_id. lia. }
  rewrite (I8 (entry a n p - entry b n p)%Z) by lia. apply I8. lia.
Qed.

Lemma mask_count : forall N Rr m, shaped N Rr m ->
  IZR (mask_sum m) = sumf (seq 0 N) (fun n => sumf (seq 0 Rr) (fun p => if (match nth p (nth n m []) None with Some true => true | _ => false end) then 1%R else 0%R)).
Proof.
  intros N Rr m [A B]. unfold mask_sum. rewrite (zsum_seq _ _ m []), A. apply sumf_ext. intros n Hn. apply in_seq in Hn.
  rewrite (zsum_seq _ _ (nth n m []) None). rewrite (B (nth n m [])) by (apply nth_In; lia). apply sumf_ext. intros p _.
  destruct (nth p (nth n m []) None) as [[]|]; reflexivity.
Qed.

Lemma mask_and_Ok : forall N Rr a b, shaped N Rr a -> shaped N Rr b -> shaped N Rr (mask_and a b) /\
  forall n p, n < N -> p < Rr -> nth p (nth n (mask_and a b) []) None = and_cell (nth p (nth n a []) None) (nth p (nth n b []) None).
Proof.
  intros N Rr a b [A1 A2] [B1 B2]. unfold mask_and. split.
  - split. rewrite map_length, combine_length; lia. intros row H. apply in_map_iff in H as ([r s] & <- & H).
    rewrite map_length, combine_length, (A2 r), (B2 s). lia. apply in_combine_r in H; auto. apply in_combine_l in H; auto.
  - intros n p Hn Hp. rewrite (nth_map_combine _ _ _ _ a b n [] [] []) by lia.
    assert (LA : length (nth n a []) = Rr) by (apply A2, nth_In; lia). assert (LB : length (nth n b []) = Rr) by (apply B2, nth_In; lia).
    rewrite (nth_map_combine _ _ _ _ (nth n a []) (nth n b []) p None None None) by lia. reflexivity.
Qed.

Lemma rmean_seq : forall (f : nat -> R) l N, length l = N -> (forall n, n < N -> nth n l 0%R = f n) -> rmean l = mean_over N f.
Proof.
  intros f l N L H. unfold rmean, mean_over. rewrite L. f_equal. revert f N L H. induction l as [|a l IH]; intros f N L H; subst N; [reflexivity|].
  cbn [length seq fold_right]. rewrite sumf_cons, <- (H 0) by (cbn; lia). cbn. f_equal. rewrite (IH (fun n => f (S n)) (length l)); auto.
  - rewrite <- seq_shift, sumf_map. reflexivity.
  - intros n Hn. rewrite <- (H (S n)) by (cbn; lia). reflexivity.
Qed.

Lemma entry_le_block : forall ws row v p, (forall x, In x row -> (0 <= x)%Z) -> length row = list_sum ws -> owns ws v p ->
  (0 <= nth p row 0 <= block_sum ws row v)%Z.
Proof.
  intros ws row v p NN L [LV [A B]]. unfold block_sum.
  assert (G : forall i, i < list_sum ws -> (0 <= nth i row 0)%Z) by (intros i Hi; apply NN, nth_In; lia).
  assert (AL : list_sum (firstn v ws) + nth v ws 0 <= list_sum ws).
  { rewrite <- sum_firstn_S by auto. apply sum_firstn_all. }
  split. apply G; lia.
  set (beg := list_sum (firstn v ws)) in *. replace p with (beg + (p - beg)) by lia.
  assert (Q : forall k j, j < k -> k <= nth v ws 0 -> (nth (beg + j) row 0 <= fold_right Z.add 0 (map (fun i => nth (beg + i) row 0) (seq 0 k)))%Z).
  { assert (S : forall k, k <= nth v ws 0 -> (0 <= fold_right Z.add 0 (map (fun i => nth (beg + i) row 0) (seq 0 k)))%Z).
    { induction k; intros Hk. cbn; lia. rewrite seq_S, map_app, fold_right_app. cbn.
      assert (F : forall l z, fold_right Z.add z l = (fold_right Z.add 0 l + z)%Z) by (induction l; intros; cbn; [lia|rewrite IHl; lia]).
      rewrite F. pose proof (G (beg + k) ltac:(lia)). lia. }
    induction k; intros j Hj Hk. lia. rewrite seq_S, map_app, fold_right_app. cbn.
    assert (F : forall l z, fold_right Z.add z l = (fold_right Z.add 0 l + z)%Z) by (induction l; intros; cbn; [lia|rewrite IHl; lia]).
    rewrite F. destruct (Nat.eq_dec j k) as [->|]. pose proof (S k ltac:(lia)). lia.
    pose proof (IHk j ltac:(lia) ltac:(lia)). pose proof (G (beg + k) ltac:(lia)). lia. }
  apply Q; lia.
Qed.

Lemma block_sum_nonneg : forall ws row v, (forall x, In x row -> (0 <= x)%Z) -> length row = list_sum ws -> v < length ws -> 1 <= nth v ws 0 -> (0 <= block_sum ws row v)%Z.
Proof.
  intros ws row v NN L LV W. pose proof (entry_le_block ws row v (list_sum (firstn v ws)) NN L ltac:(split; lia)). lia.
Qed.

Lemma block_sum_block : forall ws row v, block_sum ws row v = total (block ws v) (fun q => nth q row 0%Z).
Proof.
  intros ws row v. unfold block_sum, block. generalize (list_sum (firstn v ws)). intros b. generalize (nth v ws 0). intros k.
  replace (seq b k) with (map (fun i => b + i) (seq 0 k)).
  - induction (seq 0 k); cbn; auto. unfold total in *. cbn. now rewrite IHl.
  - clear. revert b. induction k; intros b; cbn; auto. rewrite Nat.add_0_r. f_equal. rewrite <- seq_shift, map_map. rewrite <- (IHk (S b)).
    apply map_ext. intros; lia.
Qed.

Section Scores.
Variables (ws : list nat) (V M N0 : nat) (m : smodel) (mst : list (list R) -> list (nat * nat)) (s : server).
Hypothesis C : consistent ws V M N0 m.
Hypothesis MC : mst_contract mst.
Hypothesis ES : tree_server mst m = Ok s.
Hypothesis WP : forall w, In w ws -> (1 <= w)%nat.

Lemma C56_proof : forall randint junk N data c parts part, rng_contract randint ->
  (0 < N)%nat -> shaped N (list_sum ws) data -> (forall row x, In row data -> In x row -> (0 <= x)%Z) ->
  (forall row v, In row data -> v < V -> (block_sum ws row v <= 127)%Z) ->
  setting c "model_ensemble_size" = Some parts -> setting c "seed" = Some part -> (0 <= part < parts)%Z ->
  exists mk training validation mx med compare,
    eval_split randint (make_ragged_index ws) data c = Ok (mk, training, validation) /\
    guess_counts (make_ragged_index ws) (list_sum ws) data = Ok mx /\
    median s junk mx training = Ok med /\
    (forall n p, n < N -> p < list_sum ws -> (compare n p = true <-> compared ws data mk mx n p)) /\
    eval_scores randint junk s (make_ragged_index ws) data c =
    Ok (mean_over N (fun n => ln (row_prob ws m (nth n data []) / row_prob ws m (nth n training []))),
        (1 / 2 * sumf (seq 0 N) (fun n => sumf (seq 0 (list_sum ws)) (fun p =>
            if compare n p then Rabs (IZR (entry med n p) - IZR (entry data n p)) else 0)) /
         (sumf (seq 0 N) (fun n => sumf (seq 0 (list_sum ws)) (fun p => if compare n p then 1 else 0)) + 1 / 10)))%R.
Proof.
  intros randint junk N data c parts part RC NP SD NN BB E1 E2 HP.
  assert (EW : length ws = V) by apply C.
  destruct (eval_split_Ok randint ws N data c parts part RC SD E1 E2 HP) as (mk & tr & va & EM & EE & SM & ST & SV & PE).
  destruct (split_held randint ws N parts RC part mk EM) as (_ & _ & MV).
  destruct data as [|r0 data']. { destruct SD as [SD _]. cbn in SD. lia. }
  set (data := r0 :: data') in *.
  destruct (guess_counts_Ok ws r0 data') as (mx & EG & LM & PM). { apply SD. }
  { intros row v Hr Hv. split. 2:{ pose proof (BB row v Hr ltac:(lia)). lia. }
    pose proof (block_sum_nonneg ws row v (fun x => NN row x Hr) (proj2 SD row Hr) Hv (WP _ (nth_In _ _ Hv))). lia. }
  fold data in EG, PM.
  assert (MB : forall v, v < V -> (0 <= nth v mx 0 <= 127)%Z).
  { intros v Hv. destruct (PM v ltac:(lia)) as [_ (row & Hr & ->)]. split; [|now apply BB].
    apply block_sum_nonneg; eauto. apply SD; auto. lia. apply WP, nth_In; lia. }
  destruct (C31_proof ws V M N0 m mst s junk mx tr C MC ES WP ltac:(lia) MB (proj2 ST)) as (margs & med & EMg & EMed & LMed & PMed).
  assert (SMed : shaped N (list_sum ws) med).
  { split. rewrite LMed. apply ST. intros row Hr. apply (In_nth _ _ []) in Hr as (n & Hn & <-). apply PMed. lia. }
  (* observed *)
  set (obs := map (fun row => map (fun '(cc, mxc) => Z.eqb cc mxc) (combine row mx)) (map (fun row => map (fun v => int8 (block_sum ws row v)) (seq 0 (length ws))) data)).
  assert (SO : shaped N (length ws) obs).
  { unfold obs. split. rewrite !map_length. apply SD. intros row Hr. apply in_map_iff in Hr as (r1 & <- & Hr). apply in_map_iff in Hr as (r2 & <- & Hr).
    rewrite map_length, combine_length, map_length, seq_length. lia. }
  destruct (ragged_T_Ok ws N obs SO) as (om & EO & SOm & PO).
  assert (PO' : forall n v p, n < N -> owns ws v p -> nth p (nth n om []) None = Some (Z.eqb (block_sum ws (nth n data []) v) (nth v mx 0%Z))).
  { intros n v p Hn OW. rewrite (PO n v p Hn OW). f_equal. assert (LV : v < length ws) by apply OW. unfold obs. rewrite map_map.
    rewrite (nth_indep _ [] ((fun x => map (fun '(cc, mxc) => Z.eqb cc mxc) (combine (map (fun v0 => int8 (block_sum ws x v0)) (seq 0 (length ws))) mx)) [])) by (rewrite map_length, (proj1 SD); auto).
    rewrite (map_nth (fun x => map (fun '(cc, mxc) => Z.eqb cc mxc) (combine (map (fun v0 => int8 (block_sum ws x v0)) (seq 0 (length ws))) mx))).
    rewrite (nth_map_combine _ _ _ _ (map (fun v0 => int8 (block_sum ws (nth n data []) v0)) (seq 0 (length ws))) mx v 0%Z 0%Z false) by (rewrite map_length, seq_length; lia).
    rewrite (nth_indep _ 0%Z (int8 (block_sum ws (nth n data []) 0))) by (rewrite map_length, seq_length; lia).
    rewrite (map_nth (fun v0 => int8 (block_sum ws (nth n data []) v0))), seq_nth by auto. cbn [plus]. rewrite L_Quantize.int8_id; auto.
    assert (Hr : In (nth n data []) data) by (apply nth_In; rewrite (proj1 SD); auto).
    pose proof (block_sum_nonneg ws (nth n data []) v (fun x => NN _ x Hr) (proj2 SD _ Hr) LV (WP _ (nth_In _ _ LV))). pose proof (BB _ v Hr ltac:(lia)). lia. }
  destruct (mask_and_Ok N (list_sum ws) om mk SOm SM) as (SR & PR). set (rel := mask_and om mk) in *.
  set (compare := fun n p => match nth p (nth n rel []) None with Some true => true | _ => false end).
  assert (CMP : forall n v p, n < N -> owns ws v p -> nth p (nth n rel []) None = Some (compare n p) /\
     compare n p = (Z.eqb (block_sum ws (nth n data []) v) (nth v mx 0%Z) && match nth p (nth n mk []) None with Some true => true | _ => false end)).
  { intros n v p Hn OW. assert (Hp : p < list_sum ws) by (apply owns_exists; eauto). unfold compare. rewrite (PR n p Hn Hp), (PO' n v p Hn OW), (MV n v p Hn OW).
    cbn [and_cell]. destruct (Z.eqb _ _), (Z.eqb _ _); auto. }
  destruct (zero_where_Ok N (list_sum ws) va (mask_not rel) SV (shaped_not _ _ _ SR)) as (va' & EV' & SV' & PV').
  destruct (zero_where_Ok N (list_sum ws) med (mask_not rel) SMed (shaped_not _ _ _ SR)) as (md' & ED' & SD' & PD').
  assert (ENT : forall n p, n < N -> p < list_sum ws -> (0 <= entry data n p <= 127)%Z /\ (0 <= entry med n p <= 127)%Z /\
     entry va' n p = (if compare n p then entry data n p else 0%Z) /\ entry md' n p = (if compare n p then entry med n p else 0%Z)).
  { intros n p Hn Hp. destruct (owner ws p Hp) as (v & OW). assert (LV : v < length ws) by apply OW.
    assert (Hr : In (nth n data []) data) by (apply nth_In; rewrite (proj1 SD); auto).
    split. { pose proof (entry_le_block ws (nth n data []) v p (fun x => NN _ x Hr) (proj2 SD _ Hr) OW). pose proof (BB _ v Hr ltac:(lia)). unfold entry. lia. }
    destruct (PMed n) as [(L1 & L2 & L3) _]. { rewrite (proj1 ST); auto. }
    split. { pose proof (entry_le_block ws (nth n med []) v p L2 L1 OW) as Q. rewrite block_sum_block, (L3 v LV) in Q. pose proof (MB v ltac:(lia)). unfold entry. lia. }
    rewrite (PV' n p Hn Hp), (PD' n p Hn Hp), (nth_not _ _ _ n p SR Hn Hp). destruct (CMP n v p Hn OW) as [Q1 Q2]. rewrite Q1. cbn [option_map].
    destruct (compare n p); cbn [negb]; auto. split; auto. apply (PE n p Hn Hp). unfold held_out. rewrite (MV n v p Hn OW) in *.
    symmetry in Q2. apply andb_prop in Q2 as [_ Q2]. destruct (Z.eqb part _); easy. }
  exists mk, tr, va, mx, med, compare. split; [exact EE|]. split; [exact EG|]. split; [exact EMed|]. split.
  { intros n p Hn Hp. destruct (owner ws p Hp) as (v & OW). destruct (CMP n v p Hn OW) as [_ ->]. rewrite andb_true_iff. unfold compared, held_out. split.
    - intros [A B]. apply Z.eqb_eq in A. split. destruct (nth p (nth n mk []) None) as [[]|]; easy. eauto.
    - intros [-> (v' & OW' & A)]. rewrite (owns_unique ws v v' p OW OW'). rewrite Z.eqb_eq. auto. }
  unfold eval_scores. rewrite EE. cbn [bind].
  destruct (C26_data ws V M N0 m mst s data C MC ES (proj2 SD)) as [EL1 PL1]. rewrite EL1.
  destruct (C26_data ws V M N0 m mst s tr C MC ES (proj2 ST)) as [EL2 PL2]. rewrite EL2. cbn [bind].
  rewrite mri_last. cbn [bind]. pose proof EG as EG2. unfold guess_counts in EG2. rewrite count_observations_Ok in * by apply SD. cbn [bind] in *. rewrite EG2. cbn [bind].
  rewrite EMed. cbn [bind]. fold obs. rewrite (proj1 SD), EO. cbn [bind]. fold rel. rewrite EV'. cbn [bind]. rewrite ED'. cbn [bind].
  f_equal. f_equal.
  - apply rmean_seq. { rewrite map_length, combine_length, !map_length, (proj1 SD), (proj1 ST). lia. }
    intros n Hn. rewrite (nth_map_combine _ _ _ _ (map (fun row => ln (row_prob ws m row)) data) (map (fun row => ln (row_prob ws m row)) tr) n (ln (row_prob ws m [])) (ln (row_prob ws m [])) 0%R)
      by (rewrite ?map_length, ?(proj1 SD), ?(proj1 ST); auto).
    rewrite !(map_nth (fun row => ln (row_prob ws m row))). unfold Rdiv. rewrite ln_mult, ln_Rinv. reflexivity.
    1,3: try apply Rinv_0_lt_compat; apply PL2, nth_In; rewrite (proj1 ST); auto. apply PL1, nth_In; rewrite (proj1 SD); auto.
  - rewrite (abs_diff N (list_sum ws) md' va' SD' SV').
    2:{ intros n p Hn Hp. destruct (ENT n p Hn Hp) as (A & B & -> & ->). destruct (compare n p); lia. }
    rewrite (mask_count N (list_sum ws) rel SR). f_equal.
    f_equal. apply sumf_ext. intros n Hn. apply in_seq in Hn. apply sumf_ext. intros p Hp. apply in_seq in Hp.
    destruct (ENT n p ltac:(lia) ltac:(lia)) as (_ & _ & -> & ->). destruct (compare n p); auto. rewrite Rminus_eq_0. apply Rabs_R0.
Qed.
End Scores.
