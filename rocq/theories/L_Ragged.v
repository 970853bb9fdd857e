(** Ragged index, mask and counts. *)
From Coq Require Import List Arith Lia Bool ZArith Reals.
From Verif Require Import Base L_Base Spec_Sum Spec_Ragged M_Util L_Quantize.
Import ListNotations.
Open Scope nat_scope.

Lemma mri_from_length : forall ws acc, length (make_ragged_index_from acc ws) = S (length ws).
Proof. induction ws; intros; simpl; auto. Qed.

Lemma mri_from_nth : forall ws acc v, v <= length ws ->
  nth_error (make_ragged_index_from acc ws) v = Some (acc + list_sum (firstn v ws)).
Proof.
  induction ws; intros acc [|v] H; simpl in *; try lia; try (f_equal; lia).
  rewrite IHws by lia. f_equal. lia.
Qed.

Lemma mri_length : forall ws, length (make_ragged_index ws) = S (length ws).
Proof. intros. apply mri_from_length. Qed.
Lemma mri_nth : forall ws v, v <= length ws -> nth_error (make_ragged_index ws) v = Some (list_sum (firstn v ws)).
Proof. intros. unfold make_ragged_index. now rewrite mri_from_nth. Qed.
Lemma mri_get : forall ws e v, v <= length ws -> get e (make_ragged_index ws) v = Ok (list_sum (firstn v ws)).
Proof. intros. unfold get. now rewrite mri_nth. Qed.
Lemma mri_last : forall ws, last_index (make_ragged_index ws) = Ok (list_sum ws).
Proof.
  intros. unfold last_index. assert (NE : make_ragged_index ws <> []) by (unfold make_ragged_index; destruct ws; discriminate).
  assert (G : last (make_ragged_index ws) 0 = list_sum ws).
  { unfold make_ragged_index. transitivity (0 + list_sum ws); [|reflexivity]. generalize 0 at 1 3 as acc.
    clear NE. induction ws as [|w ws IH]; intros; simpl; [lia|]. specialize (IH (acc + w)). rewrite Nat.add_assoc, <- IH.
    destruct ws; reflexivity. }
  destruct (make_ragged_index ws) eqn:E; [congruence|]. now rewrite G.
Qed.

Lemma sum_firstn_S : forall ws v, v < length ws -> list_sum (firstn (S v) ws) = list_sum (firstn v ws) + nth v ws 0.
Proof. induction ws; intros [|v] H; simpl in *; try lia. rewrite IHws by lia. lia. Qed.
Lemma sum_firstn_mono : forall ws u v, u <= v -> list_sum (firstn u ws) <= list_sum (firstn v ws).
Proof.
  induction ws; intros u v H; [rewrite !firstn_nil; lia|]. destruct u, v; simpl; try lia. pose proof (IHws u v). lia.
Qed.
Lemma sum_firstn_all : forall ws v, list_sum (firstn v ws) <= list_sum ws.
Proof. intros. rewrite <- (firstn_all ws) at 2. destruct (le_lt_dec v (length ws)). now apply sum_firstn_mono. rewrite !firstn_all2 by lia. lia. Qed.

Lemma owns_unique : forall ws u v p, owns ws u p -> owns ws v p -> u = v.
Proof.
  intros ws u v p [U A] [W B]. rewrite <- sum_firstn_S in A, B by auto.
  destruct (lt_eq_lt_dec u v) as [[L|L]|L]; auto; exfalso.
  - pose proof (sum_firstn_mono ws (S u) v L). lia.
  - pose proof (sum_firstn_mono ws (S v) u L). lia.
Qed.

Lemma owns_exists : forall ws p, p < list_sum ws <-> exists v, owns ws v p.
Proof.
  unfold owns. induction ws as [|w ws IH]; intros p; simpl list_sum.
  - split. lia. intros (v & H & _). simpl in H. lia.
  - split.
    + intros H. destruct (le_lt_dec w p) as [L|L].
      * destruct (IH (p - w)) as [X _]. destruct X as (v & V1 & V2). lia. exists (S v). simpl. lia.
      * exists 0. simpl. lia.
    + intros ([|v] & V1 & V2); simpl in *. lia. destruct (IH (p - w)) as [_ X]. 
      assert (p - w < list_sum ws) by (apply X; exists v; lia). lia.
Qed.

Lemma nth_error_fill : forall A (l : list A) beg fin x p, beg <= fin -> fin <= length l ->
  length (fill_slice l beg fin x) = length l /\
  nth_error (fill_slice l beg fin x) p = if (beg <=? p) && (p <? fin) then Some x else nth_error l p.
Proof.
  intros A l beg fin x p H1 H2. unfold fill_slice.
  rewrite Nat.min_l, Nat.min_l by lia. rewrite Nat.max_r by lia.
  assert (LB : length (firstn beg l) = beg) by (rewrite firstn_length; lia). split.
  - rewrite !app_length, repeat_length, skipn_length, LB. lia.
  - destruct (Nat.leb_spec beg p); simpl.
    + rewrite nth_error_app2 by lia. rewrite LB. destruct (Nat.ltb_spec p fin).
      * rewrite nth_error_app1 by (rewrite repeat_length; lia). apply nth_error_repeat. lia.
      * rewrite nth_error_app2 by (rewrite repeat_length; lia). rewrite repeat_length.
        rewrite <- (firstn_skipn fin l) at 2. rewrite nth_error_app2 by (rewrite firstn_length; lia).
        rewrite firstn_length. f_equal. lia.
    + rewrite nth_error_app1 by lia. rewrite <- (firstn_skipn beg l) at 2. now rewrite nth_error_app1 by lia.
Qed.

Lemma ragged_mask_Ok : forall A ws (mask : list A), length mask = length ws ->
  exists out, make_ragged_mask (make_ragged_index ws) mask = Ok out /\ length out = list_sum ws /\
    forall v p, owns ws v p -> nth_error out p = option_map Some (nth_error mask v).
Proof.
  intros A ws mask LM. unfold make_ragged_mask. rewrite mri_last. cbn [bind]. rewrite mri_length.
  replace (S (length ws) - 1) with (length ws) by lia. rewrite LM, Nat.eqb_refl. cbn [assert_ bind].
  assert (G : forall n, n <= length ws -> exists out,
    foldM (fun out v => bind (get IndexError (make_ragged_index ws) v) (fun beg => bind (get IndexError (make_ragged_index ws) (v + 1)) (fun fin =>
       bind (get IndexError mask v) (fun m => Ok (fill_slice out beg fin (Some m)))))) (seq 0 n) (repeat None (list_sum ws)) = Ok out /\
    length out = list_sum ws /\ forall v p, v < n -> owns ws v p -> nth_error out p = option_map Some (nth_error mask v)).
  { induction n; intros H.
    - exists (repeat None (list_sum ws)). simpl. split; auto. split. apply repeat_length. intros; lia.
    - destruct IHn as (out & E & L & P). lia. rewrite seq_S, foldM_app, E. cbn [bind foldM]. simpl plus.
      rewrite !mri_get by lia. cbn [bind]. unfold get. destruct (nth_error mask n) as [m|] eqn:EM.
      2:{ apply nth_error_None in EM. lia. }
      cbn [bind]. rewrite Nat.add_1_r. eexists. split; [reflexivity|].
      assert (B1 : list_sum (firstn n ws) <= list_sum (firstn (S n) ws)) by (apply sum_firstn_mono; lia).
      assert (B2 : list_sum (firstn (S n) ws) <= length out) by (rewrite L; apply sum_firstn_all).
      split. { rewrite (proj1 (nth_error_fill _ out _ _ (Some m) 0 B1 B2)). auto. }
      intros v p LV OW. rewrite (proj2 (nth_error_fill _ out _ _ (Some m) p B1 B2)).
      destruct (Nat.eq_dec v n) as [->|N].
      + pose proof OW as [O1 O2]. rewrite <- sum_firstn_S in O2 by auto.
        replace (list_sum (firstn n ws) <=? p) with true by (symmetry; apply Nat.leb_le; lia).
        replace (p <? list_sum (firstn (S n) ws)) with true by (symmetry; apply Nat.ltb_lt; lia).
        now rewrite EM.
      + assert (LT : p < list_sum (firstn n ws)).
        { pose proof OW as [O1 O2]. rewrite <- sum_firstn_S in O2 by auto. pose proof (sum_firstn_mono ws (S v) n ltac:(lia)). lia. }
        replace (list_sum (firstn n ws) <=? p) with false by (symmetry; apply Nat.leb_gt; lia). simpl.
        apply P; auto. lia. }
  destruct (G (length ws) (le_n _)) as (out & E & L & P). exists out. split; [exact E|]. split; auto.
  intros v p OW. apply P; auto. apply OW.
Qed.

Lemma slice_map : forall (row : list Z) beg w, beg + w <= length row ->
  slice row beg (beg + w) = map (fun i => nth (beg + i) row 0%Z) (seq 0 w).
Proof.
  intros row beg w H. unfold slice. replace (beg + w - beg) with w by lia.
  apply nth_ext with (d := 0%Z) (d' := 0%Z).
  - rewrite firstn_length, skipn_length, map_length, seq_length. lia.
  - intros n L. rewrite firstn_length, skipn_length in L.
    rewrite (nth_map_lt _ _ _ _ _ 0) by (rewrite seq_length; lia). rewrite seq_nth by lia. simpl.
    transitivity (nth n (skipn beg row) 0%Z).
    + rewrite <- (firstn_skipn w (skipn beg row)) at 2. rewrite app_nth1; auto. rewrite firstn_length, skipn_length. lia.
    + rewrite <- (firstn_skipn beg row) at 2. rewrite app_nth2; rewrite firstn_length; [f_equal; lia|lia].
Qed.

Lemma mapM_Ok_map : forall A B (f : A -> result B) (g : A -> B) l, (forall x, In x l -> f x = Ok (g x)) -> mapM f l = Ok (map g l).
Proof.
  induction l; simpl; intros; auto. rewrite H by now left. cbn [bind]. rewrite IHl by (intros; apply H; now right). reflexivity.
Qed.

Lemma count_row_Ok : forall ws row, length row = list_sum ws ->
  count_row (make_ragged_index ws) row = Ok (map (fun v => int8 (block_sum ws row v)) (seq 0 (length ws))).
Proof.
  intros ws row L. unfold count_row. rewrite mri_length. replace (S (length ws) - 1) with (length ws) by lia.
  apply mapM_Ok_map. intros v I. apply in_seq in I. rewrite !mri_get by lia. cbn [bind]. rewrite Nat.add_1_r, sum_firstn_S by lia.
  rewrite slice_map. reflexivity. rewrite <- sum_firstn_S by lia. rewrite L. apply sum_firstn_all.
Qed.

Lemma count_observations_Ok : forall ws data, (forall row, In row data -> length row = list_sum ws) ->
  count_observations (make_ragged_index ws) (list_sum ws) data =
  Ok (map (fun row => map (fun v => int8 (block_sum ws row v)) (seq 0 (length ws))) data).
Proof.
  intros ws data H. unfold count_observations. rewrite mri_last. cbn [bind]. rewrite Nat.eqb_refl. cbn [assert_ bind].
  apply mapM_Ok_map. intros row I. apply count_row_Ok. auto.
Qed.

Lemma zmax2_length : forall a b, length a = length b -> length (zmax2 a b) = length b.
Proof. intros. unfold zmax2. rewrite map_length, combine_length. lia. Qed.

Lemma zmax2_nth : forall a b v, length a = length b -> v < length b -> nth v (zmax2 a b) 0%Z = Z.max (nth v a 0%Z) (nth v b 0%Z).
Proof.
  induction a; destruct b; simpl; intros v L H; try lia. destruct v; auto. apply IHa; lia.
Qed.

Lemma col_max_spec : forall V t r, (forall row, In row (r :: t) -> length row = V) ->
  exists m, col_max (r :: t) = Ok m /\ length m = V /\
    forall v, v < V -> (forall row, In row (r :: t) -> (nth v row 0 <= nth v m 0)%Z) /\
      exists row, In row (r :: t) /\ nth v m 0%Z = nth v row 0%Z.
Proof.
  intros V t. simpl col_max. induction t as [|a t IH]; intros r H.
  - exists r. simpl. split; auto. split. apply H; now left. intros v L. split. intros row [<-|[]]. lia. exists r. auto.
  - pose proof (H r (or_introl eq_refl)) as Lr. pose proof (H a (or_intror (or_introl eq_refl))) as La.
    destruct (IH (zmax2 r a)) as (m & E & LM & P).
    { intros row [<-|I]. rewrite zmax2_length; lia. apply H. right. now right. }
    exists m. simpl. split; auto. split; auto. intros v L. destruct (P v L) as [P1 (row & I & Q)].
    pose proof (zmax2_nth r a v ltac:(lia) ltac:(lia)) as ZM. split.
    + intros row0 [<-|[<-|J]].
      * specialize (P1 _ (or_introl eq_refl)). lia.
      * specialize (P1 _ (or_introl eq_refl)). lia.
      * apply P1. now right.
    + destruct I as [<-|I].
      * rewrite ZM in Q. destruct (Z.max_spec (nth v r 0%Z) (nth v a 0%Z)) as [[_ X]|[_ X]]; rewrite X in Q; [exists a|exists r]; auto.
      * exists row. auto.
Qed.

Lemma guess_counts_Ok : forall ws r data, (forall row, In row (r :: data) -> length row = list_sum ws) ->
  (forall row v, In row (r :: data) -> v < length ws -> (-128 <= block_sum ws row v < 128)%Z) ->
  exists m, guess_counts (make_ragged_index ws) (list_sum ws) (r :: data) = Ok m /\ length m = length ws /\
    forall v, v < length ws -> (forall row, In row (r :: data) -> (block_sum ws row v <= nth v m 0)%Z) /\
      exists row, In row (r :: data) /\ nth v m 0%Z = block_sum ws row v.
Proof.
  intros ws r data LR B. unfold guess_counts. rewrite count_observations_Ok by auto. cbn [bind]. cbn [map].
  set (cr := fun row => map (fun v => int8 (block_sum ws row v)) (seq 0 (length ws))).
  assert (CN : forall row v, In row (r :: data) -> v < length ws -> nth v (cr row) 0%Z = block_sum ws row v).
  { intros row v I L. unfold cr. rewrite (nth_map_lt _ _ _ _ _ 0) by (rewrite seq_length; auto). rewrite seq_nth by auto. simpl.
    apply int8_id. now apply B. }
  destruct (col_max_spec (length ws) (map cr data) (cr r)) as (m & E & L & P).
  { intros row I. change (cr r :: map cr data) with (map cr (r :: data)) in I. apply in_map_iff in I.
    destruct I as (x & <- & _). unfold cr. now rewrite map_length, seq_length. }
  exists m. split; auto. split; auto. intros v LV. destruct (P v LV) as [P1 (row & I & Q)].
  change (cr r :: map cr data) with (map cr (r :: data)) in *. split.
  - intros row0 J. rewrite <- (CN row0 v J LV). apply P1. now apply in_map.
  - apply in_map_iff in I. destruct I as (x & <- & I). exists x. split; auto. rewrite Q. auto.
Qed.

Lemma mri_owns : forall ws v p beg fin, v < length ws -> nth_error (make_ragged_index ws) v = Some beg ->
  nth_error (make_ragged_index ws) (S v) = Some fin -> (owns ws v p <-> beg <= p < fin).
Proof.
  intros ws v p beg fin L E F. rewrite mri_nth in E, F by lia. rewrite sum_firstn_S in F by auto.
  inversion E; inversion F; subst. unfold owns. intuition.
Qed.

Lemma int8_mod : forall z, (int8 z mod 256 = z mod 256)%Z.
Proof.
  intros. unfold int8. rewrite Zminus_mod, Z.mod_mod by lia. rewrite <- Zminus_mod. f_equal. lia.
Qed.

Lemma counts_Ok : forall ws data, (forall row, In row data -> length row = list_sum ws) ->
  exists counts, count_observations (make_ragged_index ws) (list_sum ws) data = Ok counts /\
    length counts = length data /\
    forall n v row, nth_error data n = Some row -> v < length ws ->
      exists c, nth_error (nth n counts []) v = Some c /\
        ((-128 <= block_sum ws row v < 128)%Z -> c = block_sum ws row v) /\
        (c mod 256 = block_sum ws row v mod 256)%Z.
Proof.
  intros ws data H. eexists. split; [now apply count_observations_Ok|]. split; [apply map_length|].
  intros n v row E L. exists (int8 (block_sum ws row v)). split; [|split; [apply int8_id|apply int8_mod]].
  erewrite nth_error_nth. 2:{ rewrite nth_error_map, E. reflexivity. }
  rewrite nth_error_map, (nth_error_nth' _ 0) by (rewrite seq_length; auto). rewrite seq_nth by auto. reflexivity.
Qed.
