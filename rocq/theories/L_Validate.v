From Coq Require Import String.
From Coq Require Import List Arith ZArith Permutation Bool Lia.
From Verif Require Import Base Spec_Ragged M_Structure M_Util M_Config M_Strings M_Serving M_Validate Spec_Validate L_Base L_Ragged L_Config.
Import ListNotations.
Open Scope list_scope.
Open Scope nat_scope.

Lemma in_nth_error_len : forall A (l : list A) i, i < length l -> exists x, nth_error l i = Some x.
Proof. intros. destruct (nth_error l i) eqn:E; eauto. apply nth_error_None in E. lia. Qed.

Lemma nth_error_map' : forall A B (f : A -> B) l i, nth_error (map f l) i = option_map f (nth_error l i).
Proof. induction l; destruct i; simpl; auto. Qed.

(** ** Ragged masks of dense masks *)

Lemma ragged_T_Ok : forall ws N dense, shaped N (length ws) dense ->
  exists m, ragged_mask_T (make_ragged_index ws) N dense = Ok m /\ shaped N (list_sum ws) m /\
    forall n v p, n < N -> owns ws v p -> nth p (nth n m []) None = Some (nth v (nth n dense []) false).
Proof.
  intros ws N dense [LD SD]. unfold ragged_mask_T. rewrite mri_length. replace (S (length ws) - 1) with (length ws) by lia.
  destruct (ragged_mask_Ok _ ws (transpose false (length ws) dense)) as (out & E & L & P).
  { unfold transpose. now rewrite map_length, seq_length. }
  rewrite E. cbn [bind]. eexists. split; [reflexivity|]. split.
  - split. now rewrite map_length, seq_length. intros row H. apply in_map_iff in H as (n & <- & _). now rewrite map_length.
  - intros n v p Hn OW. rewrite (nth_indep _ [] (map (option_map (fun column => nth 0 column false)) out)) by now rewrite map_length, seq_length.
    rewrite (map_nth (fun n => map (option_map (fun column => nth n column false)) out)), seq_nth by auto. simpl plus.
    change None with (option_map (fun column => nth n column false) None) at 1. rewrite map_nth.
    pose proof (P v p OW) as Q. destruct OW as [LV _].
    unfold transpose in Q. rewrite nth_error_map' in Q.
    rewrite (nth_error_nth' (seq 0 (length ws)) 0), seq_nth in Q by (try rewrite seq_length; auto). cbn [option_map plus] in Q.
    erewrite (nth_error_nth _ _ _ Q). cbn [option_map]. f_equal.
    rewrite (nth_indep _ false (nth v [] false)) by (rewrite map_length; lia). rewrite (map_nth (fun row => nth v row false)). reflexivity.
Qed.

Lemma owner : forall ws p, p < list_sum ws -> exists v, owns ws v p.
Proof. intros. now apply owns_exists. Qed.

(** ** split_data *)
Section Split.
Variables (randint : rng) (ws : list nat) (N : nat) (parts : Z).
Hypothesis RC : rng_contract randint.
Let dr := randint 0%Z parts N (length ws).

Lemma split_Ok : forall part, (0 <= part < parts)%Z ->
  exists m, split_data randint (make_ragged_index ws) N parts part = Ok m /\ shaped N (list_sum ws) m /\
    forall n v p, n < N -> owns ws v p -> nth p (nth n m []) None = Some (Z.eqb part (nth v (nth n dr []) (-1)%Z)).
Proof.
  intros part H. unfold split_data.
  replace ((0 <=? part)%Z && (part <? parts)%Z) with true by (symmetry; apply andb_true_intro; split; [apply Z.leb_le|apply Z.ltb_lt]; lia).
  cbn [assert_ bind]. rewrite mri_last. cbn [bind]. rewrite mri_length. replace (S (length ws) - 1) with (length ws) by lia.
  destruct (RC 0%Z parts N (length ws)) as [L1 L2]; [lia|].
  destruct (ragged_T_Ok ws N (map (map (Z.eqb part)) dr)) as (m & E & SH & P).
  { split. now rewrite map_length. intros row Hr. apply in_map_iff in Hr as (r & <- & Hr). rewrite map_length. now apply L2. }
  fold dr. rewrite E. cbn [bind].
  replace (forallb (fun row => length row =? list_sum ws) m) with true.
  2:{ symmetry. apply forallb_forall. intros row Hr. apply Nat.eqb_eq. now apply SH. }
  cbn [assert_ bind]. exists m. split; auto. split; auto. intros n v p Hn OW. rewrite (P n v p Hn OW). f_equal.
  change (@nil bool) with (map (Z.eqb part) []). rewrite map_nth.
  assert (LN : n < length dr) by (unfold dr; rewrite L1; exact Hn).
  assert (LV : v < length (nth n dr [])). { rewrite (proj1 (L2 (nth n dr []) (nth_In dr [] LN))). apply OW. }
  rewrite (nth_indep _ false (Z.eqb part (-1)%Z)) by now rewrite map_length. now rewrite map_nth.
Qed.

Lemma split_bad : forall ri part, ~ (0 <= part < parts)%Z -> split_data randint ri N parts part = Raise AssertionError.
Proof.
  intros ri part H. unfold split_data. replace ((0 <=? part)%Z && (part <? parts)%Z) with false. reflexivity.
  symmetry. apply andb_false_iff. destruct (Z_lt_le_dec part 0). left. now apply Z.leb_gt. right. apply Z.ltb_ge. lia.
Qed.

Lemma split_held : forall part m, split_data randint (make_ragged_index ws) N parts part = Ok m ->
  (0 <= part < parts)%Z /\ shaped N (list_sum ws) m /\
  forall n v p, n < N -> owns ws v p -> nth p (nth n m []) None = Some (Z.eqb part (nth v (nth n dr []) (-1)%Z)).
Proof.
  intros part m E. destruct (Z_le_dec 0 part) as [A|A]; [destruct (Z_lt_dec part parts) as [B|B]|].
  2,3: rewrite split_bad in E by lia; discriminate.
  destruct (split_Ok part) as (m' & E' & F); [lia|]. rewrite E' in E. injection E as <-. split; [lia|exact F].
Qed.

Lemma draw_range : forall n v, (0 < parts)%Z -> n < N -> v < length ws -> (0 <= nth v (nth n dr []) (-1) < parts)%Z.
Proof.
  intros n v HP Hn Hv. destruct (RC 0%Z parts N (length ws) HP) as [L1 L2]. fold dr in L1, L2.
  destruct (L2 (nth n dr [])) as [A B]. { apply nth_In. lia. } apply B. apply nth_In. lia.
Qed.

Lemma partition : (0 < parts)%Z -> forall n p, n < N -> p < list_sum ws ->
  exists! part, exists m, split_data randint (make_ragged_index ws) N parts part = Ok m /\ held_out m n p.
Proof.
  intros HP n p Hn Hp. destruct (owner ws p Hp) as (v & OW). exists (nth v (nth n dr []) (-1)%Z). split.
  - destruct (split_Ok (nth v (nth n dr []) (-1)%Z)) as (m & E & _ & P). { apply draw_range; auto. apply OW. }
    exists m. split; auto. unfold held_out. rewrite (P n v p Hn OW). now rewrite Z.eqb_refl.
  - intros part (m & E & H). destruct (split_held part m E) as (_ & _ & P). unfold held_out in H. rewrite (P n v p Hn OW) in H.
    injection H as H. symmetry. now apply Z.eqb_eq.
Qed.
End Split.

Lemma C49_masks : forall randint ws N parts, rng_contract randint ->
  forall part, (0 <= part < parts)%Z -> exists m, split_data randint (make_ragged_index ws) N parts part = Ok m /\
    shaped N (list_sum ws) m /\
    (forall n v, n < N -> (forall p, owns ws v p -> nth p (nth n m []) None = Some true) \/
                          (forall p, owns ws v p -> nth p (nth n m []) None = Some false)).
Proof.
  intros randint ws N parts RC part H. destruct (split_Ok randint ws N parts RC part H) as (m & E & SH & P).
  exists m. split; auto. split; auto. intros n v Hn.
  destruct (Z.eqb part (nth v (nth n (randint 0%Z parts N (length ws)) []) (-1)%Z)) eqn:Q; [left|right]; intros p OW; rewrite (P n v p Hn OW); now rewrite Q.
Qed.

(** ** Training and evaluation data *)

Lemma nth_map_combine : forall A B C (f : A * B -> C) l m i da db dc, length l = length m -> i < length l ->
  nth i (map f (combine l m)) dc = f (nth i l da, nth i m db).
Proof.
  intros. rewrite (nth_indep _ dc (f (da, db))) by (rewrite map_length, combine_length; lia).
  rewrite map_nth, combine_nth by auto. reflexivity.
Qed.

Lemma zero_where_Ok : forall N Rr data m, shaped N Rr data -> shaped N Rr m ->
  exists out, zero_where data m = Ok out /\ shaped N Rr out /\
    forall n p, n < N -> p < Rr -> entry out n p = match nth p (nth n m []) None with Some true => 0%Z | _ => entry data n p end.
Proof.
  intros N Rr data m [A B] [C D]. unfold zero_where. rewrite A, C, Nat.eqb_refl.
  replace (forallb (fun '(r, s) => length r =? length s) (combine data m)) with true.
  2:{ symmetry. apply forallb_forall. intros [r s] H. apply Nat.eqb_eq. rewrite (B r), (D s); auto.
      apply in_combine_r in H; auto. apply in_combine_l in H; auto. }
  cbn [andb]. eexists. split; [reflexivity|]. split.
  - split. rewrite map_length, combine_length; lia. intros row H. apply in_map_iff in H as ([r s] & <- & H).
    rewrite map_length, combine_length, (B r), (D s); auto. lia. apply in_combine_r in H; auto. apply in_combine_l in H; auto.
  - intros n p Hn Hp. unfold entry. rewrite (nth_map_combine _ _ _ _ data m n [] [] []) by lia.
    assert (LR : length (nth n data []) = Rr) by (apply B; apply nth_In; lia).
    assert (LM : length (nth n m []) = Rr) by (apply D; apply nth_In; lia).
    rewrite (nth_map_combine _ _ _ _ (nth n data []) (nth n m []) p 0%Z None 0%Z) by lia. reflexivity.
Qed.

Lemma shaped_not : forall N Rr m, shaped N Rr m -> shaped N Rr (mask_not m).
Proof.
  intros N Rr m [A B]. unfold mask_not. split. now rewrite map_length. intros row H. apply in_map_iff in H as (r & <- & H).
  rewrite map_length. auto.
Qed.
Lemma nth_not : forall N Rr m n p, shaped N Rr m -> n < N -> p < Rr ->
  nth p (nth n (mask_not m) []) None = option_map negb (nth p (nth n m []) None).
Proof.
  intros N Rr m n p [A B] Hn Hp. unfold mask_not. change (@nil (option bool)) with (map (option_map negb) []) at 1. rewrite map_nth.
  change None with (option_map negb None) at 1. now rewrite map_nth.
Qed.

Lemma config_int_setting : forall c k z, setting c k = Some z -> config_int c k = Ok z.
Proof. intros c k z. unfold setting, config_int. destruct (lookup c k); cbn; congruence. Qed.

Lemma eval_split_Ok : forall randint ws N data c parts part, rng_contract randint -> shaped N (list_sum ws) data ->
  setting c "model_ensemble_size" = Some parts -> setting c "seed" = Some part -> (0 <= part < parts)%Z ->
  exists m training validation,
    split_data randint (make_ragged_index ws) N parts part = Ok m /\
    eval_split randint (make_ragged_index ws) data c = Ok (m, training, validation) /\
    shaped N (list_sum ws) m /\ shaped N (list_sum ws) training /\ shaped N (list_sum ws) validation /\
    forall n p, n < N -> p < list_sum ws ->
      (held_out m n p -> entry training n p = 0%Z /\ entry validation n p = entry data n p) /\
      (~ held_out m n p -> entry training n p = entry data n p /\ entry validation n p = 0%Z).
Proof.
  intros randint ws N data c parts part RC SD E1 E2 H. unfold eval_split.
  rewrite (config_int_setting _ _ _ E1), (config_int_setting _ _ _ E2). cbn [bind].
  replace ((0 <=? part)%Z && (part <? parts)%Z) with true by (symmetry; apply andb_true_intro; split; [apply Z.leb_le|apply Z.ltb_lt]; lia).
  cbn [assert_ bind]. rewrite (proj1 SD).
  destruct (split_Ok randint ws N parts RC part H) as (m & E & SM & P). rewrite E. cbn [bind].
  destruct (zero_where_Ok N (list_sum ws) data m SD SM) as (tr & ET & ST & PT). rewrite ET. cbn [bind].
  destruct (zero_where_Ok N (list_sum ws) data (mask_not m) SD (shaped_not _ _ _ SM)) as (va & EV & SV & PV). rewrite EV. cbn [bind].
  exists m, tr, va. repeat (split; [now auto|]). intros n p Hn Hp. destruct (owner ws p Hp) as (v & OW).
  rewrite (PT n p Hn Hp), (PV n p Hn Hp), (nth_not _ _ _ n p SM Hn Hp). unfold held_out. rewrite (P n v p Hn OW).
  destruct (Z.eqb part _); cbn; split; intros K; try now elim K. all: auto.
Qed.

Lemma train_data_Ok : forall randint ws N data c parts part s m training validation, rng_contract randint -> shaped N (list_sum ws) data ->
  setting c "model_ensemble_size" = Some parts -> setting c "seed" = Some part -> (0 <= part < parts)%Z ->
  serialize_config c = Ok s -> (forall k z, setting c k = Some z -> (0 <= z)%Z) ->
  eval_split randint (make_ragged_index ws) data c = Ok (m, training, validation) ->
  train_task_data randint (make_ragged_index ws) data s = Ok training.
Proof.
  intros randint ws N data c parts part s m training validation RC SD E1 E2 H ES NN EV.
  destruct (roundtrip c s ES NN) as (d & ED & EQ). unfold train_task_data. rewrite ED. cbn [bind].
  unfold setting in E1, E2. pose proof (EQ "model_ensemble_size"%string) as Q1. pose proof (EQ "seed"%string) as Q2.
  unfold int_at in Q1, Q2. rewrite E1 in Q1. rewrite E2 in Q2.
  rewrite (config_int_setting _ _ _ Q1), (config_int_setting _ _ _ Q2). cbn [bind].
  unfold eval_split in EV. rewrite (config_int_setting c _ _ E1), (config_int_setting c _ _ E2) in EV. cbn [bind] in EV.
  destruct (assert_ _); cbn [bind] in *; [|discriminate]. destruct (split_data _ _ _ _ _); cbn [bind] in *; [|discriminate].
  destruct (zero_where data a0) ; cbn [bind] in *; [|discriminate]. destruct (zero_where _ (mask_not _)); cbn [bind] in *; [|discriminate].
  congruence.
Qed.

Lemma C49_data : forall randint ws N data c parts part s, rng_contract randint -> shaped N (list_sum ws) data ->
  setting c "model_ensemble_size" = Some parts -> setting c "seed" = Some part -> (0 <= part < parts)%Z ->
  serialize_config c = Ok s -> (forall k z, setting c k = Some z -> (0 <= z)%Z) ->
  exists m training validation,
    split_data randint (make_ragged_index ws) N parts part = Ok m /\
    train_task_data randint (make_ragged_index ws) data s = Ok training /\
    eval_split randint (make_ragged_index ws) data c = Ok (m, training, validation) /\
    shaped N (list_sum ws) training /\ shaped N (list_sum ws) validation /\
    forall n p, n < N -> p < list_sum ws ->
      (held_out m n p -> entry training n p = 0%Z /\ entry validation n p = entry data n p) /\
      (~ held_out m n p -> entry training n p = entry data n p /\ entry validation n p = 0%Z).
Proof.
  intros randint ws N data c parts part s RC SD E1 E2 H ES NN.
  destruct (eval_split_Ok randint ws N data c parts part RC SD E1 E2 H) as (m & tr & va & EM & EE & _ & ST & SV & P).
  exists m, tr, va. repeat (split; [now eauto using train_data_Ok|]). exact P.
Qed.
