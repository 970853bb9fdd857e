(** The joint density in terms of the rows and their classes. *)
From Coq Require Import List Arith Bool ZArith Reals Lia Lra Permutation Sorted.
From Verif Require Import Base L_Base Spec_Graph L_Graph Spec_Sum L_Sum Spec_Trees Spec_Ragged L_Ragged M_Structure L_Pairing L_Prop1 L_MakeTree M_Util
  M_Rand L_Rand M_SampleTree L_SampleTree L_TreeMCMC L_AllTrees M_Array M_Training Spec_Joint Spec_Stats L_Asg L_Stats L_Trainer
  Spec_Conditional L_AddRow L_Conditional Spec_EdgeLogits L_EdgeLogits Spec_Gibbs L_Gibbs Spec_Model L_Train M_Serving Spec_Serving L_Server L_Logprob L_Serve1
  Spec_Epoch L_Epoch Spec_Evidence L_Evidence.
From Verif Require L_Estimate.
Import ListNotations.
Open Scope R_scope.

Lemma prodf_const {A} (l : list A) c : prodf l (fun _ => c) = c ^ length l.
Proof. induction l as [|a l IH]; [reflexivity|]. rewrite prodf_cons, IH. reflexivity. Qed.

Lemma prodf_div {A} (l : list A) (f g : A -> R) : (forall x, In x l -> g x <> 0) -> prodf l (fun x => f x / g x) = prodf l f / prodf l g.
Proof.
  induction l as [|a l IH]; intros H; [unfold prodf; cbn; lra|]. rewrite !prodf_cons, IH by (intros; apply H; now right).
  field. split; [|apply H; now left].
  clear IH. assert (forall x, In x l -> g x <> 0) by (intros; apply H; now right). clear H. induction l as [|b l IH]; [cbn; lra|].
  rewrite prodf_cons. apply Rmult_integral_contrapositive_currified; [apply H0; now left|]. apply IH. intros; apply H0; now right.
Qed.

Lemma prodf_factor_at {A} (l : list A) f g x k : NoDup l -> In x l -> f x = g x * k -> (forall y, In y l -> y <> x -> f y = g y) ->
  prodf l f = prodf l g * k.
Proof.
  induction l as [|y l IH]; intros ND Ix Fx Fy; [destruct Ix|]. inversion ND; subst. rewrite !prodf_cons. destruct Ix as [->|Ix].
  - rewrite Fx. rewrite (prodf_ext l f g); [ring|]. intros z Iz. apply Fy; [now right|]. intros ->. contradiction.
  - rewrite (Fy y); [|now left|intros ->; contradiction]. rewrite IH; auto; [ring|]. intros; apply Fy; auto. now right.
Qed.

Lemma list_sum_zero {A} (l : list A) (f : A -> nat) : (forall q, In q l -> f q = 0%nat) -> list_sum (map f l) = 0%nat.
Proof.
  induction l as [|q l IH]; intros H; [reflexivity|].
  change (f q + list_sum (map f l) = 0)%nat. rewrite (H q) by (now left). apply IH. intros; apply H; now right.
Qed.

Lemma list_sum_one {A} (l : list A) (f : A -> nat) q0 : NoDup l -> In q0 l -> f q0 = 1%nat -> (forall q, In q l -> q <> q0 -> f q = 0%nat) ->
  list_sum (map f l) = 1%nat.
Proof.
  induction l as [|q l IH]; intros ND I F0 H; [destruct I|]. change (f q + list_sum (map f l) = 1)%nat. inversion ND; subst. destruct I as [->|I].
  - rewrite F0, list_sum_zero; [reflexivity|]. intros q' I'. apply H; [now right|]. intros ->. contradiction.
  - rewrite (H q); [|now left|intros ->; contradiction]. apply IH; auto. intros; apply H; auto. now right.
Qed.

Section Pure.
Variable lg : R -> R.
Hypothesis REC : forall x, 0 < x -> lg (x + 1) = lg x + ln x.
Variables (ws : list nat) (M : nat) (prior : list R).
Notation V := (length ws).
Hypothesis HM : (1 <= M <= 128)%nat.
Hypothesis HV : (1 <= V <= 2 ^ 15)%nat.
Hypothesis LP : length prior = tri V.
Hypothesis WP : forall w, In w ws -> (1 <= w)%nat.
Variable T : list edge.
Hypothesis CT : canonical_tree V T.

Lemma cols D : num_cols (table_of ws D) = V.
Proof. unfold num_cols, table_of. cbn [tb_types]. apply repeat_length. Qed.

Lemma tof_ok D : (forall x, In x D -> length x = list_sum ws) -> table_ok ws (table_of ws D).
Proof.
  intros H. constructor; cbn [table_of tb_types tb_ri tb_rows]; auto.
  - apply Forall_forall. intros t I. now apply repeat_spec in I.
  - now rewrite cols.
  - apply Forall_forall. auto.
Qed.

Lemma tof_nonneg D : (forall x, In x D -> forall c, In c x -> (0 <= c)%Z) -> nonneg_data (table_of ws D).
Proof.
  intros H n r. unfold datum. cbn [table_of tb_rows].
  destruct (nth_in_or_default r (nth n D []) 0%Z) as [I|E]; [|rewrite E; lia].
  destruct (nth_in_or_default n D []) as [I'|E']; [eapply H; eauto|]. rewrite E' in I. destruct I.
Qed.

(** *** Counts *)
Definition item : Type := list Z * list nat.
Definition tot (l : list item) (f : item -> Z) : Z := fold_right (fun i acc => f i + acc)%Z 0%Z l.
Definition cv (l : list item) (v c : nat) : Z := tot l (fun i => one_if (nth v (snd i) 0 =? c)%nat).
Definition ce (l : list item) (a b c1 c2 : nat) : Z := tot l (fun i => one_if ((nth a (snd i) 0 =? c1) && (nth b (snd i) 0 =? c2))%nat).
Definition cf (l : list item) (v q c : nat) : Z := tot l (fun i => one_if (nth v (snd i) 0 =? c)%nat * nth q (fst i) 0)%Z.
Definition cm (l : list item) (v c : nat) : Z := tot l (fun i => one_if (nth v (snd i) 0 =? c)%nat * block_sum ws (fst i) v)%Z.
Definition PLv (l : list item) (v : nat) : R := sumf (seq 0 M) (fun c => lg (IZR (cv l v c) + 1 / 2)).
Definition PL (l : list item) : R :=
  sumf (seq 0 V) (PLv l) +
  sumf T (fun '(a, b) => sumf (seq 0 M) (fun c1 => sumf (seq 0 M) (fun c2 => lg (IZR (ce l a b c1 c2) + 1 / 2 / INR M))) - PLv l a - PLv l b) +
  sumf (seq 0 V) (fun v => sumf (block ws v) (fun q => sumf (seq 0 M) (fun c => lg (IZR (cf l v q c) + 1 / 2 / INR M)))
                           - sumf (seq 0 M) (fun c => lg (IZR (cm l v c) + meas_prior (make_ragged_index ws) M v))).
Definition PW (l : list item) (x : list Z) (z : list nat) : R :=
  tree_weight V T
    (fun v c => (IZR (cv l v c) + 1 / 2) * polya (block ws v) (fun q => IZR (cf l v q c) + 1 / 2 / INR M) (fun q => Z.to_nat (nth q x 0%Z)))
    (fun e c1 c2 => let '(a, b) := nth e T (0, 0)%nat in
       (IZR (ce l a b c1 c2) + 1 / 2 / INR M) / ((IZR (cv l a c1) + 1 / 2) * (IZR (cv l b c2) + 1 / 2))) z.

Definition items (D : list (list Z)) (A : list (list nat)) (idx : list nat) : list item := map (fun n => (nth n D [], nth n A [])) idx.

Lemma total_items D A idx f : total idx (fun n => f (nth n D [], nth n A [])) = tot (items D A idx) f.
Proof. unfold total, tot, items. induction idx as [|n idx IH]; [reflexivity|]. cbn [map fold_right]. now rewrite IH. Qed.

Record holds (D : list (list Z)) (A : list (list nat)) (idx : list nat) (s : tstate) : Prop := {
  h_inv : tinv ws (table_of ws D) M s;
  h_tree : s_tree s = TS V (make_tree T);
  h_added : Permutation (s_added s) idx;
  h_asg : forall n v, In n idx -> (v < V)%nat -> s_asg s n v = nth v (nth n A []) 0%nat
}.

Lemma edges_T D s A idx : holds D A idx s -> ts_get_edges (s_tree s) = T.
Proof. intros H. rewrite (h_tree _ _ _ _ H). now apply canonical_edges. Qed.

Lemma holds_counts D A idx s : holds D A idx s ->
  (forall v c, (v < V)%nat -> (c < M)%nat -> s_vert s v c = cv (items D A idx) v c) /\
  (forall e a b c1 c2, nth_error T e = Some (a, b) -> (c1 < M)%nat -> (c2 < M)%nat -> s_edge s e c1 c2 = ce (items D A idx) a b c1 c2) /\
  (forall v q c, (v < V)%nat -> In q (block ws v) -> (c < M)%nat -> s_feat s q c = cf (items D A idx) v q c) /\
  (forall v c, (v < V)%nat -> (c < M)%nat -> s_meas s v c = cm (items D A idx) v c).
Proof.
  intros H. pose proof (ti_fs _ _ _ _ (h_inv _ _ _ _ H)) as FS. pose proof (h_added _ _ _ _ H) as PA. pose proof (h_asg _ _ _ _ H) as HA.
  destruct CT as ((_ & RG & _) & _). split; [|split; [|split]].
  - intros v c Hv Hc. rewrite (fs_vert _ _ _ _ FS) by (rewrite ?cols; auto). rewrite (total_perm _ _ _ PA). unfold cv. rewrite <- total_items.
    apply total_ext. intros n I. cbn [snd]. now rewrite HA.
  - intros e a b c1 c2 E H1 H2. rewrite <- (edges_T D s A idx H) in E. rewrite (fs_edge _ _ _ _ FS _ _ _ _ _ E) by auto.
    rewrite (total_perm _ _ _ PA). unfold ce. rewrite <- total_items. rewrite (edges_T D s A idx H) in E. apply nth_error_In in E. destruct (RG _ _ E).
    apply total_ext. intros n I. cbn [snd]. now rewrite !HA.
  - intros v q c Hv Hq Hc. assert (OW : owns ws v q). { unfold block in Hq. apply in_seq in Hq. split; [exact Hv|]. lia. }
    rewrite (fs_feat _ _ _ _ FS v) by auto. rewrite (total_perm _ _ _ PA). unfold cf. rewrite <- total_items.
    apply total_ext. intros n I. cbn [fst snd]. now rewrite HA.
  - intros v c Hv Hc. rewrite (fs_meas _ _ _ _ FS) by (rewrite ?cols; auto). rewrite (total_perm _ _ _ PA). unfold cm. rewrite <- total_items.
    apply total_ext. intros n I. cbn [fst snd]. now rewrite HA.
Qed.

Lemma Lform_PL D A idx s : (forall x, In x D -> length x = list_sum ws) -> holds D A idx s ->
  Lform lg (table_of ws D) M s = PL (items D A idx).
Proof.
  intros LD H. destruct (holds_counts D A idx s H) as (C1 & C2 & C3 & C4). pose proof (tof_ok D LD) as TK.
  rewrite (Lform_eq lg ws _ M TK (proj1 HM) s (h_inv _ _ _ _ H)). rewrite cols. unfold PL.
  destruct CT as ((_ & RG & _) & _).
  assert (LV : forall v, (v < V)%nat -> Lvert lg M s v = PLv (items D A idx) v).
  { intros v Hv. unfold Lvert, PLv. apply sumf_ext. intros c Hc. apply in_seq in Hc. rewrite C1 by lia. reflexivity. }
  f_equal; [f_equal|].
  - apply sumf_ext. intros v Hv. apply in_seq in Hv. apply LV. lia.
  - unfold edge_list. rewrite (edges_T D s A idx H). rewrite <- (combine_sumf T _ 0). apply sumf_ext. intros [e [a b]] I.
    pose proof (in_combine_r _ _ _ _ I) as I2. destruct (RG _ _ I2). apply nth_edge_list in I. rewrite !LV by auto. do 2 f_equal.
    unfold Ledge. apply sumf_ext. intros c1 K1. apply sumf_ext. intros c2 K2. apply in_seq in K1, K2. rewrite (C2 e a b) by (auto; lia). reflexivity.
  - apply sumf_ext. intros v Hv. apply in_seq in Hv. unfold Lfeat. f_equal.
    + apply sumf_ext. intros q Hq. apply sumf_ext. intros c Hc. apply in_seq in Hc. rewrite (C3 v) by (auto; lia). reflexivity.
    + apply sumf_ext. intros c Hc. apply in_seq in Hc. rewrite C4 by (auto; lia). reflexivity.
Qed.

Lemma CW_PW D A idx s n z : holds D A idx s -> In z (vectors V M) ->
  conditional_weight ws (table_of ws D) M s n z = PW (items D A idx) (nth n D []) z.
Proof.
  intros H Iz. destruct (holds_counts D A idx s H) as (C1 & C2 & C3 & _). apply in_vectors in Iz. destruct Iz as (L & B).
  assert (BN : forall v, (v < V)%nat -> (nth v z 0 < M)%nat) by (intros; apply B, nth_In; lia).
  destruct CT as ((_ & RG & _) & _).
  unfold conditional_weight, PW, tree_weight. rewrite cols, (edges_T D s A idx H). f_equal.
  - apply prodf_ext. intros v Hv. apply in_seq in Hv. unfold node_factor, class_weight. rewrite C1 by (try apply BN; lia). f_equal.
    unfold polya.
    assert (EF : forall q, In q (block ws v) -> IZR (s_feat s q (nth v z 0%nat)) + 1 / 2 / INR M = IZR (cf (items D A idx) v q (nth v z 0%nat)) + 1 / 2 / INR M).
    { intros q Hq. rewrite (C3 v) by (try apply BN; auto; lia). reflexivity. }
    rewrite (sumf_ext _ _ _ EF). f_equal. apply prodf_ext. intros q Hq. rewrite EF by auto. reflexivity.
  - apply prodf_ext. intros [e [a b]] I. pose proof (in_combine_r _ _ _ _ I) as I2. destruct (RG _ _ I2). apply nth_edge_list in I.
    unfold pair_factor, class_weight. rewrite (edges_T D s A idx H). rewrite (nth_error_nth _ _ (0, 0)%nat I).
    rewrite (C2 e a b), !C1 by (auto; apply BN; auto). reflexivity.
Qed.

(** *** States *)
Lemma full_holds D A : (forall x, In x D -> length x = list_sum ws) -> (forall x, In x D -> forall c, In c x -> (0 <= c)%Z) ->
  In A (matrices (length D) V M) -> exists s, gfull ws (table_of ws D) M (TS V (make_tree T)) A s /\ holds D A (seq 0 (length D)) s.
Proof.
  intros LD ND HA. set (tb := table_of ws D). pose proof (tof_ok D LD) as TK. pose proof (tof_nonneg D ND) as NN. fold tb in TK, NN.
  assert (EV : num_cols tb = V) by apply cols.
  destruct (init_exists tb prior M) as (s0 & E0). 1: lia. 1: rewrite EV; lia. 1: rewrite EV; exact LP.
  destruct (C23_states ws tb prior M s0 T A TK NN (proj1 HM) E0) as (s & FS).
  { rewrite EV. apply CT. }
  { rewrite EV. exact HA. }
  pose proof (full_gfull ws tb prior M _ _ _ TK (proj1 HM) FS) as GF. rewrite EV in GF. exists s. split; [exact GF|].
  destruct GF as (TI & ET & L & CA). constructor; auto.
  - apply (all_added ws tb M (proj1 HM) s TI L).
  - intros n v I Hv. apply in_seq in I. rewrite <- CA. symmetry. apply class_matrix_nth; [cbn [num_rows]; unfold num_rows, tb; cbn; lia|]. rewrite EV. exact Hv.
Qed.

Lemma full_holds' D A s : (forall x, In x D -> length x = list_sum ws) -> gfull ws (table_of ws D) M (TS V (make_tree T)) A s -> holds D A (seq 0 (length D)) s.
Proof.
  intros LD (TI & ET & L & CA). constructor; auto.
  - apply (all_added ws (table_of ws D) M (proj1 HM) s TI L).
  - intros n v I Hv. apply in_seq in I. rewrite <- CA. symmetry. apply class_matrix_nth; [unfold num_rows; cbn; lia|]. rewrite cols. exact Hv.
Qed.

Lemma items_full D : forall A, length A = length D -> items D A (seq 0 (length D)) = combine D A.
Proof.
  induction D as [|x D IH]; intros [|z A] L; try discriminate; [reflexivity|]. injection L as L. cbn [length seq]. unfold items in *. cbn [map combine nth].
  f_equal. rewrite <- seq_shift, map_map. rewrite <- IH by auto. apply map_ext. reflexivity.
Qed.

Lemma items_tail x D z A : length A = length D -> items (x :: D) (z :: A) (seq 1 (length D)) = combine D A.
Proof.
  intros L. rewrite <- (items_full D A L). unfold items. rewrite <- seq_shift, map_map. apply map_ext. reflexivity.
Qed.

Lemma gain_pure x D z A : length x = list_sum ws -> (forall c, In c x -> (0 <= c)%Z) ->
  (forall x, In x D -> length x = list_sum ws) -> (forall x, In x D -> forall c, In c x -> (0 <= c)%Z) ->
  In z (vectors V M) -> In A (matrices (length D) V M) ->
  exp (PL ((x, z) :: combine D A)) = exp (PL (combine D A)) * PW (combine D A) x z.
Proof.
  intros Lx Nx LD ND Hz HA.
  assert (LA : length A = length D).
  { pose proof (proj1 (in_matrices (table_of ws D) M (proj1 HM) (length D) A)) as Q. rewrite cols in Q. apply Q, HA. }
  assert (HA' : In (z :: A) (matrices (length (x :: D)) V M)).
  { cbn [length matrices]. apply in_flat_map. exists z. split; [exact Hz|]. now apply in_map. }
  assert (LD' : forall y, In y (x :: D) -> length y = list_sum ws) by (intros y [<-|I]; auto).
  assert (ND' : forall y, In y (x :: D) -> forall c, In c y -> (0 <= c)%Z) by (intros y [<-|I]; [exact Nx|exact (ND y I)]).
  destruct (full_holds (x :: D) (z :: A) LD' ND' HA') as (s & GF & H).
  pose proof (tof_ok _ LD') as TK. pose proof (tof_nonneg _ ND') as NN. set (tb := table_of ws (x :: D)) in *.
  pose proof (h_inv _ _ _ _ H) as TI. pose proof (h_added _ _ _ _ H) as PA.
  assert (I0 : In 0%nat (s_added s)). { apply (Permutation_in _ (Permutation_sym PA)). cbn [length seq]. now left. }
  destruct (remove_row_Ok ws tb M TK (proj1 HM) s 0 TI I0) as (s0 & E & T0 & EA & ET0 & EAs).
  assert (PA0 : Permutation (s_added s) (0%nat :: s_added s0)) by (rewrite EA; now apply set_remove_perm).
  assert (P1 : Permutation (s_added s0) (seq 1 (length D))).
  { apply Permutation_cons_inv with (a := 0%nat). rewrite <- PA0. exact PA. }
  assert (H0 : holds (x :: D) (z :: A) (seq 1 (length D)) s0).
  { constructor; auto.
    - now rewrite ET0, (h_tree _ _ _ _ H).
    - intros n v I Hv. rewrite EAs. apply (h_asg _ _ _ _ H); auto. cbn [length seq]. now right. }
  assert (CZ : classes_of tb s 0 = z).
  { rewrite <- (class_matrix_row tb s 0) by (unfold num_rows, tb; cbn; lia). destruct GF as (_ & _ & _ & ->). reflexivity. }
  pose proof (gain lg REC ws tb M TK (proj1 HM) NN s s0 0 TI T0) as G. rewrite CZ in G.
  rewrite <- (items_tail x D z A LA). pose proof (CW_PW (x :: D) (z :: A) (seq 1 (length D)) s0 0 z H0 Hz) as CW. cbn [nth] in CW. rewrite <- CW. fold tb.
  replace ((x, z) :: items (x :: D) (z :: A) (seq 1 (length D))) with (items (x :: D) (z :: A) (seq 0 (length (x :: D)))) by reflexivity.
  rewrite <- (Lform_PL (x :: D) (z :: A) _ s LD' H), <- (Lform_PL (x :: D) (z :: A) _ s0 LD' H0). fold tb.
  rewrite G; auto.
  - rewrite exp_plus, exp_ln; [reflexivity|]. apply cond_weight_pos; auto; [apply HM|unfold num_rows, tb; cbn; lia|unfold tb; rewrite cols; exact Hz].
  - unfold num_rows, tb. cbn. lia.
Qed.

(** *** Summing over one row and its classes *)
Lemma polya_hot x v (a : nat -> R) : hot_block ws x v -> (forall q, In q (block ws v) -> 0 < a q) ->
  polya (block ws v) a (fun q => Z.to_nat (nth q x 0%Z)) = prodf (block ws v) (fun q => powerRZ (a q / sumf (block ws v) a) (nth q x 0%Z)).
Proof.
  intros H AP. assert (NDB : NoDup (block ws v)) by apply seq_NoDup. unfold polya. destruct H as [Z|(q0 & I0 & H)].
  - rewrite prodf_one. 2: { intros q Iq. rewrite Z by auto. reflexivity. }
    rewrite prodf_one. 2: { intros q Iq. rewrite Z by auto. reflexivity. }
    rewrite list_sum_zero by (intros q Iq; now rewrite Z). cbn. lra.
  - assert (SP : 0 < sumf (block ws v) a). { apply sumf_pos; [intros; left; auto|]. exists q0. auto. }
    rewrite (prodf_factor_at (block ws v) (fun q => rising (a q) (Z.to_nat (nth q x 0%Z))) (fun _ => 1) q0 (a q0)); auto.
    2: { rewrite H, Nat.eqb_refl by auto. change (Z.to_nat 1) with 1%nat. unfold rising. ring. }
    2: { intros q Iq NE. rewrite H by auto. apply Nat.eqb_neq in NE. rewrite NE. reflexivity. }
    rewrite (prodf_factor_at (block ws v) (fun q => powerRZ (a q / sumf (block ws v) a) (nth q x 0%Z)) (fun _ => 1) q0 (a q0 / sumf (block ws v) a)); auto.
    2: { rewrite H, Nat.eqb_refl by auto. change (powerRZ (a q0 / sumf (block ws v) a) 1) with ((a q0 / sumf (block ws v) a) * 1). ring. }
    2: { intros q Iq NE. rewrite H by auto. apply Nat.eqb_neq in NE. rewrite NE. reflexivity. }
    rewrite (prodf_one (block ws v) (fun _ => 1)) by auto.
    rewrite (list_sum_one (block ws v) _ q0); auto; [cbn [rising]; field; lra| |].
    + rewrite H, Nat.eqb_refl by auto. reflexivity.
    + intros q Iq NE. rewrite H by auto. apply Nat.eqb_neq in NE. now rewrite NE.
Qed.

Lemma norm_pure D A obs : (forall x, In x D -> length x = list_sum ws) -> (forall x, In x D -> forall c, In c x -> (0 <= c)%Z) ->
  In A (matrices (length D) V M) -> length obs = V ->
  sumf (pattern_rows ws obs) (fun x => sumf (vectors V M) (PW (combine D A) x)) = INR (length D) + INR M / 2.
Proof.
  intros LD ND HA LO. set (W := INR (length D) + INR M / 2). set (l := combine D A).
  assert (LA : length A = length D).
  { pose proof (proj1 (in_matrices (table_of ws D) M (proj1 HM) (length D) A)) as Q. rewrite cols in Q. apply Q, HA. }
  destruct (full_holds D A LD ND HA) as (s & GF & H). set (tb := table_of ws D) in *.
  pose proof (tof_ok D LD) as TK. pose proof (tof_nonneg D ND) as NN. fold tb in TK, NN.
  assert (EV : num_cols tb = V) by apply cols.
  assert (EN : num_rows tb = length D) by reflexivity.
  pose proof (h_inv _ _ _ _ H) as TI. fold tb in TI. pose proof (h_added _ _ _ _ H) as PA.
  set (m := model_of tb M s (repeat 0 (tri V))).
  assert (C : consistent ws V M (length D) m).
  { pose proof (tinv_consistent ws tb M s (repeat 0 (tri V)) TK NN HM) as Q. rewrite EV, EN in Q. apply Q; auto.
    - eapply full_valid; eauto; try lia; try (rewrite EV; exact LP).
    - rewrite repeat_length. reflexivity. }
  destruct (build_server ws V M (length D) m C L_Estimate.naive_mst L_Estimate.naive_mst_contract) as (sv & edges & E' & SF & ST & SV & SE & SFe & _).
  assert (SM : d_M m = M) by reflexivity.
  assert (TV : ts_V (d_tree m) = V) by (unfold m; cbn [model_of d_tree]; rewrite (h_tree _ _ _ _ H); reflexivity).
  assert (TE : ts_get_edges (d_tree m) = T) by (unfold m; cbn [model_of d_tree]; apply (edges_T D s A _ H)).
  destruct (holds_counts D A _ s H) as (C1 & C2 & C3 & _). rewrite (items_full D A LA) in C1, C2, C3. fold l in C1, C2, C3.
  destruct CT as ((LT & RG & _) & _).
  assert (MP : 0 < INR M) by (apply lt_0_INR; lia).
  assert (WPos : 0 < W). { unfold W. pose proof (pos_INR (length D)). lra. }
  (* totals *)
  assert (VS : forall v, (v < V)%nat -> sumf (seq 0 M) (fun c => IZR (d_vert m v c) + 1 / 2) = W).
  { intros v Hv. rewrite sumf_plus, sumf_const, seq_length, <- IZR_total. rewrite (cm_vert _ _ _ _ _ C v Hv), <- INR_IZR_INZ. unfold W. lra. }
  assert (ESum : forall e a b, nth_error T e = Some (a, b) -> sumf (seq 0 M) (fun c1 => sumf (seq 0 M) (fun c2 => IZR (d_edge m e c1 c2) + 1 / 2 / INR M)) = W).
  { intros e a b E. pose proof (nth_error_In _ _ E) as I. destruct (RG _ _ I) as (Ra & _).
    rewrite <- (VS a Ra). apply sumf_ext. intros c Hc. apply in_seq in Hc. rewrite sumf_plus, sumf_const, seq_length, <- IZR_total.
    pose proof (proj1 (cm_edge _ _ _ _ _ C e a b c ltac:(rewrite TE; exact E) ltac:(lia))) as QE. change (fun c2 : nat => d_edge m e c c2) with (d_edge m e c) in QE. rewrite QE. f_equal. field. lra. }
  assert (VPos : forall v c, (v < V)%nat -> (c < M)%nat -> 0 < IZR (cv l v c) + 1 / 2).
  { intros v c Hv Hc. rewrite <- C1 by auto. pose proof (cm_vert_nonneg _ _ _ _ _ C v c Hv Hc) as P. apply IZR_le in P. cbn [m model_of d_vert] in P. lra. }
  assert (FPos : forall v q c, (v < V)%nat -> In q (block ws v) -> (c < M)%nat -> 0 < IZR (cf l v q c) + 1 / 2 / INR M).
  { intros v q c Hv Hq Hc. rewrite <- (C3 v) by auto. assert (QL : (q < list_sum ws)%nat) by (apply (proj2 (L_Ragged.owns_exists ws q)); exists v; unfold block in Hq; apply in_seq in Hq; split; [exact Hv|lia]).
    pose proof (cm_feat_nonneg _ _ _ _ _ C q c QL Hc) as P. apply IZR_le in P. cbn [m model_of d_feat] in P.
    assert (0 < 1 / 2 / INR M) by (apply Rdiv_lt_0_compat; lra). lra. }
  assert (KEY : forall x z, In x (pattern_rows ws obs) -> In z (vectors V M) -> PW l x z = W * (latent_prob m z * row_given ws m x z)).
  { intros x z Ix Iz. apply in_vectors in Iz. destruct Iz as (Lz & Bz).
    assert (BN : forall v, (v < V)%nat -> (nth v z 0 < M)%nat) by (intros; apply Bz, nth_In; lia).
    unfold PW, latent_prob, row_given, tree_weight. rewrite TV, TE.
    set (NV := prodf (seq 0 V) (fun v => vert_prob m v (nth v z 0%nat))).
    set (RW := prodf (seq 0 V) (fun v => prodf (block ws v) (fun q => powerRZ (feat_prob ws m v q (nth v z 0%nat)) (nth q x 0%Z)))).
    set (EW := prodf (combine (seq 0 (length T)) T) (fun '(e, (v1, v2)) =>
        let '(a, b) := nth e T (0, 0)%nat in edge_prob m e (nth v1 z 0%nat) (nth v2 z 0%nat) / (vert_prob m a (nth v1 z 0%nat) * vert_prob m b (nth v2 z 0%nat)))).
    rewrite (prodf_ext (seq 0 V) _ (fun v => W * (vert_prob m v (nth v z 0%nat) * prodf (block ws v) (fun q => powerRZ (feat_prob ws m v q (nth v z 0%nat)) (nth q x 0%Z))))).
    2: { intros v Hv. apply in_seq in Hv. assert (Hv' : (v < V)%nat) by lia. rewrite polya_hot.
         - unfold vert_prob. rewrite SM, (VS v Hv'). cbn [m model_of d_vert]. rewrite C1 by auto.
           rewrite (prodf_ext (block ws v) (fun q => powerRZ (feat_prob ws m v q (nth v z 0%nat)) (nth q x 0%Z))
              (fun q => powerRZ ((IZR (cf l v q (nth v z 0%nat)) + 1 / 2 / INR M) / sumf (block ws v) (fun q => IZR (cf l v q (nth v z 0%nat)) + 1 / 2 / INR M)) (nth q x 0%Z))).
           + field. lra.
           + intros q Hq. unfold feat_prob. rewrite SM. cbn [m model_of d_feat]. f_equal.
             rewrite (C3 v) by auto. f_equal. apply sumf_ext. intros q' Hq'. rewrite (C3 v) by auto. reflexivity.
         - apply (pattern_hot ws obs); auto.
         - intros q Hq. apply FPos; auto. }
    rewrite (prodf_ext (combine (seq 0 (length T)) T) _ (fun p => / W * (fun '(e, (v1, v2)) =>
        let '(a, b) := nth e T (0, 0)%nat in edge_prob m e (nth v1 z 0%nat) (nth v2 z 0%nat) / (vert_prob m a (nth v1 z 0%nat) * vert_prob m b (nth v2 z 0%nat))) p)).
    2: { intros [e [a b]] I. pose proof (in_combine_r _ _ _ _ I) as I2. destruct (RG _ _ I2) as (Ra & Rb). apply nth_edge_list in I.
         rewrite (nth_error_nth _ _ (0, 0)%nat I). unfold edge_prob, vert_prob. rewrite SM, (ESum e a b I), (VS a Ra), (VS b Rb).
         cbn [m model_of d_vert d_edge]. rewrite (C2 e a b), !C1 by auto. field.
         pose proof (VPos a (nth a z 0%nat) Ra (BN a Ra)). pose proof (VPos b (nth b z 0%nat) Rb (BN b Rb)). repeat split; lra. }
    rewrite !prodf_mult, !prodf_const. fold NV RW EW. rewrite combine_length, !seq_length, Nat.min_id.
    replace V with (S (length T)). cbn [pow].
    assert (PI : W ^ length T * (/ W) ^ length T = 1). { rewrite <- Rpow_mult_distr, Rinv_r by lra. apply pow1. }
    transitivity (W * (NV * EW * RW) * (W ^ length T * (/ W) ^ length T)); [ring|]. rewrite PI. ring. }
  rewrite (sumf_ext _ _ (fun x => W * row_prob ws m x)).
  - rewrite sumf_scal. rewrite (pattern_total ws V M m edges sv SF ST SM SV SE SFe).
    + lra.
    + intros v Hv. apply WP, nth_In. exact Hv.
    + exact LO.
  - intros x Ix. rewrite (sumf_ext _ _ (fun z => W * (latent_prob m z * row_given ws m x z))) by (intros z Iz; now apply KEY).
    rewrite sumf_scal. unfold row_prob. rewrite TV, SM. reflexivity.
Qed.

(** *** All rows *)
Fixpoint growth (n : nat) : R := match n with O => 1 | S n => (INR n + INR M / 2) * growth n end.

Lemma growth_pos n : 0 < growth n.
Proof.
  induction n as [|n IH]; cbn [growth]; [lra|]. apply Rmult_lt_0_compat; auto. pose proof (pos_INR n).
  assert (0 < INR M) by (apply lt_0_INR; lia). lra.
Qed.

Lemma data_facts pats : Forall (fun p => length p = V) pats -> forall D, In D (pattern_data ws pats) ->
  length D = length pats /\ (forall x, In x D -> length x = list_sum ws) /\ (forall x, In x D -> forall c, In c x -> (0 <= c)%Z).
Proof.
  induction pats as [|p pats IH]; intros FP D I; cbn [pattern_data] in I.
  - destruct I as [<-|[]]. split; [reflexivity|]. split; intros x [].
  - inversion FP as [|? ? Lp FP']; subst. apply in_flat_map in I. destruct I as (x & Ix & I). apply in_map_iff in I. destruct I as (D' & <- & I).
    destruct (IH FP' D' I) as (L & L1 & L2). split; [cbn; lia|]. split.
    + intros y [<-|Iy]; [now apply (pattern_length ws p)|auto].
    + intros y [<-|Iy]; [now apply (pattern_nonneg ws p)|now apply L2].
Qed.

Lemma evidence pats : Forall (fun p => length p = V) pats ->
  sumf (pattern_data ws pats) (fun D => sumf (matrices (length pats) V M) (fun A => exp (PL (combine D A)))) = exp (PL []) * growth (length pats).
Proof.
  induction pats as [|p pats IH]; intros FP.
  - cbn [pattern_data length matrices growth]. rewrite !sumf_cons, !sumf_nil. cbn [combine]. rewrite Rmult_1_r, !Rplus_0_r. reflexivity.
  - inversion FP as [|? ? Lp FP']; subst. cbn [pattern_data length matrices]. rewrite sumf_flat_map.
    transitivity (sumf (pattern_data ws pats) (fun D => sumf (matrices (length pats) V M) (fun A =>
       sumf (pattern_rows ws p) (fun x => sumf (vectors V M) (fun z => exp (PL (combine D A)) * PW (combine D A) x z))))).
    + rewrite (sumf_ext (pattern_data ws pats) _ (fun D => sumf (pattern_rows ws p) (fun x => sumf (matrices (length pats) V M) (fun A =>
         sumf (vectors V M) (fun z => exp (PL (combine D A)) * PW (combine D A) x z))))).
      2: { intros D _. apply (sumf_swap _ _ (matrices (length pats) V M) (pattern_rows ws p)). }
      rewrite (sumf_swap _ _ (pattern_data ws pats) (pattern_rows ws p)). apply sumf_ext. intros x Ix. rewrite sumf_map. apply sumf_ext. intros D ID.
      rewrite sumf_flat_map. rewrite (sumf_swap _ _ (matrices (length pats) V M) (vectors V M)). apply sumf_ext. intros z Iz. rewrite sumf_map. apply sumf_ext. intros A IA.
      destruct (data_facts pats FP' D ID) as (LD & LD1 & LD2). cbn [combine]. rewrite <- LD in IA.
      apply gain_pure; auto; [now apply (pattern_length ws p)|now apply (pattern_nonneg ws p)].
    + rewrite (sumf_ext _ _ (fun D => sumf (matrices (length pats) V M) (fun A => exp (PL (combine D A))) * (INR (length pats) + INR M / 2))).
      * rewrite sumf_scal_r, (IH FP'). cbn [growth]. ring.
      * intros D ID. destruct (data_facts pats FP' D ID) as (LD & LD1 & LD2). rewrite <- sumf_scal_r. apply sumf_ext. intros A IA.
        rewrite <- LD in IA |- *. rewrite <- (norm_pure D A p LD1 LD2 IA Lp).
        rewrite <- sumf_scal. apply sumf_ext. intros x _. rewrite <- sumf_scal. reflexivity.
Qed.

Lemma PL_nil : PL [] = INR V * (INR M * lg (0 + 1 / 2)) +
  INR (V - 1) * (INR M * (INR M * lg (0 + 1 / 2 / INR M)) - INR M * lg (0 + 1 / 2) - INR M * lg (0 + 1 / 2)) +
  sumf (seq 0 V) (fun v => sumf (block ws v) (fun _ => INR M * lg (0 + 1 / 2 / INR M)) - INR M * lg (0 + meas_prior (make_ragged_index ws) M v)).
Proof.
  assert (PV : forall v, PLv [] v = INR M * lg (0 + 1 / 2)). { intros v. unfold PLv. cbn [cv tot fold_right]. unfold cv, tot. cbn [fold_right]. rewrite sumf_const, seq_length. reflexivity. }
  destruct CT as ((LT & _) & _). unfold PL. f_equal; [f_equal|].
  - rewrite (sumf_ext _ _ (fun _ => INR M * lg (0 + 1 / 2))) by (intros; apply PV). rewrite sumf_const, seq_length. reflexivity.
  - replace (V - 1)%nat with (length T) by lia.
    rewrite (sumf_ext T _ (fun _ => INR M * (INR M * lg (0 + 1 / 2 / INR M)) - INR M * lg (0 + 1 / 2) - INR M * lg (0 + 1 / 2))).
    + apply sumf_const.
    + intros [a b] _. rewrite !PV. unfold ce, tot. cbn [fold_right]. rewrite (sumf_ext _ _ (fun _ => INR M * lg (0 + 1 / 2 / INR M))).
      * rewrite sumf_const, seq_length. reflexivity.
      * intros. rewrite sumf_const, seq_length. reflexivity.
  - apply sumf_ext. intros v _. unfold cf, cm, tot. cbn [fold_right]. f_equal.
    + apply sumf_ext. intros q _. rewrite sumf_const, seq_length. reflexivity.
    + rewrite sumf_const, seq_length. reflexivity.
Qed.
End Pure.
