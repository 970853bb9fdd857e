(** Sufficient statistics of the trainer. *)
From Coq Require Import List Arith Lia Bool ZArith Reals Lra Permutation FunctionalExtensionality Sorted.
From Verif Require Import Base L_Base Spec_Graph L_Graph Spec_Sum M_Structure L_MakeTree L_Program L_ProgramValid Spec_Program L_Center L_Prop1 M_Rand L_Rand M_Util Spec_Ragged L_Ragged M_Array M_SampleTree M_EstimateTree M_Schedule M_Training Spec_Stats.
Import ListNotations.
Open Scope nat_scope.

(** ** Sums *)
Lemma total_cons a l f : total (a :: l) f = (f a + total l f)%Z.
Proof. reflexivity. Qed.
Lemma total_app l l' f : total (l ++ l') f = (total l f + total l' f)%Z.
Proof. induction l; simpl; auto. rewrite IHl. lia. Qed.
Lemma total_ext l f g : (forall n, In n l -> f n = g n) -> total l f = total l g.
Proof. induction l; simpl; intros; auto. rewrite H, IHl by auto. reflexivity. Qed.
Lemma total_perm l l' f : Permutation l l' -> total l f = total l' f.
Proof. induction 1; simpl; lia. Qed.
Lemma total_zero l f : (forall n, In n l -> f n = 0%Z) -> total l f = 0%Z.
Proof. induction l; simpl; intros; auto. rewrite H, IHl by auto. reflexivity. Qed.
Lemma total_plus l f g : total l (fun n => f n + g n)%Z = (total l f + total l g)%Z.
Proof. induction l; simpl; auto. rewrite IHl. lia. Qed.
Lemma total_scal l f c : total l (fun n => c * f n)%Z = (c * total l f)%Z.
Proof. induction l; simpl; [lia|]. rewrite IHl. lia. Qed.
Lemma total_nonneg l f : (forall n, In n l -> 0 <= f n)%Z -> (0 <= total l f)%Z.
Proof. induction l; simpl; intros; [lia|]. pose proof (H a (or_introl eq_refl)). specialize (IHl (fun n Hn => H n (or_intror Hn))). lia. Qed.
Lemma total_const1 l : total l (fun _ => 1%Z) = Z.of_nat (length l).
Proof. induction l; auto. rewrite total_cons, IHl. cbn [length]. lia. Qed.
Lemma total_swap l l' (f : nat -> nat -> Z) : total l (fun x => total l' (f x)) = total l' (fun y => total l (fun x => f x y)).
Proof.
  induction l; simpl. symmetry; apply total_zero; auto. rewrite IHl, total_plus. reflexivity.
Qed.
(** a sum with a single non-zero term *)
Lemma total_single l v f : NoDup l -> In v l -> (forall n, In n l -> n <> v -> f n = 0%Z) -> total l f = f v.
Proof.
  induction l; simpl; intros ND I Z; [tauto|]. inversion ND; subst.
  destruct (Nat.eq_dec a v) as [->|D].
  - rewrite (total_zero l); [lia|]. intros n Hn. apply Z; auto. intro; subst; auto.
  - destruct I as [|I]; [congruence|]. rewrite IHl by (auto; intros; apply Z; auto). rewrite (Z a) by auto. lia.
Qed.

Lemma set_add_perm x s : ~ In x s -> Permutation (set_add x s) (x :: s).
Proof.
  induction s; simpl; intros H; auto. destruct (x <? a); auto.
  destruct (Nat.eqb_spec x a); [subst; tauto|]. rewrite IHs by tauto. apply perm_swap.
Qed.
Lemma set_remove_perm x s : In x s -> Permutation s (x :: set_remove_raw x s).
Proof.
  induction s; simpl; intros H; [tauto|]. destruct (Nat.eqb_spec x a); [subst; auto|].
  destruct H as [|H]; [congruence|]. rewrite (IHs H) at 1. apply perm_swap.
Qed.

Lemma foldM_Ok A S (f : S -> A -> result S) (g : S -> A -> S) l : forall s,
  (forall s a, In a l -> f s a = Ok (g s a)) -> foldM f l s = Ok (fold_left g l s).
Proof. induction l; simpl; intros; auto. rewrite H by auto. simpl. apply IHl. auto. Qed.

(** ** The updates *)
Section Update.
Variables (ws : list nat) (tb : table) (M : nat).
Hypothesis TK : table_ok ws tb.
Notation V := (num_cols tb).

Lemma fold_set2 (w : nat -> Z) (z : nat -> nat) l : forall f v m,
  fold_left (fun f u => set2 f u (z u) (f u (z u) + w u)%Z) l f v m =
  (f v m + total l (fun u => if (Nat.eqb (u) (v)) && (Nat.eqb (z u) (m)) then w u else 0))%Z.
Proof.
  induction l; intros f v m; simpl fold_left; [simpl; lia|]. rewrite IHl, total_cons. unfold set2.
  rewrite (Nat.eqb_sym v a), (Nat.eqb_sym m (z a)).
  destruct (Nat.eqb_spec a v), (Nat.eqb_spec (z a) m); simpl; subst; lia.
Qed.

Lemma vert_update_Ok d z f : (forall v, v < V -> z v < M) ->
  exists f', vert_update V M d z f = Ok f' /\
    forall v m, f' v m = (f v m + if (Nat.ltb (v) (V)) && (Nat.eqb (z v) (m)) then d else 0)%Z.
Proof.
  intros Hz. unfold vert_update.
  rewrite (foldM_Ok _ _ _ (fun f u => set2 f u (z u) (f u (z u) + d)%Z)).
  - eexists. split; [reflexivity|]. intros v m. rewrite (fold_set2 (fun _ => d)). f_equal.
    destruct (Nat.ltb_spec v V).
    + rewrite (total_single _ v); [rewrite Nat.eqb_refl; reflexivity|apply seq_NoDup|apply in_seq; lia|].
      intros n _ N. destruct (Nat.eqb_spec n v); [contradiction|reflexivity].
    + apply total_zero. intros n Hn. apply in_seq in Hn. destruct (Nat.eqb_spec n v); [lia|reflexivity].
  - intros g a Ha. apply in_seq in Ha. unfold check. rewrite (proj2 (Nat.ltb_lt _ _)) by (apply Hz; lia). reflexivity.
Qed.

(** the contribution of a row to the pair counts of a grid *)
Definition pair_hit (grid : list triple) (z : nat -> nat) (e m1 m2 : nat) : bool :=
  match nth_error grid e with Some (_, v1, v2) => (z v1 =? m1) && (z v2 =? m2) | None => false end.

Lemma edge_update_Ok d z grid f p : (forall v, v < V -> z v < M) ->
  (forall x v1 v2, In (x, v1, v2) grid -> v1 < V /\ v2 < V) -> length grid <= V - 1 ->
  exists f' p', edge_update V (V - 1) M d grid z (f, p) = Ok (f', p') /\
    forall e m1 m2, f' e m1 m2 = (f e m1 m2 + if pair_hit grid z e m1 m2 then d else 0)%Z /\
      p' e m1 m2 = (p e m1 m2 + if pair_hit grid z e m1 m2 then IZR d else 0)%R.
Proof.
  intros Hz Hg Hl. unfold edge_update.
  set (step := fun (st : (nat -> nat -> nat -> Z) * (nat -> nat -> nat -> R)) e =>
     let '(f, p) := st in
     let '(_, v1, v2) := nth e grid (0, 0, 0) in
     (set3 f e (z v1) (z v2) (f e (z v1) (z v2) + d)%Z, set3 p e (z v1) (z v2) (p e (z v1) (z v2) + IZR d)%R)).
  rewrite (foldM_Ok _ _ _ step).
  - assert (G : forall n f p f' p', n <= length grid -> fold_left step (seq 0 n) (f, p) = (f', p') ->
      forall e m1 m2, f' e m1 m2 = (f e m1 m2 + if (Nat.ltb (e) (n)) && pair_hit grid z e m1 m2 then d else 0)%Z /\
      p' e m1 m2 = (p e m1 m2 + if (e <? n) && pair_hit grid z e m1 m2 then IZR d else 0)%R).
    { clear f p. induction n; intros f p f' p' Hn E e m1 m2.
      - simpl in E. inversion E; subst. simpl. split; [lia|lra].
      - rewrite seq_S, fold_left_app in E. cbn [fold_left Nat.add] in E.
        destruct (fold_left step (seq 0 n) (f, p)) as [f1 p1] eqn:E1.
        destruct (IHn f p f1 p1 ltac:(lia) E1 e m1 m2) as (A & B).
        unfold step in E at 1. 
        pose proof (nth_error_nth' grid (0,0,0) (ltac:(lia) : n < length grid)) as NE.
        destruct (nth n grid (0, 0, 0)) as [[x v1] v2] eqn:EN. inversion E; subst; clear E.
        unfold set3. destruct (Nat.eqb_spec e n) as [->|D].
        + replace (n <? n) with false in A, B by (symmetry; apply Nat.ltb_irrefl). cbn [andb] in A, B.
          rewrite (proj2 (Nat.ltb_lt n (S n))) by lia. cbn [andb].
          unfold pair_hit. rewrite NE. rewrite (Nat.eqb_sym m1), (Nat.eqb_sym m2).
          destruct (Nat.eqb_spec (z v1) m1), (Nat.eqb_spec (z v2) m2); cbn [andb]; subst.
          * split; [rewrite A; lia|rewrite B; lra].
          * split; [rewrite A; lia|rewrite B; lra].
          * split; [rewrite A; lia|rewrite B; lra].
          * split; [rewrite A; lia|rewrite B; lra].
        + cbn [andb]. replace (e <? S n) with (e <? n). auto.
          destruct (Nat.ltb_spec e n), (Nat.ltb_spec e (S n)); auto; lia. }
    destruct (fold_left step (seq 0 (length grid)) (f, p)) as [f' p'] eqn:E.
    exists f', p'. split; [reflexivity|]. intros e m1 m2.
    destruct (G _ f p f' p' (le_n _) E e m1 m2) as (A & B).
    destruct (Nat.ltb_spec e (length grid)); auto.
    assert (PH : pair_hit grid z e m1 m2 = false).
    { unfold pair_hit. now rewrite (proj2 (nth_error_None grid e)). }
    rewrite PH in *. auto.
  - intros [f1 p1] e He. apply in_seq in He. rewrite (get_Ok _ _ _ _ (0,0,0)) by lia. cbn [bind].
    unfold step. destruct (nth e grid (0, 0, 0)) as [[x v1] v2] eqn:EN.
    assert (I : In (x, v1, v2) grid) by (rewrite <- EN; apply nth_In; lia).
    destruct (Hg _ _ _ I) as (H1 & H2). unfold check.
    rewrite (proj2 (Nat.ltb_lt v1 _)), (proj2 (Nat.ltb_lt v2 _)), (proj2 (Nat.ltb_lt e _)) by lia.
    rewrite (proj2 (Nat.ltb_lt (z v1) _)), (proj2 (Nat.ltb_lt (z v2) _)) by auto. reflexivity.
Qed.

Lemma ri_nth v : v <= V -> nth v (tb_ri tb) 0 = list_sum (firstn v ws).
Proof.
  intros H. rewrite (tk_ri _ _ TK). pose proof (tk_width _ _ TK).
  apply nth_error_nth. apply mri_nth. lia.
Qed.
Lemma ri_get e v : v <= V -> get e (tb_ri tb) v = Ok (list_sum (firstn v ws)).
Proof. intros H. rewrite (tk_ri _ _ TK). pose proof (tk_width _ _ TK). apply mri_get. lia. Qed.
Lemma ty_get e v : v < V -> get e (tb_types tb) v = Ok TY_MULTINOMIAL.
Proof.
  intros H. unfold num_cols in H. rewrite (get_Ok _ _ _ _ 0) by auto. f_equal.
  pose proof (tk_types _ _ TK) as F. rewrite Forall_forall in F. apply F. apply nth_In. auto.
Qed.

Lemma zsum_block row v : v < V -> length row = list_sum ws ->
  zsum (slice row (list_sum (firstn v ws)) (list_sum (firstn (v + 1) ws))) = block_sum ws row v.
Proof.
  intros Hv L. pose proof (tk_width _ _ TK). rewrite Nat.add_1_r, sum_firstn_S by lia.
  rewrite slice_map. reflexivity. rewrite <- sum_firstn_S by lia. rewrite L. apply sum_firstn_all.
Qed.

(** the contribution of a row to the feature counts *)
Definition feat_add (z : nat -> nat) (row : list Z) (r m : nat) : Z :=
  total (seq 0 V) (fun u => if (Nat.leb (list_sum (firstn u ws)) r) && (Nat.ltb r (list_sum (firstn (u + 1)%nat ws))) && (Nat.eqb (z u) (m)) then nth r row 0 else 0)%Z.

Lemma feat_add_owns z row v r m : owns ws v r -> feat_add z row r m = (one_if (Nat.eqb (z v) (m)) * nth r row 0)%Z.
Proof.
  intros O. pose proof (tk_width _ _ TK). destruct O as (Hv & O1).
  unfold feat_add. rewrite (total_single _ v).
  - rewrite Nat.add_1_r, sum_firstn_S by auto.
    rewrite (proj2 (Nat.leb_le _ _)), (proj2 (Nat.ltb_lt _ _)) by lia. cbn [andb]. unfold one_if. destruct (z v =? m); lia.
  - apply seq_NoDup.
  - apply in_seq. lia.
  - intros u Hu N. apply in_seq in Hu. rewrite Nat.add_1_r, sum_firstn_S by lia.
    destruct (Nat.leb_spec (list_sum (firstn u ws)) r); auto.
    destruct (Nat.ltb_spec r (list_sum (firstn u ws) + nth u ws 0)); auto.
    exfalso. apply N. apply (owns_unique ws u v r); split; auto; lia.
Qed.

Lemma feat_update_Ok d z row f g : (forall v, v < V -> z v < M) -> length row = list_sum ws ->
  exists f' g', feat_update V M d (tb_types tb) (tb_ri tb) row z (f, g) = Ok (f', g') /\
    (forall r m, f' r m = (f r m + d * feat_add z row r m)%Z) /\
    (forall v m, g' v m = (g v m + d * if (Nat.ltb (v) (V)) && (Nat.eqb (z v) (m)) then block_sum ws row v else 0)%Z).
Proof.
  intros Hz L. unfold feat_update.
  set (step := fun (st : (nat -> nat -> Z) * (nat -> nat -> Z)) v =>
    (slice_add (fst st) (list_sum (firstn v ws)) (list_sum (firstn (v + 1) ws)) (z v) (fun r => d * nth r row 0)%Z,
     set2 (snd st) v (z v) (snd st v (z v) + d * block_sum ws row v)%Z)).
  rewrite (foldM_Ok _ _ _ step).
  - destruct (fold_left step (seq 0 V) (f, g)) as [f' g'] eqn:E. exists f', g'. split; [reflexivity|].
    assert (E1 : forall l st, snd (fold_left step l st) = fold_left (fun g u => set2 g u (z u) (g u (z u) + d * block_sum ws row u)%Z) l (snd st)).
    { induction l; intros; simpl; auto. rewrite IHl. reflexivity. }
    assert (E2 : forall l st r m, fst (fold_left step l st) r m = (fst st r m + d * 
       total l (fun u => if (Nat.leb (list_sum (firstn u ws)) r) && (Nat.ltb r (list_sum (firstn (u + 1)%nat ws))) && (Nat.eqb (z u) (m)) then nth r row 0 else 0))%Z).
    { induction l; intros st r m; [simpl; lia|]. cbn [fold_left]. rewrite IHl, total_cons. unfold step. cbn [fst]. unfold slice_add.
      rewrite (Nat.eqb_sym m (z a)).
      destruct ((list_sum (firstn a ws) <=? r) && (r <? list_sum (firstn (a + 1) ws)) && (z a =? m)); lia. }
    split.
    + intros r m. specialize (E2 (seq 0 V) (f, g) r m). rewrite E in E2. exact E2.
    + intros v m. specialize (E1 (seq 0 V) (f, g)). rewrite E in E1. cbn [snd] in E1. rewrite E1.
      rewrite (fold_set2 (fun u => d * block_sum ws row u)%Z). f_equal.
      destruct (Nat.ltb_spec v V).
      * rewrite (total_single _ v); [rewrite Nat.eqb_refl; cbn [andb]; destruct (z v =? m); lia|apply seq_NoDup|apply in_seq; lia|].
        intros n _ N. destruct (Nat.eqb_spec n v); [contradiction|reflexivity].
      * cbn [andb]. rewrite total_zero; [lia|]. intros n Hn. apply in_seq in Hn. destruct (Nat.eqb_spec n v); [lia|reflexivity].
  - intros [f1 g1] v Hv. apply in_seq in Hv. rewrite ty_get, !ri_get by lia. cbn [bind].
    replace (TY_MULTINOMIAL =? TY_MULTINOMIAL) with true by reflexivity.
    unfold check. rewrite (proj2 (Nat.ltb_lt _ _)) by (apply Hz; lia). cbn [bind].
    rewrite zsum_block by (auto; lia). reflexivity.
Qed.
End Update.
