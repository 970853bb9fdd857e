(** The array-based sets of structure.py:268-307 and adjacency arrays. *)
From Coq Require Import List Arith Lia Bool Permutation.
From Verif Require Import Base Spec_Graph M_Structure L_Base L_Graph L_Pairing L_MakeTree.
Import ListNotations.

(** [a] holds the size, then the items, then junk. *)
Definition jset (a : list nat) (items : list nat) : Prop :=
  exists junk, a = length items :: items ++ junk.

Lemma jset_repeat : forall V, 1 <= V -> jset (repeat 0 V) [].
Proof. intros. destruct V; [lia|]. exists (repeat 0 V). reflexivity. Qed.

Lemma jset_len : forall a items, jset a items -> length items < length a.
Proof. intros a items (junk & ->). simpl. rewrite app_length. lia. Qed.

Lemma jset_get0 : forall e a items, jset a items -> get e a 0 = Ok (length items).
Proof. intros e a items (junk & ->). reflexivity. Qed.

Lemma jset_get : forall e a items i, jset a items -> i < length items -> get e a (i + 1) = Ok (nth i items 0).
Proof.
  intros e a items i (junk & ->) H. rewrite Nat.add_1_r. unfold get. simpl.
  rewrite nth_error_app1 by auto. now rewrite (nth_error_nth' items 0 H).
Qed.

Lemma upd_app_r : forall A (l m : list A) i x, upd (l ++ m) (length l + i) x = l ++ upd m i x.
Proof. induction l; simpl; intros; auto. now rewrite IHl. Qed.

Lemma upd_app_l : forall A (l m : list A) i x, i < length l -> upd (l ++ m) i x = upd l i x ++ m.
Proof. induction l; simpl; intros; [lia|]. destruct i; simpl; auto. rewrite IHl by lia. auto. Qed.

Lemma jset_add_Ok : forall a items x, jset a items -> length items + 1 < length a ->
  exists a', jit_set_add a x = Ok a' /\ jset a' (items ++ [x]) /\ length a' = length a.
Proof.
  intros a items x J L. unfold jit_set_add. rewrite (jset_get0 _ _ _ J). cbn [bind].
  destruct J as (junk & ->). simpl length in L. rewrite app_length in L.
  destruct junk as [|j junk]; [simpl in L; lia|].
  rewrite put_Ok by (simpl; lia). cbn [bind upd]. rewrite put_Ok by (simpl; rewrite app_length; simpl; lia).
  replace (length items + 1) with (S (length items)) by lia. simpl upd.
  rewrite upd_app_at. eexists. split; [reflexivity|]. split.
  - exists junk. rewrite app_length. simpl. rewrite <- app_assoc. simpl. f_equal. lia.
  - simpl. rewrite !app_length. simpl. lia.
Qed.

Lemma jset_pop_Ok : forall a items x, jset a (items ++ [x]) ->
  exists a', jit_set_pop a = Ok (x, a') /\ jset a' items /\ length a' = length a.
Proof.
  intros a items x J. unfold jit_set_pop. rewrite (jset_get0 _ _ _ J). cbn [bind].
  destruct J as (junk & ->).
  rewrite put_Ok by (simpl; lia). cbn [bind upd]. rewrite app_length. cbn [length].
  replace (length items + 1) with (S (length items)) by lia. unfold get. cbn [nth_error].
  rewrite <- app_assoc. rewrite nth_error_app2 by lia. rewrite Nat.sub_diag. simpl.
  eexists. split; [reflexivity|]. split.
  - exists (x :: junk). f_equal. lia.
  - simpl. rewrite !app_length. simpl. lia.
Qed.

Lemma jit_find_Ok : forall items n pre junk fuel x, In x items -> length items < fuel ->
  exists l1 l2, items = l1 ++ x :: l2 /\
    jit_find fuel (S (length pre)) (n :: pre ++ items ++ junk) x = Ok (S (length pre + length l1)).
Proof.
  induction items; intros n pre junk fuel x H L; [destruct H|].
  destruct fuel; [simpl in L; lia|]. simpl jit_find. unfold get. simpl nth_error.
  rewrite nth_error_app2 by lia. rewrite Nat.sub_diag. simpl.
  destruct (Nat.eqb_spec a x).
  - subst. exists [], items. split; [reflexivity|]. simpl length. now rewrite Nat.add_0_r.
  - destruct H as [H|H]; [congruence|]. simpl in L.
    destruct (IHitems n (pre ++ [a]) junk fuel x H) as (l1 & l2 & E & F); [lia|].
    exists (a :: l1), l2. split; [simpl; now f_equal|].
    rewrite app_length in F. simpl in F. rewrite <- app_assoc in F. simpl in F.
    replace (length pre + 1) with (S (length pre)) in * by lia. replace (S (length pre + 1)) with (S (S (length pre))) in * by lia; rewrite ?Nat.add_1_r; simpl app; rewrite F. f_equal. simpl. lia.
Qed.

Lemma jset_remove_Ok : forall a items x, jset a items -> In x items ->
  exists a' items', jit_set_remove a x = Ok a' /\ jset a' items' /\ length a' = length a /\
    Permutation items (x :: items').
Proof.
  intros a items x (junk & ->) H. unfold jit_set_remove.
  destruct (jit_find_Ok items (length items) [] junk (S (length (items ++ junk))) x H) as (l1 & l2 & E & F).
  { rewrite app_length. lia. }
  cbn [app length] in F. rewrite Nat.add_0_l in F. change (length (length items :: items ++ junk)) with (S (length (items ++ junk))).
  rewrite F. clear F. cbn [bind]. subst items.
  destruct (exists_last (l := x :: l2)) as (m & y & E); [discriminate|].
  rewrite E. rewrite app_assoc.
  assert (LL : length ((l1 ++ m) ++ [y]) = S (length l1 + length m)) by (rewrite !app_length; simpl; lia).
  rewrite LL. change (get OutOfBounds (S (length l1 + length m) :: ((l1 ++ m) ++ [y]) ++ junk) 0) with (Ok (S (length l1 + length m))). cbn [bind].
  destruct (Nat.eqb_spec (S (length l1)) (S (length l1 + length m))) as [EQ|NE].
  - cbn [bind negb]. rewrite put_Ok by (simpl; lia). cbn [upd].
    assert (m = []) by (destruct m; auto; simpl in EQ; lia). subst m. simpl in E. inversion E; subst.
    eexists. exists l1. split; [reflexivity|]. split; [|split].
    + exists (y :: junk). rewrite app_nil_r, <- app_assoc. simpl. f_equal. lia.
    + reflexivity.
    + rewrite app_nil_r. rewrite Permutation_app_comm. reflexivity.
  - cbn [negb]. unfold get. cbn [nth_error]. rewrite <- !app_assoc.
    destruct m as [|x' m]; [simpl in NE; lia|]. simpl in E. inversion E; subst x'. subst l2.
    replace (nth_error (l1 ++ (x :: m) ++ [y] ++ junk) (length l1 + length (x :: m))) with (Some y).
    2:{ rewrite app_assoc, nth_error_app2 by (rewrite app_length; lia). rewrite app_length, Nat.sub_diag. reflexivity. }
    cbn [bind]. rewrite put_Ok by (simpl; rewrite !app_length; simpl; lia). cbn [upd app].
    rewrite upd_app_at. cbn [bind]. rewrite put_Ok by (simpl; lia). cbn [upd].
    eexists. exists (l1 ++ y :: m). split; [reflexivity|]. split; [|split].
    + exists (y :: junk). rewrite <- app_assoc. simpl. rewrite app_length. simpl. f_equal. lia.
    + simpl. rewrite !app_length. simpl. lia.
    + simpl. rewrite <- Permutation_middle. constructor. apply Permutation_app_head.
      rewrite Permutation_app_comm. reflexivity.
Qed.

(** Adjacency arrays representing the graph [es]. *)
Definition nbrep (V : nat) (es : list edge) (nb : list (list nat)) : Prop :=
  length nb = V /\
  forall v, v < V -> exists items,
    jset (nth v nb []) items /\ length (nth v nb []) = V /\ NoDup items /\ forall w, In w items <-> adj es v w.

Definition goodedges (V : nat) (es : list edge) : Prop :=
  (forall a b, In (a, b) es -> a < V /\ b < V /\ a <> b) /\ NoDup (map norm es).

Lemma nbrep_init : forall V, nbrep V [] (repeat (repeat 0 V) V).
Proof.
  intros. split; [apply repeat_length|]. intros. exists [].
  assert (E : nth v (repeat (repeat 0 V) V) [] = repeat 0 V).
  { rewrite (nth_indep _ [] (repeat 0 V)) by (rewrite repeat_length; auto). apply nth_repeat. }
  rewrite E. split; [apply jset_repeat; lia|]. split; [apply repeat_length|]. split; [constructor|].
  intros. unfold adj. simpl. tauto.
Qed.

Lemma goodedges_cons : forall V a b es, goodedges V ((a, b) :: es) ->
  a < V /\ b < V /\ a <> b /\ ~ adj es a b /\ goodedges V es.
Proof.
  intros V a b es [G ND]. assert (a < V /\ b < V /\ a <> b) by (apply G; now left).
  simpl in ND. inversion ND; subst.
  split; [tauto|]. split; [tauto|]. split; [tauto|]. split.
  - intros A. apply H2. apply in_map_iff. destruct A as [A|A].
    + exists (a, b). auto.
    + exists (b, a). split; auto. unfold norm; simpl. f_equal; lia.
  - split; auto. intros. apply G. now right.
Qed.

Lemma jit_row_add_Ok : forall V nb v x items, v < V -> length nb = V ->
  jset (nth v nb []) items -> length (nth v nb []) = V -> length items + 1 < V ->
  exists nb', jit_row_add nb v x = Ok nb' /\ length nb' = V /\
    jset (nth v nb' []) (items ++ [x]) /\ length (nth v nb' []) = V /\
    forall u, u <> v -> nth u nb' [] = nth u nb [].
Proof.
  intros. unfold jit_row_add. rewrite (get_Ok _ _ _ _ []) by lia. simpl bind.
  destruct (jset_add_Ok (nth v nb []) items x) as (a' & E & J & L); auto; [lia|].
  rewrite E. simpl bind. rewrite put_Ok by lia. eexists. split; [reflexivity|].
  rewrite upd_length, nth_upd_same by lia. split; auto. split; auto. split; [lia|].
  intros. apply nth_upd_other. auto.
Qed.

Lemma jit_row_remove_Ok : forall V nb v x items, v < V -> length nb = V ->
  jset (nth v nb []) items -> length (nth v nb []) = V -> In x items ->
  exists nb' items', jit_row_remove nb v x = Ok nb' /\ length nb' = V /\
    jset (nth v nb' []) items' /\ length (nth v nb' []) = V /\ Permutation items (x :: items') /\
    forall u, u <> v -> nth u nb' [] = nth u nb [].
Proof.
  intros. unfold jit_row_remove. rewrite (get_Ok _ _ _ _ []) by lia. simpl bind.
  destruct (jset_remove_Ok (nth v nb []) items x) as (a' & items' & E & J & L & P); auto.
  rewrite E. simpl bind. rewrite put_Ok by lia. exists (upd nb v a'), items'. split; [reflexivity|].
  rewrite upd_length, nth_upd_same by lia. split; auto. split; auto. split; [lia|]. split; auto.
  intros. apply nth_upd_other. auto.
Qed.

Lemma adj_cons_iff : forall a b es u v, adj ((a, b) :: es) u v <->
  (u = a /\ v = b) \/ (u = b /\ v = a) \/ adj es u v.
Proof.
  intros. unfold adj. simpl. split.
  - intros [[E|H]|[E|H]]; try (inversion E; subst); auto.
  - intros [[-> ->]|[[-> ->]|[H|H]]]; auto.
Qed.

Lemma adj_irrefl : forall V es v, goodedges V es -> ~ adj es v v.
Proof. intros V es v [G _] [A|A]; apply G in A; lia. Qed.

Lemma nb_capacity : forall V es v x items, goodedges V es -> v < V -> x < V -> x <> v -> ~ adj es v x ->
  NoDup items -> (forall w, In w items <-> adj es v w) -> length items + 1 < V.
Proof.
  intros V es v x items G Hv Hx N A ND M.
  assert (NoDup (v :: x :: items)).
  { constructor. intros [E|I]; [congruence|]. apply M in I. eapply adj_irrefl; eauto.
    constructor; auto. rewrite M. auto. }
  apply (NoDup_bounded_length _ V) in H. simpl in H; lia.
  intros y [<-|[<-|I]]; auto. apply M in I. destruct G as [G _]. destruct I as [I|I]; apply G in I; lia.
Qed.

(** Adding an edge. *)
Lemma nbrep_add : forall V es nb a b, nbrep V es nb -> goodedges V ((a, b) :: es) ->
  exists nb1 nb', jit_row_add nb a b = Ok nb1 /\ jit_row_add nb1 b a = Ok nb' /\ nbrep V ((a, b) :: es) nb'.
Proof.
  intros V es nb a b [L R] G. apply goodedges_cons in G. destruct G as (Ha & Hb & N & A & G).
  destruct (R a Ha) as (ia & Ja & La & NDa & Ma).
  destruct (jit_row_add_Ok V nb a b ia) as (nb1 & E1 & L1 & J1 & Le1 & O1); auto.
  { eapply (nb_capacity V es a b); eauto. }
  destruct (R b Hb) as (ib & Jb & Lb & NDb & Mb).
  destruct (jit_row_add_Ok V nb1 b a ib) as (nb2 & E2 & L2 & J2 & Le2 & O2); auto.
  { rewrite O1; auto. }
  { rewrite O1; auto. }
  { eapply (nb_capacity V es b a); eauto. intro X. apply adj_sym in X. auto. }
  exists nb1, nb2. split; auto. split; auto. split; auto.
  intros v Hv. destruct (Nat.eq_dec v a) as [->|Na].
  - rewrite O2 by auto. exists (ia ++ [b]). split; auto. split; auto. split.
    + apply NoDup_app_intro; auto. repeat constructor; auto. intros x I [<-|[]]. apply Ma in I. auto.
    + intros. rewrite in_app_iff, Ma, adj_cons_iff. simpl. intuition congruence.
  - destruct (Nat.eq_dec v b) as [->|Nb].
    + exists (ib ++ [a]). split; auto. split; auto. split.
      * apply NoDup_app_intro; auto. repeat constructor; auto. intros x I [<-|[]]. apply Mb in I. apply A. now apply adj_sym.
      * intros. rewrite in_app_iff, Mb, adj_cons_iff. simpl. intuition congruence.
    + rewrite O2, O1 by auto. destruct (R v Hv) as (iv & Jv & Lv & NDv & Mv). exists iv.
      split; auto. split; auto. split; auto. intros. rewrite Mv, adj_cons_iff. intuition congruence.
Qed.

Lemma nbrep_perm : forall V es fs nb, Permutation es fs -> nbrep V es nb -> nbrep V fs nb.
Proof.
  intros V es fs nb P [L R]. split; auto. intros. destruct (R v H) as (i & J & Le & ND & M).
  exists i. split; auto. split; auto. split; auto. intros. rewrite M. split; apply adj_perm; auto.
  now symmetry.
Qed.

Lemma goodedges_perm : forall V es fs, Permutation es fs -> goodedges V es -> goodedges V fs.
Proof.
  intros V es fs P [G ND]. split.
  - intros. apply G. eapply Permutation_in; [symmetry|]; eauto.
  - eapply Permutation_NoDup; [|eauto]. now apply Permutation_map.
Qed.

(** Removing an edge. *)
Lemma nbrep_remove : forall V es nb a b, nbrep V ((a, b) :: es) nb -> goodedges V ((a, b) :: es) ->
  exists nb1 nb', jit_row_remove nb a b = Ok nb1 /\ jit_row_remove nb1 b a = Ok nb' /\ nbrep V es nb'.
Proof.
  intros V es nb a b [L R] G. pose proof (goodedges_cons _ _ _ _ G) as (Ha & Hb & N & A & G').
  destruct (R a Ha) as (ia & Ja & La & NDa & Ma).
  destruct (jit_row_remove_Ok V nb a b ia) as (nb1 & ia' & E1 & L1 & J1 & Le1 & P1 & O1); auto.
  { apply Ma. apply adj_cons_iff. auto. }
  destruct (R b Hb) as (ib & Jb & Lb & NDb & Mb).
  destruct (jit_row_remove_Ok V nb1 b a ib) as (nb2 & ib' & E2 & L2 & J2 & Le2 & P2 & O2); auto.
  { rewrite O1; auto. }
  { rewrite O1; auto. }
  { apply Mb. apply adj_cons_iff. auto. }
  exists nb1, nb2. split; auto. split; auto. split; auto.
  intros v Hv. destruct (Nat.eq_dec v a) as [->|Na].
  - rewrite O2 by auto. exists ia'. split; auto. split; auto.
    apply (Permutation_NoDup P1) in NDa. inversion NDa; subst. split; auto.
    intros w. specialize (Ma w). rewrite adj_cons_iff in Ma.
    assert (In w ia <-> b = w \/ In w ia').
    { split; intros I. apply (Permutation_in _ P1) in I. exact I. apply (Permutation_in _ (Permutation_sym P1)). exact I. }
    split; intros I.
    + destruct Ma as [Ma _]. destruct Ma as [[_ ->]|[[X _]|I']]; auto; try congruence. all: try (apply H; auto); try contradiction.
    + assert (In w ia) by (apply Ma; auto). apply H in H0. destruct H0; auto. subst. contradiction.
  - destruct (Nat.eq_dec v b) as [->|Nb].
    + exists ib'. split; auto. split; auto.
      apply (Permutation_NoDup P2) in NDb. inversion NDb; subst. split; auto.
      intros w. specialize (Mb w). rewrite adj_cons_iff in Mb.
      assert (In w ib <-> a = w \/ In w ib').
      { split; intros I. apply (Permutation_in _ P2) in I. exact I. apply (Permutation_in _ (Permutation_sym P2)). exact I. }
      split; intros I.
      * destruct Mb as [Mb _]. destruct Mb as [[X _]|[[_ ->]|I']]; auto; try congruence. all: try (apply H; auto); try contradiction.
      * assert (In w ib) by (apply Mb; auto). apply H in H0. destruct H0; auto. subst. apply adj_sym in I. contradiction.
    + rewrite O2, O1 by auto. destruct (R v Hv) as (iv & Jv & Lv & NDv & Mv). exists iv.
      split; auto. split; auto. split; auto. intros. rewrite Mv, adj_cons_iff. intuition congruence.
Qed.
