(** Lemmas about the basic vocabulary. *)
From Coq Require Import List Arith Lia Bool Permutation Sorted.
From Verif Require Import Base.
Import ListNotations.

Lemma upd_length : forall A (l : list A) i x, length (upd l i x) = length l.
Proof. induction l; destruct i; simpl; intros; auto. Qed.

Lemma nth_upd_same : forall A (l : list A) i x d, i < length l -> nth i (upd l i x) d = x.
Proof. induction l; destruct i; simpl; intros; try lia; auto. apply IHl; lia. Qed.

Lemma nth_upd_other : forall A (l : list A) i j x d, i <> j -> nth j (upd l i x) d = nth j l d.
Proof. induction l; destruct i, j; simpl; intros; try lia; auto. Qed.

Lemma nth_upd : forall A (l : list A) i j x d, i < length l ->
  nth j (upd l i x) d = if i =? j then x else nth j l d.
Proof.
  intros. destruct (Nat.eqb_spec i j).
  - subst. now apply nth_upd_same.
  - now apply nth_upd_other.
Qed.

Lemma get_Ok : forall A e (l : list A) i d, i < length l -> get e l i = Ok (nth i l d).
Proof. intros. unfold get. now rewrite (nth_error_nth' l d H). Qed.

Lemma get_inv : forall A e (l : list A) i a, get e l i = Ok a -> i < length l /\ forall d, nth i l d = a.
Proof.
  unfold get; intros. destruct (nth_error l i) eqn:E; inversion H; subst. split.
  - apply nth_error_Some; congruence.
  - intros. now apply nth_error_nth.
Qed.

Lemma put_Ok : forall A e (l : list A) i x, i < length l -> put e l i x = Ok (upd l i x).
Proof. intros. unfold put. apply Nat.ltb_lt in H. now rewrite H. Qed.

Lemma put_inv : forall A e (l l' : list A) i x, put e l i x = Ok l' -> i < length l /\ l' = upd l i x.
Proof.
  unfold put; intros. destruct (i <? length l) eqn:E; inversion H; subst.
  apply Nat.ltb_lt in E. auto.
Qed.

Lemma set_mem_In : forall x s, set_mem x s = true <-> In x s.
Proof.
  unfold set_mem; intros. rewrite existsb_exists. split.
  - intros (y & Hy & E). apply Nat.eqb_eq in E. now subst.
  - intros; exists x; split; auto. apply Nat.eqb_refl.
Qed.

Lemma set_add_In : forall x s y, In y (set_add x s) <-> y = x \/ In y s.
Proof.
  induction s; simpl; intros; [intuition|].
  destruct (Nat.ltb_spec x a); [simpl; intuition|].
  destruct (Nat.eqb_spec x a); [simpl; subst; intuition|].
  simpl. rewrite IHs. intuition.
Qed.

Definition ssorted := StronglySorted lt.

Lemma set_add_sorted : forall x s, ssorted s -> ssorted (set_add x s).
Proof.
  induction 1; simpl.
  - repeat constructor.
  - destruct (Nat.ltb_spec x a).
    + constructor; [now constructor|].
      constructor; auto. eapply Forall_impl; [|eassumption]. simpl; intros; lia.
    + destruct (Nat.eqb_spec x a).
      * now constructor.
      * constructor; auto. apply Forall_forall. intros y Hy.
        apply set_add_In in Hy. destruct Hy; [lia|].
        rewrite Forall_forall in H0. auto.
Qed.

Lemma ssorted_NoDup : forall s, ssorted s -> NoDup s.
Proof.
  induction 1; constructor; auto.
  intro. rewrite Forall_forall in H0. specialize (H0 _ H1). lia.
Qed.

Lemma set_remove_raw_In : forall x s, ssorted s -> forall y, In y (set_remove_raw x s) <-> y <> x /\ In y s.
Proof.
  induction 1; simpl; intros; [intuition|].
  destruct (Nat.eqb_spec x a).
  - subst. rewrite Forall_forall in H0. split.
    + intros. specialize (H0 _ H1). split; auto. lia.
    + intros [A [B|B]]; congruence.
  - simpl. rewrite IHStronglySorted. intuition congruence.
Qed.

Lemma set_remove_raw_sorted : forall x s, ssorted s -> ssorted (set_remove_raw x s).
Proof.
  induction 1; simpl; [constructor|].
  destruct (Nat.eqb_spec x a); auto.
  constructor; auto.
  rewrite Forall_forall in *. intros y Hy.
  apply set_remove_raw_In in Hy; auto. apply H0, Hy.
Qed.

Lemma set_remove_raw_length : forall x s, In x s -> S (length (set_remove_raw x s)) = length s.
Proof.
  induction s; simpl; intros; [tauto|].
  destruct (Nat.eqb_spec x a); auto.
  destruct H; [congruence|]. simpl. rewrite IHs; auto.
Qed.

Lemma set_remove_Ok : forall x s, In x s -> set_remove x s = Ok (set_remove_raw x s).
Proof. intros. unfold set_remove. apply set_mem_In in H. now rewrite H. Qed.

Lemma ssorted_ext : forall s t, ssorted s -> ssorted t -> (forall x, In x s <-> In x t) -> s = t.
Proof.
  induction s; intros.
  - destruct t; auto. destruct (H1 n). simpl in *. tauto.
  - destruct t; [destruct (H1 a); simpl in *; tauto|].
    inversion H; inversion H0; subst. rewrite Forall_forall in *.
    assert (a = n).
    { destruct (H1 a) as [A _], (H1 n) as [_ B]. simpl in A, B.
      destruct A as [|A]; auto. destruct B as [|B]; auto.
      specialize (H5 _ B); specialize (H9 _ A); lia. }
    subst. f_equal. apply IHs; auto.
    intros x. destruct (H1 x) as [A B]. simpl in A, B. split; intros.
    + destruct A; auto. subst. specialize (H5 _ H2). lia.
    + destruct B; auto. subst. specialize (H9 _ H2). lia.
Qed.

Lemma foldM_app : forall A S (f : S -> A -> result S) l1 l2 s,
  foldM f (l1 ++ l2) s = bind (foldM f l1 s) (fun s' => foldM f l2 s').
Proof.
  induction l1; simpl; intros; auto.
  destruct (f s a); simpl; auto.
Qed.

(** Invariant rule for fallible loops. *)
Lemma foldM_inv : forall A S (f : S -> A -> result S) (P : list A -> S -> Prop) l s,
  P [] s ->
  (forall pre x s, P pre s -> In x l -> exists s', f s x = Ok s' /\ P (pre ++ [x]) s') ->
  exists s', foldM f l s = Ok s' /\ P l s'.
Proof.
  intros A S f P l s H0 Hs.
  enough (forall suf pre s, l = pre ++ suf -> P pre s -> exists s', foldM f suf s = Ok s' /\ P l s')
    by (apply (H l [] s); auto).
  induction suf; simpl; intros.
  - exists s0. rewrite app_nil_r in H. subst. auto.
  - destruct (Hs pre a s0 H1) as (s' & E & P').
    { subst. apply in_or_app. right. now left. }
    rewrite E. simpl. apply (IHsuf (pre ++ [a]) s'); auto.
    now rewrite <- app_assoc.
Qed.

(** Pigeonhole helpers. *)
Lemma NoDup_bounded_length : forall l n, NoDup l -> (forall x, In x l -> x < n) -> length l <= n.
Proof.
  intros. rewrite <- (seq_length n 0). apply NoDup_incl_length; auto.
  intros x Hx. apply in_seq. specialize (H0 _ Hx). lia.
Qed.

Lemma NoDup_full : forall l n, NoDup l -> (forall x, In x l -> x < n) -> n <= length l ->
  forall x, x < n -> In x l.
Proof.
  intros. assert (incl (seq 0 n) l).
  { apply NoDup_length_incl; auto.
    - rewrite seq_length. lia.
    - intros y Hy. apply in_seq. specialize (H0 _ Hy). lia. }
  apply H3. apply in_seq. lia.
Qed.

Lemma NoDup_map_inj : forall A B (f : A -> B) l,
  (forall x y, In x l -> In y l -> f x = f y -> x = y) -> NoDup l -> NoDup (map f l).
Proof.
  induction l; simpl; intros; constructor.
  - inversion H0; subst. intro. apply in_map_iff in H1. destruct H1 as (y & E & Hy).
    assert (y = a) by (apply H; auto). subst. auto.
  - inversion H0; subst. apply IHl; auto.
Qed.

Lemma NoDup_app_intro : forall A (l m : list A), NoDup l -> NoDup m -> (forall x, In x l -> ~ In x m) -> NoDup (l ++ m).
Proof.
  induction l; simpl; intros; auto. inversion H; subst. constructor.
  - intro A0. apply in_app_or in A0. destruct A0; auto. apply (H1 a); auto.
  - apply IHl; auto.
Qed.

Lemma NoDup_app_inv : forall A (l m : list A), NoDup (l ++ m) -> NoDup l /\ NoDup m /\ forall x, In x l -> ~ In x m.
Proof.
  induction l; simpl; intros.
  - split; [constructor|]. split; auto.
  - inversion H; subst. destruct (IHl _ H3) as (X & Y & Z). split; [|split]; auto.
    + constructor; auto. intro. apply H2. apply in_or_app; auto.
    + intros x [->|Hx]; auto. intro. apply H2. apply in_or_app; auto.
Qed.
