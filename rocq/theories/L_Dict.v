From Coq Require Import String Ascii.
From Coq Require Import List Arith Lia Bool ZArith.
From Verif Require Import Base M_Format.
Import ListNotations.
Open Scope list_scope.
Open Scope nat_scope.

Lemma dget_dset : forall A (d : sdict A) k v k', dget (dset d k v) k' = if String.eqb k' k then Some v else dget d k'.
Proof.
  induction d as [|(a, b) d IH]; intros; cbn [dset dget]; [destruct (String.eqb k' k); auto|].
  destruct (String.eqb_spec k a) as [->|N]; cbn [dget].
  - destruct (String.eqb k' a); auto.
  - rewrite IH. destruct (String.eqb_spec k' a) as [->|M]; auto. destruct (String.eqb_spec a k); congruence.
Qed.
Lemma dget_dset_same : forall A (d : sdict A) k v, dget (dset d k v) k = Some v.
Proof. intros. rewrite dget_dset. now rewrite String.eqb_refl. Qed.
Lemma dget_dset_other : forall A (d : sdict A) k v k', k' <> k -> dget (dset d k v) k' = dget d k'.
Proof. intros. rewrite dget_dset. destruct (String.eqb_spec k' k); congruence. Qed.

Lemma dget_In : forall A (d : sdict A) k v, dget d k = Some v -> In (k, v) d.
Proof.
  induction d as [|(a, b) d IH]; intros k v H; [discriminate|]. cbn in H. destruct (String.eqb_spec k a) as [->|N].
  - injection H as ->. now left.
  - right. auto.
Qed.
Lemma dget_keys : forall A (d : sdict A) k, In k (map fst d) <-> exists v, dget d k = Some v.
Proof.
  induction d as [|(a, b) d IH]; intros k; cbn.
  - split; [tauto|]. intros (v & H). discriminate.
  - destruct (String.eqb_spec k a) as [->|N]; [split; eauto|]. rewrite <- IH. intuition congruence.
Qed.
Lemma dget_None : forall A (d : sdict A) k, ~ In k (map fst d) <-> dget d k = None.
Proof. intros. rewrite dget_keys. destruct (dget d k); split; intros; try congruence; [exfalso; eauto|intros (v & H'); discriminate]. Qed.
Lemma In_dget : forall A (d : sdict A) k v, NoDup (map fst d) -> In (k, v) d -> dget d k = Some v.
Proof.
  induction d as [|(a, b) d IH]; intros k v N H; [destruct H|]. cbn in N. inversion N as [|? ? N1 N2]. cbn.
  destruct H as [E|H].
  - injection E as -> ->. now rewrite String.eqb_refl.
  - destruct (String.eqb_spec k a) as [->|M]; [|auto]. exfalso. apply N1. apply in_map_iff. now exists (a, v).
Qed.
Lemma dset_keys : forall A (d : sdict A) k v, map fst (dset d k v) = if in_dec string_dec k (map fst d) then map fst d else map fst d ++ [k].
Proof.
  induction d as [|(a, b) d IH]; intros k v; cbn [dset map fst].
  - reflexivity.
  - destruct (String.eqb_spec k a) as [->|N]; cbn [map fst].
    + destruct (in_dec string_dec a (a :: map fst d)) as [I|I]; auto. destruct I. now left.
    + rewrite IH. destruct (in_dec string_dec k (map fst d)) as [I|I]; destruct (in_dec string_dec k (a :: map fst d)) as [J|J]; auto.
      * destruct J. now right.
      * exfalso. destruct J; auto.
Qed.
Lemma dset_NoDup : forall A (d : sdict A) k v, NoDup (map fst d) -> NoDup (map fst (dset d k v)).
Proof.
  intros A d k v N. rewrite dset_keys. destruct (in_dec string_dec k (map fst d)) as [I|I]; auto.
  revert N I. generalize (map fst d). intros l. induction l as [|x l IH]; intros N I; cbn.
  - repeat constructor; auto.
  - inversion N as [|? ? N1 N2]. constructor; [|apply IH; auto; intros X; apply I; now right].
    intros X. apply in_app_or in X. destruct X as [X|[X|[]]]; auto. subst. apply I. now left.
Qed.

Lemma dget_default_dset : forall A (d : sdict A) k v k' x, dget_default (dset d k v) k' x = if String.eqb k' k then v else dget_default d k' x.
Proof. intros. unfold dget_default. rewrite dget_dset. destruct (String.eqb k' k); auto. Qed.

Lemma foldM_app : forall A S (f : S -> A -> result S) a b s, foldM f (a ++ b) s = (s' <- foldM f a s ;; foldM f b s').
Proof. induction a; intros; cbn; auto. destruct (f s a); cbn; auto. Qed.
Lemma foldM_inv : forall A S (f : S -> A -> result S) (P : S -> Prop) l s s',
  P s -> (forall s a s', In a l -> P s -> f s a = Ok s' -> P s') -> foldM f l s = Ok s' -> P s'.
Proof.
  induction l; intros s s' Ps H E; cbn in E; [injection E as <-; auto|].
  destruct (f s a) as [t|] eqn:F; [|discriminate]. eapply (IHl t); eauto; [eapply H; [now left|..]; eauto|].
  intros. eapply H; eauto. now right.
Qed.
Lemma foldM_ext : forall A S (f g : S -> A -> result S) l s, (forall s a, In a l -> f s a = g s a) -> foldM f l s = foldM g l s.
Proof. induction l; intros; cbn; auto. rewrite H by now left. destruct (g s a); cbn; auto. apply IHl. intros. apply H. now right. Qed.
(** Total steps. *)
Lemma foldM_Ok : forall A S (f : S -> A -> result S) (g : S -> A -> S) l s, (forall s a, In a l -> f s a = Ok (g s a)) -> foldM f l s = Ok (fold_left g l s).
Proof. induction l; intros; cbn; auto. rewrite H by now left. cbn. apply IHl. intros. apply H. now right. Qed.

Lemma str_in_iff : forall k l, str_in k l = true <-> In k l.
Proof.
  intros. unfold str_in. rewrite existsb_exists. split.
  - intros (x & I & E). apply String.eqb_eq in E. congruence.
  - intros I. exists k. split; auto. apply String.eqb_refl.
Qed.

Lemma nth_map_seq : forall A (f : nat -> A) k n d, k < n -> nth k (map f (seq 0 n)) d = f k.
Proof.
  intros. erewrite nth_indep by (rewrite map_length, seq_length; auto). rewrite (map_nth f). now rewrite seq_nth.
  Unshelve. exact 0.
Qed.
