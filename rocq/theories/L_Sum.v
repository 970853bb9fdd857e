(** Lemmas about finite sums and products. *)
From Coq Require Import List Reals Lra Lia Permutation Arith.
From Verif Require Import Spec_Sum.
Import ListNotations.
Open Scope R_scope.

Section Sums.
Context {A : Type}.
Implicit Types (l : list A) (f g : A -> R).

Lemma sumf_app : forall l m f, sumf (l ++ m) f = sumf l f + sumf m f.
Proof. induction l; simpl; intros. unfold sumf; simpl; lra. unfold sumf in *; simpl. rewrite IHl. lra. Qed.

Lemma sumf_cons : forall a l f, sumf (a :: l) f = f a + sumf l f.
Proof. reflexivity. Qed.

Lemma sumf_nil : forall f, sumf [] f = 0.
Proof. reflexivity. Qed.

Lemma sumf_ext : forall l f g, (forall x, In x l -> f x = g x) -> sumf l f = sumf l g.
Proof.
  induction l; intros; auto. rewrite !sumf_cons. rewrite (H a) by now left. f_equal. apply IHl. intros; apply H; now right.
Qed.

Lemma sumf_perm : forall l m f, Permutation l m -> sumf l f = sumf m f.
Proof. induction 1; rewrite ?sumf_cons; try lra. Qed.

Lemma sumf_scal : forall l f c, sumf l (fun x => c * f x) = c * sumf l f.
Proof. induction l; intros; rewrite ?sumf_nil, ?sumf_cons; try lra. rewrite IHl. lra. Qed.

Lemma sumf_scal_r : forall l f c, sumf l (fun x => f x * c) = sumf l f * c.
Proof. induction l; intros; rewrite ?sumf_nil, ?sumf_cons; try lra. rewrite IHl. lra. Qed.

Lemma sumf_div : forall l f c, sumf l (fun x => f x / c) = sumf l f / c.
Proof. intros. unfold Rdiv. apply sumf_scal_r. Qed.

Lemma sumf_plus : forall l f g, sumf l (fun x => f x + g x) = sumf l f + sumf l g.
Proof. induction l; intros; rewrite ?sumf_nil, ?sumf_cons; try lra. rewrite IHl. lra. Qed.

Lemma sumf_minus : forall l f g, sumf l (fun x => f x - g x) = sumf l f - sumf l g.
Proof. induction l; intros; rewrite ?sumf_nil, ?sumf_cons; try lra. rewrite IHl. lra. Qed.

Lemma sumf_zero : forall l f, (forall x, In x l -> f x = 0) -> sumf l f = 0.
Proof.
  induction l; intros; auto. rewrite sumf_cons, (H a), IHl; try lra. intros; apply H; now right. now left.
Qed.

Lemma sumf_const : forall l c, sumf l (fun _ => c) = INR (length l) * c.
Proof. induction l; intros. unfold sumf; simpl; lra. rewrite sumf_cons, IHl. simpl length. rewrite S_INR. lra. Qed.

Lemma sumf_nonneg : forall l f, (forall x, In x l -> 0 <= f x) -> 0 <= sumf l f.
Proof.
  induction l; intros. unfold sumf; simpl; lra. rewrite sumf_cons. assert (0 <= f a) by (apply H; now left).
  assert (0 <= sumf l f) by (apply IHl; intros; apply H; now right). lra.
Qed.

Lemma sumf_le : forall l f g, (forall x, In x l -> f x <= g x) -> sumf l f <= sumf l g.
Proof.
  induction l; intros. unfold sumf; simpl; lra. rewrite !sumf_cons. assert (f a <= g a) by (apply H; now left).
  assert (sumf l f <= sumf l g) by (apply IHl; intros; apply H; now right). lra.
Qed.

Lemma sumf_pos : forall l f, (forall x, In x l -> 0 <= f x) -> (exists x, In x l /\ 0 < f x) -> 0 < sumf l f.
Proof.
  induction l; intros f H (x & Hx & P); [destruct Hx|]. rewrite sumf_cons.
  assert (0 <= sumf l f) by (apply sumf_nonneg; intros; apply H; now right).
  assert (0 <= f a) by (apply H; now left).
  destruct Hx as [->|Hx]; [lra|]. assert (0 < sumf l f) by (apply IHl; eauto; intros; apply H; now right). lra.
Qed.

Lemma sumf_zero_inv : forall l f, (forall x, In x l -> 0 <= f x) -> sumf l f = 0 -> forall x, In x l -> f x = 0.
Proof.
  induction l; intros f H E x Hx; [destruct Hx|]. rewrite sumf_cons in E.
  assert (0 <= sumf l f) by (apply sumf_nonneg; intros; apply H; now right).
  assert (0 <= f a) by (apply H; now left).
  destruct Hx as [->|Hx]; [lra|]. apply IHl; auto. intros; apply H; now right. lra.
Qed.

Lemma sumf_member_le : forall l f x, (forall y, In y l -> 0 <= f y) -> In x l -> f x <= sumf l f.
Proof.
  induction l; intros f x H Hx; [destruct Hx|]. rewrite sumf_cons.
  assert (0 <= sumf l f) by (apply sumf_nonneg; intros; apply H; now right).
  assert (0 <= f a) by (apply H; now left).
  destruct Hx as [->|Hx]; [lra|].
  assert (f x <= sumf l f) by (apply IHl; auto; intros; apply H; now right). lra.
Qed.

Lemma prodf_cons : forall a l f, prodf (a :: l) f = f a * prodf l f.
Proof. reflexivity. Qed.
Lemma prodf_app : forall l m f, prodf (l ++ m) f = prodf l f * prodf m f.
Proof. induction l; intros. unfold prodf; simpl; lra. simpl app. rewrite !prodf_cons, IHl. lra. Qed.
Lemma prodf_ext : forall l f g, (forall x, In x l -> f x = g x) -> prodf l f = prodf l g.
Proof.
  induction l; intros; auto. rewrite !prodf_cons. rewrite (H a) by now left. f_equal. apply IHl. intros; apply H; now right.
Qed.
Lemma prodf_perm : forall l m f, Permutation l m -> prodf l f = prodf m f.
Proof. induction 1; rewrite ?prodf_cons; try lra. now rewrite IHPermutation. Qed.
Lemma prodf_pos : forall l f, (forall x, In x l -> 0 < f x) -> 0 < prodf l f.
Proof.
  induction l; intros. unfold prodf; simpl; lra. rewrite prodf_cons. apply Rmult_lt_0_compat.
  apply H; now left. apply IHl; intros; apply H; now right.
Qed.
Lemma prodf_nonneg : forall l f, (forall x, In x l -> 0 <= f x) -> 0 <= prodf l f.
Proof.
  induction l; intros. unfold prodf; simpl; lra. rewrite prodf_cons. apply Rmult_le_pos.
  apply H; now left. apply IHl; intros; apply H; now right.
Qed.
Lemma prodf_mult : forall l f g, prodf l (fun x => f x * g x) = prodf l f * prodf l g.
Proof. induction l; intros. unfold prodf; simpl; lra. rewrite !prodf_cons, IHl. lra. Qed.
Lemma prodf_one : forall l f, (forall x, In x l -> f x = 1) -> prodf l f = 1.
Proof. induction l; intros. reflexivity. rewrite prodf_cons, H, IHl. lra. intros; apply H; now right. now left. Qed.
Lemma prodf_zero : forall l f x, In x l -> f x = 0 -> prodf l f = 0.
Proof.
  induction l; intros f x Hx E; [destruct Hx|]. rewrite prodf_cons. destruct Hx as [->|Hx].
  rewrite E; lra. rewrite (IHl f x); auto. lra.
Qed.
Lemma prodf_exp : forall l f, prodf l (fun x => exp (f x)) = exp (sumf l f).
Proof. induction l; intros. unfold prodf, sumf; simpl. now rewrite exp_0. rewrite prodf_cons, sumf_cons, IHl, exp_plus. reflexivity. Qed.
End Sums.

Lemma sumf_map : forall A B (h : A -> B) l (f : B -> R), sumf (map h l) f = sumf l (fun x => f (h x)).
Proof. induction l; intros; auto. simpl map. rewrite !sumf_cons, IHl. reflexivity. Qed.

Lemma prodf_map : forall A B (h : A -> B) l (f : B -> R), prodf (map h l) f = prodf l (fun x => f (h x)).
Proof. induction l; intros; auto. simpl map. rewrite !prodf_cons, IHl. reflexivity. Qed.

Lemma sumf_flat_map : forall A B (h : A -> list B) l (f : B -> R), sumf (flat_map h l) f = sumf l (fun x => sumf (h x) f).
Proof. induction l; intros; auto. simpl flat_map. rewrite sumf_app, sumf_cons, IHl. reflexivity. Qed.

Lemma sumf_swap : forall A B (l : list A) (m : list B) (f : A -> B -> R),
  sumf l (fun x => sumf m (fun y => f x y)) = sumf m (fun y => sumf l (fun x => f x y)).
Proof.
  induction l; intros.
  - rewrite sumf_nil. symmetry. apply sumf_zero. auto.
  - rewrite sumf_cons, IHl, <- sumf_plus. apply sumf_ext. intros. now rewrite sumf_cons.
Qed.

(** Reindexing by an injective self-map. *)
Lemma sumf_reindex : forall A (l : list A) (phi : A -> A) (f : A -> R), NoDup l ->
  (forall x, In x l -> In (phi x) l) -> (forall x y, In x l -> In y l -> phi x = phi y -> x = y) ->
  sumf l f = sumf l (fun x => f (phi x)).
Proof.
  intros A l phi f ND IN INJ. rewrite <- (sumf_map _ _ phi). apply sumf_perm. symmetry.
  apply NoDup_Permutation_bis.
  - revert ND INJ. clear IN. induction l; simpl; intros; constructor.
    + inversion ND; subst. intro H. apply in_map_iff in H. destruct H as (y & E & Hy).
      assert (y = a) by (apply INJ; auto). subst; auto.
    + inversion ND; subst. apply IHl; auto.
  - rewrite map_length. auto.
  - intros x Hx. apply in_map_iff in Hx. destruct Hx as (y & <- & Hy). auto.
Qed.

Lemma rmax_ge : forall w x, In x w -> x <= rmax w.
Proof.
  induction w; intros; [destruct H|]. destruct w.
  - destruct H as [->|[]]. simpl; lra.
  - change (rmax (a :: r :: w)) with (Rmax a (rmax (r :: w))). destruct H as [->|H].
    + apply Rmax_l.
    + eapply Rle_trans; [apply IHw; auto|apply Rmax_r].
Qed.

Lemma rmax_In : forall w, w <> [] -> In (rmax w) w.
Proof.
  induction w; intros; [congruence|]. destruct w.
  - now left.
  - change (rmax (a :: r :: w)) with (Rmax a (rmax (r :: w))). unfold Rmax.
    destruct (Rle_dec a (rmax (r :: w))); [right|now left]. apply IHw. discriminate.
Qed.

Lemma sumf_seq_nth : forall (w : list R), sumf (seq 0 (length w)) (fun i => nth i w 0) = rsum w.
Proof.
  induction w; auto. simpl length. rewrite <- cons_seq, sumf_cons, <- seq_shift, sumf_map. unfold rsum in *.
  rewrite sumf_cons, <- IHw. reflexivity.
Qed.

Lemma rsum_nonneg : forall w, (forall x, In x w -> 0 <= x) -> 0 <= rsum w.
Proof. intros. apply sumf_nonneg. auto. Qed.
