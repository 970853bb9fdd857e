(** Lemmas about random programs. *)
From Coq Require Import List Reals Lra Lia Arith Permutation.
From Verif Require Import Base L_Base Spec_Sum L_Sum M_Rand.
Import ListNotations.
Open Scope R_scope.

Lemma always_bind : forall A B (p : rprog A) (f : A -> rprog B) (P : B -> Prop),
  always P (rbind p f) <-> always (fun a => always P (f a)) p.
Proof.
  induction p; intros; simpl; try tauto.
  - split; intros [H1 H2]; (split; [auto|]); intros i Hi; apply H; auto.
  - split; intros H1 s Hs; apply H; auto.
Qed.

Lemma always_mono : forall A (p : rprog A) (P Q : A -> Prop), (forall a, P a -> Q a) -> always P p -> always Q p.
Proof.
  induction p; simpl; intros; auto.
  - destruct H1. split; auto. intros. eapply H; eauto.
  - eapply H; eauto.
Qed.

Lemma always_rfold : forall A S (f : S -> A -> rprog S) (P : S -> Prop) l s, P s ->
  (forall s a, P s -> In a l -> always P (f s a)) -> always P (rfold f l s).
Proof.
  induction l; intros; simpl; auto. apply always_bind.
  eapply always_mono; [|apply H0; [auto|now left]]. intros. apply IHl; auto. intros. apply H0; auto. now right.
Qed.

Lemma always_may : forall A (p : rprog A) P r, always P p -> may_return p r -> exists a, r = Ok a /\ P a.
Proof.
  induction p; simpl; intros P r HA HM.
  - eauto.
  - tauto.
  - destruct HA as [NE HA]. destruct w; [congruence|]. destruct HM as (i & C & HM). eauto.
  - destruct HM as (s & C & HM). eauto.
Qed.

(** As [always], whatever the weights of the draws. *)
Fixpoint surely {A} (P : A -> Prop) (p : rprog A) : Prop :=
  match p with
  | Ret a => P a
  | Fail _ => False
  | Cat w k => w <> [] /\ forall i, (i < length w)%nat -> surely P (k i)
  | Perm n k => forall s, Permutation s (seq 0 n) -> surely P (k s)
  end.
Lemma surely_always : forall A (p : rprog A) (P : A -> Prop), surely P p -> always P p.
Proof.
  induction p; simpl; intros; auto.
  destruct H0. split; auto. intros i (Hi & _). auto.
Qed.
Lemma surely_bind : forall A B (p : rprog A) (f : A -> rprog B) (P : B -> Prop),
  surely P (rbind p f) <-> surely (fun a => surely P (f a)) p.
Proof.
  induction p; intros; simpl; try tauto.
  - split; intros [H1 H2]; (split; [auto|]); intros i Hi; apply H; auto.
  - split; intros H1 s Hs; apply H; auto.
Qed.
Lemma surely_mono : forall A (p : rprog A) (P Q : A -> Prop), (forall a, P a -> Q a) -> surely P p -> surely Q p.
Proof.
  induction p; simpl; intros; auto.
  - destruct H1. split; auto. intros. eapply H; eauto.
  - eapply H; eauto.
Qed.
Lemma surely_rfold : forall A S (f : S -> A -> rprog S) (P : S -> Prop) l s, P s ->
  (forall s a, P s -> In a l -> surely P (f s a)) -> surely P (rfold f l s).
Proof.
  induction l; intros; simpl; auto. apply surely_bind.
  eapply surely_mono; [|apply H0; [auto|now left]]. intros. apply IHl; auto. intros. apply H0; auto. now right.
Qed.
Lemma surely_rfold_seq {S} (f : S -> nat -> rprog S) (P : nat -> S -> Prop) n : forall a s, P a s ->
  (forall j s', (a <= j < a + n)%nat -> P j s' -> surely (P (j + 1)%nat) (f s' j)) -> surely (P (a + n)%nat) (rfold f (seq a n) s).
Proof.
  induction n; intros a s Ps St; cbn [seq rfold].
  - rewrite Nat.add_0_r. exact Ps.
  - apply surely_bind. eapply surely_mono; [|apply St; [lia|exact Ps]]. cbn beta. intros s' Hs'. rewrite Nat.add_1_r in Hs'.
    replace (a + Datatypes.S n)%nat with (Datatypes.S a + n)%nat by lia. apply IHn; [auto|]. intros j s2 Hj. apply St. lia.
Qed.

Lemma perms_Permutation : forall A (l s : list A), In s (perms l) -> Permutation s l.
Proof.
  assert (INS : forall A (x : A) t s, In s (inserts x t) -> Permutation s (x :: t)).
  { induction t; simpl; intros s I.
    - destruct I as [<-|[]]. reflexivity.
    - destruct I as [<-|I]; [reflexivity|]. apply in_map_iff in I. destruct I as (u & <- & I).
      apply IHt in I. rewrite I. apply perm_swap. }
  induction l; simpl; intros.
  - destruct H as [<-|[]]; constructor.
  - apply in_flat_map in H. destruct H as (t & I & J). apply INS in J. rewrite J. constructor. auto.
Qed.

Lemma inserts_mid : forall A (x : A) l1 l2, In (l1 ++ x :: l2) (inserts x (l1 ++ l2)).
Proof.
  induction l1; simpl; intros.
  - destruct l2; simpl; auto.
  - right. apply in_map. auto.
Qed.

Lemma perms_complete : forall A (l s : list A), Permutation s l -> In s (perms l).
Proof.
  induction l; simpl; intros.
  - apply Permutation_sym, Permutation_nil in H. auto.
  - assert (I : In a s) by (eapply Permutation_in; [symmetry; eauto|now left]).
    apply in_split in I. destruct I as (l1 & l2 & ->).
    assert (Permutation (l1 ++ l2) l).
    { symmetry in H. apply Permutation_cons_app_inv in H. now symmetry. }
    apply in_flat_map. exists (l1 ++ l2). split; auto. apply inserts_mid.
Qed.

Lemma perms_iff : forall A (l s : list A), In s (perms l) <-> Permutation s l.
Proof. split. apply perms_Permutation. apply perms_complete. Qed.

Lemma inserts_NoDup : forall A (x : A) t, ~ In x t -> NoDup (inserts x t).
Proof.
  induction t; simpl; intros.
  - repeat constructor; auto.
  - constructor.
    + intros I. apply in_map_iff in I. destruct I as (u & E & _). inversion E; subst. tauto.
    + apply FinFun.Injective_map_NoDup. intros u v E; now inversion E. apply IHt. tauto.
Qed.

Lemma inserts_inj : forall A (x : A) t t' s, ~ In x t -> ~ In x t' ->
  In s (inserts x t) -> In s (inserts x t') -> t = t'.
Proof.
  assert (H : forall A (x : A) t s, In s (inserts x t) -> exists l1 l2, s = l1 ++ x :: l2 /\ t = l1 ++ l2).
  { induction t; simpl; intros s I.
    - destruct I as [<-|[]]. exists [], []. auto.
    - destruct I as [<-|I]. exists [], (a :: t). auto.
      apply in_map_iff in I. destruct I as (u & <- & I). apply IHt in I. destruct I as (l1 & l2 & -> & ->).
      exists (a :: l1), l2. auto. }
  intros A x t t' s N N' I I'. apply H in I. apply H in I'.
  destruct I as (l1 & l2 & -> & ->). destruct I' as (m1 & m2 & E & ->).
  rewrite in_app_iff in N, N'. clear H.
  revert m1 E N'. induction l1; intros; destruct m1; simpl in *; inversion E; subst; auto.
  - tauto.
  - tauto.
  - f_equal. apply IHl1; auto. tauto. tauto.
Qed.

Lemma perms_NoDup : forall A (l : list A), NoDup l -> NoDup (perms l).
Proof.
  induction 1; simpl.
  - repeat constructor; auto.
  - assert (AP : forall t, In t (perms l) -> ~ In x t).
    { intros t I. apply perms_Permutation in I. intro. apply H. eapply Permutation_in; eauto. }
    revert IHNoDup AP. generalize (perms l). induction l0; simpl; intros ND AP; [constructor|].
    inversion ND; subst. apply NoDup_app_intro.
    + apply inserts_NoDup, AP. now left.
    + apply IHl0; auto.
    + intros s I J. apply in_flat_map in J. destruct J as (t & It & J).
      assert (a = t) by (eapply (inserts_inj _ x); eauto). subst. auto.
Qed.

Lemma perms_length : forall A (l : list A), length (perms l) = fact (length l).
Proof.
  induction l; simpl; auto.
  assert (INL : forall A (x : A) t, length (inserts x t) = S (length t)).
  { induction t; simpl; auto. now rewrite map_length, IHt. }
  assert (G : forall L n, (forall t, In t L -> length t = n) -> length (flat_map (inserts a) L) = (S n * length L)%nat).
  { induction L; simpl; intros. lia. rewrite app_length, INL, (IHL n), (H a0); simpl; auto; lia. }
  rewrite (G _ (length l)). rewrite IHl. simpl. lia.
  intros t I. apply perms_Permutation in I. now apply Permutation_length.
Qed.

Lemma perms_length_pos : forall A (l : list A), 0 < INR (length (perms l)).
Proof. intros. rewrite perms_length. apply lt_0_INR. apply lt_O_fact. Qed.

Lemma expect_ext : forall A (p : rprog A) f g, (forall r, f r = g r) -> expect p f = expect p g.
Proof.
  induction p; simpl; intros; auto.
  - destruct w; auto. destruct (Req_EM_T _ _); auto. apply sumf_ext. intros. f_equal. auto.
  - f_equal. apply sumf_ext. intros. auto.
Qed.

Lemma expect_bind : forall A B (p : rprog A) (f : A -> rprog B) g,
  expect (rbind p f) g = expect p (fun r => match r with Ok a => expect (f a) g | Raise e => g (Raise e) end).
Proof.
  induction p; simpl; intros; auto.
  - destruct w; auto. destruct (Req_EM_T _ _); auto. apply sumf_ext. intros. f_equal. auto.
  - f_equal. apply sumf_ext. intros. auto.
Qed.

Lemma expect_lift : forall A (r : result A) f, expect (lift r) f = f r.
Proof. destruct r; auto. Qed.

(** The expectation only depends on the values of [f] at possible outcomes
    (for programs whose weights are nonnegative). *)
Fixpoint wf_prog {A} (p : rprog A) : Prop :=
  match p with
  | Ret _ | Fail _ => True
  | Cat w k => (forall x, In x w -> 0 <= x) /\ forall i, cat_outcome w i -> wf_prog (k i)
  | Perm n k => forall s, Permutation s (seq 0 n) -> wf_prog (k s)
  end.

Lemma expect_ext_may : forall A (p : rprog A) f g, wf_prog p -> (forall r, may_return p r -> f r = g r) ->
  expect p f = expect p g.
Proof.
  induction p; simpl; intros; auto.
  - destruct H0 as [W0 W]. destruct w; auto. set (w' := r :: w) in *.
    destruct (Req_EM_T (rsum w') 0) as [E|E].
    + assert (C : cat_outcome w' 0). { split; [simpl; lia|]. right. split; [reflexivity|]. intros [_ P]. lra. }
      apply H; auto. intros. apply H1. exists 0%nat. auto.
    + apply sumf_ext. intros i Hi. apply in_seq in Hi.
      destruct (Req_EM_T (nth i w' 0) 0) as [Z|NZ]; [rewrite Z; unfold Rdiv; lra|].
      assert (C : cat_outcome w' i).
      { split; [lia|]. left. assert (0 <= nth i w' 0) by (apply W0, nth_In; lia). lra. }
      f_equal. apply H; auto. intros. apply H1. eauto.
  - f_equal. apply sumf_ext. intros s I. apply perms_Permutation in I. apply H; auto. intros. apply H1. eauto.
Qed.

Lemma expect_const : forall A (p : rprog A) c, expect p (fun _ => c) = c.
Proof.
  induction p; simpl; intros; auto.
  - destruct w; auto. destruct (Req_EM_T _ _); auto.
    rewrite (sumf_ext _ _ (fun i => nth i (r :: w) 0 * (c / rsum (r :: w)))).
    + rewrite sumf_scal_r, sumf_seq_nth. field. auto.
    + intros. rewrite H. unfold Rdiv. lra.
  - rewrite (sumf_ext _ _ (fun _ => c)) by auto. rewrite sumf_const. field.
    apply Rgt_not_eq, perms_length_pos.
Qed.

