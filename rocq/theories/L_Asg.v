(** Sums over all class vectors, variable by variable. *)
From Coq Require Import List Arith Lia Bool Reals Lra Permutation FunctionalExtensionality.
From Verif Require Import Base L_Base Spec_Sum L_Sum M_Rand L_Rand M_Array Spec_Joint.
Import ListNotations.
Open Scope R_scope.

Lemma set1_same {A} (f : nat -> A) i x : set1 f i x i = x.
Proof. unfold set1. now rewrite Nat.eqb_refl. Qed.

Lemma set1_other {A} (f : nat -> A) i x j : j <> i -> set1 f i x j = f j.
Proof. unfold set1. intros. destruct (Nat.eqb_spec j i); congruence. Qed.

Lemma set1_comm {A} (f : nat -> A) i j x y : i <> j -> set1 (set1 f i x) j y = set1 (set1 f j y) i x.
Proof.
  intros. apply functional_extensionality. intros k. unfold set1.
  destruct (Nat.eqb_spec k i), (Nat.eqb_spec k j); congruence.
Qed.

Section Asg.
Variable M : nat.

Fixpoint sumall (l : list nat) (F : (nat -> nat) -> R) (z : nat -> nat) : R :=
  match l with
  | [] => F z
  | v :: t => sumf (seq 0 M) (fun m => sumall t F (set1 z v m))
  end.

(** [z'] agrees with [z] outside [l] and has classes below [M] on [l]. *)
Definition fills (l : list nat) (z z' : nat -> nat) : Prop :=
  (forall v, In v l -> (z' v < M)%nat) /\ forall v, ~ In v l -> z' v = z v.

Lemma fills_nil z : fills [] z z.
Proof. split; simpl; tauto. Qed.

Lemma fills_cons v l z m z' : (m < M)%nat -> ~ In v l -> fills l (set1 z v m) z' -> fills (v :: l) z z'.
Proof.
  intros Hm N (A & B). split; intros w Hw.
  - destruct (Nat.eq_dec w v) as [->|D].
    + rewrite B by auto. now rewrite set1_same.
    + apply A. destruct Hw; congruence.
  - rewrite B by (intro; apply Hw; now right). apply set1_other. intro; subst; apply Hw; now left.
Qed.

Lemma sumall_ext l : forall F G z, NoDup l -> (forall z', fills l z z' -> F z' = G z') -> sumall l F z = sumall l G z.
Proof.
  induction l; simpl; intros F G z ND H.
  - apply H, fills_nil.
  - inversion ND; subst. apply sumf_ext. intros m Hm. apply in_seq in Hm.
    apply IHl; auto. intros z' Hz. apply H. eapply fills_cons; eauto. lia.
Qed.

Lemma sumall_perm l l' : Permutation l l' -> NoDup l -> forall F z, sumall l F z = sumall l' F z.
Proof.
  induction 1; intros ND F z; simpl; auto.
  - inversion ND; subst. apply sumf_ext. intros. auto.
  - rewrite sumf_swap. apply sumf_ext. intros m _. apply sumf_ext. intros m' _.
    rewrite set1_comm; auto. inversion ND; subst. simpl in H1. intuition.
  - rewrite IHPermutation1, IHPermutation2; auto. eapply Permutation_NoDup; eauto.
Qed.

Lemma sumall_app l l' F z : sumall (l ++ l') F z = sumall l (sumall l' F) z.
Proof. revert z. induction l; simpl; intros; auto. apply sumf_ext. auto. Qed.

Lemma sumall_scal l F c : forall z, sumall l (fun z => c * F z) z = c * sumall l F z.
Proof.
  induction l; simpl; intros; auto. rewrite <- sumf_scal. apply sumf_ext. auto.
Qed.

Lemma sumall_plus l F G : forall z, sumall l (fun z => F z + G z) z = sumall l F z + sumall l G z.
Proof.
  induction l; simpl; intros; auto. rewrite <- sumf_plus. apply sumf_ext. auto.
Qed.

Lemma sumall_sumf {A} (xs : list A) l (F : A -> (nat -> nat) -> R) : forall z,
  sumall l (fun z => sumf xs (fun x => F x z)) z = sumf xs (fun x => sumall l (F x) z).
Proof.
  induction l; simpl; intros; auto.
  rewrite sumf_swap. apply sumf_ext. auto.
Qed.

Lemma sumall_pos l F : (0 < M)%nat -> forall z, (forall z', fills l z z' -> 0 < F z') -> NoDup l -> 0 < sumall l F z.
Proof.
  intros HM. induction l; simpl; intros z H ND.
  - apply H, fills_nil.
  - inversion ND; subst. assert (P : forall m, (m < M)%nat -> 0 < sumall l F (set1 z a m)).
    { intros m Hm. apply IHl; auto. intros z' Hz. apply H. eapply fills_cons; eauto. }
    apply sumf_pos.
    + intros m Hm. apply in_seq in Hm. left. apply P. lia.
    + exists 0%nat. split; [apply in_seq; lia|]. apply P. lia.
Qed.

Lemma vec_seq_shift V (z : nat -> nat) v m : (forall u, (u < V)%nat -> u <> v) ->
  map (set1 z v m) (seq 0 V) = map z (seq 0 V).
Proof. intros. apply map_ext_in. intros u Hu. apply in_seq in Hu. apply set1_other. apply H. lia. Qed.

(** Vectors as lists. *)
Lemma sumf_vectors V : forall b (F : list nat -> R) z,
  sumf (vectors V M) F = sumall (seq b V) (fun z => F (map z (seq b V))) z.
Proof.
  induction V; intros b F z; simpl.
  - unfold sumf; simpl. lra.
  - rewrite sumf_flat_map. apply sumf_ext. intros m _. rewrite sumf_map.
    rewrite (IHV (S b) (fun x => F (m :: x)) (set1 z b m)).
    apply sumall_ext. apply seq_NoDup.
    intros z' (_ & Hz). rewrite Hz. now rewrite set1_same.
    rewrite in_seq. lia.
Qed.

Lemma in_vectors V : forall z, In z (vectors V M) <-> length z = V /\ forall m, In m z -> (m < M)%nat.
Proof.
  induction V; simpl; intros z.
  - split.
    + intros [<-|[]]. split; auto. simpl; tauto.
    + intros [L _]. destruct z; [auto|discriminate].
  - rewrite in_flat_map. split.
    + intros (m & Hm & Hz). apply in_seq in Hm. apply in_map_iff in Hz. destruct Hz as (t & <- & Ht).
      apply IHV in Ht. destruct Ht as [L A]. split; [simpl; lia|]. intros x [<-|Hx]; auto. lia.
    + intros [L A]. destruct z as [|m t]; [discriminate|]. exists m. split.
      * apply in_seq. specialize (A m (or_introl eq_refl)). lia.
      * apply in_map. apply IHV. split; [simpl in L; lia|]. intros. apply A. now right.
Qed.

Lemma vectors_NoDup V : NoDup (vectors V M).
Proof.
  induction V; simpl.
  - repeat constructor. auto.
  - assert (G : forall l, NoDup l -> NoDup (flat_map (fun m => map (cons m) (vectors V M)) l)).
    { induction l; simpl; intros ND; [constructor|]. inversion ND; subst.
      apply NoDup_app_intro; auto.
      - apply FinFun.Injective_map_NoDup; auto. intros x y E. congruence.
      - intros x Hx Hy. apply in_map_iff in Hx. destruct Hx as (t & <- & _).
        apply in_flat_map in Hy. destruct Hy as (m & Hm & Hy). apply in_map_iff in Hy.
        destruct Hy as (t' & E & _). congruence. }
    apply G, seq_NoDup.
Qed.

(** Turning a vector into an assignment and back. *)
Lemma map_nth_seq (z : list nat) V : length z = V -> map (fun v => nth v z 0%nat) (seq 0 V) = z.
Proof.
  intros <-. clear. induction z; simpl; auto. f_equal. rewrite <- seq_shift, map_map. exact IHz.
Qed.

(** Sequential sampling: drawing the variables of [l] one after the other, [v]
    with weights [w z v] that depend on what was drawn before. *)
Fixpoint draw_all {A} (w : (nat -> nat) -> nat -> nat -> R) (l : list nat) (k : (nat -> nat) -> rprog A) (z : nat -> nat) : rprog A :=
  match l with
  | [] => k z
  | v :: t => Cat (vec M (w z v)) (fun m => draw_all w t k (set1 z v m))
  end.

Definition wtot (w : (nat -> nat) -> nat -> nat -> R) z v : R := sumf (seq 0 M) (w z v).

(** [w z v] only looks at [z] at variables drawn before [v] (or outside [l]). *)
Definition looks_back (w : (nat -> nat) -> nat -> nat -> R) (l : list nat) : Prop :=
  forall pre v post, l = pre ++ v :: post -> forall z z' m,
    (forall u, ~ In u (v :: post) -> z u = z' u) -> w z v m = w z' v m.

Lemma rsum_vec f : rsum (vec M f) = sumf (seq 0 M) f.
Proof. unfold rsum, vec. now rewrite sumf_map. Qed.

Lemma nth_vec {A} (f : nat -> A) m d : (m < M)%nat -> nth m (vec M f) d = f m.
Proof.
  intros. unfold vec. rewrite nth_indep with (d' := f 0%nat) by (rewrite map_length, seq_length; auto).
  rewrite map_nth, seq_nth by auto. reflexivity.
Qed.

Lemma vec_length {A} (f : nat -> A) : length (vec M f) = M.
Proof. unfold vec. now rewrite map_length, seq_length. Qed.

Lemma expect_cat {A} (w : nat -> R) (k : nat -> rprog A) G : (0 < M)%nat -> (forall m, (m < M)%nat -> 0 < w m) ->
  expect (Cat (vec M w) k) G = sumf (seq 0 M) (fun m => w m / sumf (seq 0 M) w * expect (k m) G).
Proof.
  intros HM P. simpl. destruct (vec M w) eqn:E.
  { apply (f_equal (@length R)) in E. rewrite vec_length in E. simpl in E. lia. }
  rewrite <- E. rewrite rsum_vec, vec_length.
  assert (0 < sumf (seq 0 M) w).
  { apply sumf_pos. intros m Hm. apply in_seq in Hm. left. apply P. lia.
    exists 0%nat. split; [apply in_seq; lia|apply P; lia]. }
  destruct (Req_EM_T _ 0); [lra|]. apply sumf_ext. intros m Hm. apply in_seq in Hm.
  rewrite nth_vec by lia. reflexivity.
Qed.

Lemma draw_all_expect {A} w l (k : (nat -> nat) -> rprog A) G : (0 < M)%nat -> NoDup l -> looks_back w l ->
  forall z, (forall z' v m, fills l z z' -> In v l -> (m < M)%nat -> 0 < w z' v m) ->
  expect (draw_all w l k z) G =
  sumall l (fun z' => prodf l (fun v => w z' v (z' v) / wtot w z' v) * expect (k z') G) z.
Proof.
  intros HM. induction l as [|v t IH]; intros ND LB z P.
  - simpl. unfold prodf. simpl. lra.
  - inversion ND; subst. cbn [draw_all sumall].
    assert (FZ : exists z', fills (v :: t) z z').
    { exists (fun u => if in_dec Nat.eq_dec u (v :: t) then 0%nat else z u). split; intros u Hu;
      destruct (in_dec Nat.eq_dec u (v :: t)); tauto || lia. }
    destruct FZ as (zf & FZ).
    assert (WZ : forall z' m, fills (v :: t) z z' -> w z v m = w z' v m).
    { intros z' m (_ & Hz). apply (LB [] v t eq_refl). intros u Hu. symmetry. apply Hz. exact Hu. }
    rewrite expect_cat; auto.
    2:{ intros m Hm. rewrite (WZ zf m FZ). apply P; auto. now left. }
    apply sumf_ext. intros m Hm. apply in_seq in Hm.
    rewrite IH; auto.
    + rewrite <- sumall_scal. apply sumall_ext; auto. intros z' Hz.
      rewrite prodf_cons.
      assert (F' : fills (v :: t) z z') by (apply (fills_cons v t z m z'); auto; lia).
      assert (Ev : z' v = m). { destruct Hz as [_ Hz]. rewrite Hz by auto. apply set1_same. }
      unfold wtot at 2. rewrite Ev. rewrite (WZ z' m F').
      rewrite (sumf_ext (seq 0 M) (w z v) (w z' v)) by (intros; apply WZ; auto). ring.
    + intros pre u post E z1 z2 m' Hz. apply (LB (v :: pre) u post); auto. now rewrite E.
    + intros z' u m' F' Hu Hm'. apply P; auto. apply (fills_cons v t z m z'); auto; lia. now right.
Qed.

(** Since the sampling is a probability distribution, the products of the
    normalised weights sum to one. *)
Lemma draw_all_total w l : (0 < M)%nat -> NoDup l -> looks_back w l ->
  forall z, (forall z' v m, fills l z z' -> In v l -> (m < M)%nat -> 0 < w z' v m) ->
  sumall l (fun z' => prodf l (fun v => w z' v (z' v) / wtot w z' v)) z = 1.
Proof.
  intros HM ND LB z P.
  rewrite <- (expect_const _ (draw_all w l (fun z => Ret z) z) 1).
  rewrite draw_all_expect; auto. apply sumall_ext; auto. intros. simpl. lra.
Qed.

End Asg.
