(** Tree sums with one potential changed: the message from above a vertex. *)
From Coq Require Import List Arith Lia Bool Reals Lra Permutation.
From Verif Require Import Base L_Base Spec_Graph L_Graph Spec_Sum L_Sum L_Program M_Array L_Asg L_BP.
Import ListNotations.
Open Scope R_scope.

Lemma dep_lt V es r par dep (RT : rooted V es r par dep) v : (v < V)%nat -> (dep v < V)%nat.
Proof.
  intros Hv.
  assert (forall u, (u < V)%nat -> (forall n, (n <= dep u)%nat -> exists w, (w < V)%nat /\ dep w = n)).
  { apply (rooted_ind _ _ _ _ _ RT (fun u => forall n, (n <= dep u)%nat -> exists w, (w < V)%nat /\ dep w = n)).
    - intros n Hn. rewrite (rt_dep _ _ _ _ _ RT) in Hn. exists r. split; [apply RT|]. rewrite (rt_dep _ _ _ _ _ RT). lia.
    - intros w Hw N IH n Hn. pose proof (par_dep _ _ _ _ _ RT w Hw N).
      destruct (Nat.eq_dec n (dep w)) as [->|]; [exists w; auto|]. apply IH. lia. }
  specialize (H v Hv). destruct (le_lt_dec V (dep v)); auto. exfalso.
  assert (IN : incl (seq 0 (S V)) (map dep (seq 0 V))).
  { intros n Hn. apply in_seq in Hn. destruct (H n) as (w & Hw & E); [lia|]. apply in_map_iff. exists w.
    split; auto. apply in_seq. lia. }
  apply NoDup_incl_length in IN; [|apply seq_NoDup]. rewrite map_length, !seq_length in IN. lia.
Qed.

Section Path.
Variables (V : nat) (es : list (nat * nat)) (r : nat) (par dep : nat -> nat) (M : nat).
Hypothesis RT : rooted V es r par dep.
Variable psi : nat -> nat -> nat -> R.
Notation kids := (kids V r par).
Notation up := (up M psi).
Notation upward := (upward V r par M).

Lemma kid_dep v c : In c (kids v) -> dep c = S (dep v).
Proof. intros H. apply in_kids in H. destruct H as (Hc & N & Ep). rewrite (par_dep _ _ _ _ _ RT c Hc N). now rewrite Ep. Qed.

(** The upward table of potentials [phi]. *)
Fixpoint btab (n : nat) (phi : nat -> nat -> R) : nat -> nat -> R :=
  match n with
  | O => phi
  | S n => fun v m => phi v m * prodf (kids v) (fun c => up (btab n phi) c m)
  end.

Lemma up_ext B B' c m : (forall m', (m' < M)%nat -> B c m' = B' c m') -> up B c m = up B' c m.
Proof. intros H. apply sumf_ext. intros m' I. apply in_seq in I. rewrite H by lia. reflexivity. Qed.

Lemma btab_stable phi : forall n v m, (v < V)%nat -> (V - dep v <= S n)%nat -> btab (S n) phi v m = btab n phi v m.
Proof.
  induction n; intros v m Hv Hd.
  - cbn [btab]. assert (E : kids v = []).
    { destruct (kids v) as [|c l] eqn:E; auto. assert (I : In c (kids v)) by (rewrite E; now left).
      pose proof (kid_dep _ _ I). apply in_kids in I. pose proof (dep_lt V es r par dep RT c (proj1 I)). lia. }
    rewrite E. unfold prodf. cbn. ring.
  - change (btab (S (S n)) phi v m) with (phi v m * prodf (kids v) (fun c => up (btab (S n) phi) c m)).
    change (btab (S n) phi v m) with (phi v m * prodf (kids v) (fun c => up (btab n phi) c m)).
    f_equal. apply prodf_ext. intros c I. apply up_ext. intros m' _. apply IHn.
    + apply in_kids in I. tauto.
    + pose proof (kid_dep _ _ I). lia.
Qed.

Definition tab (phi : nat -> nat -> R) := btab V phi.
Lemma tab_upward phi : upward phi psi (tab phi).
Proof. intros v m Hv Hm. unfold tab. rewrite <- (btab_stable phi V v m Hv) by lia. reflexivity. Qed.

(** Tables agree on sets closed under children on which the potentials do. *)
Lemma upward_local (D : nat -> Prop) phi phi' B B' : upward phi psi B -> upward phi' psi B' ->
  (forall v c, D v -> In c (kids v) -> D c) ->
  (forall v m, (v < V)%nat -> (m < M)%nat -> D v -> phi v m = phi' v m) ->
  forall v m, (v < V)%nat -> (m < M)%nat -> D v -> B v m = B' v m.
Proof.
  intros U U' CL E.
  assert (G : forall n v m, (V - dep v <= n)%nat -> (v < V)%nat -> (m < M)%nat -> D v -> B v m = B' v m).
  { induction n; intros v m Hn Hv Hm Dv; [pose proof (dep_lt V es r par dep RT v Hv); lia|].
    rewrite U, U' by auto. rewrite E by auto. f_equal. apply prodf_ext. intros c I. apply up_ext. intros m' Hm'.
    apply IHn; auto.
    - pose proof (kid_dep _ _ I). lia.
    - apply in_kids in I. tauto.
    - eapply CL; eauto. }
  intros. eapply G; eauto.
Qed.

Lemma upward_unique phi B B' : upward phi psi B -> upward phi psi B' -> forall v m, (v < V)%nat -> (m < M)%nat -> B v m = B' v m.
Proof. intros. apply (upward_local (fun _ => True) phi phi B B'); auto. Qed.

Definition Tot (phi : nat -> nat -> R) : R := sumf (seq 0 M) (tab phi r).
Lemma Tot_eq phi B : upward phi psi B -> Tot phi = sumf (seq 0 M) (B r).
Proof.
  intros U. apply sumf_ext. intros m I. apply in_seq in I. apply (upward_unique phi); auto; [apply tab_upward|apply RT|lia].
Qed.

Lemma Tot_ext phi phi' : (forall v m, (v < V)%nat -> (m < M)%nat -> phi v m = phi' v m) -> Tot phi = Tot phi'.
Proof.
  intros E. apply Tot_eq. intros v m Hv Hm. rewrite E by auto. rewrite <- (tab_upward phi' v m Hv Hm). reflexivity.
Qed.

(** Multiply the potential of [v] by [f]. *)
Definition at1 (phi : nat -> nat -> R) (v : nat) (f : nat -> R) : nat -> nat -> R := set1 phi v (fun m => phi v m * f m).

Lemma at1_same phi v f m : at1 phi v f v m = phi v m * f m.
Proof. unfold at1. now rewrite set1_same. Qed.
Lemma at1_other phi v f u m : u <> v -> at1 phi v f u m = phi u m.
Proof. intros. unfold at1. now rewrite set1_other. Qed.

Lemma path_root phi B f : upward phi psi B -> Tot (at1 phi r f) = sumf (seq 0 M) (fun m => f m * B r m).
Proof.
  intros U. rewrite (Tot_eq (at1 phi r f) (at1 B r f)).
  - apply sumf_ext. intros m _. rewrite at1_same. ring.
  - intros v m Hv Hm.
    rewrite (prodf_ext _ _ (fun c => up B c m)).
    + destruct (Nat.eq_dec v r) as [->|N].
      * rewrite !at1_same, (U r m) by auto. ring.
      * rewrite !at1_other by auto. now apply U.
    + intros c I. apply in_kids in I. apply up_ext. intros. apply at1_other. tauto.
Qed.

Lemma path_step phi B c f : upward phi psi B -> (c < V)%nat -> c <> r ->
  (forall mp, (mp < M)%nat -> up B c mp <> 0) ->
  Tot (at1 phi c f) = Tot (at1 phi (par c) (fun mp => sumf (seq 0 M) (fun m => psi c mp m * (f m * B c m)) / up B c mp)).
Proof.
  intros U Hc N NZ. set (p := par c). set (f' := fun mp => _ / _). pose proof (par_lt _ _ _ _ _ RT c Hc) as Hp. fold p in Hp.
  pose proof (par_neq _ _ _ _ _ RT c Hc N) as NE. fold p in NE.
  set (W := tab (at1 phi p f')). pose proof (tab_upward (at1 phi p f')) as UW. fold W in UW.
  assert (WB : forall u m, (u < V)%nat -> (m < M)%nat -> (dep p < dep u)%nat -> W u m = B u m).
  { apply (upward_local (fun u => (dep p < dep u)%nat) (at1 phi p f') phi W B UW U).
    - intros u k D I. rewrite (kid_dep _ _ I). lia.
    - intros u m _ _ D. apply at1_other. intros ->. lia. }
  assert (DC : dep c = S (dep p)) by (apply (par_dep _ _ _ _ _ RT); auto).
  unfold Tot at 2. fold W. rewrite (Tot_eq (at1 phi c f) (set1 W c (fun m => f m * B c m))).
  - apply sumf_ext. intros m _. rewrite set1_other by auto. reflexivity.
  - intros v m Hv Hm. destruct (Nat.eq_dec v c) as [->|NC].
    + rewrite set1_same, at1_same, (U c m Hc Hm).
      transitivity (phi c m * f m * prodf (kids c) (fun c0 => up B c0 m)); [ring|]. f_equal.
      apply prodf_ext. intros k I. pose proof (kid_dep _ _ I). apply in_kids in I. destruct I as (Hk & _ & Ek).
      apply up_ext. intros m' Hm'. rewrite set1_other by (intros ->; lia). symmetry. apply WB; auto. lia.
    + rewrite set1_other, at1_other by auto. rewrite (UW v m Hv Hm). destruct (Nat.eq_dec v p) as [->|NP].
      * rewrite at1_same. rewrite Rmult_assoc. f_equal.
        assert (IC : In c (kids p)) by (apply in_kids; auto). apply in_split in IC. destruct IC as (l1 & l2 & EK).
        pose proof (kids_NoDup V r par p) as ND. rewrite EK in ND. apply NoDup_remove_2 in ND.
        rewrite EK, !prodf_app, !prodf_cons.
        assert (X : forall l, (forall k, In k l -> k <> c) -> prodf l (fun k => up (set1 W c (fun m => f m * B c m)) k m) = prodf l (fun k => up W k m)).
        { intros l H. apply prodf_ext. intros k I. apply up_ext. intros. rewrite set1_other by auto. reflexivity. }
        rewrite !X by (intros k I ->; apply ND, in_or_app; auto).
        rewrite (up_ext W B c m) by (intros; apply WB; auto; lia).
        assert (EU : up (set1 W c (fun m => f m * B c m)) c m = f' m * up B c m).
        { unfold f'. transitivity (sumf (seq 0 M) (fun m' => psi c m m' * (f m' * B c m'))); [|field; auto].
          unfold L_BP.up. rewrite set1_same. reflexivity. }
        rewrite EU. ring.
      * rewrite at1_other by auto. f_equal. apply prodf_ext. intros k I. apply in_kids in I. apply up_ext. intros.
        rewrite set1_other; auto. intros ->. destruct I as (_ & _ & E). apply NP. now rewrite <- E.
Qed.

(** Message from above. *)
Fixpoint Qn (B : nat -> nat -> R) (n v m : nat) : R :=
  match n with
  | O => 1
  | S n => sumf (seq 0 M) (fun mp => psi v mp m * (B (par v) mp / up B v mp * Qn B n (par v) mp))
  end.

Theorem path phi B f v : upward phi psi B -> (forall c mp, (c < V)%nat -> c <> r -> (mp < M)%nat -> up B c mp <> 0) ->
  (v < V)%nat -> Tot (at1 phi v f) = sumf (seq 0 M) (fun m => f m * B v m * Qn B (dep v) v m).
Proof.
  intros U NZ Hv. revert f. pattern v. revert v Hv.
  apply (rooted_ind _ _ _ _ _ RT).
  - intros f. rewrite (path_root phi B f U), (rt_dep _ _ _ _ _ RT). apply sumf_ext. intros. cbn [Qn]. ring.
  - intros c Hc N IH f. rewrite (path_step phi B c f U Hc N) by auto. rewrite IH.
    rewrite (par_dep _ _ _ _ _ RT c Hc N). cbn [Qn].
    rewrite (sumf_ext _ (fun m => f m * B c m * _)
      (fun m => sumf (seq 0 M) (fun mp => f m * B c m * (psi c mp m * (B (par c) mp / up B c mp * Qn B (dep (par c)) (par c) mp))))) by (intros; now rewrite sumf_scal).
    rewrite sumf_swap. apply sumf_ext. intros mp I. apply in_seq in I.
    unfold Rdiv. rewrite !Rmult_assoc. rewrite <- sumf_scal_r. apply sumf_ext. intros m _. ring.
Qed.

(** The message from above when the branches that leave the path are free of
    evidence. *)
Fixpoint Pn (phi : nat -> nat -> R) (n v m : nat) : R :=
  match n with
  | O => 1
  | S n => sumf (seq 0 M) (fun mp => psi v mp m * (phi (par v) mp * Pn phi n (par v) mp))
  end.

Inductive anc : nat -> nat -> Prop :=
| anc_refl v : anc v v
| anc_step u v : v <> r -> anc u (par v) -> anc u v.

Lemma anc_trans u v w : anc u v -> anc v w -> anc u w.
Proof. intros A. induction 1; auto. apply anc_step; auto. Qed.

Lemma Qn_Pn phi B v : upward phi psi B -> (v < V)%nat -> (forall c mp, (c < V)%nat -> c <> r -> (mp < M)%nat -> up B c mp <> 0) ->
  (forall c k mp, (c < V)%nat -> c <> r -> anc c v -> In k (kids (par c)) -> k <> c -> (mp < M)%nat -> up B k mp = 1) ->
  forall m, (m < M)%nat -> Qn B (dep v) v m = Pn phi (dep v) v m.
Proof.
  intros U Hv NZ. revert v Hv.
  apply (rooted_ind _ _ _ _ _ RT (fun v => (forall c k mp, (c < V)%nat -> c <> r -> anc c v -> In k (kids (par c)) -> k <> c -> (mp < M)%nat -> up B k mp = 1) ->
    forall m, (m < M)%nat -> Qn B (dep v) v m = Pn phi (dep v) v m)).
  - intros _ m _. now rewrite (rt_dep _ _ _ _ _ RT).
  - intros c Hc N IH OFF m Hm. rewrite (par_dep _ _ _ _ _ RT c Hc N). cbn [Qn Pn].
    apply sumf_ext. intros mp I. apply in_seq in I.
    rewrite IH by (try lia; intros c' k mp' ? ? A; apply OFF; auto; apply anc_step; auto).
    rewrite (U (par c) mp) by (try apply (par_lt _ _ _ _ _ RT c Hc); lia).
    assert (IC : In c (kids (par c))) by (apply in_kids; auto). apply in_split in IC. destruct IC as (l1 & l2 & EK).
    pose proof (kids_NoDup V r par (par c)) as ND. rewrite EK in ND. apply NoDup_remove_2 in ND.
    assert (X : forall l, (forall k, In k l -> k <> c /\ In k (kids (par c))) -> prodf l (fun k => up B k mp) = 1).
    { intros l H. apply prodf_one. intros k Ik. apply (OFF c k mp); auto; try apply H; auto; [apply anc_refl|lia]. }
    rewrite EK, prodf_app, prodf_cons. rewrite !X.
    + f_equal. field. apply NZ; auto. lia.
    + intros k Ik. split; [intros ->; apply ND, in_or_app; auto|]. rewrite EK. apply in_or_app. right. now right.
    + intros k Ik. split; [intros ->; apply ND, in_or_app; auto|]. rewrite EK. apply in_or_app. now left.
Qed.

(** Only the potentials of proper ancestors matter. *)
Lemma Pn_ext phi phi' v : (v < V)%nat ->
  (forall c m, (c < V)%nat -> c <> r -> anc c v -> (m < M)%nat -> phi (par c) m = phi' (par c) m) ->
  forall m, Pn phi (dep v) v m = Pn phi' (dep v) v m.
Proof.
  revert v. apply (rooted_ind _ _ _ _ _ RT (fun v => (forall c m, (c < V)%nat -> c <> r -> anc c v -> (m < M)%nat -> phi (par c) m = phi' (par c) m) ->
    forall m, Pn phi (dep v) v m = Pn phi' (dep v) v m)).
  - intros _ m. now rewrite (rt_dep _ _ _ _ _ RT).
  - intros c Hc N IH E m. rewrite (par_dep _ _ _ _ _ RT c Hc N). cbn [Pn]. apply sumf_ext. intros mp I. apply in_seq in I.
    rewrite (E c mp) by (auto; try apply anc_refl; lia). rewrite IH; auto. intros. apply E; auto. apply anc_step; auto.
Qed.
End Path.

(** Dividing the edge potentials by constants scales the tables. *)
Lemma upward_scale V es r par dep M (RT : rooted V es r par dep) psi k phi B B1 :
  (forall c, (c < V)%nat -> c <> r -> 0 < k c) ->
  upward V r par M phi psi B -> upward V r par M phi (fun c m m' => psi c m m' / k c) B1 ->
  forall v, (v < V)%nat -> exists a, 0 < a /\ forall m, (m < M)%nat -> B1 v m = a * B v m.
Proof.
  intros KP U U1.
  assert (G : forall n v, (V - dep v <= n)%nat -> (v < V)%nat -> exists a, 0 < a /\ forall m, (m < M)%nat -> B1 v m = a * B v m).
  { induction n; intros v Hn Hv; [pose proof (dep_lt V es r par dep RT v Hv); lia|].
    assert (H : forall l, incl l (kids V r par v) -> exists a, 0 < a /\ forall m,
      prodf l (fun c => up M (fun c m m' => psi c m m' / k c) B1 c m) = a * prodf l (fun c => up M psi B c m)).
    { induction l as [|c l IHl]; intros IN.
      - exists 1. split; [lra|]. intros. unfold prodf. cbn. ring.
      - destruct IHl as (a & Ha & E); [intros x Hx; apply IN; now right|].
        assert (Ic : In c (kids V r par v)) by (apply IN; now left). pose proof (kid_dep V es r par dep RT v c Ic) as DC.
        apply in_kids in Ic. destruct Ic as (Hc & Nc & _). destruct (IHn c ltac:(lia) Hc) as (b & Hb & Eb).
        specialize (KP c Hc Nc). exists (b / k c * a). split.
        + apply Rmult_lt_0_compat; auto. apply Rdiv_lt_0_compat; auto.
        + intros m. rewrite !prodf_cons, E. unfold up at 1.
          rewrite (sumf_ext _ _ (fun m' => b / k c * (psi c m m' * B c m'))).
          * rewrite sumf_scal. fold (up M psi B c m). ring.
          * intros m' I. apply in_seq in I. rewrite Eb by lia. field. lra. }
    destruct (H (kids V r par v) (incl_refl _)) as (a & Ha & E). exists a. split; auto.
    intros m Hm. rewrite U1, U, E by auto. ring. }
  intros. eapply G; eauto.
Qed.
