(** Sum-product message passing on a rooted tree. *)
From Coq Require Import List Arith Lia Bool Reals Lra Permutation FunctionalExtensionality.
From Verif Require Import Base L_Base Spec_Graph L_Graph Spec_Sum L_Sum M_Structure L_MakeTree L_Program M_Rand L_Rand M_Array Spec_Joint L_Asg.
Import ListNotations.
Open Scope R_scope.

Section BP.
Variables (V : nat) (es : list (nat * nat)) (r : nat) (par dep : nat -> nat).
Variable M : nat.

Definition kids (v : nat) : list nat := filter (fun c => negb (c =? r) && (par c =? v))%nat (seq 0 V).
Definition nonroot : list nat := filter (fun c => negb (c =? r))%nat (seq 0 V).

Lemma in_kids v c : In c (kids v) <-> (c < V)%nat /\ c <> r /\ par c = v.
Proof.
  clear dep. unfold kids. rewrite filter_In, in_seq, andb_true_iff, negb_true_iff, Nat.eqb_neq, Nat.eqb_eq. intuition lia.
Qed.

Lemma in_nonroot c : In c nonroot <-> (c < V)%nat /\ c <> r.
Proof. clear par dep. unfold nonroot. rewrite filter_In, in_seq, negb_true_iff, Nat.eqb_neq. intuition lia. Qed.

Lemma kids_NoDup v : NoDup (kids v).
Proof. apply NoDup_filter, seq_NoDup. Qed.
Lemma nonroot_NoDup : NoDup nonroot.
Proof. apply NoDup_filter, seq_NoDup. Qed.

Lemma flat_kids_NoDup l : NoDup l -> NoDup (flat_map kids l).
Proof.
  induction l; simpl; intros ND; [constructor|]. inversion ND; subst.
  apply NoDup_app_intro; auto. apply kids_NoDup.
  intros x Hx Hy. apply in_kids in Hx. apply in_flat_map in Hy. destruct Hy as (u & Hu & Hy).
  apply in_kids in Hy. destruct Hx as (_ & _ & Hx), Hy as (_ & _ & Hy). congruence.
Qed.

Hypothesis RT : rooted V es r par dep.

Lemma flat_kids_perm l : Permutation l (seq 0 V) -> Permutation (flat_map kids l) nonroot.
Proof.
  intros P. apply NoDup_Permutation.
  - apply flat_kids_NoDup. eapply Permutation_NoDup; [apply Permutation_sym; exact P|apply seq_NoDup].
  - apply nonroot_NoDup.
  - intros c. rewrite in_flat_map, in_nonroot. split.
    + intros (v & _ & H). apply in_kids in H. tauto.
    + intros (Hc & N). exists (par c). split; [|now apply in_kids].
      eapply Permutation_in; [apply Permutation_sym; exact P|]. apply in_seq.
      pose proof (par_lt _ _ _ _ _ RT c Hc). lia.
Qed.

Lemma root_perm : Permutation (seq 0 V) (r :: nonroot).
Proof.
  apply NoDup_Permutation.
  - apply seq_NoDup.
  - constructor; [rewrite in_nonroot; tauto|apply nonroot_NoDup].
  - intros x. rewrite in_seq. simpl. rewrite in_nonroot. pose proof (rt_root _ _ _ _ _ RT).
    destruct (Nat.eq_dec x r); intuition (try lia; subst; auto).
Qed.

Lemma prodf_flat_map {A B} (h : A -> list B) l (f : B -> R) : prodf (flat_map h l) f = prodf l (fun x => prodf (h x) f).
Proof. induction l; simpl; auto. unfold prodf in *. simpl. rewrite <- IHl. fold (prodf (h a ++ flat_map h l) f). rewrite prodf_app. reflexivity. Qed.

Lemma prod_kids (g : nat -> nat -> R) :
  prodf (seq 0 V) (fun v => prodf (kids v) (g v)) = prodf nonroot (fun c => g (par c) c).
Proof.
  rewrite <- (prodf_perm _ _ _ (flat_kids_perm (seq 0 V) (Permutation_refl _))).
  rewrite prodf_flat_map. apply prodf_ext. intros v _. apply prodf_ext. intros c Hc.
  apply in_kids in Hc. destruct Hc as (_ & _ & ->). reflexivity.
Qed.

(** Potentials and the weight of an assignment. *)
Definition jointw (phi : nat -> nat -> R) (psi : nat -> nat -> nat -> R) (z : nat -> nat) : R :=
  prodf (seq 0 V) (fun v => phi v (z v)) * prodf nonroot (fun c => psi c (z (par c)) (z c)).

Definition up (psi : nat -> nat -> nat -> R) (B : nat -> nat -> R) (c m : nat) : R :=
  sumf (seq 0 M) (fun m' => psi c m m' * B c m').

(** [B] satisfies the equations of upward messages. *)
Definition upward (phi : nat -> nat -> R) (psi : nat -> nat -> nat -> R) (B : nat -> nat -> R) : Prop :=
  forall v m, (v < V)%nat -> (m < M)%nat -> B v m = phi v m * prodf (kids v) (fun c => up psi B c m).

Section Pot.
Hypothesis HM : (0 < M)%nat.
Variables (phi : nat -> nat -> R) (psi : nat -> nat -> nat -> R) (B : nat -> nat -> R).
Hypothesis PHI : forall v m, (v < V)%nat -> (m < M)%nat -> 0 < phi v m.
Hypothesis PSI : forall c m m', (c < V)%nat -> c <> r -> (m < M)%nat -> (m' < M)%nat -> 0 < psi c m m'.
Hypothesis UP : upward phi psi B.

Lemma dep_bound v : (v < V)%nat -> (dep v < V)%nat.
Proof.
  intros Hv. pose proof (rt_dist _ _ _ _ _ RT v Hv) as D.
  assert (forall u, (u < V)%nat -> (forall n, (n <= dep u)%nat -> exists w, (w < V)%nat /\ dep w = n)).
  { apply (rooted_ind _ _ _ _ _ RT (fun u => forall n, (n <= dep u)%nat -> exists w, (w < V)%nat /\ dep w = n)).
    - intros n Hn. rewrite (rt_dep _ _ _ _ _ RT) in Hn. exists r. split; [apply RT|]. rewrite (rt_dep _ _ _ _ _ RT). lia.
    - intros w Hw N IH n Hn. pose proof (par_dep _ _ _ _ _ RT w Hw N).
      destruct (Nat.eq_dec n (dep w)) as [->|]; [exists w; auto|]. apply IH. lia. }
  specialize (H v Hv).
  destruct (le_lt_dec V (dep v)); auto. exfalso.
  assert (IN : incl (seq 0 (S V)) (map dep (seq 0 V))).
  { intros n Hn. apply in_seq in Hn. destruct (H n) as (w & Hw & E); [lia|]. apply in_map_iff. exists w.
    split; auto. apply in_seq. lia. }
  apply NoDup_incl_length in IN; [|apply seq_NoDup]. rewrite map_length, !seq_length in IN. lia.
Qed.

Lemma B_pos : forall v m, (v < V)%nat -> (m < M)%nat -> 0 < B v m.
Proof.
  assert (G : forall n v m, (V - dep v <= n)%nat -> (v < V)%nat -> (m < M)%nat -> 0 < B v m).
  { induction n; intros v m Hn Hv Hm; [pose proof (dep_bound v Hv); lia|].
    rewrite UP by auto. apply Rmult_lt_0_compat; [auto|]. apply prodf_pos. intros c Hc.
    apply in_kids in Hc. destruct Hc as (Hc & N & Ep).
    pose proof (par_dep _ _ _ _ _ RT c Hc N). rewrite Ep in H.
    assert (P : forall m', (m' < M)%nat -> 0 < psi c m m' * B c m').
    { intros m' Hm'. apply Rmult_lt_0_compat; [auto|]. apply IHn; auto. lia. }
    unfold up. apply sumf_pos.
    - intros m' Hm'. apply in_seq in Hm'. left. apply P. lia.
    - exists 0%nat. split; [apply in_seq; lia|apply P; lia]. }
  intros. eapply G; eauto.
Qed.

Lemma up_pos c m : (c < V)%nat -> c <> r -> (m < M)%nat -> 0 < up psi B c m.
Proof.
  intros Hc N Hm. unfold up. assert (P : forall m', (m' < M)%nat -> 0 < psi c m m' * B c m').
  { intros m' Hm'. apply Rmult_lt_0_compat; [auto|]. apply B_pos; auto. }
  apply sumf_pos.
  - intros m' Hm'. apply in_seq in Hm'. left. apply P. lia.
  - exists 0%nat. split; [apply in_seq; lia|apply P; lia].
Qed.

Definition in_classes (z : nat -> nat) : Prop := forall v, (v < V)%nat -> (z v < M)%nat.

Lemma telescope z : in_classes z ->
  jointw phi psi z = B r (z r) * prodf nonroot (fun c => psi c (z (par c)) (z c) * B c (z c) / up psi B c (z (par c))).
Proof.
  intros C. unfold jointw.
  assert (E : prodf (seq 0 V) (fun v => B v (z v)) =
    prodf (seq 0 V) (fun v => phi v (z v)) * prodf nonroot (fun c => up psi B c (z (par c)))).
  { rewrite <- (prod_kids (fun v c => up psi B c (z v))). rewrite <- prodf_mult. apply prodf_ext.
    intros v Hv. apply in_seq in Hv. apply UP; [lia|apply C; lia]. }
  rewrite (prodf_perm _ _ _ root_perm), prodf_cons in E.
  set (U := prodf nonroot (fun c => up psi B c (z (par c)))) in *.
  assert (UP0 : 0 < U).
  { apply prodf_pos. intros c Hc. apply in_nonroot in Hc. destruct Hc. apply up_pos; auto. apply C.
    apply (par_lt _ _ _ _ _ RT); auto. }
  assert (E2 : prodf nonroot (fun c => psi c (z (par c)) (z c) * B c (z c) / up psi B c (z (par c))) * U =
     prodf nonroot (fun c => psi c (z (par c)) (z c)) * prodf nonroot (fun c => B c (z c))).
  { unfold U. rewrite <- !prodf_mult. apply prodf_ext. intros c Hc. apply in_nonroot in Hc. destruct Hc.
    field. apply Rgt_not_eq, up_pos; auto. apply C. apply (par_lt _ _ _ _ _ RT); auto. }
  apply Rmult_eq_reg_r with U; [|lra].
  transitivity ((prodf (seq 0 V) (fun v => phi v (z v)) * U) * prodf nonroot (fun c => psi c (z (par c)) (z c))); [ring|].
  rewrite <- E. rewrite Rmult_assoc. rewrite (Rmult_assoc (B r (z r)) _ U). rewrite E2. ring.
Qed.

(** Weights with which forward filtering - backward sampling draws vertex [v]. *)
Definition ffw (z : nat -> nat) (v m : nat) : R :=
  if (v =? r)%nat then B r m else psi v (z (par v)) m * B v m.

Definition Ztot : R := sumf (seq 0 M) (B r).

Lemma Ztot_pos : 0 < Ztot.
Proof.
  pose proof (rt_root _ _ _ _ _ RT). apply sumf_pos.
  - intros m Hm. apply in_seq in Hm. left. apply B_pos; auto; lia.
  - exists 0%nat. split; [apply in_seq; lia|apply B_pos; auto].
Qed.

Section Order.
Variable l : list nat.
Hypothesis LP : Permutation l (seq 0 V).
Hypothesis LF : parents_first r par l.

Lemma order_NoDup : NoDup l.
Proof. eapply Permutation_NoDup; [apply Permutation_sym; exact LP|apply seq_NoDup]. Qed.

Lemma order_in v : In v l <-> (v < V)%nat.
Proof.
  split; intros H.
  - eapply Permutation_in in H; [|exact LP]. apply in_seq in H. lia.
  - eapply Permutation_in; [apply Permutation_sym; exact LP|]. apply in_seq. lia.
Qed.

Lemma fills_classes z z' : fills M l z z' -> in_classes z'.
Proof. intros (A & _) v Hv. apply A. now apply order_in. Qed.

Lemma ffw_looks_back : looks_back ffw l.
Proof.
  intros pre v post E z z' m H. unfold ffw. destruct (Nat.eqb_spec v r); auto.
  rewrite H; auto. pose proof (LF pre v post E n) as I. pose proof order_NoDup as ND. rewrite E in ND.
  apply NoDup_app_inv in ND. destruct ND as (_ & _ & D). apply D, I.
Qed.

Lemma ffw_prod z : in_classes z ->
  prodf l (fun v => ffw z v (z v) / wtot M ffw z v) = jointw phi psi z / Ztot.
Proof.
  intros C. rewrite telescope by auto.
  rewrite (prodf_perm _ _ _ LP), (prodf_perm _ _ _ root_perm), prodf_cons.
  replace (wtot M ffw z r) with Ztot.
  2:{ unfold wtot, ffw, Ztot. rewrite Nat.eqb_refl. reflexivity. }
  replace (ffw z r (z r)) with (B r (z r)) by (unfold ffw; now rewrite Nat.eqb_refl).
  rewrite (prodf_ext nonroot _ (fun c => psi c (z (par c)) (z c) * B c (z c) / up psi B c (z (par c)))).
  - unfold Rdiv. ring.
  - intros c Hc. apply in_nonroot in Hc. destruct Hc as (_ & N). unfold wtot, ffw, up.
    destruct (Nat.eqb_spec c r); [contradiction|]. reflexivity.
Qed.

Lemma ffw_pos z z' v m : fills M l z z' -> In v l -> (m < M)%nat -> 0 < ffw z' v m.
Proof.
  intros F Hv Hm. apply fills_classes in F. apply order_in in Hv. unfold ffw.
  destruct (Nat.eqb_spec v r).
  - apply B_pos; auto. apply RT.
  - apply Rmult_lt_0_compat; [|apply B_pos; auto]. apply PSI; auto. apply F. apply (par_lt _ _ _ _ _ RT); auto.
Qed.

(** Eliminating all variables. *)
Lemma jointw_total z : sumall M l (jointw phi psi) z = Ztot.
Proof.
  pose proof (draw_all_total M ffw l HM order_NoDup ffw_looks_back z (ffw_pos z)) as T.
  pose proof Ztot_pos.
  rewrite (sumall_ext M l _ (fun z' => / Ztot * jointw phi psi z') z order_NoDup) in T.
  - rewrite sumall_scal in T. apply (f_equal (Rmult Ztot)) in T. rewrite <- Rmult_assoc, Rinv_r in T by lra. lra.
  - intros z' F. rewrite ffw_prod by (eapply fills_classes; eauto). unfold Rdiv. ring.
Qed.

(** Sampling with weights proportional to [ffw] draws from the joint. *)
Lemma ffbs {A} (w : (nat -> nat) -> nat -> nat -> R) (k : (nat -> nat) -> rprog A) G z :
  looks_back w l ->
  (forall z' v, fills M l z z' -> In v l -> exists a, 0 < a /\ forall m, (m < M)%nat -> w z' v m = a * ffw z' v m) ->
  expect (draw_all M w l k z) G = sumall M l (fun z' => jointw phi psi z' / Ztot * expect (k z') G) z.
Proof.
  intros LB PR. rewrite draw_all_expect; auto using order_NoDup.
  - apply sumall_ext; [apply order_NoDup|]. intros z' F. rewrite <- ffw_prod by (eapply fills_classes; eauto).
    f_equal. apply prodf_ext. intros v Hv. destruct (PR z' v F Hv) as (a & Ha & E).
    pose proof (fills_classes _ _ F v (proj1 (order_in v) Hv)) as C.
    rewrite E by auto. unfold wtot. rewrite (sumf_ext _ (w z' v) (fun m => a * ffw z' v m)).
    + rewrite sumf_scal. field. split; [|lra]. apply Rgt_not_eq. apply sumf_pos.
      * intros m Hm. apply in_seq in Hm. left. eapply ffw_pos; eauto. lia.
      * exists 0%nat. split; [apply in_seq; lia|]. eapply ffw_pos; eauto.
    + intros m Hm. apply in_seq in Hm. apply E. lia.
  - intros z' v m F Hv Hm. destruct (PR z' v F Hv) as (a & Ha & E). rewrite E by auto.
    apply Rmult_lt_0_compat; auto. eapply ffw_pos; eauto.
Qed.
End Order.
End Pot.

(** Scaling the edge potentials scales the joint. *)
Lemma jointw_scale phi psi k z : jointw phi (fun c m m' => psi c m m' / k c) z = jointw phi psi z / prodf nonroot k.
Proof.
  unfold jointw. unfold Rdiv at 2. rewrite Rmult_assoc. f_equal.
  assert (I : / prodf nonroot k = prodf nonroot (fun c => / k c)).
  { induction nonroot; unfold prodf; simpl; [apply Rinv_1|]. fold (prodf l k) (prodf l (fun c => / k c)).
    rewrite Rinv_mult. now rewrite IHl. }
  rewrite I, <- prodf_mult. apply prodf_ext. intros. unfold Rdiv. ring.
Qed.

(** ** The inward pass *)

(** One inward instruction; [acc] accumulates the scale factors. *)
Inductive in_step (u : nat -> nat -> R) (psi : nat -> nat -> nat -> R)
  : instr -> (nat -> nat -> R) * R -> (nat -> nat -> R) * R -> Prop :=
| is_up v a b msg msg' acc :
    (forall m, (m < M)%nat -> msg' v m = msg v m * u v m) ->
    (forall w, w <> v -> msg' w = msg w) ->
    in_step u psi (I OP_UP v a b) (msg, acc) (msg', acc)
| is_in v c e msg msg' acc k :
    0 < k ->
    (forall m, (m < M)%nat -> msg' v m = msg v m * up psi msg c m / k) ->
    (forall w, w <> v -> msg' w = msg w) ->
    in_step u psi (I OP_IN v c e) (msg, acc) (msg', acc * k).

Inductive in_run u psi : list instr -> (nat -> nat -> R) * R -> (nat -> nat -> R) * R -> Prop :=
| ir_nil s : in_run u psi [] s s
| ir_cons i l s s' s'' : in_step u psi i s s' -> in_run u psi l s' s'' -> in_run u psi (i :: l) s s''.

Lemma in_run_app u psi l1 l2 s s'' : in_run u psi (l1 ++ l2) s s'' -> exists s', in_run u psi l1 s s' /\ in_run u psi l2 s' s''.
Proof.
  revert s. induction l1; simpl; intros s H.
  - exists s. split; [constructor|auto].
  - inversion H; subst. apply IHl1 in H5. destruct H5 as (s1 & A & B). exists s1. split; auto. econstructor; eauto.
Qed.

Lemma in_run_cons u psi i l s s'' : in_run u psi (i :: l) s s'' -> exists s', in_step u psi i s s' /\ in_run u psi l s' s''.
Proof. inversion 1; subst; eauto. Qed.

Lemma in_step_up u psi v a b msg acc s' : in_step u psi (I OP_UP v a b) (msg, acc) s' ->
  exists msg', s' = (msg', acc) /\ (forall m, (m < M)%nat -> msg' v m = msg v m * u v m) /\ (forall w, w <> v -> msg' w = msg w).
Proof. inversion 1; subst; eauto. Qed.

Lemma in_step_in u psi v c e msg acc s' : in_step u psi (I OP_IN v c e) (msg, acc) s' ->
  exists msg' k, s' = (msg', acc * k) /\ 0 < k /\ (forall m, (m < M)%nat -> msg' v m = msg v m * up psi msg c m / k) /\ (forall w, w <> v -> msg' w = msg w).
Proof. inversion 1; subst; eauto 6. Qed.

Section Inward.
Variables (u : nat -> nat -> R) (psi : nat -> nat -> nat -> R) (phi0 : nat -> nat -> R).
Variable eidx : nat -> nat.

(** processing the children of [v] *)
Lemma in_children v cs : ~ In v cs -> NoDup cs -> forall msg acc msg' acc' k0,
  in_run u psi (map (fun c => I OP_IN v c (eidx c)) cs) (msg, acc) (msg', acc') ->
  exists k, (forall c, In c cs -> 0 < k c) /\ (forall c, ~ In c cs -> k c = k0 c) /\
    acc' = acc * prodf cs k /\
    (forall w, w <> v -> msg' w = msg w) /\
    forall m, (m < M)%nat -> msg' v m = msg v m * prodf cs (fun c => up psi msg c m / k c).
Proof.
  induction cs as [|c cs IH]; intros NV ND msg acc msg' acc' k0 H.
  - inversion H; subst. exists k0. split; [simpl; tauto|]. split; [auto|]. unfold prodf; simpl.
    split; [lra|]. split; [auto|]. intros. lra.
  - simpl in H. apply in_run_cons in H. destruct H as (s1 & H1 & H2).
    apply in_step_in in H1. destruct H1 as (msg'0 & k & -> & Kp & H11 & H12).
    apply NoDup_cons_iff in ND. destruct ND as [NI ND].
    destruct (IH (fun x => NV (or_intror x)) ND _ _ _ _ k0 H2) as (k' & K1 & K2 & K3 & K4 & K5).
    exists (set1 k' c k). split; [|split; [|split; [|split]]].
    + intros d [<-|Hd]; [now rewrite set1_same|]. rewrite set1_other; auto. intro; subst; auto.
    + intros d Hd. rewrite set1_other by (intro; subst; apply Hd; now left). apply K2. intro; apply Hd; now right.
    + rewrite prodf_cons, set1_same. rewrite K3.
      rewrite (prodf_ext cs (set1 k' c k) k'). ring. intros d Hd. apply set1_other. intro; subst; auto.
    + intros w Hw. rewrite K4, H12; auto.
    + intros m Hm. rewrite K5, H11 by auto. rewrite prodf_cons, set1_same.
      rewrite (prodf_ext cs (fun d => up psi msg'0 d m / k' d) (fun d => up psi msg d m / set1 k' c k d)).
      * unfold Rdiv. ring.
      * intros d Hd. rewrite set1_other by (intro; subst; auto). f_equal. unfold up. apply sumf_ext. intros.
        rewrite H12; auto. intro; subst. apply NV. now right.
Qed.

Definition phi v m := phi0 v m * u v m.

(** State of the messages after the entries [P] have been processed. *)
Record processed (P : list nat) (msg : nat -> nat -> R) (acc : R) (k : nat -> R) : Prop := {
  pr_k : forall c, In c (flat_map kids P) -> 0 < k c;
  pr_acc : acc = prodf (flat_map kids P) k;
  pr_done : forall v m, In v P -> (m < M)%nat ->
    msg v m = phi v m * prodf (kids v) (fun c => up psi msg c m / k c);
  pr_todo : forall v m, (v < V)%nat -> ~ In v P -> (m < M)%nat -> msg v m = phi0 v m
}.

Lemma entry_step (x : nat * option nat * list nat) P msg acc k msg' acc' :
  good V r par x -> ~ In (ev x) P -> NoDup P ->
  (forall v, In v P -> (v < V)%nat) ->
  (forall c, (c < V)%nat -> c <> r -> par c = ev x -> In c P) ->
  (forall c, (c < V)%nat -> c <> r -> In (par c) P -> In c P) ->
  processed P msg acc k ->
  in_run u psi (let '(v, _, cs) := x in I OP_UP v 0 0 :: map (fun c => I OP_IN v c (eidx c)) cs) (msg, acc) (msg', acc') ->
  exists k', processed (ev x :: P) msg' acc' k'.
Proof.
  destruct x as [[v p] cs]. intros (Hv & _ & SS & IC) NV ND PV CH CL [P1 P2 P3 P4] H.
  unfold ev in *. cbn [fst snd] in *. apply in_run_cons in H. destruct H as (s1 & H1 & H5).
  apply in_step_up in H1. destruct H1 as (msg1 & -> & H8 & H9).
  assert (NDc : NoDup cs) by (apply ssorted_NoDup; auto).
  assert (PK : Permutation cs (kids v)).
  { apply NoDup_Permutation; auto using kids_NoDup. intros c. now rewrite in_kids, IC. }
  assert (NVC : ~ In v cs).
  { intros I. apply IC in I. destruct I as (_ & N & E). pose proof (par_neq _ _ _ _ _ RT v Hv N). auto. }
  destruct (in_children v cs NVC NDc _ _ _ _ k H5) as (k' & K1 & K2 & K3 & K4 & K5).
  assert (FK : forall c, In c (flat_map kids P) -> ~ In c cs).
  { intros c Hc I. apply in_flat_map in Hc. destruct Hc as (w & Hw & Hc). apply in_kids in Hc. apply IC in I.
    destruct Hc as (_ & _ & Hc), I as (_ & _ & I). rewrite <- I, Hc in NV. auto. }
  assert (MS : forall w, w <> v -> msg' w = msg w) by (intros; rewrite K4, H9; auto).
  exists k'. split.
  - intros c Hc. simpl in Hc. apply in_app_iff in Hc. destruct Hc as [Hc|Hc].
    + apply K1. eapply Permutation_in; [apply Permutation_sym; exact PK|auto].
    + rewrite K2 by auto. auto.
  - simpl. rewrite prodf_app, K3. rewrite (prodf_perm _ _ _ PK).
    rewrite (prodf_ext (flat_map kids P) k' k) by auto. rewrite <- P2. ring.
  - intros w m Hw Hm. destruct (Nat.eq_dec w v) as [->|D].
    + rewrite K5, H8, P4 by auto. unfold phi. f_equal.
      rewrite (prodf_perm _ _ _ PK). apply prodf_ext. intros c Hc. f_equal. unfold up. apply sumf_ext.
      intros. rewrite MS, H9; auto; intro; subst c; apply NVC; eapply Permutation_in; try (apply Permutation_sym; exact PK); auto.
    + destruct Hw as [|Hw]; [congruence|]. rewrite MS by auto. rewrite P3 by auto. f_equal.
      apply prodf_ext. intros c Hc. rewrite K2.
      * f_equal. unfold up. apply sumf_ext. intros. rewrite MS; auto. intro; subst c. apply NV.
        apply in_kids in Hc. destruct Hc as (? & ? & <-). apply CL; auto.
      * apply FK. apply in_flat_map. eauto.
  - intros w m Hw NP Hm. rewrite MS; [|intro; subst; apply NP; now left]. apply P4; auto. intro. apply NP. now right.
Qed.

Lemma in_np_run np msg0 msg acc : bfs_list V r par np ->
  (forall v m, (v < V)%nat -> (m < M)%nat -> msg0 v m = phi0 v m) ->
  in_run u psi (concat (map (fun x => let '(v, _, cs) := x in I OP_UP v 0 0 :: map (fun c => I OP_IN v c (eidx c)) cs) (rev np)))
    (msg0, 1) (msg, acc) ->
  exists k, (forall c, In c nonroot -> 0 < k c) /\ acc = prodf nonroot k /\
    upward phi (fun c m m' => psi c m m' / k c) msg.
Proof.
  intros BL M0 H. pose proof (bl_perm _ _ _ _ BL) as BP. pose proof (bl_good _ _ _ _ BL) as BG.
  pose proof (bl_first _ _ _ _ BL) as BF.
  assert (G : forall todo done_, np = todo ++ done_ -> forall msg1 acc1 k1, processed (map ev done_) msg1 acc1 k1 ->
    in_run u psi (concat (map (fun x => let '(v, _, cs) := x in I OP_UP v 0 0 :: map (fun c => I OP_IN v c (eidx c)) cs) (rev todo)))
      (msg1, acc1) (msg, acc) -> exists k, processed (map ev np) msg acc k).
  { induction todo as [|x todo IH] using rev_ind; intros done_ E msg1 acc1 k1 PR HR.
    - simpl in HR. inversion HR; subst. simpl in *. eauto.
    - rewrite rev_app_distr in HR. cbn [rev app map concat] in HR. apply in_run_app in HR.
      destruct HR as ([msg2 acc2] & R1 & R2).
      rewrite E in *. clear E.
      assert (ND : NoDup (map ev ((todo ++ [x]) ++ done_))).
      { eapply Permutation_NoDup; [apply Permutation_sym; exact BP|apply seq_NoDup]. }
      rewrite !map_app in ND. cbn [map] in ND.
      assert (INV : forall v, In v (map ev ((todo ++ [x]) ++ done_)) <-> (v < V)%nat).
      { intros v. split; intros I.
        - eapply Permutation_in in I; [|exact BP]. apply in_seq in I. lia.
        - eapply Permutation_in; [apply Permutation_sym; exact BP|]. apply in_seq. lia. }
      assert (AFTER : forall c, (c < V)%nat -> c <> r -> In (par c) (map ev (x :: done_)) -> In c (map ev done_)).
      { intros c Hc N I. apply INV in Hc as Hc'. rewrite !map_app in Hc'. apply in_app_iff in Hc'.
        destruct Hc' as [Hc'|]; auto. exfalso.
        rewrite <- map_app in Hc'. apply in_split in Hc'. destruct Hc' as (pre & post & E).
        assert (E2 : map ev ((todo ++ [x]) ++ done_) = pre ++ c :: post ++ map ev done_).
        { rewrite map_app, E. rewrite <- app_assoc. reflexivity. }
        pose proof (BF pre c _ E2 N) as I2.
        (* par c occurs before c, hence within todo ++ [x], and also in x :: done_ *)
        assert (PC : par c = ev x \/ In (par c) (map ev done_)) by (destruct I; auto).
        destruct PC as [PC|PC].
        + (* par c = ev x, the last of todo ++ [x]; but c comes later in todo ++ [x] *)
          rewrite map_app in E. cbn [map] in E. destruct post as [|q post] using rev_ind.
          * apply app_inj_tail in E. destruct E as [_ E]. apply (par_neq _ _ _ _ _ RT c Hc N). congruence.
          * clear IHpost. rewrite app_comm_cons, app_assoc in E. apply app_inj_tail in E. destruct E as [E _].
            rewrite <- app_assoc in ND. apply NoDup_app_inv in ND. destruct ND as (_ & _ & D).
            apply (D (par c)); [rewrite E; apply in_app_iff; auto|]. rewrite PC. now left.
        + apply NoDup_app_inv in ND. destruct ND as (_ & _ & D).
          rewrite map_app in E. cbn [map] in E. apply (D (par c)); [rewrite E; apply in_app_iff; auto|auto]. }
      destruct (entry_step x (map ev done_) msg1 acc1 k1 msg2 acc2) as (k2 & PR2); auto.
      + rewrite Forall_forall in BG. apply BG. apply in_app_iff. left. apply in_app_iff. right. now left.
      + rewrite <- app_assoc in ND. apply NoDup_app_inv in ND. destruct ND as (_ & ND & _). now inversion ND.
      + apply NoDup_app_inv in ND. tauto.
      + intros v I. apply INV. rewrite !map_app. apply in_app_iff. now right.
      + intros c Hc N Ec. apply AFTER; auto. rewrite Ec. now left.
      + intros c Hc N I. apply AFTER; auto. now right.
      + apply (IH (x :: done_)) with (msg1 := msg2) (acc1 := acc2) (k1 := k2); auto.
        now rewrite <- app_assoc. }
  destruct (G np [] (eq_sym (app_nil_r np)) msg0 1 (fun _ => 1)) as (k & [K1 K2 K3 K4]); auto.
  - split; simpl; try tauto. intros. apply M0; auto.
  - exists k. pose proof (flat_kids_perm _ BP) as FP. split; [|split].
    + intros c Hc. apply K1. eapply Permutation_in; [apply Permutation_sym; exact FP|auto].
    + rewrite K2. apply prodf_perm. exact FP.
    + intros v m Hv Hm. rewrite K3; auto.
      * f_equal. apply prodf_ext. intros c Hc. unfold up, Rdiv. rewrite <- sumf_scal_r. apply sumf_ext. intros. ring.
      * eapply Permutation_in; [apply Permutation_sym; exact BP|]. apply in_seq. lia.
Qed.
End Inward.
End BP.
