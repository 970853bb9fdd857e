(** Message passing along a propagation program computes sums over all vectors
    of classes and samples from the tree-structured distribution. *)
From Coq Require Import List Arith Lia Bool Reals Lra Permutation FunctionalExtensionality.
From Verif Require Import Base L_Base Spec_Graph L_Graph Spec_Sum L_Sum M_Structure L_MakeTree L_Program M_Rand L_Rand M_Array Spec_Joint L_Asg L_BP.
Import ListNotations.
Open Scope R_scope.

(** ** Programs that agree on all outcomes of their draws *)
Inductive rsim {A} : rprog A -> rprog A -> Prop :=
| rs_ret a : rsim (Ret a) (Ret a)
| rs_fail e : rsim (Fail e) (Fail e)
| rs_cat w k k' : (forall i, (i < length w)%nat -> rsim (k i) (k' i)) -> rsim (Cat w k) (Cat w k')
| rs_perm n k k' : (forall s, rsim (k s) (k' s)) -> rsim (Perm n k) (Perm n k').

Lemma rsim_refl {A} (p : rprog A) : rsim p p.
Proof. induction p; constructor; auto. Qed.

Lemma rsim_expect {A} (p q : rprog A) G : rsim p q -> expect p G = expect q G.
Proof.
  induction 1; simpl; auto.
  - destruct w; auto. destruct (Req_EM_T _ _); [apply H0; simpl; lia|]. apply sumf_ext. intros i Hi. apply in_seq in Hi.
    f_equal. apply H0. lia.
  - f_equal. apply sumf_ext. intros. apply H0.
Qed.

Lemma rsim_may {A} (p q : rprog A) r : rsim p q -> may_return p r -> may_return q r.
Proof.
  induction 1; simpl; auto.
  - destruct w; auto. intros (i & C & Hi). exists i. split; auto. apply H0; auto. apply C.
  - intros (s & P & Hs). exists s. split; auto.
Qed.

Lemma rsim_sym {A} (p q : rprog A) : rsim p q -> rsim q p.
Proof. induction 1; constructor; auto. Qed.

Lemma rsim_bind {A B} (p q : rprog A) (k k' : A -> rprog B) : rsim p q -> (forall a, rsim (k a) (k' a)) ->
  rsim (rbind p k) (rbind q k').
Proof. induction 1; simpl; intros; try constructor; auto. Qed.

Lemma rbind_assoc {A B C} (p : rprog A) (f : A -> rprog B) (g : B -> rprog C) :
  rbind (rbind p f) g = rbind p (fun a => rbind (f a) g).
Proof. induction p; simpl; auto; f_equal; apply functional_extensionality; auto. Qed.

Lemma rfold_app {A S} (f : S -> A -> rprog S) l1 l2 s :
  rfold f (l1 ++ l2) s = rbind (rfold f l1 s) (fun s' => rfold f l2 s').
Proof.
  revert s. induction l1; simpl; intros; auto. rewrite rbind_assoc. f_equal.
  apply functional_extensionality. auto.
Qed.

(** ** Every vector can be drawn when all weights are positive *)
Lemma draw_all_may {A} M w l (k : (nat -> nat) -> rprog A) r : (0 < M)%nat -> NoDup l ->
  forall z zt, fills M l z zt ->
  (forall z' v m, (forall u, ~ In u l -> z' u = z u) -> (forall u, In u l -> z' u = zt u \/ z' u = z u) -> In v l -> (m < M)%nat -> 0 < w z' v m) ->
  may_return (k zt) r -> may_return (draw_all M w l k z) r.
Proof.
  intros HM. induction l as [|v l IH]; intros ND z zt (F1 & F2) P MR.
  - simpl. replace z with zt; auto. apply functional_extensionality. intros u. apply F2. simpl; tauto.
  - inversion ND; subst. cbn [draw_all may_return].
    destruct (vec M (w z v)) eqn:E.
    { apply (f_equal (@length R)) in E. rewrite vec_length in E. simpl in E. lia. }
    rewrite <- E. exists (zt v). split.
    + split. rewrite vec_length. apply F1. now left. left. rewrite nth_vec by (apply F1; now left). apply P; auto.
      now left. apply F1. now left.
    + apply (IH H2 (set1 z v (zt v)) zt).
      * split; intros u Hu. apply F1. now right. unfold set1. destruct (Nat.eqb_spec u v); [now subst|]. apply F2. simpl. intuition.
      * intros z' u m QA QB Hu Hm. apply P; auto; [| |now right].
        -- intros x Hx. rewrite QA by (intro; apply Hx; now right). apply set1_other. intro; subst. apply Hx. now left.
        -- intros x [<-|Hx].
           ++ left. rewrite QA by auto. apply set1_same.
           ++ destruct (QB x Hx) as [|E2]; auto. right. rewrite E2. apply set1_other. intro; subst; auto.
      * exact MR.
Qed.

Section TreeBP.
Variables (V : nat) (edges : list (nat * nat)) (r : nat) (par dep : nat -> nat).
Notation es := (grid_edges (make_tree edges)).
Hypothesis RT : rooted V es r par dep.
Variable np : list (nat * option nat * list nat).
Hypothesis BL : bfs_list V r par np.
Variable M : nat.
Hypothesis HM : (0 < M)%nat.
Variables (node : nat -> nat -> R) (pair : nat -> nat -> nat -> R).
Hypothesis NODE : forall v m, (v < V)%nat -> (m < M)%nat -> 0 < node v m.
Hypothesis PAIR : forall e m m', (e < V - 1)%nat -> (m < M)%nat -> (m' < M)%nat -> 0 < pair e m m'.

(** The potential of the edge above [c], oriented from the parent. *)
Definition opair (c mp mc : nat) : R :=
  if (c <? par c)%nat then pair (eidx edges par c) mc mp else pair (eidx edges par c) mp mc.

Lemma eidx_lt c : (c < V)%nat -> c <> r -> (eidx edges par c < V - 1)%nat.
Proof.
  intros Hc N. destruct (eidx_spec _ _ _ _ _ RT c Hc N) as (E & _).
  assert (eidx edges par c < length es)%nat by (apply nth_error_Some; congruence).
  pose proof (rt_len _ _ _ _ _ RT). lia.
Qed.

Lemma opair_pos c m m' : (c < V)%nat -> c <> r -> (m < M)%nat -> (m' < M)%nat -> 0 < opair c m m'.
Proof. intros. unfold opair. destruct (c <? par c)%nat; apply PAIR; auto; apply eidx_lt; auto. Qed.

Lemma eidx_perm : Permutation (map (eidx edges par) (nonroot V r)) (seq 0 (length es)).
Proof.
  apply NoDup_Permutation_bis.
  - apply NoDup_map_inj; [|apply nonroot_NoDup]. intros x y Hx Hy E. apply in_nonroot in Hx, Hy.
    eapply (eidx_inj _ _ _ _ _ RT); eauto; tauto.
  - rewrite map_length, seq_length. pose proof (root_perm V es r par dep RT) as P. apply Permutation_length in P.
    rewrite seq_length in P. simpl in P. pose proof (rt_len _ _ _ _ _ RT). lia.
  - intros e He. apply in_map_iff in He. destruct He as (c & <- & Hc). apply in_nonroot in Hc.
    apply in_seq. pose proof (eidx_lt c). pose proof (rt_len _ _ _ _ _ RT). destruct Hc. specialize (H H1 H2). lia.
Qed.

Lemma prodf_edges (f : nat -> nat -> nat -> R) :
  prodf (combine (seq 0 (length es)) es) (fun '(e, (v1, v2)) => f e v1 v2) =
  prodf (nonroot V r) (fun c => if (c <? par c)%nat then f (eidx edges par c) c (par c) else f (eidx edges par c) (par c) c).
Proof.
  set (g := fun e => f e (fst (nth e es (0, 0)%nat)) (snd (nth e es (0, 0)%nat))).
  transitivity (prodf (seq 0 (length es)) g).
  - assert (G : forall (l : list (nat * nat)) b h, (forall i, (i < length l)%nat -> h (b + i)%nat = f (b + i)%nat (fst (nth i l (0,0)%nat)) (snd (nth i l (0,0)%nat))) ->
      prodf (combine (seq b (length l)) l) (fun '(e, (v1, v2)) => f e v1 v2) = prodf (seq b (length l)) h).
    { induction l as [|[v1 v2] l IH]; intros b h H; [reflexivity|]. cbn [length seq combine]. rewrite !prodf_cons. f_equal.
      - specialize (H 0%nat ltac:(simpl; lia)). rewrite Nat.add_0_r in H. now rewrite H.
      - apply IH. intros i Hi. specialize (H (S i) ltac:(simpl; lia)). rewrite <- Nat.add_succ_comm in H. exact H. }
    apply G. intros i Hi. reflexivity.
  - rewrite <- (prodf_perm _ _ _ eidx_perm), prodf_map. apply prodf_ext. intros c Hc. apply in_nonroot in Hc.
    destruct Hc as (Hc & N). destruct (eidx_spec _ _ _ _ _ RT c Hc N) as (E & _).
    unfold g. rewrite (nth_error_nth _ _ _ E). unfold norm. simpl.
    pose proof (par_neq _ _ _ _ _ RT c Hc N).
    destruct (Nat.ltb_spec c (par c)).
    + rewrite Nat.min_l, Nat.max_r by lia. reflexivity.
    + rewrite Nat.min_r, Nat.max_l by lia. reflexivity.
Qed.

Lemma jointw_tree z : jointw V r par node opair z = tree_weight V es node pair (map z (seq 0 V)).
Proof.
  assert (NT : forall v, (v < V)%nat -> nth v (map z (seq 0 V)) 0%nat = z v).
  { intros v Hv. rewrite nth_indep with (d' := z 0%nat) by (rewrite map_length, seq_length; auto).
    rewrite map_nth, seq_nth by auto. reflexivity. }
  unfold jointw, tree_weight. f_equal.
  - apply prodf_ext. intros v Hv. apply in_seq in Hv. rewrite NT by lia. reflexivity.
  - rewrite (prodf_edges (fun e v1 v2 => pair e (nth v1 (map z (seq 0 V)) 0%nat) (nth v2 (map z (seq 0 V)) 0%nat))).
    apply prodf_ext. intros c Hc. apply in_nonroot in Hc. destruct Hc as (Hc & N).
    rewrite !NT by (auto; apply (par_lt _ _ _ _ _ RT); auto). reflexivity.
Qed.

Definition order := map (fun x : nat * option nat * list nat => fst (fst x)) np.

Lemma order_perm : Permutation order (seq 0 V).
Proof. apply (bl_perm _ _ _ _ BL). Qed.
Lemma order_first : parents_first r par order.
Proof. apply (bl_first _ _ _ _ BL). Qed.
Lemma order_nodup : NoDup order.
Proof. eapply Permutation_NoDup; [apply Permutation_sym, order_perm|apply seq_NoDup]. Qed.

Lemma sumall_vectors F z :
  sumall M order (fun z' => F (map z' (seq 0 V))) z = sumf (vectors V M) F.
Proof.
  rewrite (sumf_vectors M V 0 F z). apply sumall_perm; [apply order_perm|apply order_nodup].
Qed.

Lemma tree_weight_pos z : In z (vectors V M) -> 0 < tree_weight V es node pair z.
Proof.
  intros I. apply in_vectors in I. destruct I as (L & B).
  assert (BN : forall v, (v < V)%nat -> (nth v z 0 < M)%nat) by (intros; apply B, nth_In; lia).
  unfold tree_weight. apply Rmult_lt_0_compat.
  - apply prodf_pos. intros v Hv. apply in_seq in Hv. apply NODE; [lia|apply BN; lia].
  - apply prodf_pos. intros [e [v1 v2]] Hc. pose proof (in_combine_l _ _ _ _ Hc) as H1. pose proof (in_combine_r _ _ _ _ Hc) as H2.
    apply in_seq in H1. destruct (rt_range _ _ _ _ _ RT _ _ H2). pose proof (rt_len _ _ _ _ _ RT).
    apply PAIR; [lia|apply BN; auto|apply BN; auto].
Qed.

Definition wsum : R := sumf (vectors V M) (tree_weight V es node pair).

Lemma vectors_nonempty : exists z, In z (vectors V M).
Proof.
  exists (repeat 0%nat V). apply in_vectors. split; [apply repeat_length|]. intros m Hm. apply repeat_spec in Hm. lia.
Qed.

Lemma wsum_pos : 0 < wsum.
Proof.
  destruct vectors_nonempty as (z & Hz). apply sumf_pos.
  - intros x Hx. left. now apply tree_weight_pos.
  - exists z. split; auto. now apply tree_weight_pos.
Qed.

Section Run.
Variables (u phi0 msg0 msg : nat -> nat -> R) (acc : R).
Hypothesis NP : forall v m, (v < V)%nat -> (m < M)%nat -> phi0 v m * u v m = node v m.
Hypothesis M0 : forall v m, (v < V)%nat -> (m < M)%nat -> msg0 v m = phi0 v m.
Hypothesis RUN : in_run M u opair (concat (map (ins_of edges par) (rev np))) (msg0, 1) (msg, acc).

Definition scaled (k : nat -> R) c m m' := opair c m m' / k c.

Lemma run_upward : exists k, (forall c, In c (nonroot V r) -> 0 < k c) /\ acc = prodf (nonroot V r) k /\
  upward V r par M node (scaled k) msg.
Proof.
  destruct (in_np_run V es r par dep M RT u opair phi0 (eidx edges par) np msg0 msg acc BL M0 RUN) as (k & K1 & K2 & K3).
  exists k. split; [auto|]. split; [auto|]. intros v m Hv Hm. rewrite (K3 v m Hv Hm). unfold phi. rewrite NP by auto. reflexivity.
Qed.

Lemma scaled_pos k : (forall c, In c (nonroot V r) -> 0 < k c) ->
  forall c m m', (c < V)%nat -> c <> r -> (m < M)%nat -> (m' < M)%nat -> 0 < scaled k c m m'.
Proof.
  intros K c m m' Hc N Hm Hm'. apply Rdiv_lt_0_compat; [apply opair_pos; auto|]. apply K. now apply in_nonroot.
Qed.

Lemma run_acc_pos : 0 < acc.
Proof. destruct run_upward as (k & K1 & -> & _). apply prodf_pos; auto. Qed.

Lemma run_msg_pos v m : (v < V)%nat -> (m < M)%nat -> 0 < msg v m.
Proof.
  destruct run_upward as (k & K1 & K2 & K3).
  apply (B_pos V es r par dep M RT HM node (scaled k) msg); auto. apply scaled_pos; auto.
Qed.

Lemma run_total : sumf (seq 0 M) (msg r) * acc = wsum.
Proof.
  destruct run_upward as (k & K1 & K2 & K3).
  pose proof (jointw_total V es r par dep M RT HM node (scaled k) msg NODE (scaled_pos k K1) K3 order order_perm order_first (fun _ => 0%nat)) as T.
  unfold Ztot in T. pose proof run_acc_pos.
  rewrite <- T. unfold scaled. 
  rewrite (sumall_ext M order _ (fun z => / acc * tree_weight V es node pair (map z (seq 0 V)))).
  - rewrite sumall_scal, sumall_vectors. fold wsum. field. lra.
  - apply order_nodup.
  - intros z' _. rewrite jointw_scale, jointw_tree, K2. unfold Rdiv. ring.
Qed.

(** Sampling with weights proportional to message times edge potential. *)
Lemma run_sample {A} (w : (nat -> nat) -> nat -> nat -> R) (k : (nat -> nat) -> rprog A) G (H : list nat -> R) z :
  looks_back w order ->
  (forall z' v, fills M order z z' -> In v order -> exists a, 0 < a /\ forall m, (m < M)%nat ->
     w z' v m = a * (if (v =? r)%nat then msg r m else opair v (z' (par v)) m * msg v m)) ->
  (forall z', fills M order z z' -> expect (k z') G = H (map z' (seq 0 V))) ->
  expect (draw_all M w order k z) G = sumf (vectors V M) (fun zz => tree_weight V es node pair zz / wsum * H zz).
Proof.
  intros LB PR HK. destruct run_upward as (kk & K1 & K2 & K3).
  rewrite (ffbs V es r par dep M RT HM node (scaled kk) msg NODE (scaled_pos kk K1) K3 order order_perm w k G z LB).
  - rewrite <- (sumall_vectors _ z). apply sumall_ext; [apply order_nodup|]. intros z' F. rewrite HK by auto. f_equal.
    unfold scaled. rewrite jointw_scale, jointw_tree. rewrite <- K2. unfold Ztot. rewrite <- run_total.
    pose proof run_acc_pos. pose proof (Ztot_pos V es r par dep M RT HM node (scaled kk) msg NODE (scaled_pos kk K1) K3) as ZP.
    unfold Ztot in ZP. field. split; lra.
  - intros z' v F Hv. destruct (PR z' v F Hv) as (a & Ha & E).
    assert (Hv' : (v < V)%nat). { eapply Permutation_in in Hv; [|apply order_perm]. apply in_seq in Hv. lia. }
    unfold ffw. destruct (Nat.eqb_spec v r) as [->|N].
    + exists a. split; auto.
    + assert (0 < kk v) by (apply K1, in_nonroot; auto). exists (a * kk v).
      split; [apply Rmult_lt_0_compat; auto|]. intros m Hm. rewrite E by auto. unfold scaled. field. lra.
Qed.
End Run.

(** The outward order starts at the root. *)
Lemma order_cons : exists x np', np = x :: np' /\ fst (fst x) = r /\ ~ In r (map (fun x : nat * option nat * list nat => fst (fst x)) np').
Proof.
  pose proof order_perm as P. pose proof order_first as F. pose proof order_nodup as ND. unfold order in *.
  pose proof (rt_root _ _ _ _ _ RT) as RR. clear BL.
  destruct np as [|x np'].
  - apply Permutation_length in P. rewrite seq_length in P. simpl in P. lia.
  - exists x, np'. split; auto. simpl in F, ND.
    assert (E : fst (fst x) = r).
    { destruct (Nat.eq_dec (fst (fst x)) r) as [|N]; auto. exfalso. apply (F [] _ _ eq_refl N). }
    split; auto. rewrite <- E. now inversion ND.
Qed.
End TreeBP.
