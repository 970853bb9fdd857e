(** The joint distribution of the classes of two features, and the messages of
    latent_correlation. *)
From Coq Require Import List Arith Lia Bool ZArith Reals Lra Permutation.
From Verif Require Import Base L_Base Spec_Graph L_Graph Spec_Sum L_Sum M_Structure L_MakeTree L_Program Spec_Program L_Center M_Rand L_Rand M_Util Spec_Ragged L_Ragged M_Array M_SampleTree M_EstimateTree Spec_Trees Spec_MST M_Training Spec_Stats L_Stats Spec_Joint Spec_Conditional L_Asg L_BP L_BPVec L_AddRow L_EdgeLogits L_Train M_Serving Spec_Serving L_Server L_Inward L_Logprob L_Path L_Marginals L_MargPost.
Import ListNotations.
Open Scope R_scope.

Definition ind (a i : nat) : R := if (i =? a)%nat then 1 else 0.

Lemma sum_ind n a (f : nat -> R) : (a < n)%nat -> sumf (seq 0 n) (fun i => ind a i * f i) = f a.
Proof.
  intros H. assert (G : forall l, NoDup l -> sumf l (fun i => ind a i * f i) = if in_dec Nat.eq_dec a l then f a else 0).
  { induction l as [|x l IH]; intros ND; [reflexivity|]. apply NoDup_cons_iff in ND. destruct ND as (NI & ND). rewrite sumf_cons, (IH ND). unfold ind.
    destruct (Nat.eqb_spec x a) as [-> | N].
    - destruct (in_dec Nat.eq_dec a l); [contradiction|]. destruct (in_dec Nat.eq_dec a (a :: l)) as [|X]; [ring|]. exfalso. apply X. now left.
    - destruct (in_dec Nat.eq_dec a l), (in_dec Nat.eq_dec a (x :: l)) as [Y|Y]; try ring.
      + exfalso. apply Y. now right.
      + destruct Y; [contradiction|contradiction]. }
  rewrite G by apply seq_NoDup. destruct (in_dec Nat.eq_dec a (seq 0 n)) as [|X]; [reflexivity|]. exfalso. apply X. apply in_seq. lia.
Qed.

Section Corr.
Variables (ws : list nat) (V M : nat) (edges : list (nat * nat)) (s : server).
Hypothesis SF : sfacts ws V M edges s.
Notation es := (grid_edges (make_tree edges)).
Variables (r : nat) (par dep : nat -> nat).
Hypothesis RT : rooted V es r par dep.
Variable np : list (nat * option nat * list nat).
Hypothesis BL : bfs_list V r par np.
Notation PSI := (opair edges par (sv_trans s)).
Variable md : smodel.
Hypothesis SM : d_M md = M.
Notation Tot := (Tot V r par M PSI).
Notation tab := (tab V r par M PSI).

Lemma Tot_vectors phi : (forall v m, (v < V)%nat -> (m < M)%nat -> 0 < phi v m) ->
  Tot phi = sumf (vectors V M) (tree_weight V es phi (sv_trans s)).
Proof.
  intros PP. pose proof (HM ws V M edges s SF) as HM.
  pose proof (jointw_total V es r par dep M RT HM phi PSI (tab phi)
    PP (psi_pos ws V M edges s SF r par dep RT) (tab_upward V es r par dep M RT PSI _) (order np) (order_perm V r par np BL) (order_first V r par np BL) (fun _ => 0%nat)) as T.
  unfold Ztot in T. unfold L_Path.Tot. rewrite <- T.
  rewrite <- (sumall_vectors V r par np BL M _ (fun _ => 0%nat)). apply sumall_ext; [apply (order_nodup V r par np BL)|]. intros z' _.
  apply (jointw_tree V edges r par dep RT M HM).
Qed.

Lemma tw_at1 phi pair v f z : (v < V)%nat -> tree_weight V es (at1 phi v f) pair z = tree_weight V es phi pair z * f (nth v z 0%nat).
Proof.
  intros Hv. unfold tree_weight. rewrite (prodf_factor' (seq 0 V) _ (fun v0 => phi v0 (nth v0 z 0%nat)) v (f (nth v z 0%nat))).
  - ring.
  - apply seq_NoDup.
  - apply in_seq. lia.
  - now rewrite at1_same.
  - intros y _ N. now rewrite at1_other.
Qed.

Definition PW (f g : nat -> R) (v : nat) : R :=
  sumf (vectors V M) (fun z => tree_weight V es (sv_vert s) (sv_trans s) z * (f (nth v z 0%nat) * g (nth r z 0%nat))).

(** The messages. *)
Definition vtrans (v : nat) : nat -> nat -> R :=
  if (par v <? v)%nat then transpose (sv_edge s (eidx edges par v)) else sv_edge s (eidx edges par v).
Fixpoint Mn (n v i j : nat) : R :=
  match n with
  | O => if (i =? j)%nat then sv_vert s v i else 0
  | S n => sumf (seq 0 M) (fun k => vtrans v i k / sv_vert s (par v) k * Mn n (par v) k j)
  end.

Lemma vtrans_psi v i k : (v < V)%nat -> v <> r -> (i < M)%nat -> (k < M)%nat ->
  sv_vert s v i * PSI v k i = vtrans v i k / sv_vert s (par v) k.
Proof.
  intros Hv N Hi Hk. pose proof (par_lt _ _ _ _ _ RT v Hv) as Hp. destruct (eidx_spec _ _ _ _ _ RT v Hv N) as (E & _).
  pose proof (par_neq _ _ _ _ _ RT v Hv N) as NE.
  assert (VP : forall v q, (v < V)%nat -> (q < M)%nat -> 0 < sv_vert s v q) by apply SF.
  pose proof (VP v i Hv Hi). pose proof (VP (par v) k Hp Hk).
  unfold opair, vtrans. unfold norm in E. simpl in E. destruct (Nat.ltb_spec v (par v)), (Nat.ltb_spec (par v) v); try lia.
  - rewrite Nat.min_l, Nat.max_r in E by lia. unfold transpose. rewrite (sf_trans _ _ _ _ _ SF _ _ _ _ _ E). field. lra.
  - rewrite Nat.min_r, Nat.max_l in E by lia. unfold transpose. rewrite (sf_trans _ _ _ _ _ SF _ _ _ _ _ E). field. lra.
Qed.

Lemma root_upward g : upward V r par M (at1 (sv_vert s) r g) PSI (at1 (sv_vert s) r g).
Proof.
  intros v m Hv Hm. rewrite prodf_one; [lra|]. intros c Hc. apply in_kids in Hc. destruct Hc as (Hc & N & _).
  rewrite (up_ext M PSI _ (sv_vert s)); [|intros; now rewrite at1_other]. apply (up_unit ws V M md edges s SF SM r par dep); auto.
Qed.

Lemma root_up g c mp : (c < V)%nat -> c <> r -> (mp < M)%nat -> up M PSI (at1 (sv_vert s) r g) c mp = 1.
Proof.
  intros Hc N Hm. rewrite (up_ext M PSI _ (sv_vert s)); [|intros; now rewrite at1_other]. apply (up_unit ws V M md edges s SF SM r par dep); auto.
Qed.

Lemma Qn_Mn g v : (v < V)%nat -> forall m, (m < M)%nat ->
  at1 (sv_vert s) r g v m * Qn par M PSI (at1 (sv_vert s) r g) (dep v) v m = sumf (seq 0 M) (fun j => g j * Mn (dep v) v m j).
Proof.
  revert v. apply (rooted_ind _ _ _ _ _ RT (fun v => forall m, (m < M)%nat ->
    at1 (sv_vert s) r g v m * Qn par M PSI (at1 (sv_vert s) r g) (dep v) v m = sumf (seq 0 M) (fun j => g j * Mn (dep v) v m j))).
  - intros m Hm. rewrite (rt_dep _ _ _ _ _ RT). cbn [Qn Mn]. rewrite at1_same.
    rewrite (sumf_ext _ _ (fun j => ind m j * (sv_vert s r m * g j))).
    + rewrite (sum_ind M m (fun j => sv_vert s r m * g j)) by auto. ring.
    + intros j _. unfold ind. rewrite (Nat.eqb_sym m j). destruct (j =? m)%nat; ring.
  - intros v Hv N IH m Hm. pose proof (par_lt _ _ _ _ _ RT v Hv) as Hp. rewrite (par_dep _ _ _ _ _ RT v Hv N). cbn [Qn Mn].
    rewrite at1_other by auto. rewrite <- sumf_scal.
    rewrite (sumf_ext _ _ (fun k => sumf (seq 0 M) (fun j => g j * (vtrans v m k / sv_vert s (par v) k * Mn (dep (par v)) (par v) k j)))).
    + rewrite sumf_swap. apply sumf_ext. intros j _. now rewrite sumf_scal.
    + intros k Ik. apply in_seq in Ik. rewrite root_up by (auto; lia).
      transitivity (sv_vert s v m * PSI v k m * (at1 (sv_vert s) r g (par v) k * Qn par M PSI (at1 (sv_vert s) r g) (dep (par v)) (par v) k)); [field|].
      rewrite IH by lia. rewrite vtrans_psi by (auto; lia). rewrite <- sumf_scal. apply sumf_ext. intros. ring.
Qed.

Lemma PW_pos f g v : (v < V)%nat -> (forall i, 0 < f i) -> (forall i, 0 < g i) ->
  PW f g v = sumf (seq 0 M) (fun i => f i * sumf (seq 0 M) (fun j => g j * Mn (dep v) v i j)).
Proof.
  intros Hv FP GP. assert (Hr : (r < V)%nat) by apply RT.
  assert (VP : forall v q, (v < V)%nat -> (q < M)%nat -> 0 < sv_vert s v q) by apply SF.
  transitivity (Tot (at1 (at1 (sv_vert s) r g) v f)).
  - rewrite Tot_vectors.
    + unfold PW. apply sumf_ext. intros z _. rewrite !tw_at1 by auto. ring.
    + assert (P1 : forall u m, (u < V)%nat -> (m < M)%nat -> 0 < at1 (sv_vert s) r g u m).
      { intros u m Hu Hm. destruct (Nat.eq_dec u r) as [-> | N]; [rewrite at1_same; apply Rmult_lt_0_compat; auto|rewrite at1_other; auto]. }
      intros u m Hu Hm. destruct (Nat.eq_dec u v) as [-> | N]; [rewrite at1_same; apply Rmult_lt_0_compat; auto|rewrite at1_other; auto].
  - rewrite (path V es r par dep M RT PSI (at1 (sv_vert s) r g) (at1 (sv_vert s) r g) f v (root_upward g)); auto.
    + apply sumf_ext. intros i Ii. apply in_seq in Ii. rewrite Rmult_assoc, Qn_Mn by (auto; lia). reflexivity.
    + intros. rewrite root_up by auto. lra.
Qed.

Lemma PW_plus_l f f' g v : PW (fun i => f i + f' i) g v = PW f g v + PW f' g v.
Proof. unfold PW. rewrite <- sumf_plus. apply sumf_ext. intros. ring. Qed.
Lemma PW_plus_r f g g' v : PW f (fun i => g i + g' i) v = PW f g v + PW f g' v.
Proof. unfold PW. rewrite <- sumf_plus. apply sumf_ext. intros. ring. Qed.

Lemma PW_ind v a b : (v < V)%nat -> (a < M)%nat -> (b < M)%nat -> PW (ind a) (ind b) v = Mn (dep v) v a b.
Proof.
  intros Hv Ha Hb. set (F := fun f g : nat -> R => sumf (seq 0 M) (fun i => f i * sumf (seq 0 M) (fun j => g j * Mn (dep v) v i j))).
  assert (Fl : forall f f' g, F (fun i => f i + f' i) g = F f g + F f' g).
  { intros. unfold F. rewrite <- sumf_plus. apply sumf_ext. intros. ring. }
  assert (Fr : forall f g g', F f (fun i => g i + g' i) = F f g + F f g').
  { intros. unfold F. rewrite <- sumf_plus. apply sumf_ext. intros i _. rewrite <- Rmult_plus_distr_l, <- sumf_plus. f_equal. apply sumf_ext. intros. ring. }
  set (one := fun _ : nat => 1).
  assert (IP : forall a i, 0 < ind a i + one i) by (intros; unfold ind, one; destruct (_ =? _)%nat; lra).
  assert (OP : forall i, 0 < one i) by (intros; unfold one; lra).
  pose proof (PW_pos (fun i => ind a i + one i) (fun i => ind b i + one i) v Hv (IP a) (IP b)) as E1.
  pose proof (PW_pos (fun i => ind a i + one i) one v Hv (IP a) OP) as E2.
  pose proof (PW_pos one (fun i => ind b i + one i) v Hv OP (IP b)) as E3.
  pose proof (PW_pos one one v Hv OP OP) as E4.
  change (PW (fun i => ind a i + one i) (fun i => ind b i + one i) v = F (fun i => ind a i + one i) (fun i => ind b i + one i)) in E1.
  change (PW (fun i => ind a i + one i) one v = F (fun i => ind a i + one i) one) in E2.
  change (PW one (fun i => ind b i + one i) v = F one (fun i => ind b i + one i)) in E3.
  change (PW one one v = F one one) in E4.
  rewrite PW_plus_l, !PW_plus_r, Fl, !Fr in E1. rewrite PW_plus_l, Fl in E2. rewrite PW_plus_r, Fr in E3.
  assert (E : PW (ind a) (ind b) v = F (ind a) (ind b)) by lra. rewrite E. unfold F.
  rewrite (sum_ind M a (fun i => sumf (seq 0 M) (fun j => ind b j * Mn (dep v) v i j))) by auto. now apply (sum_ind M b).
Qed.

(** ** The program *)
Definition cinv (todo : list nat) (ms : nat -> nat -> nat -> R) : Prop :=
  forall v, (v < V)%nat -> ~ In v todo -> forall i j, (i < M)%nat -> ms v i j = Mn (dep v) v i j.

Lemma corr_ins l ms : foldM (correlate_instr s) (concat (map (ins_of edges par) l)) ms = Ok ms.
Proof.
  induction l as [|[[v p] cs] l IH]; [reflexivity|]. cbn [map concat]. unfold ins_of at 1. cbn [app foldM correlate_instr bind].
  rewrite foldM_app'. assert (E : foldM (correlate_instr s) (map (fun c => I OP_IN v c (eidx edges par c)) cs) ms = Ok ms).
  { induction cs; [reflexivity|]. cbn [map foldM correlate_instr bind]. exact IHcs. }
  rewrite E. cbn [bind]. exact IH.
Qed.

Lemma corr_outs l : (forall x, In x l -> (ev x < V)%nat) -> NoDup (map ev l) ->
  (forall pre v post, map ev l = pre ++ v :: post -> v <> r -> ~ In (par v) (v :: post)) ->
  forall ms, cinv (map ev l) ms -> (forall i j, ms r i j = Mn (dep r) r i j) ->
  exists ms', foldM (correlate_instr s) (concat (map (outs_of edges r par) l)) ms = Ok ms' /\ cinv [] ms'.
Proof.
  induction l as [|[[v p] cs] l IH]; intros LT ND PF ms OI OR.
  - eexists. split; [reflexivity|]. exact OI.
  - cbn [map] in ND, OI. apply NoDup_cons_iff in ND. destruct ND as (NI & ND).
    assert (PFv := PF [] v (map ev l) eq_refl).
    assert (Hv : (v < V)%nat) by (apply (LT (v, p, cs)); now left).
    assert (IH' : forall ms, cinv (map ev l) ms -> (forall i j, ms r i j = Mn (dep r) r i j) ->
      exists ms', foldM (correlate_instr s) (concat (map (outs_of edges r par) l)) ms = Ok ms' /\ cinv [] ms').
    { apply IH; auto.
      - intros x Hx. apply LT. now right.
      - intros pre u post E. apply (PF (v :: pre) u post). cbn [map app]. change (ev (v, p, cs)) with v. now rewrite E. }
    change (ev (v, p, cs)) with v in *.
    cbn [map concat]. unfold outs_of at 1. destruct (Nat.eqb_spec v r) as [-> | NR].
    + cbn [app foldM correlate_instr bind]. apply IH'; [|exact OR]. intros u Hu NU i j Hi. destruct (Nat.eq_dec u r) as [-> | N]; [apply OR|].
      apply OI; auto. intros [E|I]; [congruence|contradiction].
    + pose proof (par_lt _ _ _ _ _ RT v Hv) as Hp.
      cbn [app foldM]. unfold correlate_instr at 1. unfold index. rewrite (sv_V_eq ws V M edges s SF), (sv_M_eq ws V M edges s SF).
      rewrite (proj2 (Nat.ltb_lt v V)), (proj2 (Nat.ltb_lt (par v) V)) by auto.
      rewrite (proj2 (Nat.ltb_lt _ (V - 1))) by (eapply eidx_lt; eauto). cbn [bind andb]. cbn [correlate_instr bind].
      apply IH'.
      * intros u Hu NU i j Hi. destruct (Nat.eq_dec u v) as [-> | N].
        -- rewrite set1_same. rewrite (par_dep _ _ _ _ _ RT v Hv NR). cbn [Mn]. rewrite rsum_vec. apply sumf_ext. intros k Ik. apply in_seq in Ik.
           rewrite (OI (par v) Hp (PFv NR)) by lia. reflexivity.
        -- rewrite set1_other by auto. apply OI; auto. intros [E|I]; [congruence|contradiction].
      * intros i j. rewrite set1_other by auto. apply OR.
Qed.

Lemma corr_fold junk : exists ms, foldM (correlate_instr s) (prog_of edges r par np) junk = Ok ms /\
  forall v i j, (v < V)%nat -> (i < M)%nat -> ms v i j = Mn (dep v) v i j.
Proof.
  unfold prog_of. rewrite foldM_app', corr_ins. cbn [bind app foldM]. unfold correlate_instr at 1. unfold index.
  rewrite (sv_V_eq ws V M edges s SF). rewrite (proj2 (Nat.ltb_lt r V)) by apply RT. cbn [bind].
  pose proof (bl_good _ _ _ _ BL) as GD. rewrite Forall_forall in GD.
  assert (LT : forall x, In x np -> (ev x < V)%nat) by (intros [[v p] cs] Hx; destruct (GD _ Hx) as (X & _); exact X).
  pose proof (order_perm V r par np BL) as OP. pose proof (order_nodup V r par np BL) as ON. unfold order in OP, ON.
  set (ms0 := set1 junk r _).
  destruct (corr_outs np LT ON (last_split r par (map ev np) ON (bl_first _ _ _ _ BL)) ms0) as (ms & E & C).
  - intros v Hv NI. exfalso. apply NI. eapply Permutation_in; [apply Permutation_sym, OP|]. apply in_seq. lia.
  - intros i j. unfold ms0. rewrite set1_same, (rt_dep _ _ _ _ _ RT). reflexivity.
  - exists ms. split; [exact E|]. intros v i j Hv Hi. apply C; auto.
Qed.
End Corr.
