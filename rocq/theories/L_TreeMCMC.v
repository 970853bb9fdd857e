(** [sample_tree] leaves the tree posterior invariant. *)
From Coq Require Import List Reals Lra Lia Arith Bool Permutation Sorted FinFun.
From Verif Require Import Base Spec_Graph Spec_Sum M_Structure M_Rand M_SampleTree
  L_Base L_Graph L_Pairing L_MakeTree L_Program L_JitSet L_RemoveEdge L_Sum L_Rand L_SampleTree.
Import ListNotations.
Open Scope R_scope.

Definition weight (x : option R) : R := match x with None => 0 | Some x => exp x end.

Lemma weight_nonneg : forall x, 0 <= weight x.
Proof. destruct x; simpl; [|lra]. left. apply exp_pos. Qed.

Section Kernel.
Variables (V : nat) (logits : list (option R)).

Definition wt (p : edge) : R := weight (logit_of logits p).
Definition mass (l : list edge) : R := prodf l wt.

Lemma wt_nonneg : forall p, 0 <= wt p.
Proof. intros. apply weight_nonneg. Qed.

Definition Wtot (rest : list edge) : R := sumf (cands V rest) wt.

Definition Kstep (e : nat) (g : list edge -> R) (cur : list edge) : R :=
  if Req_EM_T (Wtot (removed cur e)) 0 then g cur
  else sumf (cands V (removed cur e)) (fun p => wt p / Wtot (removed cur e) * g (upd cur e p)).

Fixpoint Ksweep (order : list nat) (g : list edge -> R) (cur : list edge) : R :=
  match order with [] => g cur | e :: t => Kstep e (Ksweep t g) cur end.

(** ** The code's draws follow [Kstep] *)

Lemma emax_None : forall l, emax l = None -> forall x, In x l -> x = None.
Proof.
  induction l; simpl; intros; [tauto|]. destruct a as [a|], (emax l) eqn:E; simpl in H; try discriminate.
  destruct H0; auto.
Qed.

Lemma emax_Some : forall l m, emax l = Some m -> In (Some m) l.
Proof.
  induction l; simpl; intros; [discriminate|]. destruct a as [a|], (emax l) as [m'|] eqn:E; simpl in H; inversion H; subst.
  - unfold Rmax. destruct (Rle_dec a m'); auto.
  - auto.
  - right. auto.
Qed.

Lemma sumf_nth : forall A (l : list A) d (h : A -> R), sumf (seq 0 (length l)) (fun i => h (nth i l d)) = sumf l h.
Proof.
  induction l; intros; auto. simpl length. rewrite <- cons_seq, sumf_cons, <- seq_shift, sumf_map, sumf_cons.
  f_equal. apply IHl.
Qed.

Lemma shift_weight : forall m x, shift_exp m x = weight x / exp m.
Proof.
  intros. destruct x; simpl. unfold Rminus. rewrite exp_plus, exp_Ropp. reflexivity. unfold Rdiv; lra.
Qed.

Lemma upd_self : forall A (l : list A) i x, nth_error l i = Some x -> upd l i x = l.
Proof. induction l; intros; destruct i; simpl in *; try discriminate. now inversion H. f_equal. auto. Qed.

Lemma st_step_expect : forall cur st e (f : result st_state -> R) g, rep V cur st -> (e < length cur)%nat ->
  length logits = tri V -> (forall c s, rep V c s -> f (Ok s) = g c) ->
  expect (st_step (complete_grid V) logits st e) f = Kstep e g cur.
Proof.
  intros cur st e f g R He LL FG. destruct (nth_error cur e) as [[a b]|] eqn:NE.
  2:{ apply nth_error_None in NE. lia. }
  destruct (st_step_form V cur st e a b logits R NE LL) as (w & buf & F & E & VP & B & HF).
  assert (OC : In (a, b) (cands V (removed cur e))).
  { destruct st as [[[e2k nb] comp] bf]. destruct R as (T & LT & _).
    eapply old_edge_cand; eauto. apply LT. eapply nth_error_In; eauto. }
  rewrite E, expect_bind. clear E.
  assert (HG : forall x y, In (x, y) (cands V (removed cur e)) -> expect (F (find_complete_edge x y)) f = g (upd cur e (x, y))).
  { intros x y I. destruct (HF x y I) as (st' & E & R'). rewrite E. simpl. auto. }
  set (C := cands V (removed cur e)) in *.
  unfold Kstep, Wtot. fold C. unfold choose_edge.
  assert (CN : C <> []) by (intro X; rewrite X in OC; destruct OC).
  unfold valid_probs in VP. remember (map (logit_of logits) C) as lp eqn:ELP.
  destruct lp as [|l0 lp0]; [discriminate|]. rewrite ELP in VP.
  destruct (emax (map (logit_of logits) C)) as [m|] eqn:EM; inversion VP; subst w; clear VP.
  - set (w := map (shift_exp m) (map (logit_of logits) C)).
    assert (SW : rsum w = sumf C wt / exp m).
    { unfold rsum, w. rewrite !sumf_map. unfold wt. rewrite <- sumf_div. apply sumf_ext. intros. apply shift_weight. }
    assert (WP : 0 < sumf C wt).
    { apply sumf_pos. intros; apply wt_nonneg. apply emax_Some in EM. apply in_map_iff in EM.
      destruct EM as (p & E1 & I). exists p. split; auto. unfold wt. rewrite E1. simpl. apply exp_pos. }
    assert (RP : 0 < rsum w).
    { rewrite SW. apply Rdiv_lt_0_compat; auto. apply exp_pos. }
    destruct (Rlt_dec 0 (rsum w)); [|contradiction]. destruct (Req_EM_T (sumf C wt) 0); [lra|].
    simpl expect. destruct w as [|w0 ws] eqn:EW. { unfold w in EW. destruct C; [congruence|discriminate]. }
    rewrite <- EW in *. clear EW w0 ws. destruct (Req_EM_T (rsum w) 0); [lra|].
    assert (LW : length w = length C) by (unfold w; now rewrite !map_length). rewrite LW.
    rewrite <- (sumf_nth _ C (0, 0)%nat). apply sumf_ext. intros i Hi. apply in_seq in Hi.
    assert (NC : nth_error C i = Some (nth i C (0, 0)%nat)) by (apply nth_error_nth'; lia).
    rewrite expect_lift, (B i _ NC). destruct (nth i C (0, 0)%nat) as [x y] eqn:EN.
    rewrite HG by (eapply nth_error_In; eauto). f_equal.
    rewrite SW. assert (NW : nth i w 0 = wt (x, y) / exp m).
    { unfold w. rewrite map_map. rewrite (nth_indep _ 0 (shift_exp m (logit_of logits (0, 0)%nat))) by (rewrite map_length; lia).
      rewrite (map_nth (fun q => shift_exp m (logit_of logits q))). rewrite EN. apply shift_weight. }
    rewrite NW. field. split; [lra|]. apply Rgt_not_eq, exp_pos.
  - simpl expect.
    assert (Z : sumf C wt = 0).
    { apply sumf_zero. intros p I. unfold wt. rewrite (emax_None _ EM (logit_of logits p)) by (now apply in_map). reflexivity. }
    destruct (Req_EM_T (sumf C wt) 0); [|contradiction].
    rewrite HG by auto. f_equal. now apply upd_self.
Qed.

Lemma sweep_expect : forall order cur st (f : result st_state -> R) g, rep V cur st ->
  (forall e, In e order -> (e < length cur)%nat) ->
  length logits = tri V -> (forall c s, rep V c s -> length c = length cur -> f (Ok s) = g c) ->
  expect (rfold (st_step (complete_grid V) logits) order st) f = Ksweep order g cur.
Proof.
  induction order; intros cur st f g R HO LL FG.
  - simpl. auto.
  - simpl. rewrite expect_bind. 
    apply st_step_expect with (g := Ksweep order g); auto.
    + apply HO. now left.
    + intros c s Rc. assert (LC : length c = length cur).
      { destruct st as [[[? ?] ?] ?], s as [[[? ?] ?] ?]. destruct R as (T1 & _). destruct Rc as (T2 & _).
        destruct T1, T2. lia. }
      apply IHorder; auto. intros. rewrite LC. apply HO. now right. intros. apply FG; auto. congruence.
Qed.

(** ** Labelled trees *)

Definition labelled (l : list edge) : Prop := spanning_tree V l /\ forall x y, In (x, y) l -> (x < y)%nat.
Definition canonical (l : list edge) : Prop := labelled l /\ StronglySorted pair_le l.

Lemma labelled_perm : forall l m, Permutation l m -> labelled l -> labelled m.
Proof.
  intros l m P [T L]. split. eapply spanning_tree_perm; eauto.
  intros x y I. apply L. eapply Permutation_in; [symmetry|]; eauto.
Qed.

Lemma labelled_NoDup : forall l, labelled l -> NoDup l.
Proof. intros l [T L]. apply tree_goodedges in T. destruct T as [_ N]. eapply NoDup_map_inv; eauto. Qed.

Variable TT : list (list edge).
Hypothesis TT_nodup : NoDup TT.
Hypothesis TT_spec : forall T, In T TT <-> canonical T.

Definition LL : list (list edge) := flat_map perms TT.

Lemma LL_iff : forall l, In l LL <-> labelled l.
Proof.
  intros. unfold LL. rewrite in_flat_map. split.
  - intros (T & I & P). apply perms_Permutation in P. apply TT_spec in I. destruct I as [L _].
    eapply labelled_perm; [symmetry; eauto|auto].
  - intros L. exists (pair_sort l). split.
    + apply TT_spec. split; [|apply pair_sort_sorted]. eapply labelled_perm; [|eauto]. symmetry. apply pair_sort_perm.
    + apply perms_complete. symmetry. apply pair_sort_perm.
Qed.

Lemma LL_NoDup : NoDup LL.
Proof.
  unfold LL. assert (C : forall T, In T TT -> canonical T) by (intros; now apply TT_spec).
  clear TT_spec. induction TT; simpl; [constructor|]. inversion TT_nodup; subst. apply NoDup_app_intro.
  - apply perms_NoDup, labelled_NoDup. apply C. now left.
  - apply IHl; auto. intros; apply C; now right.
  - intros l0 I J. apply in_flat_map in J. destruct J as (T & IT & J). apply perms_Permutation in I, J.
    assert (a = T). { apply sorted_perm_unique. apply C; now left. apply C; now right. rewrite <- I. auto. }
    subst. contradiction.
Qed.

Lemma labelled_move : forall l e p, labelled l -> (e < length l)%nat -> In p (cands V (removed l e)) -> labelled (upd l e p).
Proof.
  intros l e [x y] [T L] He I. destruct (nth_error l e) as [[a b]|] eqn:NE.
  2:{ apply nth_error_None in NE. lia. }
  assert (R : in_range V (removed l e)) by (apply removed_in_range, T).
  apply cands_In in I; auto. destruct I as (XY & Y & NR).
  apply (labelled_perm ((x, y) :: removed l e)). symmetry. now apply upd_perm.
  split.
  - eapply add_bridge; eauto; [|lia]. eapply spanning_tree_perm; [apply removed_perm; eauto|auto].
  - intros u v [E|I]. inversion E; subst; auto. apply L. eapply Permutation_in; [symmetry; apply removed_perm; eauto|]. now right.
Qed.

Lemma removed_upd : forall (l : list edge) e p, (e < length l)%nat -> removed (upd l e p) e = removed l e.
Proof.
  induction l; intros; simpl in *; [lia|]. unfold removed in *. destruct e; simpl; auto. f_equal. apply IHl. lia.
Qed.

Lemma nth_removed_mass : forall l e, (e < length l)%nat -> mass l = wt (nth e l (0, 0)%nat) * mass (removed l e).
Proof.
  intros. unfold mass. rewrite <- prodf_cons. apply prodf_perm. apply removed_perm. apply nth_error_nth'. auto.
Qed.

Lemma upd_upd : forall A (l : list A) i x y, upd (upd l i x) i y = upd l i y.
Proof. induction l; intros; destruct i; simpl; auto. now rewrite IHl. Qed.

Lemma labelled_length : forall l, labelled l -> S (length l) = V.
Proof. intros l [[L _] _]. auto. Qed.

Lemma old_in_cands : forall l e, labelled l -> (e < length l)%nat -> In (nth e l (0, 0)%nat) (cands V (removed l e)).
Proof.
  intros l e [T L] He. destruct (nth e l (0, 0)%nat) as [a b] eqn:E.
  assert (NE : nth_error l e = Some (a, b)) by (rewrite <- E; apply nth_error_nth'; auto).
  eapply old_edge_cand; eauto. apply L. eapply nth_error_In; eauto.
Qed.

Lemma NoDup_flat_pairs : forall (L : list (list edge)) (C : list edge -> list edge), NoDup L -> (forall l, NoDup (C l)) ->
  NoDup (flat_map (fun l => map (fun p => (l, p)) (C l)) L).
Proof.
  induction 1; intros; simpl; [constructor|]. apply NoDup_app_intro; auto.
  - apply Injective_map_NoDup; auto. intros u v E. now inversion E.
  - intros q I J. apply in_map_iff in I. destruct I as (p & <- & I). apply in_flat_map in J. destruct J as (l' & I' & J).
    apply in_map_iff in J. destruct J as (p' & E & _). inversion E; subst. contradiction.
Qed.

Lemma Kstep_invariant : forall e g, (S e < V)%nat ->
  sumf LL (fun l => mass l * Kstep e g l) = sumf LL (fun l => mass l * g l).
Proof.
  intros e g He.
  assert (HL : forall l, In l LL -> (e < length l)%nat).
  { intros l I. apply LL_iff in I. pose proof (labelled_length l I). lia. }
  set (W := fun l : list edge => Wtot (removed l e)).
  set (A := fun q : list edge * edge => let '(l, p) := q in
     if Req_EM_T (W l) 0 then 0 else mass l * (wt p / W l) * g (upd l e p)).
  set (P := flat_map (fun l => map (fun p => (l, p)) (cands V (removed l e))) LL).
  set (phi := fun q : list edge * edge => let '(l, p) := q in (upd l e p, nth e l (0, 0)%nat)).
  assert (PI : forall l p, In (l, p) P <-> In l LL /\ In p (cands V (removed l e))).
  { intros. unfold P. rewrite in_flat_map. split.
    - intros (l' & I & J). apply in_map_iff in J. destruct J as (p' & E & J). inversion E; subst; auto.
    - intros [I J]. exists l. split; auto. apply in_map_iff. eauto. }
  assert (PHI : forall q, In q P -> In (phi q) P /\ phi (phi q) = q).
  { intros [l p] I. apply PI in I. destruct I as [I J]. pose proof (HL l I) as Hl. unfold phi. split.
    - apply PI. rewrite removed_upd by auto. split.
      + apply LL_iff. apply labelled_move; auto. now apply LL_iff.
      + apply old_in_cands; auto. now apply LL_iff.
    - rewrite upd_upd, nth_upd_same by auto. f_equal. apply upd_self. now apply nth_error_nth'. }
  assert (WZ : forall l, In l LL -> W l = 0 -> mass l = 0).
  { intros l I Z. rewrite (nth_removed_mass l e) by auto.
    assert (wt (nth e l (0, 0)%nat) = 0).
    { unfold W, Wtot in Z. apply (sumf_zero_inv _ _ (fun p _ => wt_nonneg p) Z). apply old_in_cands; auto. now apply LL_iff. }
    rewrite H. lra. }
  transitivity (sumf P A).
  - unfold P. rewrite sumf_flat_map. apply sumf_ext. intros l I. rewrite sumf_map. unfold A, Kstep. fold (W l).
    destruct (Req_EM_T (W l) 0).
    + rewrite (WZ l I e0). rewrite (sumf_zero _ (fun _ => 0)); auto. lra.
    + rewrite <- sumf_scal. apply sumf_ext. intros. lra.
  - rewrite (sumf_reindex _ P phi A).
    + unfold P. rewrite sumf_flat_map. apply sumf_ext. intros l I. rewrite sumf_map. unfold phi, A.
      pose proof (HL l I) as Hl.
      rewrite (sumf_ext _ _ (fun p => if Req_EM_T (W l) 0 then 0 else (mass l * g l / W l) * wt p)).
      * destruct (Req_EM_T (W l) 0).
        -- rewrite (WZ l I e0), sumf_zero; auto. lra.
        -- rewrite sumf_scal. fold (Wtot (removed l e)). fold (W l). field. auto.
      * intros p J. unfold W. rewrite removed_upd by auto. fold (W l). destruct (Req_EM_T (W l) 0); auto.
        rewrite (nth_removed_mass (upd l e p) e) by (now rewrite upd_length).
        rewrite nth_upd_same, removed_upd by auto.
        rewrite upd_upd. rewrite (upd_self _ l e) by (now apply nth_error_nth').
        rewrite (nth_removed_mass l e) by auto. field. auto.
    + apply NoDup_flat_pairs. apply LL_NoDup. intros; apply cands_NoDup.
    + intros q I. apply PHI; auto.
    + intros q q' I I' E. rewrite <- (proj2 (PHI q I)), <- (proj2 (PHI q' I')). now rewrite E.
Qed.

Lemma Ksweep_invariant : forall order g, (forall e, In e order -> (S e < V)%nat) ->
  sumf LL (fun l => mass l * Ksweep order g l) = sumf LL (fun l => mass l * g l).
Proof.
  induction order; intros g HO; simpl; auto.
  rewrite Kstep_invariant by (apply HO; now left). apply IHorder. intros; apply HO; now right.
Qed.

(** ** Relabelling symmetry *)

Definition relab (E : nat) (f : nat -> nat) (l l' : list edge) : Prop :=
  length l = E /\ length l' = E /\ forall i, (i < E)%nat -> nth i l' (0, 0)%nat = nth (f i) l (0, 0)%nat.

Lemma cands_adj_ext : forall r r', in_range V r -> in_range V r' -> (forall u v, adj r u v <-> adj r' u v) -> cands V r = cands V r'.
Proof.
  intros r r' R R' A. unfold cands. apply filter_ext_in. intros [x y] I. apply pair_loop_In in I. simpl. f_equal.
  apply eq_true_iff_eq. rewrite !reachb_iff by (auto; lia). split; apply reach_incl; intros; now apply A.
Qed.

Lemma relab_perm : forall E f l l', bFun E f -> bInjective E f -> relab E f l l' -> Permutation l l'.
Proof.
  intros E f l l' B I (L & L' & H). apply (Permutation_nth l l' (0, 0)%nat). rewrite L. split; auto. exists f. auto.
Qed.

Lemma relab_upd : forall E f l l' e p, bFun E f -> bInjective E f -> (e < E)%nat -> relab E f l l' ->
  relab E f (upd l (f e) p) (upd l' e p).
Proof.
  intros E f l l' e p B I He (L & L' & H). split; [now rewrite upd_length|]. split; [now rewrite upd_length|].
  intros i Hi. rewrite nth_upd by lia. rewrite nth_upd by (rewrite L; apply B; auto).
  destruct (Nat.eqb_spec e i).
  - subst. now rewrite Nat.eqb_refl.
  - destruct (Nat.eqb_spec (f e) (f i)) as [E1|E1]; [|apply H; auto]. apply I in E1; auto. contradiction.
Qed.

Lemma removed_perm_of : forall l l' e e', (e < length l)%nat -> (e' < length l')%nat -> Permutation l l' ->
  nth e l (0, 0)%nat = nth e' l' (0, 0)%nat -> Permutation (removed l e) (removed l' e').
Proof.
  intros. apply (Permutation_cons_inv (a := nth e l (0, 0)%nat)).
  rewrite <- (removed_perm l e) by (now apply nth_error_nth'). rewrite H2.
  rewrite <- (removed_perm l' e') by (now apply nth_error_nth'). auto.
Qed.

Lemma Ksweep_relab : forall E f g, S E = V -> bFun E f -> bInjective E f ->
  (forall l l', Permutation l l' -> g l = g l') ->
  forall order l l', (forall e, In e order -> (e < E)%nat) -> labelled l -> relab E f l l' ->
  Ksweep (map f order) g l = Ksweep order g l'.
Proof.
  intros E f g EV B I G. induction order; intros l l' HO LB RL; simpl.
  - apply G. eapply relab_perm; eauto.
  - assert (Ha : (a < E)%nat) by (apply HO; now left).
    assert (PL := relab_perm E f l l' B I RL). pose proof RL as (L1 & L2 & H).
    assert (PR : Permutation (removed l (f a)) (removed l' a)).
    { apply removed_perm_of; auto. rewrite L1. apply B; auto. lia. symmetry. apply H; auto. }
    assert (LB' : labelled l') by (eapply labelled_perm; eauto).
    assert (CE : cands V (removed l (f a)) = cands V (removed l' a)).
    { apply cands_adj_ext. apply removed_in_range, LB. apply removed_in_range, LB'.
      split; apply adj_perm; auto. now symmetry. }
    unfold Kstep, Wtot. rewrite CE. destruct (Req_EM_T _ _).
    + apply IHorder; auto. intros; apply HO; now right.
    + apply sumf_ext. intros p J. f_equal. apply IHorder.
      * intros; apply HO; now right.
      * apply labelled_move; auto. rewrite L1. apply B; auto. now rewrite CE.
      * apply relab_upd; auto.
Qed.

Lemma map_perm_seq : forall E f s, bFun E f -> bInjective E f -> Permutation s (seq 0 E) -> Permutation (map f s) (seq 0 E).
Proof.
  intros E f s B I P. rewrite (Permutation_map f P). apply NoDup_Permutation_bis.
  - apply NoDup_map_inj; [|apply seq_NoDup]. intros x y X Y. apply in_seq in X, Y. apply I; lia.
  - rewrite map_length. auto.
  - intros x J. apply in_map_iff in J. destruct J as (y & <- & J). apply in_seq in J. apply in_seq. specialize (B y). lia.
Qed.

Definition Kbar (E : nat) (g : list edge -> R) (l : list edge) : R :=
  sumf (perms (seq 0 E)) (fun s => Ksweep s g l).

Lemma Kbar_sym : forall E g, S E = V -> (forall l l', Permutation l l' -> g l = g l') ->
  forall l l', labelled l -> Permutation l l' -> Kbar E g l = Kbar E g l'.
Proof.
  intros E g EV G l l' LB P. pose proof P as P0. apply (Permutation_nth l l' (0, 0)%nat) in P.
  destruct P as (LN & f & B & I & H). pose proof (labelled_length l LB). assert (length l = E) by lia. rewrite H1 in *.
  assert (RL : relab E f l l') by (repeat split; auto).
  unfold Kbar. rewrite (sumf_reindex _ (perms (seq 0 E)) (map f)).
  - apply sumf_ext. intros s J. apply perms_Permutation in J. apply (Ksweep_relab E f g EV B I G); auto.
    intros e K. apply (Permutation_in _ J) in K. apply in_seq in K. lia.
  - apply perms_NoDup, seq_NoDup.
  - intros s J. apply perms_iff. apply perms_iff in J. now apply map_perm_seq.
  - intros s s' J J'. apply perms_iff in J, J'. assert (FS : forall x, In x s -> (x < E)%nat).
    { intros x K. apply (Permutation_in _ J) in K. apply in_seq in K. lia. }
    assert (FS' : forall x, In x s' -> (x < E)%nat).
    { intros x K. apply (Permutation_in _ J') in K. apply in_seq in K. lia. }
    clear J J'. revert s' FS'. induction s; destruct s'; simpl; intros; try discriminate; auto.
    inversion H2. f_equal. { apply I; [apply FS; now left|apply FS'; now left|assumption]. }
    apply IHs; auto; intros; (apply FS; now right) || (apply FS'; now right).
Qed.

Lemma sum_LL_sym : forall E h, S E = V -> (forall l l', labelled l -> Permutation l l' -> h l = h l') ->
  sumf LL h = INR (fact E) * sumf TT h.
Proof.
  intros E h EV HS. unfold LL. rewrite sumf_flat_map, <- sumf_scal. apply sumf_ext. intros T I.
  apply TT_spec in I. destruct I as [LB _]. rewrite (sumf_ext _ _ (fun _ => h T)).
  - rewrite sumf_const, perms_length. pose proof (labelled_length T LB). replace (length T) with E by lia. auto.
  - intros l J. apply perms_Permutation in J. apply HS; auto. eapply labelled_perm; [symmetry|]; eauto.
Qed.

Lemma mass_sym : forall l l', Permutation l l' -> mass l = mass l'.
Proof. intros. now apply prodf_perm. Qed.

Lemma sweep_average_invariant : forall E g, S E = V -> (forall l l', Permutation l l' -> g l = g l') ->
  sumf TT (fun T => mass T * (Kbar E g T / INR (fact E))) = sumf TT (fun T => mass T * g T).
Proof.
  intros E g EV G. assert (FP : 0 < INR (fact E)) by (apply lt_0_INR, lt_O_fact).
  apply (Rmult_eq_reg_l (INR (fact E))); [|lra].
  rewrite <- (sum_LL_sym E (fun T => mass T * (Kbar E g T / INR (fact E)))), <- (sum_LL_sym E (fun T => mass T * g T)); auto.
  - rewrite (sumf_ext _ _ (fun l => / INR (fact E) * (mass l * Kbar E g l))) by (intros; unfold Rdiv; lra).
    rewrite sumf_scal. unfold Kbar.
    rewrite (sumf_ext LL _ (fun l => sumf (perms (seq 0 E)) (fun s => mass l * Ksweep s g l))).
    2:{ intros. now rewrite sumf_scal. }
    rewrite sumf_swap. rewrite (sumf_ext _ _ (fun _ => sumf LL (fun l => mass l * g l))).
    + rewrite sumf_const, perms_length, seq_length. field. lra.
    + intros s I. apply perms_Permutation in I. apply Ksweep_invariant.
      intros e J. apply (Permutation_in _ I) in J. apply in_seq in J. lia.
  - intros l l' LB P. rewrite (mass_sym _ _ P), (G _ _ P). auto.
  - intros l l' LB P. rewrite (mass_sym _ _ P), (Kbar_sym E g EV G l l' LB P). auto.
Qed.

Lemma norm_id : forall l, labelled l -> map norm l = l.
Proof.
  intros l [_ L]. assert (G : forall m, (forall x y, In (x, y) m -> (x < y)%nat) -> map norm m = m).
  { induction m as [|[x y] m IH]; simpl; intros; auto. rewrite IH by (intros; apply H; now right).
    f_equal. assert (x < y)%nat by (apply H; now left). unfold norm; simpl. f_equal; lia. }
  auto.
Qed.

Lemma sample_tree_expect : forall T (f : result (list edge) -> R), (2 <= length T)%nat -> labelled T -> length logits = tri V ->
  expect (sample_tree (complete_grid V) logits T) f =
  Kbar (length T) (fun l => f (Ok (pair_sort l))) T / INR (fact (length T)).
Proof.
  intros T f H2 LB HL. pose proof (labelled_length T LB) as LT. unfold sample_tree.
  destruct (Nat.leb_spec (length T) 1); [lia|].
  replace (length T + 1)%nat with V by lia.
  destruct (st_init_Ok V T) as (nb & EI & NB); [apply LB|]. rewrite EI. cbn [lift rbind expect].
  rewrite perms_length, seq_length. f_equal. unfold Kbar. apply sumf_ext. intros s I. apply perms_Permutation in I.
  rewrite expect_bind. fold (tri V). pose proof (rep_init V T nb) as R0. rewrite (norm_id T LB) in *.
  apply sweep_expect; auto.
  - apply R0; auto. apply LB.
  - intros e J. apply (Permutation_in _ I) in J. apply in_seq in J. lia.
  - intros c [[[e2k nb'] comp] buf] R LC. pose proof R as (_ & _ & -> & _).
    rewrite (st_edges_Ok V c _ R). cbn [lift rbind].
    assert (LS : length (pair_sort c) = length T) by (rewrite (Permutation_length (pair_sort_perm c)); auto).
    rewrite LS, Nat.eqb_refl. reflexivity.
Qed.

Lemma pair_sort_sym : forall l l', Permutation l l' -> pair_sort l = pair_sort l'.
Proof.
  intros. apply sorted_perm_unique; try apply pair_sort_sorted.
  rewrite !pair_sort_perm. auto.
Qed.

Lemma pair_sort_id : forall l, StronglySorted pair_le l -> pair_sort l = l.
Proof. intros. apply sorted_perm_unique; auto. apply pair_sort_sorted. apply pair_sort_perm. Qed.

Lemma sample_tree_invariant : forall f : result (list edge) -> R, (1 <= V)%nat -> length logits = tri V ->
  sumf TT (fun T => mass T * expect (sample_tree (complete_grid V) logits T) f) =
  sumf TT (fun T => mass T * f (Ok T)).
Proof.
  intros f HV HL. destruct (le_lt_dec V 2).
  - apply sumf_ext. intros T I. apply TT_spec in I. destruct I as [LB _]. pose proof (labelled_length T LB).
    unfold sample_tree. destruct (Nat.leb_spec (length T) 1); [|lia]. reflexivity.
  - transitivity (sumf TT (fun T => mass T * (Kbar (V - 1) (fun l => f (Ok (pair_sort l))) T / INR (fact (V - 1))))).
    + apply sumf_ext. intros T I. apply TT_spec in I. destruct I as [LB _]. pose proof (labelled_length T LB).
      rewrite sample_tree_expect; auto; [|lia]. replace (length T) with (V - 1)%nat by lia. auto.
    + rewrite sweep_average_invariant; [|lia|].
      * apply sumf_ext. intros T I. apply TT_spec in I. destruct I as [_ S]. now rewrite pair_sort_id.
      * intros. now rewrite (pair_sort_sym _ _ H).
Qed.
End Kernel.
