(** [sample_tree] with finite logits may return every tree. *)
From Coq Require Import List Reals Lra Lia Arith Bool Permutation Sorted.
From Verif Require Import Base Spec_Graph Spec_Sum Spec_Trees M_Structure M_Rand M_SampleTree
  L_Base L_Graph L_Pairing L_MakeTree L_Program L_JitSet L_RemoveEdge L_Sum L_Rand L_SampleTree L_TreeMCMC L_AllTrees.
Import ListNotations.
Open Scope R_scope.

Section Reach.
Variables (V : nat) (l : list R).
Hypothesis LL : length l = tri V.
Notation logits := (map Some l).

Lemma wt_pos x y : (x < y)%nat -> (y < V)%nat -> 0 < wt logits (x, y).
Proof.
  intros H1 H2. unfold wt, logit_of. cbn [fst snd].
  assert (H : (find_complete_edge x y < tri V)%nat).
  { pose proof (complete_grid_fce V x y H1 H2) as E. rewrite <- complete_grid_length. apply nth_error_Some. congruence. }
  rewrite (nth_indep _ None (Some 0)) by (rewrite map_length; lia). rewrite map_nth. cbn [weight]. apply exp_pos.
Qed.

Lemma Ksweep_nonneg order : forall g cur, (forall c, 0 <= g c) -> 0 <= Ksweep V logits order g cur.
Proof.
  induction order as [|e order IH]; intros g cur G; cbn [Ksweep]; [apply G|]. unfold Kstep. destruct (Req_EM_T _ _) as [E|E]; [now apply IH|].
  apply sumf_nonneg. intros p I. apply Rmult_le_pos; [|now apply IH].
  assert (0 <= Wtot V logits (removed cur e)) by (apply sumf_nonneg; intros; apply wt_nonneg).
  apply Rmult_le_pos; [apply wt_nonneg|]. left. apply Rinv_0_lt_compat. lra.
Qed.

Lemma crossing T cur e : labelled V T -> labelled V cur -> (e < length cur)%nat -> exists p, In p T /\ In p (cands V (removed cur e)).
Proof.
  intros LT LC He. pose proof (old_in_cands V cur e LC He) as OC. destruct (nth e cur (0, 0)%nat) as [a b] eqn:EN.
  assert (RG : in_range V (removed cur e)) by (apply removed_in_range, LC).
  apply cands_In in OC; auto. destruct OC as (AB & HB & NR).
  destruct (existsb (fun p => negb (reachb V (removed cur e) (fst p) (snd p))) T) eqn:EX.
  - apply existsb_exists in EX. destruct EX as ([x y] & I & NQ). exists (x, y). split; [exact I|].
    destruct LT as ((_ & RT & _) & LT). destruct (RT _ _ I) as (Hx & Hy). apply cands_In; auto. split; [now apply LT|]. split; [exact Hy|].
    apply negb_true_iff in NQ. intro Q. cbn [fst snd] in NQ. apply reachb_iff with (V := V) in Q; auto. congruence.
  - exfalso. apply NR. destruct LT as ((_ & RT & CO) & LT).
    assert (AD : forall u v, reach T u v -> reach (removed cur e) u v).
    { intros u v (n & W). induction W as [v|u v w n A W IH]; [apply reach_refl|]. eapply reach_trans; [|exact IH].
      assert (ST : forall x y, In (x, y) T -> reach (removed cur e) x y).
      { intros x y I. destruct (reachb V (removed cur e) x y) eqn:Q.
        - apply reachb_iff in Q; auto. apply (RT _ _ I).
        - assert (existsb (fun p => negb (reachb V (removed cur e) (fst p) (snd p))) T = true).
          { apply existsb_exists. exists (x, y). split; [exact I|]. cbn [fst snd]. now rewrite Q. }
          congruence. }
      destruct A as [A|A]; [now apply ST|]. apply reach_sym. now apply ST. }
    apply AD. apply CO; lia.
Qed.

Lemma Ksweep_pos T (g : list edge -> R) : labelled V T -> (forall c, 0 <= g c) -> (forall c, Permutation c T -> 0 < g c) ->
  forall order cur, labelled V cur -> NoDup order -> (forall e, In e order -> (e < length cur)%nat) ->
  (forall i, (i < length cur)%nat -> ~ In i order -> In (nth i cur (0, 0)%nat) T) -> 0 < Ksweep V logits order g cur.
Proof.
  intros LT G0 G1. induction order as [|e order IH]; intros cur LC NDo HO HI; cbn [Ksweep].
  - apply G1. pose proof (labelled_length V cur LC). pose proof (labelled_length V T LT).
    apply NoDup_Permutation_bis; [now apply (labelled_NoDup V)|lia|]. intros p I. apply In_nth with (d := (0, 0)%nat) in I. destruct I as (i & Hi & <-). apply HI; auto.
  - inversion NDo; subst. assert (He : (e < length cur)%nat) by (apply HO; now left).
    destruct (crossing T cur e LT LC He) as (p & IT & IC). unfold Kstep.
    assert (WP : 0 < Wtot V logits (removed cur e)).
    { apply sumf_pos; [intros; apply wt_nonneg|]. exists p. split; [exact IC|]. destruct p as [x y].
      apply cands_In in IC; [|apply removed_in_range, LC]. apply wt_pos; tauto. }
    destruct (Req_EM_T _ _) as [E|_]; [lra|].
    apply sumf_pos.
    + intros q _. apply Rmult_le_pos; [|now apply Ksweep_nonneg]. apply Rmult_le_pos; [apply wt_nonneg|]. left. now apply Rinv_0_lt_compat.
    + exists p. split; [exact IC|]. apply Rmult_lt_0_compat.
      * apply Rdiv_lt_0_compat; [|exact WP]. destruct p as [x y]. apply cands_In in IC; [|apply removed_in_range, LC]. apply wt_pos; tauto.
      * apply IH; auto.
        -- now apply labelled_move.
        -- intros. rewrite upd_length. apply HO. now right.
        -- intros i Hi NI. rewrite upd_length in Hi. rewrite nth_upd by exact He. destruct (Nat.eqb_spec e i); [exact IT|].
           apply HI; auto. intros [E|E]; congruence.
Qed.

Lemma small_trees T T' : (V <= 2)%nat -> canonical V T -> canonical V T' -> T = T'.
Proof.
  intros HV (L1 & _) (L2 & _). pose proof (labelled_length V T L1). pose proof (labelled_length V T' L2).
  destruct L1 as ((_ & R1 & _) & O1), L2 as ((_ & R2 & _) & O2).
  destruct T as [|[a b] [|? ?]], T' as [|[c d] [|? ?]]; cbn in *; try lia; [reflexivity|].
  assert (a < b < V)%nat by (split; [apply O1; now left|apply (R1 a b); now left]).
  assert (c < d < V)%nat by (split; [apply O2; now left|apply (R2 c d); now left]).
  repeat f_equal; lia.
Qed.

Lemma sample_tree_reaches T T' : canonical V T -> canonical V T' -> 
  0 < prob (sample_tree (complete_grid V) logits T) (fun E => if edge_list_eq_dec E T' then true else false).
Proof.
  intros CT CT'. pose proof (labelled_length V T (proj1 CT)) as LT. unfold prob.
  destruct (le_lt_dec V 2) as [HV|HV].
  - unfold sample_tree. destruct (Nat.leb_spec (length T) 1); [|lia]. cbn [expect]. rewrite (small_trees T T' HV CT CT').
    destruct (edge_list_eq_dec T' T'); [lra|congruence].
  - rewrite (sample_tree_expect V logits); [|lia|apply CT|now rewrite map_length].
    set (g := fun c : list edge => _). apply Rdiv_lt_0_compat; [|apply lt_0_INR, lt_O_fact].
    assert (G0 : forall c, 0 <= g c) by (intros c; unfold g; destruct (edge_list_eq_dec _ _); lra).
    unfold Kbar. apply sumf_pos; [intros; now apply Ksweep_nonneg|].
    exists (seq 0 (length T)). split; [now apply perms_complete|].
    apply (Ksweep_pos T'); auto.
    + apply CT'.
    + intros c P. unfold g. destruct (edge_list_eq_dec (pair_sort c) T') as [|NE]; [lra|]. exfalso. apply NE.
      rewrite (pair_sort_sym _ _ P). apply pair_sort_id, CT'.
    + apply CT.
    + apply seq_NoDup.
    + intros e I. apply in_seq in I. lia.
    + intros i Hi NI. exfalso. apply NI. apply in_seq. lia.
Qed.
End Reach.
