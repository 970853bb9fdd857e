(** Spanning trees can be enumerated; final form of the invariance theorem. *)
From Coq Require Import List Reals Lra Lia Arith Bool Permutation Sorted FinFun.
From Verif Require Import Base Spec_Graph Spec_Sum Spec_Trees M_Structure M_Rand M_SampleTree
  L_Base L_Graph L_Pairing L_MakeTree L_Program L_JitSet L_RemoveEdge L_Sum L_Rand L_SampleTree L_TreeMCMC.
Import ListNotations.
Open Scope nat_scope.

Fixpoint subs {A} (l : list A) : list (list A) :=
  match l with [] => [[]] | x :: t => map (cons x) (subs t) ++ subs t end.

Lemma subs_incl : forall A (l s : list A), In s (subs l) -> incl s l.
Proof.
  induction l; simpl; intros.
  - destruct H as [<-|[]]. easy.
  - apply in_app_or in H. destruct H as [H|H].
    + apply in_map_iff in H. destruct H as (t & <- & I). intros x [<-|J]; [now left|]. right. eapply IHl; eauto.
    + intros x J. right. eapply IHl; eauto.
Qed.

Lemma subs_sorted : forall (l s : list edge), StronglySorted pair_le l -> In s (subs l) -> StronglySorted pair_le s.
Proof.
  induction l; simpl; intros.
  - destruct H0 as [<-|[]]. constructor.
  - inversion H; subst. apply in_app_or in H0. destruct H0 as [I|I]; auto.
    apply in_map_iff in I. destruct I as (t & <- & I). constructor; auto.
    rewrite Forall_forall in *. intros x J. apply H4. eapply subs_incl; eauto.
Qed.

Lemma subs_NoDup : forall A (l : list A), NoDup l -> NoDup (subs l).
Proof.
  induction 1; simpl; [repeat constructor; auto|]. apply NoDup_app_intro; auto.
  - apply Injective_map_NoDup; auto. intros u v E. now inversion E.
  - intros s I J. apply in_map_iff in I. destruct I as (t & <- & I). apply subs_incl in J. apply H, J. now left.
Qed.

Lemma subs_complete : forall (l s : list edge), StronglySorted pair_le l -> StronglySorted pair_le s -> NoDup s -> incl s l ->
  In s (subs l).
Proof.
  induction l; intros s Sl Ss ND I; simpl.
  - destruct s; auto. exfalso. apply (I p). now left.
  - inversion Sl; subst. destruct s as [|y s].
    + apply in_or_app. right. apply IHl; auto; try constructor. intros z [].
    + inversion Ss; subst. inversion ND; subst.
      assert (D : forall p q : edge, {p = q} + {p <> q}) by (repeat decide equality).
      rewrite Forall_forall in *. apply in_or_app. destruct (D y a) as [->|N].
      * left. apply in_map. apply IHl; auto. intros z J. destruct (I z); [now right| |auto]. subst. contradiction.
      * right. apply IHl; auto. intros z J. destruct (I z J) as [<-|]; auto. exfalso.
        destruct J as [J|J]; [auto|]. apply N. apply pair_le_antisym; auto.
        destruct (I y) as [E|E]; [now left|congruence|]. auto.
Qed.

Definition treeb (V : nat) (l : list edge) : bool :=
  (S (length l) =? V) && forallb (fun v => reachb V l 0 v) (seq 0 V).

Definition all_trees (V : nat) : list (list edge) := filter (treeb V) (subs (pair_sort (pair_loop V))).

Lemma all_trees_enumerate : forall V, enumerates_trees V (all_trees V).
Proof.
  intros V. set (P := pair_sort (pair_loop V)).
  assert (PI : forall x y, In (x, y) P <-> x < y /\ y < V).
  { intros. rewrite <- pair_loop_In. split; apply Permutation_in; [|symmetry]; apply pair_sort_perm. }
  split.
  - apply NoDup_filter, subs_NoDup. eapply Permutation_NoDup; [symmetry; apply pair_sort_perm|apply pair_loop_NoDup].
  - intros T. unfold all_trees. fold P. rewrite filter_In. unfold treeb. rewrite andb_true_iff, Nat.eqb_eq, forallb_forall.
    split.
    + intros (I & L & R). pose proof (subs_incl _ _ _ I) as INC.
      assert (RG : in_range V T) by (intros x y J; apply INC, PI in J; lia).
      split; [|split].
      * split; auto. split; auto. intros u v Hu Hv.
        assert (X : forall z, z < V -> reach T 0 z).
        { intros z Hz. apply (reachb_iff V); auto. apply R. apply in_seq. lia. }
        eapply reach_trans; [apply reach_sym|]; apply X; auto.
      * intros x y J. apply INC, PI in J. tauto.
      * eapply subs_sorted; [|eauto]. apply pair_sort_sorted.
    + intros (T1 & LT & ST). pose proof T1 as (L & RG & C). split; [|split; auto].
      * apply subs_complete; auto. apply pair_sort_sorted.
        -- apply (labelled_NoDup V). split; auto.
        -- intros [x y] J. apply PI. split; auto. apply RG in J. tauto.
      * intros v J. apply in_seq in J. apply reachb_iff; auto. lia. apply C; lia.
Qed.

Open Scope R_scope.

Lemma mass_tree_mass : forall logits T,
  mass logits T = tree_mass (fun x y => nth (find_complete_edge x y) logits None) T.
Proof.
  intros. unfold mass, tree_mass, wt, logit_of. apply prodf_ext. intros [x y] _. reflexivity.
Qed.

Lemma sample_tree_leaves_invariant : forall V grid logits TT, (1 <= V)%nat -> make_complete_graph V = Ok grid ->
  length logits = length grid -> enumerates_trees V TT ->
  let mass := tree_mass (fun x y => nth (find_complete_edge x y) logits None) in
  (forall T', In T' TT ->
    sumf TT (fun T => mass T * prob (sample_tree grid logits T) (fun T1 => if edge_list_eq_dec T1 T' then true else false)) = mass T') /\
  (forall T, In T TT ->
    sumf TT (fun T' => prob (sample_tree grid logits T) (fun T1 => if edge_list_eq_dec T1 T' then true else false)) = 1).
Proof.
  intros V grid logits TT HV G LL [ND SP] mass. rewrite make_complete_graph_Ok in G. inversion G; subst grid. clear G.
  rewrite complete_grid_length in LL.
  assert (IND : forall (T' : list edge) h, In T' TT -> sumf TT (fun T => h T * (if edge_list_eq_dec T T' then 1 else 0)) = h T').
  { clear SP. induction ND; intros T' h I; [destruct I|]. rewrite sumf_cons. destruct I as [->|I].
    - destruct (edge_list_eq_dec T' T'); [|contradiction]. rewrite sumf_zero. lra.
      intros y J. destruct (edge_list_eq_dec y T'); [subst; contradiction|lra].
    - destruct (edge_list_eq_dec x T'); [subst; contradiction|]. rewrite IHND; auto. lra. }
  assert (SP' : forall T, In T TT <-> canonical V T).
  { intros. rewrite SP. unfold canonical_tree, canonical, labelled. tauto. }
  split.
  - intros T' I. unfold mass.
    pose proof (sample_tree_invariant V logits TT ND SP' (fun r => match r with
       Ok a => if (if edge_list_eq_dec a T' then true else false) then 1 else 0 | Raise _ => 0 end) HV LL) as H.
    rewrite <- mass_tree_mass. rewrite <- (IND T' (L_TreeMCMC.mass logits) I).
    transitivity (sumf TT (fun T => L_TreeMCMC.mass logits T * expect (sample_tree (complete_grid V) logits T)
      (fun r => match r with Ok a => if (if edge_list_eq_dec a T' then true else false) then 1 else 0 | Raise _ => 0 end))).
    + apply sumf_ext. intros T J. rewrite mass_tree_mass. reflexivity.
    + rewrite H. apply sumf_ext. intros T J. destruct (edge_list_eq_dec T T'); auto.
  - intros T I. unfold prob. pose proof (proj1 (SP T) I) as (T1 & LT & ST).
    assert (EX : forall h, (forall r, match r with Ok T' => In T' TT -> h r = 1 | Raise _ => True end) ->
      expect (sample_tree (complete_grid V) logits T) h = 1).
    { intros h Hh. destruct (le_lt_dec 2 (length T)) as [H2|H2].
      - rewrite (sample_tree_expect V logits); auto; [|split; auto].
        rewrite <- (expect_const _ (sample_tree (complete_grid V) logits T) 1).
        rewrite (sample_tree_expect V logits) with (f := fun _ => 1); auto; [|split; auto].
        f_equal. unfold Kbar. apply sumf_ext. intros s Is. apply perms_Permutation in Is.
        assert (KE : forall order g g' l, labelled V l -> (forall e, In e order -> (e < length l)%nat) ->
          (forall l, labelled V l -> g l = g' l) -> Ksweep V logits order g l = Ksweep V logits order g' l).
        { induction order; intros g g' l LB HO GG; simpl; auto. unfold Kstep. destruct (Req_EM_T _ _).
          - apply IHorder; auto. intros; apply HO; now right.
          - apply sumf_ext. intros p J. f_equal. apply IHorder; auto.
            + apply labelled_move; auto. apply HO; now left.
            + intros. rewrite upd_length. apply HO; now right. }
        apply KE.
        + split; auto.
        + intros e J. apply (Permutation_in _ Is) in J. apply in_seq in J. lia.
        + intros l LB. apply (Hh (Ok (pair_sort l))). apply SP'. split; [|apply pair_sort_sorted].
          eapply labelled_perm; [|eauto]. symmetry. apply pair_sort_perm.
      - unfold sample_tree. destruct (Nat.leb_spec (length T) 1); [|lia]. simpl. now apply (Hh (Ok T)). }
    transitivity (expect (sample_tree (complete_grid V) logits T) (fun r => sumf TT (fun T' => match r with Ok a => if (if edge_list_eq_dec a T' then true else false) then 1 else 0 | Raise _ => 0 end))).
    + clear. generalize (sample_tree (complete_grid V) logits T). intros p.
      induction TT as [|x0 TT0 IHl]. 
      * symmetry. apply (expect_const _ p 0).
      * assert (EP : forall (q : rprog (list edge)) f g, expect q (fun r => f r + g r) = expect q f + expect q g).
        { clear. induction q; simpl; intros; auto.
          - destruct w; auto. destruct (Req_EM_T _ _); auto. rewrite <- sumf_plus. apply sumf_ext. intros. rewrite H. lra.
          - rewrite <- Rdiv_plus_distr, <- sumf_plus. f_equal. apply sumf_ext. auto. }
        rewrite sumf_cons, IHl, <- EP. apply expect_ext. intros. now rewrite sumf_cons.
    + apply EX. intros [T'|]; auto. intros I'. pose proof (IND T' (fun _ => 1) I') as H. rewrite <- H. apply sumf_ext. intros x _.
      destruct (edge_list_eq_dec T' x), (edge_list_eq_dec x T'); try congruence; lra.
Qed.

(** ** Final forms *)

Lemma C05_proof : forall V grid logits edges, make_complete_graph V = Ok grid ->
  spanning_tree V edges -> length logits = length grid ->
  always (fun T => spanning_tree V T /\
                   (2 <= length edges -> StronglySorted pair_le T /\ forall x y, In (x, y) T -> x < y)%nat /\
                   (length edges <= 1 -> T = edges)%nat)
    (sample_tree grid logits edges).
Proof.
  intros V grid logits edges G T LL.
  assert (LG : length grid = tri V) by (rewrite make_complete_graph_Ok in G; inversion G; apply complete_grid_length).
  destruct (le_lt_dec (length edges) 1).
  - unfold sample_tree. destruct (Nat.leb_spec (length edges) 1); [|lia]. simpl. split; auto. split; [lia|auto].
  - eapply always_mono; [|eapply sample_tree_always; eauto; lia].
    intros T' (A & B & C). split; auto. split; auto. lia.
Qed.

Open Scope nat_scope.
Lemma C06_proof : forall V grid logits edges e2k nb order, make_complete_graph V = Ok grid ->
  length logits = length grid -> spanning_tree V edges -> st_init V edges = Ok (e2k, nb) ->
  (forall e, In e order -> e < length edges) ->
  always (fun '(e2k, nb, comp, buf) => exists cur, length cur = length edges /\ spanning_tree V cur /\
      e2k = map (fun '(x, y) => find_complete_edge x y) cur /\
      forall pre a b post, cur = pre ++ (a, b) :: post ->
      exists nb' comp' n buf',
        jit_remove_edge grid e2k nb comp (length pre) = Ok (find_complete_edge a b, nb', comp') /\
        find_valid_edges comp' buf = Ok (n, buf') /\
        StronglySorted lt (firstn n buf') /\
        (forall k, In k (firstn n buf') <->
           exists x y, x < y /\ y < V /\ k = find_complete_edge x y /\ ~ reach (pre ++ post) x y) /\
        In (find_complete_edge a b) (firstn n buf'))
    (rfold (st_step grid logits) order (e2k, nb, repeat false V, repeat 0 (length grid))).
Proof.
  intros V grid logits edges e2k nb order G LL T EI HO.
  rewrite make_complete_graph_Ok in G. inversion G; subst grid. clear G. rewrite complete_grid_length in *.
  destruct (st_init_Ok V edges T) as (nb' & EI' & NB). rewrite EI' in EI. inversion EI; subst.
  pose proof (rep_init V edges nb T NB) as R0.
  eapply always_mono; [|eapply sweep_always; eauto; intros; rewrite map_length; auto].
  intros [[[e2k nb'] comp] buf] (cur & R & LC). exists cur. split; [rewrite LC; apply map_length|].
  pose proof R as (T' & LT & E2 & _). split; auto. split; auto.
  intros pre a b post E.
  assert (NE : nth_error cur (length pre) = Some (a, b)).
  { rewrite E, nth_error_app2, Nat.sub_diag by lia. reflexivity. }
  assert (RM : removed cur (length pre) = pre ++ post).
  { unfold removed. rewrite E, firstn_app, Nat.sub_diag, firstn_all2, firstn_O, app_nil_r by lia. f_equal.
    rewrite skipn_app. rewrite skipn_all2 by lia. replace (S (length pre) - length pre) with 1 by lia. reflexivity. }
  destruct (candidates_Ok V cur e2k nb' comp buf (length pre) a b R NE) as (nb2 & comp2 & n & buf2 & A & B & C & D & F).
  rewrite RM in D. exists nb2, comp2, n, buf2. auto.
Qed.
