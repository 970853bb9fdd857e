(** Removing an edge of a spanning tree: the DFS marks exactly one component,
    and the candidate scan lists exactly the bridging pairs. *)
From Coq Require Import List Arith Lia Bool Permutation.
From Verif Require Import Base Spec_Graph M_Structure L_Base L_Graph L_Pairing L_MakeTree L_Program L_JitSet.
Import ListNotations.

Lemma tree_goodedges : forall V es, spanning_tree V es -> goodedges V es.
Proof.
  intros V es T. assert (HV : 0 < V) by (destruct T; lia).
  destruct (tree_rooted V es 0 T HV) as (par & dep & RT). split.
  - intros a b I. destruct (rt_range _ _ _ _ _ RT _ _ I). split; auto. split; auto.
    destruct (rt_edge _ _ _ _ _ RT _ _ I) as [[N P]|[N P]]; subst; intro E.
    + eapply (par_neq V es 0 par dep RT a); auto.
    + eapply (par_neq V es 0 par dep RT b); auto.
  - apply (rt_nodup _ _ _ _ _ RT).
Qed.

Section Remove.
Variables (V a b : nat) (rest : list edge).
Hypothesis T : spanning_tree V ((a, b) :: rest).

Lemma re_good : goodedges V ((a, b) :: rest).
Proof. now apply tree_goodedges. Qed.

Lemma re_ab : a < V /\ b < V /\ a <> b.
Proof. pose proof (goodedges_cons _ _ _ _ re_good). tauto. Qed.

Lemma re_nadj : ~ adj rest a b.
Proof. pose proof (goodedges_cons _ _ _ _ re_good). tauto. Qed.

Variables (par dep : nat -> nat).
Hypothesis RT : rooted V ((a, b) :: rest) a par dep.

Lemma re_par_b : par b = a.
Proof.
  destruct re_ab as (A & B & N).
  assert (X : adj ((a, b) :: rest) a b) by (apply adj_cons_iff; auto).
  apply (rt_adj _ _ _ _ _ RT) in X. destruct X as (_ & _ & [[X _]|[_ X]]); congruence.
Qed.

Lemma re_adj : forall u w, adj rest u w <->
  u < V /\ w < V /\ ((u <> a /\ u <> b /\ par u = w) \/ (w <> a /\ w <> b /\ par w = u)).
Proof.
  intros. destruct re_ab as (A & B & N). pose proof re_par_b as PB. pose proof re_nadj as NA. split.
  - intros X. assert (Y : adj ((a, b) :: rest) u w) by (apply adj_cons_iff; auto).
    apply (rt_adj _ _ _ _ _ RT) in Y. destruct Y as (Hu & Hw & Y). split; auto. split; auto.
    destruct Y as [[Y1 Y2]|[Y1 Y2]].
    + left. split; auto. split; auto. intros ->. rewrite PB in Y2. subst. apply adj_sym in X. contradiction.
    + right. split; auto. split; auto. intros ->. rewrite PB in Y2. subst. contradiction.
  - intros (Hu & Hw & Y).
    assert (X : adj ((a, b) :: rest) u w) by (apply (rt_adj _ _ _ _ _ RT); intuition auto).
    apply adj_cons_iff in X. destruct X as [[-> ->]|[[-> ->]|X]]; auto; intuition congruence.
Qed.

Variables (nb : list (list nat)).
Hypothesis NB : nbrep V rest nb.

Definition dinv (M S : list nat) (comp : list bool) : Prop :=
  NoDup (M ++ S) /\
  (forall x, In x (M ++ S) -> x < V /\ x <> b /\ (x = a \/ In (par x) M)) /\
  In a (M ++ S) /\
  (forall c, c < V -> c <> a -> c <> b -> In (par c) M -> In c (M ++ S)) /\
  length comp = V /\ (forall v, v < V -> (nth v comp false = true <-> In v M)).

Lemma push_Ok : forall comp v items, v < V -> jset (nth v nb []) items ->
  (forall w, In w items -> w < V) -> length comp = V ->
  let unm := fun w => negb (nth w comp false) in
  forall k i S stack, i + k = length items -> jset stack S -> length stack = V ->
  length S + length (filter unm (skipn i items)) < V ->
  exists stack', foldM (dfs_push nb comp v) (seq i k) stack = Ok stack' /\
    jset stack' (S ++ filter unm (skipn i items)) /\ length stack' = V.
Proof.
  intros comp v items Hv J IR LC unm. induction k; intros i S stack E JS LS CAP; simpl.
  - rewrite skipn_all2 by lia. simpl. rewrite app_nil_r. eauto.
  - assert (Hi : i < length items) by lia.
    assert (SK : skipn i items = nth i items 0 :: skipn (i + 1) items).
    { rewrite <- (firstn_skipn i items) at 2. rewrite app_nth2 by (rewrite firstn_length; lia).
      rewrite firstn_length, Nat.min_l, Nat.sub_diag by lia.
      rewrite Nat.add_1_r. clear - Hi. revert i Hi. induction items; intros; [simpl in Hi; lia|].
      destruct i; simpl; auto. apply IHitems. simpl in Hi; lia. }
    rewrite SK in *. simpl in CAP. unfold dfs_push at 1.
    destruct NB as [LN _]. rewrite (get_Ok _ _ _ _ []) by lia. simpl bind.
    rewrite (jset_get _ _ _ _ J Hi). simpl bind.
    assert (HW : nth i items 0 < V) by (apply IR, nth_In; lia).
    rewrite (get_Ok _ _ _ _ false) by lia. simpl bind. simpl filter.
    rewrite <- (Nat.add_1_r i). change (negb (nth (nth i items 0) comp false)) with (unm (nth i items 0)).
    destruct (unm (nth i items 0)) eqn:U.
    + destruct (jset_add_Ok stack S (nth i items 0) JS) as (st' & E1 & J1 & L1); [simpl in CAP; lia|].
      rewrite E1. simpl bind.
      destruct (IHk (i + 1) (S ++ [nth i items 0]) st') as (st2 & E2 & J2 & L2); auto; try lia.
      { rewrite app_length. simpl in *. lia. }
      exists st2. rewrite <- app_assoc in J2. auto.
    + simpl bind. apply IHk; auto. lia.
Qed.

Lemma dfs_Ok : forall fuel M S stack comp, dinv M S comp -> jset stack S -> length stack = V ->
  V <= fuel + length M ->
  exists M' comp', dfs_loop fuel nb stack comp = Ok comp' /\ dinv M' [] comp'.
Proof.
  induction fuel; intros M S stack comp D J L F.
  - exfalso. destruct D as (ND & R & _). destruct re_ab as (Ha & Hb & _).
    assert (NoDup (b :: M ++ S)).
    { constructor; auto. intros I. apply R in I. intuition congruence. }
    apply (NoDup_bounded_length _ V) in H. simpl in H. rewrite app_length in H. lia.
    intros x [<-|I]; auto. apply R in I. tauto.
  - simpl. rewrite (jset_get0 _ _ _ J). simpl bind.
    destruct S as [|s0 S0].
    + simpl. exists M, comp. split; auto.
    + simpl (length (s0 :: S0) =? 0). cbv iota.
      destruct (exists_last (l := s0 :: S0)) as (S' & v & E); [discriminate|]. rewrite E in *. clear E s0 S0.
      destruct (jset_pop_Ok _ _ _ J) as (st1 & E1 & J1 & L1). rewrite E1. simpl bind.
      destruct D as (ND & R & IA & CL & LC & CM).
      assert (IV : In v (M ++ S' ++ [v])) by (rewrite !in_app_iff; simpl; auto).
      destruct (R _ IV) as (Hv & Nvb & PV).
      rewrite put_Ok by lia. simpl bind.
      destruct NB as [LN NBR]. rewrite (get_Ok _ _ _ _ []) by lia. simpl bind.
      destruct (NBR v Hv) as (items & JI & LI & NDI & MI).
      rewrite (jset_get0 _ _ _ JI). simpl bind.
      set (comp' := upd comp v true).
      assert (LC' : length comp' = V) by (unfold comp'; rewrite upd_length; auto).
      assert (CM' : forall u, u < V -> (nth u comp' false = true <-> In u (v :: M))).
      { intros u Hu. unfold comp'. rewrite nth_upd by lia. destruct (Nat.eqb_spec v u).
        - subst. simpl. tauto.
        - rewrite CM by auto. simpl. intuition congruence. }
      set (unm := fun w => negb (nth w comp' false)).
      set (ch := filter unm items).
      assert (ND' : NoDup (v :: M ++ S')).
      { eapply Permutation_NoDup; [|exact ND]. rewrite app_assoc. rewrite Permutation_app_comm. reflexivity. }
      assert (NDM : ~ In v M /\ ~ In v S').
      { inversion ND'; subst. rewrite in_app_iff in *. tauto. }
      assert (CH : forall x, In x ch <-> x < V /\ x <> a /\ x <> b /\ par x = v).
      { intros x. unfold ch. rewrite filter_In, MI, re_adj. unfold unm. rewrite negb_true_iff. split.
        - intros ((_ & Hx & [X|X]) & U).
          + destruct X as (X1 & X2 & X3). destruct PV as [->|PV]; [congruence|]. rewrite X3 in PV.
            assert (nth x comp' false = true) by (apply CM'; simpl; auto). congruence.
          + tauto.
        - intros (Hx & Xa & Xb & XP). split. tauto.
          destruct (nth x comp' false) eqn:C; auto. apply CM' in C; auto. destruct C as [C|C].
          + exfalso. subst x. apply (par_neq _ _ _ _ _ RT v); auto.
          + assert (I : In x (M ++ S' ++ [v])) by (rewrite in_app_iff; auto).
            apply R in I. destruct I as (_ & _ & [I|I]); [congruence|]. rewrite XP in I. tauto. }
      assert (NDC : NoDup ((v :: M) ++ S' ++ ch)).
      { rewrite app_assoc. apply NoDup_app_intro.
        - simpl. auto.
        - apply NoDup_filter. auto.
        - intros x I C. apply CH in C. destruct C as (Cx & Ca & Cb & CP).
          simpl in I. destruct I as [I|I].
          + subst x. apply (par_neq _ _ _ _ _ RT v); auto.
          + assert (I' : In x (M ++ S' ++ [v])) by (rewrite !in_app_iff in *; tauto).
            apply R in I'. destruct I' as (_ & _ & [I'|I']); [congruence|]. rewrite CP in I'. tauto. }
      destruct re_ab as (Ha & Hb & Nab).
      destruct (push_Ok comp' v items Hv JI) with (k := length items) (i := 0) (S := S') (stack := st1)
        as (st2 & E2 & J2 & L2); auto; try lia.
      { intros w I. apply MI, re_adj in I. tauto. }
      { simpl skipn. fold unm. fold ch.
        assert (N : NoDup (b :: S' ++ ch)).
        { constructor.
          - rewrite in_app_iff. intros [I|I].
            + assert (I' : In b (M ++ S' ++ [v])) by (rewrite !in_app_iff; tauto). apply R in I'. tauto.
            + apply CH in I. tauto.
          - apply NoDup_app_inv in NDC. tauto. }
        apply (NoDup_bounded_length _ V) in N.
        - simpl in N. rewrite app_length in N. lia.
        - intros x [<-|I]; auto. apply in_app_or in I. destruct I as [I|I].
          + assert (I' : In x (M ++ S' ++ [v])) by (rewrite !in_app_iff; tauto). apply R in I'. tauto.
          + apply CH in I. tauto. }
      rewrite E2. simpl bind. apply (IHfuel (v :: M) (S' ++ ch) st2 comp'); auto; [|simpl; lia].
      split; [exact NDC|]. split; [|split; [|split; [|split]]]; auto.
      * intros x I. assert (I2 : In x (M ++ S' ++ [v]) \/ In x ch).
        { simpl in I. rewrite !in_app_iff in *. simpl. tauto. }
        destruct I2 as [I2|I2].
        -- apply R in I2. destruct I2 as (X1 & X2 & X3). split; auto. split; auto. simpl. tauto.
        -- apply CH in I2. destruct I2 as (X1 & X2 & X3 & X4). split; auto. split; auto. right. left. auto.
      * simpl. rewrite !in_app_iff in *. simpl in *. tauto.
      * intros c Hc Ca Cb [P|P].
        -- assert (In c ch) by (apply CH; auto). simpl. rewrite !in_app_iff. tauto.
        -- specialize (CL c Hc Ca Cb P). simpl. rewrite !in_app_iff in *. simpl in *. tauto.
Qed.

Lemma dinv_final : forall M comp, dinv M [] comp ->
  forall v, v < V -> (nth v comp false = true <-> reach rest a v) /\ (nth v comp false = false <-> reach rest b v).
Proof.
  intros M comp (ND & R & IA & CL & LC & CM) v Hv. rewrite app_nil_r in *.
  destruct re_ab as (Ha & Hb & Nab).
  assert (AM : forall x, reach rest a x -> In x M).
  { intros x. apply (reach_closed rest (fun x => In x M)); auto.
    intros y z Iy A. apply re_adj in A. destruct A as (Hy & Hz & [A|A]).
    - destruct A as (A1 & A2 & A3). apply R in Iy. destruct Iy as (_ & _ & [I|I]); [congruence|]. now rewrite <- A3.
    - destruct A as (A1 & A2 & A3). apply CL; auto. now rewrite A3. }
  assert (ALL : forall x, x < V -> (In x M /\ reach rest a x) \/ (~ In x M /\ reach rest b x)).
  { apply (rooted_ind _ _ _ _ _ RT (fun x => (In x M /\ reach rest a x) \/ (~ In x M /\ reach rest b x))).
    - left. split; auto. apply reach_refl.
    - intros x Hx Nx IH. destruct (Nat.eq_dec x b) as [->|Nb].
      + right. split. intro I. apply R in I. tauto. apply reach_refl.
      + assert (A : adj rest (par x) x).
        { apply re_adj. split; auto. apply (par_lt _ _ _ _ _ RT); auto. }
        destruct IH as [[I Q]|[I Q]].
        * left. split. apply CL; auto. eapply reach_trans; [eauto|]. now apply reach_adj.
        * right. split. intro I'. apply R in I'. destruct I' as (_ & _ & [I'|I']); contradiction.
          eapply reach_trans; [eauto|]. now apply reach_adj. }
  specialize (CM v Hv). split.
  - rewrite CM. split; auto. intros I. destruct (ALL v Hv); tauto.
  - rewrite <- not_true_iff_false, CM. split.
    + intros I. destruct (ALL v Hv); tauto.
    + intros Q I. destruct (ALL v Hv) as [[_ Q']|[I' _]]; auto.
      assert (In b M). { apply AM. eapply reach_trans; [exact Q'|]. now apply reach_sym. }
      apply R in H. tauto.
Qed.
End Remove.

(** ** The candidate scan *)

Definition bridge_of (comp : list bool) (p : nat * nat) : bool :=
  xorb (nth (snd p) comp false) (nth (fst p) comp false).

Lemma upd_firstn : forall A (l : list A) n x, n < length l -> firstn (n + 1) (upd l n x) = firstn n l ++ [x].
Proof.
  induction l; intros; simpl in *; [lia|]. destruct n; simpl; auto. f_equal. apply IHl. lia.
Qed.

Lemma fve_fold : forall V comp, length comp = V -> forall post pre buf, pre ++ post = pair_loop V ->
  length buf = tri V ->
  firstn (length (filter (bridge_of comp) pre)) buf = map (fun '(x, y) => find_complete_edge x y) (filter (bridge_of comp) pre) ->
  exists buf', foldM (valid_step comp) post (length pre, length (filter (bridge_of comp) pre), buf)
    = Ok (tri V, length (filter (bridge_of comp) (pair_loop V)), buf') /\ length buf' = tri V /\
    firstn (length (filter (bridge_of comp) (pair_loop V))) buf' =
      map (fun '(x, y) => find_complete_edge x y) (filter (bridge_of comp) (pair_loop V)).
Proof.
  intros V comp LC. induction post as [|[v1 v2] post IH]; intros pre buf E LB F.
  - rewrite app_nil_r in E. subst pre. simpl. rewrite pair_loop_length. eauto.
  - assert (NE : nth_error (pair_loop V) (length pre) = Some (v1, v2)).
    { rewrite <- E. rewrite nth_error_app2, Nat.sub_diag by lia. reflexivity. }
    pose proof (nth_error_pair_loop _ _ _ _ NE) as (B1 & B2 & K).
    assert (FL : length (filter (bridge_of comp) pre) <= length pre).
    { clear. induction pre; simpl; auto. destruct (bridge_of comp a); simpl; lia. }
    assert (PL : length pre < tri V).
    { rewrite <- pair_loop_length. apply nth_error_Some. congruence. }
    cbn [foldM]. cbn [valid_step]. rewrite !(get_Ok _ _ _ _ false) by lia. cbn [bind].
    assert (E' : (pre ++ [(v1, v2)]) ++ post = pair_loop V) by (rewrite <- app_assoc; auto).
    specialize (IH (pre ++ [(v1, v2)])). rewrite filter_app, !app_length in IH.
    change (filter (bridge_of comp) [(v1, v2)]) with
      (if xorb (nth v2 comp false) (nth v1 comp false) then [(v1, v2)] else []) in IH.
    destruct (xorb (nth v2 comp false) (nth v1 comp false)).
    + rewrite put_Ok by lia. simpl bind.
      destruct (IH (upd buf (length (filter (bridge_of comp) pre)) (length pre))) as (buf' & E1 & L1 & F1); auto.
      * now rewrite upd_length.
      * simpl length. rewrite upd_firstn by lia. rewrite F, map_app. simpl. now rewrite K.
      * eauto.
    + simpl bind. rewrite app_nil_r in IH. simpl length in IH. rewrite Nat.add_0_r in IH. apply IH; auto.
Qed.

Lemma find_valid_edges_Ok : forall V comp buf, length comp = V -> length buf = tri V ->
  exists buf', find_valid_edges comp buf = Ok (length (filter (bridge_of comp) (pair_loop V)), buf') /\
    length buf' = tri V /\
    firstn (length (filter (bridge_of comp) (pair_loop V))) buf' =
      map (fun '(x, y) => find_complete_edge x y) (filter (bridge_of comp) (pair_loop V)).
Proof.
  intros. unfold find_valid_edges. rewrite H.
  destruct (fve_fold V comp H (pair_loop V) [] buf) as (buf' & E & L & F); auto.
  simpl in E. rewrite E. simpl. eauto.
Qed.

(** ** jit_remove_edge *)

Lemma jit_remove_edge_Ok : forall V cur e a b nb rest, nth_error cur e = Some (a, b) -> a < b ->
  Permutation cur ((a, b) :: rest) -> spanning_tree V cur -> nbrep V cur nb ->
  exists nb' comp', 
    jit_remove_edge (complete_grid V) (map (fun '(x, y) => find_complete_edge x y) cur) nb (repeat false V) e =
      Ok (find_complete_edge a b, nb', comp') /\
    nbrep V rest nb' /\ length comp' = V /\
    forall v, v < V -> (nth v comp' false = true <-> reach rest a v) /\ (nth v comp' false = false <-> reach rest b v).
Proof.
  intros V cur e a b nb rest NE AB P T NB. unfold jit_remove_edge.
  assert (T' : spanning_tree V ((a, b) :: rest)) by (eapply spanning_tree_perm; eauto).
  destruct (re_ab _ _ _ _ T') as (Ha & Hb & _).
  unfold get at 1. rewrite nth_error_map, NE. cbn [option_map bind].
  unfold get at 1. rewrite complete_grid_fce by auto. cbn [bind].
  destruct (nbrep_remove V rest nb a b) as (nb1 & nb' & E1 & E2 & NB').
  { eapply nbrep_perm; eauto. } { now apply tree_goodedges. }
  rewrite E1. cbn [bind]. rewrite E2. cbn [bind].
  destruct NB' as [L' R'] eqn:NBE. clear NBE. rewrite L'.
  destruct (jset_add_Ok (repeat 0 V) [] a) as (st & ES & JS & LS).
  { apply jset_repeat. lia. } { rewrite repeat_length. simpl. lia. }
  rewrite ES. cbn [bind]. rewrite repeat_length in LS.
  destruct (tree_rooted V _ a T' Ha) as (par & dep & RT).
  destruct (dfs_Ok V a b rest T' par dep RT nb' NB' (V + 1) [] [a] st (repeat false V)) as (M & comp' & E & D); auto.
  - split; [repeat constructor; auto|]. split; [|split; [|split; [|split]]].
    + intros x [<-|[]]. split; auto. split; auto. lia.
    + now left.
    + intros c _ _ _ [].
    + apply repeat_length.
    + intros v Hv. rewrite nth_repeat. simpl. split; [discriminate|tauto].
  - simpl. lia.
  - rewrite E. cbn [bind]. exists nb', comp'. split; auto. split; auto. split.
    + apply D.
    + intros v Hv. eapply (dinv_final V a b rest T' par dep RT M); eauto.
Qed.
