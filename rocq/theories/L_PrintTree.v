(** print_tree writes the tree as an outline. *)
From Coq Require Import String Ascii.
From Coq Require Import List Arith Lia Bool Permutation Sorted.
From Verif Require Import Base L_Base Spec_Graph Spec_Outline L_Graph M_Structure L_MakeTree L_Program L_Center L_JitSet L_RemoveEdge L_SampleTree L_Rose.
Import ListNotations.

Fixpoint outline (d : nat) (t : rose) : list (nat * nat) :=
  match t with Node v cs => (d, v) :: flat_map (outline (S d)) cs end.

Lemma outline_snd : forall t d, map snd (outline d t) = flatten t.
Proof.
  induction t using rose_ind'. intros d. simpl. f_equal. induction cs; simpl; auto.
  rewrite map_app, H by now left. f_equal. apply IHcs. intros; apply H; now right.
Qed.

Lemma outline_ge : forall t d l, In l (outline d t) -> d <= fst l.
Proof.
  induction t using rose_ind'. intros d l [<-|I]; simpl; auto. apply in_flat_map in I. destruct I as (c & Ic & I).
  apply H in I; auto. lia.
Qed.

Lemma flat_map_split : forall A B (f : A -> list B) l x pre post, flat_map f l = pre ++ x :: post ->
  exists l1 a l2 p1 p2, l = l1 ++ a :: l2 /\ f a = p1 ++ x :: p2 /\ pre = flat_map f l1 ++ p1 /\ post = p2 ++ flat_map f l2.
Proof.
  induction l; simpl; intros x pre post E. destruct pre; discriminate.
  destruct (le_lt_dec (length (f a)) (length pre)) as [L|L].
  - assert (P : pre = f a ++ skipn (length (f a)) pre).
    { assert (X : firstn (length (f a)) (f a ++ flat_map f l) = firstn (length (f a)) (pre ++ x :: post)) by now rewrite E.
      rewrite firstn_app, firstn_all, Nat.sub_diag, firstn_O, app_nil_r in X.
      rewrite firstn_app in X. replace (length (f a) - length pre) with 0 in X by lia. rewrite firstn_O, app_nil_r in X.
      rewrite X at 1. now rewrite firstn_skipn. }
    rewrite P in E. rewrite <- app_assoc in E. apply app_inv_head in E. apply IHl in E.
    destruct E as (l1 & b & l2 & p1 & p2 & -> & E1 & E2 & E3). exists (a :: l1), b, l2, p1, p2.
    split; auto. split; auto. split; auto. simpl. rewrite <- app_assoc, <- E2. auto.
  - exists [], a, l, pre, (skipn (S (length pre)) (f a)). split; auto.
    assert (X : f a = pre ++ x :: skipn (S (length pre)) (f a)).
    { assert (N : nth_error (f a) (length pre) = Some x).
      { rewrite <- (nth_error_app1 (f a) (flat_map f l)) by auto. rewrite E. rewrite nth_error_app2, Nat.sub_diag by lia. auto. }
      rewrite (nth_error_split3 _ _ _ _ N) at 1. f_equal.
      assert (Y : firstn (length pre) (f a ++ flat_map f l) = firstn (length pre) (pre ++ x :: post)) by now rewrite E.
      rewrite firstn_app in Y. replace (length pre - length (f a)) with 0 in Y by lia. rewrite firstn_O, app_nil_r in Y.
      rewrite firstn_app, firstn_all, Nat.sub_diag, firstn_O, app_nil_r in Y. auto. }
    split; auto. split; auto.
    rewrite X in E at 1. rewrite <- app_assoc in E. apply app_inv_head in E. simpl in E. now inversion E.
Qed.

Section Rooted.
Variables (V : nat) (es : list edge) (r : nat) (par dep : nat -> nat).
Hypothesis RT : rooted V es r par dep.
Variable nbr : nat -> list nat.
Hypothesis NBS : forall v, ssorted (nbr v).
Hypothesis NBA : forall v w, In w (nbr v) <-> adj es v w.

Definition ch (v : nat) : list nat := filter (fun c => negb (c =? r) && (par c =? v)) (nbr v).

Lemma filter_ssorted : forall f l, ssorted l -> ssorted (filter f l).
Proof.
  intros f l S. induction S; simpl; [constructor|]. destruct (f a); auto. constructor; auto.
  rewrite Forall_forall in *. intros x Hx. apply filter_In in Hx. apply H, Hx.
Qed.

Lemma ch_In : forall v c, v < V -> (In c (ch v) <-> c < V /\ c <> r /\ par c = v).
Proof.
  intros v c Hv. unfold ch. rewrite filter_In, NBA, andb_true_iff, negb_true_iff, Nat.eqb_neq, Nat.eqb_eq.
  rewrite (rt_adj _ _ _ _ _ RT). intuition.
Qed.

Lemma ch_NoDup : forall v, v < V -> NoDup (ch v).
Proof. intros. apply ssorted_NoDup. apply filter_ssorted. apply NBS. Qed.

Notation ok := (rose_ok V ch).

(** every line other than the first has its parent as the nearest earlier
    line of the level above *)
Lemma outline_reads : forall t, ok t -> forall d pre dx x post, outline d t = pre ++ (dx, x) :: post -> pre <> [] ->
  exists pre1 d' mid, pre = pre1 ++ (d', par x) :: mid /\ dx = S d' /\ forall l, In l mid -> S d' <= fst l.
Proof.
  induction t using rose_ind'. intros O d pre dx x post E NE. simpl in E.
  destruct pre as [|p0 pre]; [congruence|]. inversion E; subst p0. clear E NE. rename H2 into E.
  apply flat_map_split in E. destruct E as (l1 & c & l2 & p1 & p2 & EC & E1 & E2 & E3).
  assert (Ic : In c cs) by (rewrite EC, in_app_iff; simpl; auto).
  assert (Oc : ok c) by (inversion O; auto).
  destruct p1 as [|q p1].
  - destruct c as [u us]. simpl in E1. inversion E1; subst. exists [], d, (flat_map (outline (S d)) l1 ++ []).
    split.
    + simpl. pose proof (rose_kid V r par ch ch_In v (l1 ++ Node x us :: l2) (Node x us) O Ic) as (_ & _ & P).
      simpl in P. now rewrite P.
    + split; auto. intros l I. rewrite app_nil_r in I. apply in_flat_map in I. destruct I as (k & _ & I). now apply outline_ge in I.
  - destruct (H c Ic Oc (S d) (q :: p1) dx x p2 E1) as (pre1 & d' & mid & F1 & F2 & F3); [discriminate|].
    exists ((d, v) :: flat_map (outline (S d)) l1 ++ pre1), d', mid. split; auto.
    rewrite E2, F1. simpl. now rewrite <- app_assoc.
Qed.

(** ** The loop *)

Lemma loop_rose : forall t, ok t -> forall below seen lines fuel,
  In (label t) seen -> (forall u, In u (flatten t) -> u <> label t -> ~ In u seen) ->
  (label t <> r -> In (par (label t)) seen) ->
  exists seen', (forall u, In u seen' <-> In u seen \/ In u (flatten t)) /\
    print_loop (2 * size t - 1 + fuel) nbr (label t :: below) seen lines =
    print_loop fuel nbr below seen' (lines ++ rev (outline (length below) t)).
Proof.
  induction t using rose_ind'. intros O below seen0 lines0 fuel0 IL0 UN0 PS0. pose proof O as O'.
  inversion O as [v' cs' Hv EC OC]; subst v' cs'. simpl label in *.
  assert (G : forall rem done, cs = rem ++ done -> forall seen lines,
    In v seen -> (v <> r -> In (par v) seen) -> (forall c, In c done -> In (label c) seen) ->
    (forall u, In u (flat_map flatten rem) -> ~ In u seen) ->
    exists seen', (forall u, In u seen' <-> In u seen \/ In u (v :: flat_map flatten rem)) /\
      print_loop (2 * list_sum (map size rem) + 1 + fuel0) nbr (v :: below) seen lines =
      print_loop fuel0 nbr below seen' (lines ++ rev ((length below, v) :: flat_map (outline (S (length below))) rem))).
  { induction rem as [|c rem IH] using rev_ind; intros done E seen lines IV PS DS UN.
    - simpl list_sum. simpl (2 * 0 + 1 + fuel0). cbn [print_loop].
      assert (F : filter (fun n => negb (set_mem n seen)) (rev (nbr v)) = []).
      { destruct (filter _ _) as [|n l] eqn:F; auto. exfalso.
        assert (I : In n (filter (fun n => negb (set_mem n seen)) (rev (nbr v)))) by (rewrite F; now left).
        apply filter_In in I. destruct I as [I U]. rewrite <- in_rev in I. apply NBA in I.
        apply negb_true_iff in U. rewrite <- not_true_iff_false, set_mem_In in U. apply U.
        apply (rt_adj _ _ _ _ _ RT) in I. destruct I as (_ & Hn & [[N P]|[N P]]).
        - subst n. auto.
        - assert (J : In n (ch v)) by (apply ch_In; auto). rewrite <- EC, E in J. simpl in J.
          apply in_map_iff in J. destruct J as (k & <- & K). auto. }
      rewrite F. exists seen. split; auto. intros u. simpl. intuition congruence.
    - assert (Ic : In c cs) by (rewrite E, !in_app_iff; simpl; auto).
      pose proof (OC c Ic) as Oc. pose proof (rose_kid V r par ch ch_In v cs c O' Ic) as (Hc & Nc & Pc).
      assert (NDf : NoDup (flat_map flatten (rem ++ [c]))).
      { pose proof (rose_NoDup V es r par dep RT ch ch_In ch_NoDup _ O') as ND. simpl in ND. inversion ND; subst.
        rewrite flat_map_app in H3. apply NoDup_app_inv in H3. tauto. }
      rewrite flat_map_app in NDf, UN. simpl in NDf, UN. rewrite app_nil_r in NDf, UN.
      rewrite map_app, list_sum_app. simpl list_sum.
      replace (2 * (list_sum (map size rem) + (size c + 0)) + 1 + fuel0)
        with (S (2 * size c - 1 + (2 * list_sum (map size rem) + 1 + fuel0))) by (destruct c; simpl; lia).
      cbn [print_loop].
      assert (F : filter (fun n => negb (set_mem n seen)) (rev (nbr v)) = rev (map label (rem ++ [c]))).
      { assert (FR : forall f (l : list nat), filter f (rev l) = rev (filter f l)).
        { clear. induction l; simpl; auto. rewrite filter_app, IHl. simpl. destruct (f a); simpl; auto. now rewrite app_nil_r. }
        rewrite FR. f_equal. apply ssorted_ext.
        - apply filter_ssorted, NBS.
        - assert (SS : ssorted (map label cs)) by (rewrite EC; apply filter_ssorted, NBS).
          rewrite E, map_app in SS. clear - SS. revert SS. generalize (map label (rem ++ [c])). intros l.
          induction l; simpl; intros; [constructor|]. inversion SS; subst. constructor; [apply IHl; auto|].
          apply Forall_app in H2. tauto.
        - intros n. rewrite filter_In, NBA, negb_true_iff, <- not_true_iff_false, set_mem_In. split.
          + intros [A U]. apply (rt_adj _ _ _ _ _ RT) in A. destruct A as (_ & Hn & [[N P]|[N P]]).
            * subst n. exfalso. auto.
            * assert (J : In n (ch v)) by (apply ch_In; auto). rewrite <- EC, E, map_app in J.
              apply in_app_or in J. destruct J as [J|J]; auto. exfalso. apply in_map_iff in J. destruct J as (k & <- & K). auto.
          + intros I. apply in_map_iff in I. destruct I as (k & <- & K).
            assert (Ik : In k cs) by (rewrite E, in_app_iff; auto).
            pose proof (rose_kid V r par ch ch_In v cs k O' Ik) as (Hk & Nk & Pk). split.
            * apply (rt_adj _ _ _ _ _ RT). auto.
            * apply UN. apply in_app_or in K. apply in_or_app. destruct K as [K|[->|[]]]; [left|right; apply label_flatten].
              apply in_flat_map. exists k. split; auto. apply label_flatten. }
      rewrite F, map_app, rev_app_distr. cbn [rev map app].
      destruct (H c Ic Oc (v :: below) (label c :: seen) lines (2 * list_sum (map size rem) + 1 + fuel0)) as (seen1 & S1 & E1).
      + now left.
      + intros u Iu Nu [X|X]; [congruence|]. apply (UN u); auto. apply in_or_app; auto.
      + intros _. right. now rewrite Pc.
      + rewrite E1. destruct (IH (c :: done)) with (seen := seen1) (lines := lines ++ rev (outline (length (v :: below)) c))
          as (seen2 & S2 & E2).
        * rewrite E, <- app_assoc. reflexivity.
        * apply S1. left. now right.
        * intros N. apply S1. left. right. auto.
        * intros k [<-|K]; apply S1; [left; now left|left; right; auto].
        * intros u Iu Hu. apply S1 in Hu. destruct Hu as [[X|X]|X].
          -- subst u. apply NoDup_app_inv in NDf. destruct NDf as (_ & _ & D). apply (D (label c)); auto. apply label_flatten.
          -- apply (UN u); auto. apply in_or_app; auto.
          -- apply NoDup_app_inv in NDf. destruct NDf as (_ & _ & D). apply (D u); auto.
        * exists seen2. split.
          -- intros u. rewrite S2, S1. rewrite flat_map_app. simpl. rewrite app_nil_r, in_app_iff.
             pose proof (label_flatten c) as LF. clear - LF. split; [intuition subst; auto|intuition].
          -- rewrite E2. f_equal. rewrite <- app_assoc. f_equal. simpl. rewrite flat_map_app. simpl.
             rewrite app_nil_r, rev_app_distr, app_assoc. reflexivity. }
  destruct (G cs [] ltac:(now rewrite app_nil_r)) with (seen := seen0) (lines := lines0) as (seen' & S' & E').
  - auto.
  - auto.
  - intros c [].
  - intros u Iu. apply UN0. simpl; auto. intros ->.
    pose proof (rose_NoDup V es r par dep RT ch ch_In ch_NoDup _ O') as ND. simpl in ND. inversion ND; subst. auto.
  - exists seen'. split; [exact S'|]. simpl size. replace (2 * S (list_sum (map size cs)) - 1 + fuel0) with
      (2 * list_sum (map size cs) + 1 + fuel0) by lia. exact E'.
Qed.

Lemma print_loop_Ok : exists t, ok t /\ label t = r /\
  print_loop (2 * V + 1) nbr [r] [r] [] = Ok (rev (outline 0 t)).
Proof.
  destruct (rose_exists V es r par dep RT ch ch_In r) as (t & O & L). { apply (rt_root _ _ _ _ _ RT). }
  exists t. split; auto. split; auto.
  pose proof (rose_size V es r par dep RT ch ch_In ch_NoDup t O L) as SZ.
  destruct (loop_rose t O [] [r] [] 2) as (seen' & S' & E').
  - rewrite L. now left.
  - intros u _ N [X|[]]. congruence.
  - congruence.
  - replace (2 * V + 1) with (2 * size t - 1 + 2) by (rewrite SZ; pose proof (rt_root _ _ _ _ _ RT); lia).
    rewrite <- L at 1. rewrite E'. reflexivity.
Qed.
End Rooted.

Lemma dd_sorted : forall es v, ssorted (dd_neighbors es v).
Proof.
  induction es as [|[a b]]; intros; simpl; [constructor|]. destruct (v =? b), (v =? a); repeat apply set_add_sorted; auto.
Qed.

Lemma dd_adj : forall es v w, In w (dd_neighbors es v) <-> adj es v w.
Proof.
  induction es as [|[a b] es IH]; intros; simpl.
  - unfold adj; simpl; tauto.
  - rewrite adj_cons_iff. destruct (Nat.eqb_spec v b), (Nat.eqb_spec v a); rewrite ?set_add_In, IH; intuition congruence.
Qed.

Lemma str_index_spec : forall l s, (exists i, str_index l s = Ok i /\ nth_error l i = Some s /\
    forall j, j < i -> nth_error l j <> Some s) \/ (str_index l s = Raise ValueError /\ ~ In s l).
Proof.
  induction l; intros; simpl; auto. destruct (String.eqb_spec a s).
  - subst. left. exists 0. split; auto. split; auto. intros; lia.
  - destruct (IHl s) as [(i & E & N & F)|[E N]]; rewrite E; simpl.
    + left. exists (S i). split; auto. split; auto. intros [|j] Hj; simpl; [congruence|]. apply F. lia.
    + right. split; auto. intros [X|X]; auto.
Qed.

Lemma existsb_In : forall s l, existsb (String.eqb s) l = true <-> In s l.
Proof.
  intros. rewrite existsb_exists. split.
  - intros (x & I & E). apply String.eqb_eq in E. now subst.
  - intros. exists s. split; auto. apply String.eqb_refl.
Qed.

Lemma map_nth_lines : forall (names : list string) (lines : list (nat * nat)), (forall d v, In (d, v) lines -> v < length names) ->
  mapM (fun '(d, v) => bind (get IndexError names v) (fun n => Ok (d, n))) lines =
  Ok (map (fun '(d, v) => (d, nth v names EmptyString)) lines).
Proof.
  induction lines as [|[d v] lines IH]; intros; simpl; auto. rewrite (get_Ok _ _ _ _ EmptyString).
  - simpl. rewrite IH. reflexivity. intros. eapply H. right; eauto.
  - eapply H. left; eauto.
Qed.

Lemma flat_map_root : forall A B (f : A -> list B) l1 l2, flat_map f (l1 ++ l2) = flat_map f l1 ++ flat_map f l2.
Proof. intros. apply flat_map_app. Qed.

(** [print_tree_lines] in terms of an outline of vertices. *)
Lemma print_tree_lines_Ok : forall V edges names root r,
  spanning_tree V edges -> length names = V -> r < V ->
  str_index names root = Ok r ->
  forall root', (root' = Some root \/ (root' = None /\ exists c, find_center_of_tree (make_tree edges) = Ok c /\ nth_error names c = Some root)) ->
  exists lines : list (nat * nat),
    print_tree_lines edges names root' = Ok (map (fun '(d, v) => (d, nth v names EmptyString)) lines) /\
    Permutation (map snd lines) (seq 0 V) /\
    (exists rest, lines = (0, r) :: rest /\ forall l, In l rest -> 0 < fst l) /\
    (forall x, x < V -> x <> r -> exists p, outline_parent lines x p) /\
    (forall x p, outline_parent lines x p -> adj edges x p) /\
    (forall x y, adj edges x y -> outline_parent lines x y \/ outline_parent lines y x).
Proof.
  intros V edges names root r T LN Hr SI root' RO.
  destruct (tree_rooted V edges r T Hr) as (par & dep & RT).
  destruct (print_loop_Ok V edges r par dep RT (dd_neighbors edges) (dd_sorted edges) (dd_adj edges)) as (t & O & L & E).
  exists (outline 0 t).
  pose proof (rose_root_perm V edges r par dep RT _ (ch_In V edges r par dep RT _ (dd_adj edges))
    (ch_NoDup V r par _ (dd_sorted edges)) t O L) as PM.
  assert (SN : map snd (outline 0 t) = flatten t) by apply outline_snd.
  assert (RD := outline_reads V edges r par dep RT _ (dd_adj edges) t O 0).
  assert (HD : exists rest, outline 0 t = (0, r) :: rest /\ forall l, In l rest -> 0 < fst l).
  { destruct t as [v cs]. simpl in L. subst v. simpl. eexists. split; [reflexivity|].
    intros l I. apply in_flat_map in I. destruct I as (c & _ & I). apply outline_ge in I. lia. }
  assert (PAR : forall x p, outline_parent (outline 0 t) x p -> x < V /\ x <> r /\ p = par x).
  { intros x p (pre & d & mid & post & EQ & MID).
    assert (EQ2 : outline 0 t = (pre ++ (d, p) :: mid) ++ (S d, x) :: post) by (rewrite EQ, <- app_assoc; auto).
    destruct (RD _ _ _ _ EQ2) as (pre1 & d' & mid' & F1 & F2 & F3). { destruct pre; discriminate. }
    inversion F2; subst d'.
    assert (P : p = par x).
    { assert (X : forall (a1 a2 b1 b2 : list (nat * nat)) x1 x2, a1 ++ x1 :: b1 = a2 ++ x2 :: b2 ->
        fst x1 = d -> fst x2 = d -> (forall l, In l b1 -> fst l <> d) -> (forall l, In l b2 -> fst l <> d) -> x1 = x2).
      { clear. induction a1; destruct a2; simpl; intros b1 b2 x1 x2 E H1 H2 N1 N2; inversion E; subst; auto.
        - exfalso. apply (N1 x2). rewrite in_app_iff; simpl; auto. auto.
        - exfalso. apply (N2 x1). rewrite in_app_iff; simpl; auto. auto.
        - eapply IHa1; eauto. }
      assert (Y : (d, p) = (d, par x)).
      { eapply X; [exact F1| | | |]; auto. intros l I. apply F3 in I. lia. }
      now inversion Y. }
    assert (Ix : In x (flatten t)). { rewrite <- SN, EQ2, map_app, in_app_iff. simpl. auto. }
    assert (Hx : x < V). { apply (Permutation_in _ PM) in Ix. apply in_seq in Ix. lia. }
    split; auto. split; auto. intros ->. destruct HD as (rest & EH & HR).
    assert (ND : NoDup (map snd (outline 0 t))). { rewrite SN. eapply Permutation_NoDup; [symmetry; exact PM|apply seq_NoDup]. }
    rewrite EQ2 in EH. destruct (pre ++ (d, p) :: mid) as [|q qs] eqn:EQS; [destruct pre; discriminate|].
    simpl in EH. inversion EH; subst. rewrite EQ2 in ND. simpl in ND. inversion ND; subst. apply H1.
    rewrite map_app, in_app_iff. simpl. auto. }
  assert (LN1 : length names = 1 + length edges) by (destruct T; lia).
  assert (RIN : In root names). { destruct (str_index_spec names root) as [(i & Ei & N & _)|[Ei _]]; [eapply nth_error_In; eauto|congruence]. }
  split; [|split; [|split; [|split; [|split]]]].
  - unfold print_tree_lines. rewrite LN1, Nat.eqb_refl. simpl assert_. cbn [bind].
    assert (EB : existsb (String.eqb root) names = true) by (now apply existsb_In).
    assert (GO : forall root0, root0 = root -> 
      bind (assert_ (existsb (String.eqb root0) names)) (fun _ => bind (str_index names root0) (fun r =>
        bind (print_loop (2 * length names + 1) (dd_neighbors edges) [r] [r] []) (fun lines =>
        bind (mapM (fun '(d, v) => bind (get IndexError names v) (fun n => Ok (d, n))) lines) (fun lines => Ok (rev lines)))))
      = Ok (map (fun '(d, v) => (d, nth v names EmptyString)) (outline 0 t))).
    { intros root0 ->. rewrite EB. cbn [bind assert_]. rewrite SI. cbn [bind]. rewrite LN, E. cbn [bind].
      rewrite map_nth_lines. cbn [bind]. now rewrite <- map_rev, rev_involutive.
      intros d v I. rewrite <- in_rev in I. apply (in_map snd) in I. simpl in I. rewrite SN in I.
      apply (Permutation_in _ PM) in I. apply in_seq in I. lia. }
    rewrite LN1 in GO. destruct RO as [->|[-> (c & EC & NC)]].
    + cbn [bind]. rewrite <- LN1 in *. now apply GO.
    + rewrite EC. cbn [bind]. unfold get at 1. rewrite NC. cbn [bind]. rewrite <- LN1 in *. now apply GO.
  - rewrite SN. exact PM.
  - exact HD.
  - intros x Hx Nx.
    assert (Ix : In x (map snd (outline 0 t))). { rewrite SN. apply (Permutation_in _ (Permutation_sym PM)). apply in_seq. lia. }
    apply in_map_iff in Ix. destruct Ix as ([dx x'] & EX & Ix). simpl in EX. subst x'.
    apply in_split in Ix. destruct Ix as (pre & post & EQ).
    destruct (RD _ _ _ _ EQ) as (pre1 & d' & mid & F1 & F2 & F3).
    { intros ->. destruct HD as (rest & EH & _). rewrite EQ in EH. simpl in EH. inversion EH; congruence. }
    exists (par x), pre1, d', mid, post. split. subst dx. rewrite EQ, F1, <- app_assoc. reflexivity.
    intros l I. apply F3 in I. lia.
  - intros x p HP. apply PAR in HP. destruct HP as (Hx & Nx & ->). now apply (rt_par _ _ _ _ _ RT).
  - intros x y A. apply (rt_adj _ _ _ _ _ RT) in A.
    assert (HP : forall x, x < V -> x <> r -> outline_parent (outline 0 t) x (par x)).
    { clear x y A. intros x Hx Nx.
      assert (Ix : In x (map snd (outline 0 t))). { rewrite SN. apply (Permutation_in _ (Permutation_sym PM)). apply in_seq. lia. }
      apply in_map_iff in Ix. destruct Ix as ([dx x'] & EX & Ix). simpl in EX. subst x'.
      apply in_split in Ix. destruct Ix as (pre & post & EQ).
      destruct (RD _ _ _ _ EQ) as (pre1 & d' & mid & F1 & F2 & F3).
      { intros ->. destruct HD as (rest & EH & _). rewrite EQ in EH. simpl in EH. inversion EH; congruence. }
      exists pre1, d', mid, post. split. subst dx. rewrite EQ, F1, <- app_assoc. reflexivity.
      intros l I. apply F3 in I. lia. }
    destruct A as (Hx & Hy & [[N <-]|[N <-]]); auto.
Qed.

(** ** Reading the text back *)

Lemma text_lines_app : forall s t, no_newline s ->
  text_lines (s ++ newline ++ t)%string = s :: text_lines t.
Proof.
  induction s; intros t N; simpl.
  - reflexivity.
  - destruct N as [N1 N2]. apply Ascii.eqb_neq in N1. simpl in N1. rewrite N1.
    change (newline ++ t)%string with (String (ascii_of_nat 10) t) in IHs. 
    unfold newline. simpl. simpl in IHs. rewrite IHs; auto.
Qed.

Lemma text_lines_one : forall s, no_newline s -> text_lines s = [s].
Proof.
  induction s; intros N; simpl; auto. destruct N as [N1 N2]. apply Ascii.eqb_neq in N1. simpl in N1. rewrite N1.
  rewrite IHs; auto.
Qed.

Lemma text_lines_concat : forall ls, ls <> [] -> Forall no_newline ls -> text_lines (String.concat newline ls) = ls.
Proof.
  induction ls as [|a ls IH]; intros NE F; [congruence|]. inversion F; subst. destruct ls.
  - simpl. now apply text_lines_one.
  - change (String.concat newline (a :: s :: ls)) with (a ++ newline ++ String.concat newline (s :: ls))%string.
    rewrite text_lines_app by auto. rewrite IH; auto. discriminate.
Qed.

Lemma no_newline_indent : forall d n, no_newline n -> no_newline (indent d ++ n)%string.
Proof. induction d; simpl; auto. intros. split; [discriminate|]. split; [discriminate|]. auto. Qed.

Lemma read_indent_indent : forall d n, plain_name n -> read_indent (indent d ++ n)%string = (d, n).
Proof.
  induction d; intros n P; simpl.
  - destruct P as [_ P]. destruct n as [|a [|b n]]; auto; destruct a as [[] [] [] [] [] [] [] []]; auto;
      destruct b as [[] [] [] [] [] [] [] []]; auto; contradiction.
  - now rewrite IHd.
Qed.

Lemma print_tree_read : forall edges names root lines, 
  print_tree_lines edges names root = Ok lines -> lines <> [] -> Forall (fun l => plain_name (snd l)) lines ->
  exists text, print_tree edges names root = Ok text /\ map read_indent (text_lines text) = lines.
Proof.
  intros edges names root lines E NE F. unfold print_tree. rewrite E. cbn [bind]. eexists. split; [reflexivity|].
  rewrite text_lines_concat.
  - rewrite map_map. rewrite <- (map_id lines) at 2. apply map_ext_in. intros [d n] I. rewrite Forall_forall in F.
    apply F in I. now apply read_indent_indent.
  - destruct lines; [congruence|discriminate].
  - rewrite Forall_map. rewrite Forall_forall in *. intros [d n] I. apply F in I. destruct I. now apply no_newline_indent.
Qed.

Lemma C10_proof : forall V edges names root r,
  spanning_tree V edges -> length names = V -> (forall n, In n names -> plain_name n) ->
  match root with
  | Some name => nth_error names r = Some name /\ (forall j, j < r -> nth_error names j <> Some name)
  | None => NoDup names /\ find_center_of_tree (make_tree edges) = Ok r
  end ->
  exists text (lines : list (nat * nat)),
    print_tree edges names root = Ok text /\
    map read_indent (text_lines text) = map (fun '(d, v) => (d, nth v names EmptyString)) lines /\
    Permutation (map snd lines) (seq 0 V) /\
    (exists rest, lines = (0, r) :: rest /\ forall l, In l rest -> 0 < fst l) /\
    (forall x, x < V -> x <> r -> exists p, outline_parent lines x p) /\
    (forall x p, outline_parent lines x p -> adj edges x p) /\
    (forall x y, adj edges x y -> outline_parent lines x y \/ outline_parent lines y x).
Proof.
  intros V edges names root r T LN PN RO.
  assert (Q : exists name, r < V /\ str_index names name = Ok r /\
    (root = Some name \/ root = None /\ (exists c, find_center_of_tree (make_tree edges) = Ok c /\ nth_error names c = Some name))).
  { destruct root as [name|].
    - destruct RO as [N F]. exists name. split. { rewrite <- LN. apply nth_error_Some. congruence. }
      split; auto. destruct (str_index_spec names name) as [(i & E & Ni & Fi)|[_ X]].
      + rewrite E. f_equal. destruct (lt_eq_lt_dec i r) as [[L|]|L]; auto; exfalso; [apply (F i)|apply (Fi r)]; auto.
      + exfalso. apply X. eapply nth_error_In; eauto.
    - destruct RO as [ND C]. 
      destruct (find_center_Ok V edges T) as (c & C' & CC). rewrite C in C'. inversion C'; subst c. clear C'.
      assert (Hr : r < V) by (destruct CC; auto).
      destruct (nth_error names r) as [name|] eqn:E; [|apply nth_error_None in E; lia].
      exists name. split; auto. split; [|right; split; auto; exists r; auto].
      destruct (str_index_spec names name) as [(i & Ei & Ni & Fi)|[_ X]].
      + rewrite Ei. f_equal. rewrite NoDup_nth_error in ND. apply ND. apply nth_error_Some; congruence. congruence.
      + exfalso. apply X. eapply nth_error_In; eauto. }
  destruct Q as (name & Hr & SI & RO').
  destruct (print_tree_lines_Ok V edges names name r T LN Hr SI root RO') as (lines & E & PM & HD & HX & HP & HA).
  destruct (print_tree_read _ _ _ _ E) as (text & ET & RD).
  - destruct HD as (rest & -> & _). discriminate.
  - rewrite Forall_map, Forall_forall. intros [d v] I. apply PN. apply nth_In. rewrite LN.
    apply (in_map snd) in I. apply (Permutation_in _ PM) in I. apply in_seq in I. simpl in I. lia.
  - exists text, lines. repeat split; auto.
Qed.
