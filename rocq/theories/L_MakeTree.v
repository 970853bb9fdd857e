(** C02: canonical form of trees. *)
From Coq Require Import List Arith Lia Bool Permutation Sorted.
From Verif Require Import Base L_Base Spec_Graph L_Graph M_Structure.
Import ListNotations.

Lemma sort_pair_norm : forall e, sort_pair e = norm e.
Proof.
  intros [a b]. unfold sort_pair, norm; simpl. destruct (Nat.ltb_spec b a).
  - rewrite Nat.min_r, Nat.max_l by lia. reflexivity.
  - rewrite Nat.min_l, Nat.max_r by lia. reflexivity.
Qed.

Lemma pair_leb_le : forall p q, pair_leb p q = true <-> pair_le p q.
Proof.
  intros [a b] [c d]. unfold pair_leb, pair_le; simpl.
  rewrite orb_true_iff, andb_true_iff, Nat.ltb_lt, Nat.eqb_eq, Nat.leb_le. tauto.
Qed.

Lemma pair_le_total : forall p q, pair_le p q \/ pair_le q p.
Proof. intros [a b] [c d]. unfold pair_le; simpl. lia. Qed.
Lemma pair_le_trans : forall p q s, pair_le p q -> pair_le q s -> pair_le p s.
Proof. intros [a b] [c d] [e f]. unfold pair_le; simpl. lia. Qed.
Lemma pair_le_antisym : forall p q, pair_le p q -> pair_le q p -> p = q.
Proof. intros [a b] [c d]. unfold pair_le; simpl. intros. f_equal; lia. Qed.
Lemma pair_le_refl : forall p, pair_le p p.
Proof. intros [a b]. unfold pair_le; simpl. lia. Qed.

Lemma pair_insert_perm : forall p l, Permutation (pair_insert p l) (p :: l).
Proof.
  induction l; simpl; auto. destruct (pair_leb p a); auto.
  rewrite IHl. apply perm_swap.
Qed.

Lemma pair_sort_perm : forall l, Permutation (pair_sort l) l.
Proof. induction l; simpl; auto. rewrite pair_insert_perm. now constructor. Qed.

Lemma pair_insert_sorted : forall p l, StronglySorted pair_le l -> StronglySorted pair_le (pair_insert p l).
Proof.
  induction 1; simpl.
  - repeat constructor.
  - destruct (pair_leb p a) eqn:E.
    + apply pair_leb_le in E. constructor; [now constructor|].
      constructor; auto. eapply Forall_impl; [|eassumption]. intros. eapply pair_le_trans; eauto.
    + constructor; auto. rewrite pair_insert_perm. constructor; auto.
      destruct (pair_le_total p a); auto. apply pair_leb_le in H1. congruence.
Qed.

Lemma pair_sort_sorted : forall l, StronglySorted pair_le (pair_sort l).
Proof. induction l; simpl. constructor. now apply pair_insert_sorted. Qed.

Lemma sorted_perm_unique : forall l m, StronglySorted pair_le l -> StronglySorted pair_le m ->
  Permutation l m -> l = m.
Proof.
  induction l; intros.
  - apply Permutation_nil in H1. now subst.
  - destruct m. { symmetry in H1. apply Permutation_nil in H1. discriminate. }
    inversion H; inversion H0; subst. rewrite Forall_forall in *.
    assert (a = p).
    { assert (In a (p :: m)) by (rewrite <- H1; now left).
      assert (In p (a :: l)) by (rewrite H1; now left).
      destruct H2; [congruence|]. destruct H3; [congruence|].
      apply pair_le_antisym; auto. }
    subst. f_equal. apply IHl; auto. now apply Permutation_cons_inv in H1.
Qed.

Lemma number_from_edges : forall l e, map (fun '(_, v1, v2) => (v1, v2)) (number_from e l) = l.
Proof. induction l as [|[a b]]; simpl; intros; auto. now rewrite IHl. Qed.

Lemma number_from_length : forall l e, length (number_from e l) = length l.
Proof. induction l as [|[a b]]; simpl; intros; auto. Qed.

Lemma number_from_nth : forall l e i x a b, nth_error (number_from e l) i = Some (x, a, b) <->
  x = e + i /\ nth_error l i = Some (a, b).
Proof.
  induction l as [|[c d]]; simpl; intros.
  - destruct i; simpl; split; intros; try discriminate; destruct H; discriminate.
  - destruct i; simpl.
    + split; intros.
      * inversion H; subst. split; auto; lia.
      * destruct H as [-> H]. inversion H; subst. repeat f_equal; lia.
    + rewrite IHl. intuition lia.
Qed.

Lemma make_tree_length : forall es, length (make_tree es) = length es.
Proof.
  intros. unfold make_tree. rewrite number_from_length, (Permutation_length (pair_sort_perm _)).
  apply map_length.
Qed.

Lemma make_tree_edges : forall es, grid_edges (make_tree es) = pair_sort (map norm es).
Proof.
  intros. unfold grid_edges, make_tree. rewrite number_from_edges.
  f_equal. apply map_ext, sort_pair_norm.
Qed.

Lemma make_tree_perm : forall es, Permutation (grid_edges (make_tree es)) (map norm es).
Proof. intros. rewrite make_tree_edges. apply pair_sort_perm. Qed.

Lemma make_tree_nth : forall es i x a b, nth_error (make_tree es) i = Some (x, a, b) ->
  x = i /\ nth_error (pair_sort (map norm es)) i = Some (a, b).
Proof.
  intros. unfold make_tree in H. rewrite (map_ext _ _ sort_pair_norm) in H.
  apply number_from_nth in H. simpl in H. auto.
Qed.

Lemma norm_sorted : forall e, fst (norm e) <= snd (norm e).
Proof. intros [a b]; unfold norm; simpl. lia. Qed.

Lemma norm_same : forall e f, norm e = norm f <-> same_edge e f.
Proof.
  intros [a b] [c d]. unfold same_edge; simpl. split.
  - intros. apply norm_cases in H. destruct H as [[-> ->]|[-> ->]]; auto.
  - intros [H|[-> ->]]; [now rewrite H|]. unfold norm; simpl. f_equal; lia.
Qed.

Lemma norm_idem : forall e, norm (norm e) = norm e.
Proof. intros [a b]. unfold norm; simpl. f_equal; lia. Qed.

(** Spanning trees are invariant under permuting and reorienting edges. *)
Lemma adj_norm : forall es u v, adj (map norm es) u v <-> adj es u v.
Proof.
  unfold adj. intros. rewrite !in_map_iff. split.
  - intros [([a b] & E & I)|([a b] & E & I)]; unfold norm in E; simpl in E; inversion E; subst;
      destruct (Nat.le_gt_cases a b);
      [rewrite Nat.min_l, Nat.max_r by lia | rewrite Nat.min_r, Nat.max_l by lia
      |rewrite Nat.min_l, Nat.max_r by lia | rewrite Nat.min_r, Nat.max_l by lia]; auto.
  - destruct (Nat.le_gt_cases u v); intros [H0|H0]; [left|left|right|right];
      eexists; (split; [|exact H0]); unfold norm; simpl; f_equal; lia.
Qed.

Lemma adj_perm : forall es fs u v, Permutation es fs -> adj es u v -> adj fs u v.
Proof. unfold adj. intros. rewrite <- H. auto. Qed.

Lemma in_range_adj : forall V es, in_range V es <-> (forall u v, adj es u v -> u < V /\ v < V).
Proof.
  unfold in_range, adj. split; intros.
  - destruct H0 as [A|A]; apply H in A; tauto.
  - apply H. auto.
Qed.

Lemma spanning_tree_ext : forall V es fs, length es = length fs ->
  (forall u v, adj es u v <-> adj fs u v) -> spanning_tree V es -> spanning_tree V fs.
Proof.
  intros V es fs L A (H1 & H2 & H3). split; [congruence|]. split.
  - apply in_range_adj. intros u v H. apply A in H. rewrite in_range_adj in H2. now apply H2.
  - intros u v Hu Hv. eapply reach_incl; [|apply H3; auto]. intros. now apply A.
Qed.

Lemma spanning_tree_perm : forall V es fs, Permutation es fs -> spanning_tree V es -> spanning_tree V fs.
Proof.
  intros. eapply spanning_tree_ext; [| |eassumption].
  - now apply Permutation_length.
  - split; apply adj_perm; auto. now symmetry.
Qed.

Lemma spanning_tree_norm : forall V es, spanning_tree V (map norm es) <-> spanning_tree V es.
Proof.
  intros. split; apply spanning_tree_ext; try apply map_length; try (symmetry; apply map_length);
    intros; [|symmetry]; apply adj_norm.
Qed.

Lemma make_tree_spanning : forall V es, spanning_tree V es -> spanning_tree V (grid_edges (make_tree es)).
Proof.
  intros. eapply spanning_tree_perm; [symmetry; apply make_tree_perm|]. now apply spanning_tree_norm.
Qed.

Lemma triple_eqb_eq : forall a b, triple_eqb a b = true <-> a = b.
Proof.
  intros [[a b] c] [[d e] f]. unfold triple_eqb. rewrite !andb_true_iff, !Nat.eqb_eq.
  split. intros [[-> ->] ->]; auto. intros H; inversion H; auto.
Qed.

Lemma grid_eqb_eq : forall g h, grid_eqb g h = true <-> g = h.
Proof.
  induction g; destruct h; simpl; split; intros; try discriminate; auto.
  - apply andb_true_iff in H. destruct H. apply triple_eqb_eq in H. apply IHg in H0. now subst.
  - inversion H; subst. apply andb_true_iff. split. now apply triple_eqb_eq. now apply IHg.
Qed.

(** ** Multisets of undirected edges *)

Lemma Forall2_same_norm : forall es fs, Forall2 same_edge es fs -> map norm es = map norm fs.
Proof. induction 1; simpl; auto. f_equal; auto. now apply norm_same. Qed.

Lemma map_norm_Forall2 : forall es fs, map norm es = map norm fs -> Forall2 same_edge es fs.
Proof.
  induction es; destruct fs; simpl; intros; try discriminate; constructor.
  - inversion H. apply norm_same. unfold norm; simpl; congruence.
  - apply IHes. now inversion H.
Qed.

Lemma perm_norm_iff : forall es fs, Permutation (map norm es) (map norm fs) <->
  exists gs, Permutation es gs /\ Forall2 same_edge gs fs.
Proof.
  intros. split.
  - intros P. symmetry in P. apply Permutation_map_inv in P. destruct P as (gs & E & P).
    exists gs. split; auto. now apply map_norm_Forall2.
  - intros (gs & P & F). rewrite <- (Forall2_same_norm _ _ F). now apply Permutation_map.
Qed.

Lemma make_tree_eq_iff : forall es fs, make_tree es = make_tree fs <-> 
  exists gs, Permutation es gs /\ Forall2 same_edge gs fs.
Proof.
  intros. rewrite <- perm_norm_iff. split.
  - intros E. rewrite <- !make_tree_perm. now rewrite E.
  - intros P. unfold make_tree. f_equal. rewrite !(map_ext _ _ sort_pair_norm).
    apply sorted_perm_unique; try apply pair_sort_sorted.
    now rewrite !pair_sort_perm.
Qed.

Lemma make_tree_canonical : forall es,
  length (make_tree es) = length es /\
  (forall i x a b, nth_error (make_tree es) i = Some (x, a, b) -> x = i /\ a <= b) /\
  StronglySorted pair_le (map (fun '(_, a, b) => (a, b)) (make_tree es)) /\
  (exists gs, Permutation es gs /\ Forall2 same_edge gs (map (fun '(_, a, b) => (a, b)) (make_tree es))).
Proof.
  intros. split; [apply make_tree_length|]. split; [|split].
  - intros i x a b H. apply make_tree_nth in H. destruct H as [-> H]. split; auto.
    apply nth_error_In in H. apply (Permutation_in _ (pair_sort_perm _)) in H.
    apply in_map_iff in H. destruct H as (e & E & _). pose proof (norm_sorted e). rewrite E in H. auto.
  - change (StronglySorted pair_le (grid_edges (make_tree es))). rewrite make_tree_edges. apply pair_sort_sorted.
  - apply perm_norm_iff. change (map (fun '(_, a, b) => (a, b)) (make_tree es)) with (grid_edges (make_tree es)).
    rewrite make_tree_edges. assert (map norm (pair_sort (map norm es)) = pair_sort (map norm es)).
    { rewrite <- map_id. apply map_ext_in. intros e H. apply (Permutation_in _ (pair_sort_perm _)) in H.
      apply in_map_iff in H. destruct H as (f & <- & _). apply norm_idem. }
    rewrite H. symmetry. apply pair_sort_perm.
Qed.

Lemma ts_set_edges_spec : forall t es,
  (length es + 1 = ts_V t -> ts_set_edges t es = Ok (TS (ts_V t) (make_tree es))) /\
  (length es + 1 <> ts_V t -> ts_set_edges t es = Raise AssertionError).
Proof.
  intros. unfold ts_set_edges, assert_. destruct (Nat.eqb_spec (length es + 1) (ts_V t)); split; intros; auto; congruence.
Qed.

Lemma ts_eq_iff : forall t u, ts_eq t u = true <-> t = u.
Proof.
  intros [V g] [W h]. unfold ts_eq; simpl. rewrite andb_true_iff, Nat.eqb_eq, grid_eqb_eq.
  split; [intros [-> ->]|intros E; inversion E]; auto.
Qed.

Lemma path_spanning : forall V, 1 <= V -> spanning_tree V (map (fun v => (v, v + 1)) (seq 0 (V - 1))).
Proof.
  intros V HV. split; [|split].
  - rewrite map_length, seq_length. lia.
  - intros u v H. apply in_map_iff in H. destruct H as (x & E & H). inversion E; subst.
    apply in_seq in H. lia.
  - assert (forall v, v < V -> reach (map (fun v => (v, v + 1)) (seq 0 (V - 1))) 0 v).
    { induction v; intros. apply reach_refl. eapply reach_trans; [apply IHv; lia|].
      apply reach_adj. left. apply in_map_iff. exists v. split; [f_equal; lia|]. apply in_seq. lia. }
    intros u v Hu Hv. eapply reach_trans; [apply reach_sym|]; apply H; auto.
Qed.
