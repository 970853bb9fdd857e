(** C01: the numbering of the edges of the complete graph. *)
From Coq Require Import List Arith Lia Bool.
From Verif Require Import Base L_Base M_Structure.
Import ListNotations.

(** Triangular numbers. *)
Definition tri (v : nat) : nat := v * (v - 1) / 2.

Lemma tri_S : forall v, tri (S v) = tri v + v.
Proof.
  intros. unfold tri. replace (S v * (S v - 1)) with (v * (v - 1) + v * 2).
  - rewrite Nat.div_add; lia.
  - destruct v; simpl; lia.
Qed.

Lemma tri_mono : forall a b, a <= b -> tri a <= tri b.
Proof. induction 1; auto. rewrite tri_S. lia. Qed.

Lemma fce_lt : forall a b, a < b -> find_complete_edge a b = a + tri b.
Proof.
  intros. unfold find_complete_edge. destruct (Nat.ltb_spec b a); [lia|]. reflexivity.
Qed.

Lemma fce_sym : forall a b, find_complete_edge a b = find_complete_edge b a.
Proof.
  intros. unfold find_complete_edge.
  destruct (Nat.ltb_spec b a), (Nat.ltb_spec a b); try reflexivity; try lia.
  replace b with a by lia. reflexivity.
Qed.

Lemma fce_range : forall V a b, a < V -> b < V -> a <> b -> find_complete_edge a b < tri V.
Proof.
  enough (forall V a b, b < V -> a < b -> find_complete_edge a b < tri V).
  { intros. destruct (lt_dec a b); auto. rewrite fce_sym. apply H; lia. }
  intros. rewrite fce_lt by auto.
  pose proof (tri_mono (S b) V H). rewrite tri_S in H1. lia.
Qed.

Lemma fce_inj_lt : forall a b c d, a < b -> c < d ->
  find_complete_edge a b = find_complete_edge c d -> a = c /\ b = d.
Proof.
  intros. rewrite !fce_lt in H1 by auto.
  assert (b = d).
  { destruct (lt_eq_lt_dec b d) as [[L|L]|L]; auto; exfalso.
    - pose proof (tri_mono (S b) d L). rewrite tri_S in H2. lia.
    - pose proof (tri_mono (S d) b L). rewrite tri_S in H2. lia. }
  subst. lia.
Qed.

Lemma pair_loop_S : forall V, pair_loop (S V) = pair_loop V ++ map (fun v1 => (v1, V)) (seq 0 V).
Proof.
  intros. unfold pair_loop. rewrite seq_S, flat_map_app. simpl. now rewrite app_nil_r.
Qed.

Lemma pair_loop_length : forall V, length (pair_loop V) = tri V.
Proof.
  induction V; [reflexivity|].
  rewrite pair_loop_S, app_length, map_length, seq_length, IHV, tri_S. reflexivity.
Qed.

Lemma pair_loop_In : forall V a b, In (a, b) (pair_loop V) <-> a < b /\ b < V.
Proof.
  intros. unfold pair_loop. rewrite in_flat_map. split.
  - intros (v & Hv & H). apply in_map_iff in H. destruct H as (u & E & Hu). inversion E; subst.
    apply in_seq in Hv, Hu. lia.
  - intros [H1 H2]. exists b. split; [apply in_seq; lia|]. apply in_map_iff. exists a.
    split; auto. apply in_seq. lia.
Qed.

Lemma nth_error_pair_loop : forall V k a b, nth_error (pair_loop V) k = Some (a, b) ->
  a < b /\ b < V /\ find_complete_edge a b = k.
Proof.
  induction V; intros.
  - destruct k; discriminate.
  - rewrite pair_loop_S in H. destruct (lt_dec k (tri V)).
    + rewrite nth_error_app1 in H by (now rewrite pair_loop_length).
      apply IHV in H. lia.
    + rewrite nth_error_app2 in H by (rewrite pair_loop_length; lia).
      rewrite pair_loop_length in H.
      assert (k - tri V < V).
      { pose proof (nth_error_Some (map (fun v1 => (v1, V)) (seq 0 V)) (k - tri V)).
        rewrite map_length, seq_length in H0. apply H0. congruence. }
      rewrite nth_error_map in H.
      rewrite (nth_error_nth' _ 0) in H by (now rewrite seq_length).
      rewrite seq_nth in H by auto. inversion H; subst.
      split; [lia|]. split; [lia|]. rewrite fce_lt; lia.
Qed.

Lemma nth_error_pair_loop_fce : forall V a b, a < b -> b < V ->
  nth_error (pair_loop V) (find_complete_edge a b) = Some (a, b).
Proof.
  intros. assert (L : find_complete_edge a b < length (pair_loop V)).
  { rewrite pair_loop_length. apply fce_range; lia. }
  destruct (nth_error (pair_loop V) (find_complete_edge a b)) as [[c d]|] eqn:E.
  - apply nth_error_pair_loop in E. destruct E as (X & Y & Z).
    apply fce_inj_lt in Z; auto. destruct Z; now subst.
  - apply nth_error_None in E. lia.
Qed.

Lemma pair_loop_NoDup : forall V, NoDup (pair_loop V).
Proof.
  intros. apply NoDup_nth_error. intros i j Hi E.
  destruct (nth_error (pair_loop V) i) as [[a b]|] eqn:Ei.
  - symmetry in E. apply nth_error_pair_loop in Ei, E. lia.
  - apply nth_error_None in Ei. lia.
Qed.

(** The grid the loop computes. *)
Definition complete_grid (V : nat) : list triple :=
  map (fun '(a, b) => (find_complete_edge a b, a, b)) (pair_loop V).

Lemma upd_app_at : forall A (l t : list A) h x, upd (l ++ h :: t) (length l) x = l ++ x :: t.
Proof. induction l; simpl; intros; auto. now rewrite IHl. Qed.

Lemma nth_error_ext : forall A (l m : list A), (forall i, nth_error l i = nth_error m i) -> l = m.
Proof.
  induction l; intros.
  - specialize (H 0). destruct m; auto. discriminate.
  - destruct m; [specialize (H 0); discriminate|].
    pose proof (H 0). simpl in H0. inversion H0; subst. f_equal.
    apply IHl. intros. apply (H (S i)).
Qed.

Lemma mcg_fold : forall pre post, 
  foldM (fun '(k, grid) '(v1, v2) =>
                   grid' <- put IndexError grid k (k, v1, v2) ;;
                   Ok (k + 1, grid'))
    post (length pre, pre ++ repeat (0, 0, 0) (length post)) =
  Ok (length pre + length post,
      pre ++ map (fun '(i, (a, b)) => (i, a, b)) (combine (seq (length pre) (length post)) post)).
Proof.
  intros pre post. revert pre. induction post as [|[a b] post]; intros; simpl.
  - now rewrite Nat.add_0_r.
  - rewrite put_Ok by (rewrite app_length; simpl; lia). simpl.
    rewrite upd_app_at. specialize (IHpost (pre ++ [(length pre, a, b)])).
    rewrite app_length in IHpost. simpl in IHpost. rewrite <- app_assoc in IHpost. simpl in IHpost.
    rewrite IHpost. f_equal. f_equal; [lia|]. rewrite <- app_assoc. simpl.
    replace (S (length pre)) with (length pre + 1) by lia. reflexivity.
Qed.

Lemma make_complete_graph_Ok : forall V, make_complete_graph V = Ok (complete_grid V).
Proof.
  intros. unfold make_complete_graph. fold (tri V). rewrite <- pair_loop_length.
  pose proof (mcg_fold [] (pair_loop V)) as H. simpl in H. rewrite H. simpl. f_equal.
  apply nth_error_ext. intros i. unfold complete_grid. rewrite !nth_error_map.
  destruct (nth_error (pair_loop V) i) as [[a b]|] eqn:E.
  - assert (i < length (pair_loop V)) by (apply nth_error_Some; congruence).
    assert (nth_error (combine (seq 0 (length (pair_loop V))) (pair_loop V)) i = Some (i, (a, b))).
    { rewrite (nth_error_nth' _ (0, (0, 0))) by (rewrite combine_length, seq_length; lia).
      rewrite combine_nth by (now rewrite seq_length).
      rewrite seq_nth by auto. rewrite (nth_error_nth _ _ _ E). reflexivity. }
    rewrite H1. simpl. apply nth_error_pair_loop in E. destruct E as (_ & _ & E). now rewrite E.
  - apply nth_error_None in E.
    assert (nth_error (combine (seq 0 (length (pair_loop V))) (pair_loop V)) i = None).
    { apply nth_error_None. rewrite combine_length, seq_length. lia. }
    now rewrite H0.
Qed.

Lemma complete_grid_length : forall V, length (complete_grid V) = tri V.
Proof. intros. unfold complete_grid. now rewrite map_length, pair_loop_length. Qed.

Lemma complete_grid_nth : forall V k x a b, nth_error (complete_grid V) k = Some (x, a, b) ->
  x = k /\ a < b /\ b < V /\ find_complete_edge a b = k.
Proof.
  intros. unfold complete_grid in H. rewrite nth_error_map in H.
  destruct (nth_error (pair_loop V) k) as [[c d]|] eqn:E; inversion H; subst.
  apply nth_error_pair_loop in E. intuition.
Qed.

Lemma complete_grid_fce : forall V a b, a < b -> b < V ->
  nth_error (complete_grid V) (find_complete_edge a b) = Some (find_complete_edge a b, a, b).
Proof.
  intros. unfold complete_grid. rewrite nth_error_map, nth_error_pair_loop_fce; auto.
Qed.
