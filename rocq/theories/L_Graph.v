(** Graph theory: spanning trees have rooted presentations. *)
From Coq Require Import List Arith Lia Bool Permutation.
From Verif Require Import Base L_Base Spec_Graph.
Import ListNotations.

Lemma adj_sym : forall es u v, adj es u v -> adj es v u.
Proof. unfold adj; tauto. Qed.

Lemma adj_dec : forall es u v, {adj es u v} + {~ adj es u v}.
Proof.
  intros. unfold adj.
  assert (D : forall x y : edge, {x = y} + {x <> y}) by (repeat decide equality).
  destruct (in_dec D (u, v) es), (in_dec D (v, u) es); (left; tauto) || (right; tauto).
Qed.

Lemma walk_app : forall es u v w n m, walk es u v n -> walk es v w m -> walk es u w (n + m).
Proof. induction 1; simpl; intros; auto. econstructor; eauto. Qed.

Lemma walk_one : forall es u v, adj es u v -> walk es u v 1.
Proof. intros. econstructor; eauto. constructor. Qed.

Lemma walk_sym : forall es u v n, walk es u v n -> walk es v u n.
Proof.
  induction 1. constructor.
  replace (S n) with (n + 1) by lia. eapply walk_app; eauto.
  apply walk_one. now apply adj_sym.
Qed.

Lemma walk_incl : forall es es' u v n, (forall a b, adj es a b -> adj es' a b) ->
  walk es u v n -> walk es' u v n.
Proof. induction 2. constructor. econstructor; eauto. Qed.

Lemma walk_snoc_inv : forall es u w n, walk es u w (S n) -> exists v, walk es u v n /\ adj es v w.
Proof.
  intros. apply walk_sym in H. inversion H; subst.
  exists v. split. now apply walk_sym. now apply adj_sym.
Qed.

Lemma reach_refl : forall es v, reach es v v.
Proof. exists 0; constructor. Qed.
Lemma reach_sym : forall es u v, reach es u v -> reach es v u.
Proof. intros es u v [n H]. exists n. now apply walk_sym. Qed.
Lemma reach_trans : forall es u v w, reach es u v -> reach es v w -> reach es u w.
Proof. intros es u v w [n H] [m H']. exists (n + m). eapply walk_app; eauto. Qed.
Lemma reach_adj : forall es u v, adj es u v -> reach es u v.
Proof. intros. exists 1. now apply walk_one. Qed.
Lemma reach_incl : forall es es' u v, (forall a b, adj es a b -> adj es' a b) ->
  reach es u v -> reach es' u v.
Proof. intros es es' u v H [n W]. exists n. eapply walk_incl; eauto. Qed.

(** A set closed under adjacency contains everything reachable from it. *)
Lemma reach_closed : forall es (P : nat -> Prop) u v,
  (forall a b, P a -> adj es a b -> P b) -> P u -> reach es u v -> P v.
Proof. intros es P u v C Pu [n W]. induction W; auto. apply IHW. eauto. Qed.

(** ** Decidability of walks and existence of distances *)

Fixpoint walkb (es : list edge) (n u v : nat) : bool :=
  match n with
  | 0 => u =? v
  | S n => existsb (fun e => ((fst e =? u) && walkb es n (snd e) v)
                          || ((snd e =? u) && walkb es n (fst e) v)) es
  end.

Lemma walkb_walk : forall es n u v, walkb es n u v = true <-> walk es u v n.
Proof.
  induction n; simpl; intros.
  - rewrite Nat.eqb_eq. split; intros; subst. constructor. now inversion H.
  - rewrite existsb_exists. split.
    + intros ((a, b) & I & E). simpl in E. apply orb_true_iff in E.
      destruct E as [E|E]; apply andb_true_iff in E; destruct E as [E1 E2];
        apply Nat.eqb_eq in E1; subst; apply IHn in E2; econstructor; eauto; [left|right]; auto.
    + intros W. inversion W as [|? x ? ? A W' E1 E2 E3]; subst. apply IHn in W'. destruct A as [A|A].
      * exists (u, x). split; auto. simpl. rewrite Nat.eqb_refl, W'. auto.
      * exists (x, u). split; auto. simpl. rewrite Nat.eqb_refl, W'. simpl. apply orb_true_r.
Qed.

Lemma walk_dec : forall es u v n, {walk es u v n} + {~ walk es u v n}.
Proof.
  intros. destruct (walkb es n u v) eqn:E.
  - left. now apply walkb_walk.
  - right. intro. apply walkb_walk in H. congruence.
Qed.

Lemma dist_exists : forall es u v, reach es u v -> exists d, dist es u v d.
Proof.
  intros es u v [n W].
  assert (forall m, (exists d, d <= m /\ dist es u v d) \/ (forall k, k <= m -> ~ walk es u v k)).
  { induction m.
    - destruct (walk_dec es u v 0).
      + left. exists 0. split; auto. split; auto. intros; lia.
      + right. intros. assert (k = 0) by lia. now subst.
    - destruct IHm as [(d & L & D)|N].
      + left. exists d. split; auto.
      + destruct (walk_dec es u v (S m)).
        * left. exists (S m). split; auto. split; auto. intros.
          destruct (le_gt_dec n0 m); [exfalso; eapply N; eauto|lia].
        * right. intros. destruct (le_gt_dec k m); auto. assert (k = S m) by lia. now subst. }
  destruct (H n) as [(d & _ & D)|N]; eauto. exfalso. eapply N; eauto.
Qed.

Lemma dist_fun : forall es u v d d', dist es u v d -> dist es u v d' -> d = d'.
Proof. intros es u v d d' [W M] [W' M']. apply M in W'. apply M' in W. lia. Qed.

Lemma dist_sym : forall es u v d, dist es u v d -> dist es v u d.
Proof. intros es u v d [W M]. split. now apply walk_sym. intros. apply M. now apply walk_sym. Qed.

(** Finite choice. *)
Lemma fin_choice : forall (P : nat -> nat -> Prop) V, (forall v, v < V -> exists d, P v d) ->
  exists f, forall v, v < V -> P v (f v).
Proof.
  induction V; intros.
  - exists (fun _ => 0). intros; lia.
  - destruct IHV as [f F]. { intros; apply H; lia. }
    destruct (H V) as [d D]; [lia|].
    exists (fun v => if v =? V then d else f v). intros.
    destruct (Nat.eqb_spec v V); subst; auto. apply F. lia.
Qed.

(** ** Rooted presentations *)

Definition norm (e : edge) : edge := (Nat.min (fst e) (snd e), Nat.max (fst e) (snd e)).

Record rooted (V : nat) (es : list edge) (r : nat) (par dep : nat -> nat) : Prop := {
  rt_root : r < V;
  rt_dep : dep r = 0;
  rt_parr : par r = r;
  rt_par : forall v, v < V -> v <> r -> par v < V /\ dep v = S (dep (par v)) /\ adj es v (par v);
  rt_edge : forall u v, In (u, v) es -> (u <> r /\ par u = v) \/ (v <> r /\ par v = u);
  rt_range : in_range V es;
  rt_nodup : NoDup (map norm es);
  rt_len : S (length es) = V;
  rt_dist : forall v, v < V -> dist es r v (dep v)
}.

Section Conn.
Variables (V : nat) (es : list edge) (r : nat).
Hypothesis (CON : connected V es) (RNG : in_range V es) (RT : r < V).

Lemma conn_dep : exists dep, forall v, v < V -> dist es r v (dep v).
Proof.
  apply (fin_choice (fun v d => dist es r v d)). intros. apply dist_exists. now apply CON.
Qed.

Lemma adj_range : forall u v, adj es u v -> u < V /\ v < V.
Proof. intros u v [H|H]; apply RNG in H; tauto. Qed.

Lemma conn_par : forall dep, (forall v, v < V -> dist es r v (dep v)) ->
  exists par, par r = r /\ forall v, v < V -> v <> r -> par v < V /\ dep v = S (dep (par v)) /\ adj es v (par v).
Proof.
  intros dep D.
  destruct (fin_choice (fun v p => v <> r -> p < V /\ dep v = S (dep p) /\ adj es v p) V) as [f F].
  - intros v Hv. destruct (Nat.eq_dec v r) as [->|N]; [exists 0; tauto|].
    destruct (D v Hv) as [W M]. destruct (dep v) as [|d] eqn:E.
    + inversion W; subst; congruence.
    + apply walk_snoc_inv in W. destruct W as (p & W & A). exists p. intros _.
      pose proof (adj_range _ _ A) as [P _]. split; auto. split; [|now apply adj_sym].
      f_equal. destruct (D p P) as [W' M'].
      apply M' in W. assert (S d <= dep p + 1).
      { apply M. eapply walk_app; eauto. now apply walk_one. }
      lia.
  - exists (fun v => if v =? r then r else f v). rewrite Nat.eqb_refl. split; auto.
    intros v Hv N. destruct (Nat.eqb_spec v r); [congruence|]. auto.
Qed.

Definition nonroot := filter (fun v => negb (v =? r)) (seq 0 V).

Lemma nonroot_In : forall v, In v nonroot <-> v < V /\ v <> r.
Proof.
  clear. intros. unfold nonroot. rewrite filter_In, in_seq, negb_true_iff, Nat.eqb_neq. lia.
Qed.

Lemma nonroot_NoDup : NoDup nonroot.
Proof. apply NoDup_filter, seq_NoDup. Qed.

Lemma filter_negb_length : forall A (f : A -> bool) l,
  length (filter f l) + length (filter (fun x => negb (f x)) l) = length l.
Proof. induction l; simpl; auto. destruct (f a); simpl; lia. Qed.

Lemma filter_eq_one : forall l, NoDup l -> In r l -> length (filter (fun v => v =? r) l) = 1.
Proof.
  induction l; simpl; intros; [tauto|].
  inversion H; subst. destruct (Nat.eqb_spec a r).
  - subst. simpl. f_equal.
    destruct (filter (fun v => v =? r) l) eqn:E; auto.
    assert (In n (filter (fun v => v =? r) l)) by (rewrite E; now left).
    apply filter_In in H1. destruct H1. apply Nat.eqb_eq in H2. subst. tauto.
  - destruct H0; [congruence|]. auto.
Qed.

Lemma nonroot_length : S (length nonroot) = V.
Proof.
  unfold nonroot. pose proof (filter_negb_length _ (fun v => v =? r) (seq 0 V)).
  rewrite seq_length in H.
  rewrite filter_eq_one in H. lia. apply seq_NoDup. apply in_seq. lia.
Qed.

Lemma conn_idx : forall (par : nat -> nat), (forall v, v < V -> v <> r -> adj es v (par v)) ->
  exists idx, forall v, v < V -> v <> r ->
     nth_error es (idx v) = Some (v, par v) \/ nth_error es (idx v) = Some (par v, v).
Proof.
  intros par A.
  apply (fin_choice (fun v i => v <> r -> nth_error es i = Some (v, par v) \/ nth_error es i = Some (par v, v))).
  intros v Hv. destruct (Nat.eq_dec v r) as [->|N]; [exists 0; tauto|].
  destruct (A v Hv N) as [H|H]; apply In_nth_error in H; destruct H as [i H]; exists i; auto.
Qed.

Lemma conn_all : exists par dep idx,
  dep r = 0 /\ par r = r /\ (forall v, v < V -> dist es r v (dep v)) /\
  (forall v, v < V -> v <> r -> par v < V /\ dep v = S (dep (par v)) /\ adj es v (par v)) /\
  (forall v, v < V -> v <> r ->
     nth_error es (idx v) = Some (v, par v) \/ nth_error es (idx v) = Some (par v, v)) /\
  NoDup (map idx nonroot) /\ (forall i, In i (map idx nonroot) -> i < length es).
Proof.
  destruct conn_dep as [dep D]. destruct (conn_par dep D) as (par & P0 & P).
  destruct (conn_idx par) as [idx I]. { intros; now apply P. }
  exists par, dep, idx. split; [|split; [|split; [|split; [|split; [|split]]]]]; auto.
  - destruct (D r RT) as [_ M]. specialize (M 0 (walk_nil _ _)). lia.
  - apply NoDup_map_inj; [|apply nonroot_NoDup].
    intros x y Hx Hy E. apply nonroot_In in Hx, Hy.
    destruct Hx as [X1 X2], Hy as [Y1 Y2].
    destruct (P x X1 X2) as (_ & Dx & _), (P y Y1 Y2) as (_ & Dy & _).
    destruct (I x X1 X2) as [Ix|Ix], (I y Y1 Y2) as [Iy|Iy]; rewrite E, Iy in Ix; injection Ix; intros Q1 Q2; auto;
      exfalso; assert (Z1 : par x = y) by congruence; assert (Z2 : par y = x) by congruence;
      rewrite Z1 in Dx; rewrite Z2 in Dy; lia.
  - intros i Hi. apply in_map_iff in Hi. destruct Hi as (v & <- & Hv). apply nonroot_In in Hv.
    destruct (I v) as [E|E]; try tauto; apply nth_error_Some; congruence.
Qed.

Lemma conn_bound : V <= S (length es).
Proof.
  destruct conn_all as (par & dep & idx & _ & _ & _ & _ & _ & ND & B).
  pose proof (NoDup_bounded_length _ _ ND B). rewrite map_length in H.
  pose proof nonroot_length. lia.
Qed.
End Conn.

Lemma connected_edges : forall V es, connected V es -> in_range V es -> V <= S (length es).
Proof.
  intros. destruct V; [lia|]. apply (conn_bound (S V) es 0); auto. lia.
Qed.

Lemma norm_cases : forall a b c d, norm (a, b) = norm (c, d) -> (a = c /\ b = d) \/ (a = d /\ b = c).
Proof. unfold norm; simpl; intros. inversion H. lia. Qed.

Lemma tree_rooted : forall V es r, spanning_tree V es -> r < V -> exists par dep, rooted V es r par dep.
Proof.
  intros V es r (LEN & RNG & CON) RT.
  destruct (conn_all V es r CON RNG RT) as (par & dep & idx & D0 & P0 & D & P & I & ND & B).
  assert (ALL : forall i, i < length es -> exists v, v < V /\ v <> r /\ idx v = i).
  { intros i Hi. assert (In i (map idx (nonroot V r))).
    { eapply NoDup_full; eauto. rewrite map_length. pose proof (nonroot_length V r RT). lia. }
    apply in_map_iff in H. destruct H as (v & E & Hv). apply nonroot_In in Hv. exists v; tauto. }
  exists par, dep. constructor; auto.
  - intros u v H. apply In_nth_error in H. destruct H as [i H].
    destruct (ALL i) as (x & X1 & X2 & E). { apply nth_error_Some. intro Z. rewrite Z in H. discriminate. }
    subst i. destruct (I x X1 X2) as [J|J]; rewrite J in H; inversion H; subst; auto.
  - apply NoDup_nth_error. intros i j Hi E. rewrite map_length in Hi.
    destruct (ALL i Hi) as (x & X1 & X2 & <-).
    assert (Hj : j < length es).
    { rewrite <- (map_length norm). apply nth_error_Some. rewrite <- E. apply nth_error_Some. now rewrite map_length. }
    destruct (ALL j Hj) as (y & Y1 & Y2 & <-).
    rewrite !nth_error_map in E.
    destruct (P x X1 X2) as (_ & Dx & _), (P y Y1 Y2) as (_ & Dy & _).
    f_equal.
    destruct (I x X1 X2) as [Jx|Jx], (I y Y1 Y2) as [Jy|Jy]; rewrite Jx, Jy in E; simpl in E;
      assert (E' := f_equal (fun o => match o with Some z => z | None => (0, 0) end) E); cbv beta iota in E';
      apply norm_cases in E'; destruct E' as [[A1 A2]|[A1 A2]]; auto;
      exfalso; assert (Z1 : par x = y) by congruence; assert (Z2 : par y = x) by congruence;
      rewrite Z1 in Dx; rewrite Z2 in Dy; lia.
Qed.
