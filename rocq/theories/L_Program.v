(** Neighbor sets, breadth-first order and propagation programs. *)
From Coq Require Import List Arith Lia Bool Permutation Sorted.
From Verif Require Import Base L_Base Spec_Graph L_Graph M_Structure L_MakeTree.
Import ListNotations.

(** ** Neighbor sets *)

Definition nb_ok (V : nat) (es : list edge) (nb : list (list nat)) : Prop :=
  length nb = V /\
  forall v, ssorted (nth v nb []) /\ forall w, v < V -> (In w (nth v nb []) <-> adj es v w).

Lemma add_neighbor_Ok : forall nb v w, v < length nb ->
  add_neighbor nb v w = Ok (upd nb v (set_add w (nth v nb []))).
Proof. intros. unfold add_neighbor. rewrite (get_Ok _ _ _ _ []) by auto. simpl. now rewrite put_Ok. Qed.

Lemma nth_nil_sorted : forall V v, ssorted (nth v (repeat [] V) []).
Proof. intros. rewrite nth_repeat. constructor. Qed.

Lemma nth_upd_gen : forall A (l : list A) i j x d, nth j (upd l i x) d = if (i =? j) && (i <? length l) then x else nth j l d.
Proof.
  intros. destruct (Nat.ltb_spec i (length l)).
  - rewrite andb_true_r. now apply nth_upd.
  - rewrite andb_false_r. revert i j H. induction l; destruct i, j; simpl; intros; auto; try lia.
    apply IHl. lia.
Qed.

Lemma build_neighbors_ok : forall V es, in_range V es ->
  exists nb, build_neighbors V es = Ok nb /\ nb_ok V es nb.
Proof.
  intros V es R. unfold build_neighbors.
  apply (foldM_inv _ _ _ (fun pre nb => nb_ok V pre nb)).
  - split; [apply repeat_length|]. intros v. split; [apply nth_nil_sorted|].
    intros w Hv. rewrite nth_repeat. unfold adj. simpl. tauto.
  - intros pre [a b] nb [L H] I. apply R in I. destruct I as [Ia Ib].
    rewrite add_neighbor_Ok by lia. simpl.
    rewrite add_neighbor_Ok by (rewrite upd_length; lia).
    eexists. split; [reflexivity|]. split; [now rewrite !upd_length|].
    intros v. rewrite !nth_upd_gen, !upd_length.
    assert (Lb : (b <? length nb) = true) by (apply Nat.ltb_lt; lia).
    assert (La : (a <? length nb) = true) by (apply Nat.ltb_lt; lia).
    rewrite La, Lb, !andb_true_r.
    destruct (H a) as [Sa Ia'], (H b) as [Sb Ib'], (H v) as [Sv Iv].
    assert (AD : forall w, adj (pre ++ [(a, b)]) v w <-> adj pre v w \/ (v = a /\ w = b) \/ (v = b /\ w = a)).
    { intros. unfold adj. rewrite !in_app_iff. simpl. split.
      - intros [[|[E|[]]]|[|[E|[]]]]; auto; inversion E; auto.
      - intros [[|]|[[-> ->]|[-> ->]]]; auto. }
    destruct (Nat.eqb_spec b v), (Nat.eqb_spec a b); subst.
    + split. { now repeat apply set_add_sorted. }
      intros w Hw. rewrite !set_add_In, AD, (Ia' w Hw). intuition congruence.
    + split. { now repeat apply set_add_sorted. }
      intros w Hw. rewrite !set_add_In, AD, (Ib' w Hw). intuition congruence.
    + destruct (Nat.eqb_spec b v); [congruence|]. split; auto. intros w Hw. rewrite (Iv w Hw), AD. intuition congruence.
    + destruct (Nat.eqb_spec a v); subst.
      * split. { now apply set_add_sorted. }
        intros w Hw. rewrite set_add_In, AD, (Iv w Hw). intuition congruence.
      * split; auto. intros w Hw. rewrite (Iv w Hw), AD. intuition congruence.
Qed.

(** ** Consequences of a rooted presentation *)

Section Rooted.
Variables (V : nat) (es : list edge) (r : nat) (par dep : nat -> nat).
Hypothesis RT : rooted V es r par dep.

Lemma rt_adj : forall u v, adj es u v <->
  (u < V /\ v < V /\ ((u <> r /\ par u = v) \/ (v <> r /\ par v = u))).
Proof.
  intros. split.
  - intros A. assert (u < V /\ v < V).
    { destruct A as [A|A]; apply (rt_range _ _ _ _ _ RT) in A; tauto. }
    destruct A as [A|A]; apply (rt_edge _ _ _ _ _ RT) in A; intuition.
  - intros (Hu & Hv & [[N E]|[N E]]).
    + subst v. now apply (rt_par _ _ _ _ _ RT).
    + subst u. apply adj_sym. now apply (rt_par _ _ _ _ _ RT).
Qed.

Lemma par_lt : forall v, v < V -> par v < V.
Proof.
  intros. destruct (Nat.eq_dec v r) as [->|N].
  - now rewrite (rt_parr _ _ _ _ _ RT).
  - now apply (rt_par _ _ _ _ _ RT).
Qed.

Lemma par_dep : forall v, v < V -> v <> r -> dep v = S (dep (par v)).
Proof. intros. now apply (rt_par _ _ _ _ _ RT). Qed.

Lemma par_neq : forall v, v < V -> v <> r -> par v <> v.
Proof. intros v Hv N E. pose proof (par_dep v Hv N). rewrite E in H. lia. Qed.

(** Induction from the root downwards. *)
Lemma rooted_ind : forall P : nat -> Prop, P r ->
  (forall v, v < V -> v <> r -> P (par v) -> P v) -> forall v, v < V -> P v.
Proof.
  intros P P0 PS.
  assert (forall n v, dep v = n -> v < V -> P v).
  { induction n; intros.
    - destruct (Nat.eq_dec v r); [now subst|]. pose proof (par_dep v H0 n). lia.
    - destruct (Nat.eq_dec v r); [now subst|]. apply PS; auto. apply IHn.
      + pose proof (par_dep v H0 n0). lia.
      + now apply par_lt. }
  eauto.
Qed.

Definition popt (v : nat) : option nat := if v =? r then None else Some (par v).

Lemma children_spec : forall nb v, nb_ok V es nb -> v < V ->
  ssorted (children_of (nth v nb []) (popt v)) /\
  forall c, In c (children_of (nth v nb []) (popt v)) <-> c < V /\ c <> r /\ par c = v.
Proof.
  intros nb v [L H] Hv. destruct (H v) as [S I]. split.
  - unfold children_of. clear I. induction S; simpl; [constructor|].
    destruct (negb _); auto. constructor; auto.
    rewrite Forall_forall in *. intros x Hx. apply filter_In in Hx. apply H0, Hx.
  - intros c. unfold children_of. rewrite filter_In, I by auto. rewrite rt_adj.
    unfold popt, is_parent. destruct (Nat.eqb_spec v r).
    + subst. simpl. intuition.
    + rewrite negb_true_iff, Nat.eqb_neq. split.
      * intros [(_ & Hc & [[_ E]|[N E]]) D]; auto. congruence.
      * intros (Hc & N & E). split; [auto|]. intro. subst v.
        pose proof (par_dep (par c) Hv n). pose proof (par_dep c Hc N).
        rewrite <- H0 in H1. lia.
Qed.

(** ** Breadth-first search *)

Notation entry := (nat * option nat * list nat)%type.
Definition ev (x : entry) : nat := fst (fst x).

Definition good (x : entry) : Prop :=
  let '(v, p, cs) := x in
  v < V /\ p = popt v /\ ssorted cs /\ forall c, In c cs <-> c < V /\ c <> r /\ par c = v.

(** parents come before their children *)
Definition parents_first (l : list nat) : Prop :=
  forall pre v post, l = pre ++ v :: post -> v <> r -> In (par v) pre.

Record binv (D : list entry) (Q : list (nat * option nat)) : Prop := {
  bi_nodup : NoDup (map ev D ++ map fst Q);
  bi_good : Forall good D;
  bi_q : forall v p, In (v, p) Q -> v < V /\ p = popt v;
  bi_qpar : forall v, In v (map fst Q) -> v <> r -> In (par v) (map ev D);
  bi_dpar : parents_first (map ev D);
  bi_child : forall c, c < V -> c <> r -> In (par c) (map ev D) -> In c (map ev D ++ map fst Q);
  bi_root : In r (map ev D ++ map fst Q)
}.

Lemma parents_first_In : forall l v, parents_first l -> In v l -> v <> r -> In (par v) l.
Proof.
  intros. apply in_split in H0. destruct H0 as (pre & post & E).
  rewrite E. apply in_or_app. left. eapply H; eauto.
Qed.

Lemma parents_first_snoc : forall l v, parents_first l -> (v <> r -> In (par v) l) -> parents_first (l ++ [v]).
Proof.
  intros l v P H pre w post E N.
  destruct post as [|x post'] using rev_ind.
  - apply app_inj_tail in E. destruct E as [-> ->]. auto.
  - clear IHpost'. rewrite app_comm_cons, app_assoc in E. apply app_inj_tail in E. destruct E as [E _].
    eapply P; eauto.
Qed.

Lemma bfs_step : forall D v p Q cs, binv D ((v, p) :: Q) -> ssorted cs ->
  (forall c, In c cs <-> c < V /\ c <> r /\ par c = v) ->
  binv (D ++ [(v, p, cs)]) (Q ++ map (fun c => (c, Some v)) cs).
Proof.
  intros D v p Q cs B Scs Ics.
  assert (Hv : v < V /\ p = popt v) by (apply (bi_q _ _ B); now left).
  destruct Hv as [Hv Hp].
  pose proof (bi_nodup _ _ B) as ND. simpl in ND.
  assert (NDv : ~ In v (map ev D)).
  { intro. apply NoDup_remove_2 in ND. apply ND. apply in_or_app. auto. }
  assert (FC : map fst (map (fun c => (c, Some v)) cs) = cs) by (rewrite map_map; simpl; apply map_id).
  assert (FR : forall c, In c cs -> ~ In c (map ev D ++ v :: map fst Q)).
  { intros c Hc H. apply Ics in Hc. destruct Hc as (C1 & C2 & C3).
    apply in_app_or in H. destruct H as [H|[H|H]].
    - apply (parents_first_In _ _ (bi_dpar _ _ B)) in H; auto. rewrite C3 in H. auto.
    - subst c. apply (par_neq v); auto.
    - apply NDv. rewrite <- C3. apply (bi_qpar _ _ B); auto. now right. }
  constructor.
  - rewrite !map_app, FC. simpl. rewrite <- app_assoc. simpl.
    change (ev (v, p, cs)) with v.
    replace (map ev D ++ v :: map fst Q ++ cs) with ((map ev D ++ v :: map fst Q) ++ cs)
      by (rewrite <- app_assoc; reflexivity).
    assert (NC : NoDup cs) by now apply ssorted_NoDup.
    revert FR NC ND. clear. generalize (map ev D ++ v :: map fst Q). intros l FR NC ND.
    induction l; simpl; auto. inversion ND; subst. constructor.
    + intro H. apply in_app_or in H. destruct H; auto. apply (FR _ H). now left.
    + apply IHl; auto. intros c Hc H. apply (FR c Hc). now right.
  - apply Forall_app. split; [apply B|]. constructor; [|constructor]. repeat split; auto; apply Ics; auto.
  - intros w q H. apply in_app_or in H. destruct H as [H|H].
    + apply (bi_q _ _ B). now right.
    + apply in_map_iff in H. destruct H as (c & E & Hc). inversion E; subst.
      apply Ics in Hc. destruct Hc as (C1 & C2 & C3). split; auto. unfold popt.
      destruct (Nat.eqb_spec w r); congruence.
  - intros w H N. rewrite map_app, FC in H. rewrite map_app. apply in_or_app.
    apply in_app_or in H. destruct H as [H|H].
    + left. apply (bi_qpar _ _ B); auto. now right.
    + right. left. simpl. apply Ics in H. symmetry. apply H.
  - rewrite map_app. simpl. apply parents_first_snoc; [apply B|].
    intros N. apply (bi_qpar _ _ B); auto. now left.
  - intros c Hc N H. rewrite !map_app, FC. simpl. rewrite map_app in H. simpl in H.
    apply in_app_or in H. destruct H as [H|[H|[]]].
    + apply (bi_child _ _ B) in H; auto. simpl in H.
      apply in_app_or in H. rewrite !in_app_iff. change (ev (v, p, cs)) with v. simpl in *. tauto.
    + change (v = par c) in H. rewrite !in_app_iff. right. right. apply Ics. auto.
  - pose proof (bi_root _ _ B) as H. simpl in H. rewrite !map_app, FC. rewrite !in_app_iff in *.
    simpl in *. change (ev (v, p, cs)) with v. tauto.
Qed.

Lemma bfs_Ok : forall nb, nb_ok V es nb -> forall fuel D Q, binv D Q -> V < fuel + length D ->
  exists rest, bfs fuel nb Q = Ok rest /\ binv (D ++ rest) [].
Proof.
  intros nb NB. induction fuel; intros D Q B F.
  - exfalso. pose proof (bi_nodup _ _ B) as ND.
    assert (NoDup (map ev D)).
    { clear - ND. induction (map ev D); constructor; inversion ND; subst; auto.
      intro. apply H1. apply in_or_app. auto. }
    apply NoDup_bounded_length with (n := V) in H.
    + rewrite map_length in H. lia.
    + intros x Hx. apply in_map_iff in Hx. destruct Hx as ([[v p] cs] & E & Hx).
      pose proof (bi_good _ _ B) as G. rewrite Forall_forall in G. apply G in Hx. simpl in Hx. unfold ev in E; simpl in E.
      subst. tauto.
  - destruct Q as [|[v p] Q]; simpl.
    + exists []. rewrite app_nil_r. auto.
    + destruct (bi_q _ _ B v p) as [Hv Hp]; [now left|].
      rewrite (get_Ok _ _ _ _ []) by (destruct NB; lia). simpl.
      destruct (children_spec nb v NB Hv) as [Scs Ics]. rewrite <- Hp in Scs, Ics.
      destruct (IHfuel (D ++ [(v, p, children_of (nth v nb []) p)])
                  (Q ++ map (fun c => (c, Some v)) (children_of (nth v nb []) p))) as (rest & E & B').
      * now apply bfs_step.
      * rewrite app_length. simpl. lia.
      * rewrite E. simpl. eexists. split; [reflexivity|]. now rewrite <- app_assoc in B'.
Qed.

Record bfs_list (np : list entry) : Prop := {
  bl_perm : Permutation (map ev np) (seq 0 V);
  bl_good : Forall good np;
  bl_first : parents_first (map ev np)
}.

Lemma bfs_tree : forall nb, nb_ok V es nb ->
  exists np, bfs (V + 1) nb [(r, None)] = Ok np /\ bfs_list np.
Proof.
  intros nb NB. destruct (bfs_Ok nb NB (V + 1) [] [(r, None)]) as (np & E & B).
  - constructor; simpl.
    + repeat constructor. auto.
    + constructor.
    + intros v p [H|[]]. inversion H; subst. split; [apply RT|]. unfold popt. now rewrite Nat.eqb_refl.
    + intros v [H|[]]; congruence.
    + intros pre v post H. destruct pre; discriminate.
    + tauto.
    + auto.
  - simpl. lia.
  - exists np. split; auto. simpl in B. constructor; try apply B.
    pose proof (bi_nodup _ _ B) as ND. rewrite app_nil_r in ND.
    apply NoDup_Permutation; auto. apply seq_NoDup.
    intros x. rewrite in_seq. split.
    + intros Hx. apply in_map_iff in Hx. destruct Hx as ([[v p] cs] & Ex & Hx).
      pose proof (bi_good _ _ B) as G. rewrite Forall_forall in G. apply G in Hx. simpl in Hx.
      unfold ev in Ex; simpl in Ex. subst. lia.
    + intros [_ Hx]. simpl in Hx. revert x Hx. apply rooted_ind.
      * pose proof (bi_root _ _ B). rewrite app_nil_r in H. auto.
      * intros v Hv N H. pose proof (bi_child _ _ B v Hv N H). rewrite app_nil_r in H0. auto.
Qed.
End Rooted.

(** ** The edge dictionary *)

Lemma edge_dict_not : forall l e acc a b, ~ In (norm (a, b)) (map norm l) ->
  dict_get (edge_dict (number_from e l) acc) a b = dict_get acc a b.
Proof.
  induction l as [|[c d] l]; simpl; intros; auto.
  rewrite IHl by auto. simpl.
  destruct ((d =? a) && (c =? b)) eqn:E1.
  { exfalso. apply H. left. apply andb_true_iff in E1. destruct E1 as [E1 E2]. apply Nat.eqb_eq in E1, E2. subst.
    unfold norm; simpl. f_equal; lia. }
  destruct ((c =? a) && (d =? b)) eqn:E2; auto.
  exfalso. apply H. left. apply andb_true_iff in E2. destruct E2 as [E2 E3]. apply Nat.eqb_eq in E2, E3. now subst.
Qed.

Lemma edge_dict_get : forall l e acc i a b, NoDup (map norm l) ->
  nth_error l i = Some (a, b) \/ nth_error l i = Some (b, a) ->
  dict_get (edge_dict (number_from e l) acc) a b = Ok (e + i).
Proof.
  induction l as [|[c d] l]; intros.
  - destruct i; destruct H0; discriminate.
  - simpl in H. inversion H; subst. destruct i; simpl in H0.
    + simpl. rewrite edge_dict_not.
      * simpl. destruct H0 as [E|E]; inversion E; subst.
        -- rewrite !Nat.eqb_refl. simpl. destruct ((b =? a) && (a =? b)); f_equal; lia.
        -- rewrite !Nat.eqb_refl. simpl. f_equal; lia.
      * destruct H0 as [E|E]; inversion E; subst; auto.
        intro. apply H3. replace (norm (b, a)) with (norm (a, b)); auto. unfold norm; simpl; f_equal; lia.
    + simpl. rewrite (IHl (S e) _ i); auto. f_equal; lia.
Qed.

(** ** The program in structured form *)

Lemma mapM_Ok : forall A B (f : A -> result B) (g : A -> B) l, (forall x, In x l -> f x = Ok (g x)) ->
  mapM f l = Ok (map g l).
Proof.
  induction l; simpl; intros; auto. rewrite H by now left. simpl. rewrite IHl; auto.
Qed.

Section Program.
Variables (V : nat) (edges : list edge) (r : nat) (par dep : nat -> nat).
Let es := grid_edges (make_tree edges).
Hypothesis RT : rooted V es r par dep.

(** index of the tree edge between a vertex and its parent *)
Definition eidx (v : nat) : nat :=
  match dict_get (edge_dict (make_tree edges) []) v (par v) with Ok e => e | Raise _ => 0 end.

Lemma es_sorted : es = pair_sort (map norm edges).
Proof. apply make_tree_edges. Qed.

Lemma es_norm : map norm es = es.
Proof.
  rewrite es_sorted. rewrite <- map_id. apply map_ext_in. intros e H.
  apply (Permutation_in _ (pair_sort_perm _)) in H. apply in_map_iff in H.
  destruct H as (f & <- & _). apply norm_idem.
Qed.

Lemma es_number : make_tree edges = number_from 0 es.
Proof. unfold es. rewrite make_tree_edges. unfold make_tree. f_equal. f_equal. apply map_ext, sort_pair_norm. Qed.

Lemma dict_sym_idx : forall v, v < V -> v <> r ->
  exists e, nth_error es e = Some (norm (v, par v)) /\
    dict_get (edge_dict (make_tree edges) []) v (par v) = Ok e /\
    dict_get (edge_dict (make_tree edges) []) (par v) v = Ok e.
Proof.
  intros v Hv N. destruct (rt_par _ _ _ _ _ RT v Hv N) as (_ & _ & A).
  assert (In (norm (v, par v)) es).
  { rewrite <- es_norm. apply in_map_iff. destruct A as [A|A]; eexists; (split; [|exact A]); auto.
    unfold norm; simpl; f_equal; lia. }
  apply In_nth_error in H. destruct H as [e He]. exists e. split; auto.
  rewrite es_number.
  assert (NDE : NoDup (map norm es)) by apply RT.
  assert (C : nth_error es e = Some (v, par v) \/ nth_error es e = Some (par v, v)).
  { rewrite He. unfold norm; simpl. destruct (Nat.le_gt_cases v (par v)).
    - left. rewrite Nat.min_l, Nat.max_r by lia. auto.
    - right. rewrite Nat.min_r, Nat.max_l by lia. auto. }
  split; rewrite (edge_dict_get es 0 [] e); auto. tauto.
Qed.

Lemma eidx_spec : forall v, v < V -> v <> r ->
  nth_error es (eidx v) = Some (norm (v, par v)) /\
  dict_get (edge_dict (make_tree edges) []) v (par v) = Ok (eidx v) /\
  dict_get (edge_dict (make_tree edges) []) (par v) v = Ok (eidx v).
Proof.
  intros v Hv N. destruct (dict_sym_idx v Hv N) as (e & E1 & E2 & E3).
  unfold eidx. rewrite E2. auto.
Qed.

Lemma eidx_inj : forall u v, u < V -> u <> r -> v < V -> v <> r -> eidx u = eidx v -> u = v.
Proof.
  intros u v Hu Nu Hv Nv E.
  destruct (eidx_spec u Hu Nu) as (Eu & _), (eidx_spec v Hv Nv) as (Ev & _).
  rewrite E, Ev in Eu. inversion Eu.
  pose proof (par_dep _ _ _ _ _ RT u Hu Nu). pose proof (par_dep _ _ _ _ _ RT v Hv Nv).
  assert (C : norm (v, par v) = norm (u, par u)) by (unfold norm; simpl; congruence).
  apply norm_cases in C. destruct C as [[? ?]|[C1 C2]]; auto.
  exfalso. rewrite <- C1 in H. rewrite C2 in H2. lia.
Qed.

Notation entry := (nat * option nat * list nat)%type.

Definition ins_of (x : entry) : list instr :=
  let '(v, _, cs) := x in I OP_UP v 0 0 :: map (fun c => I OP_IN v c (eidx c)) cs.
Definition outs_of (x : entry) : list instr :=
  let '(v, _, _) := x in
  if v =? r then [I OP_DOWN v 0 0] else [I OP_OUT v (par v) (eidx v); I OP_DOWN v 0 0].

Definition prog_of (np : list entry) : list instr :=
  concat (map ins_of (rev np)) ++ [I OP_ROOT r 0 0] ++ concat (map outs_of np).

Lemma emit_in_Ok : forall x, good V r par x -> emit_in (edge_dict (make_tree edges) []) x = Ok (ins_of x).
Proof.
  intros [[v p] cs] (Hv & Hp & Sc & Ic). unfold emit_in, ins_of.
  rewrite (mapM_Ok _ _ _ (fun c => I OP_IN v c (eidx c))). reflexivity.
  intros c Hc. apply Ic in Hc. destruct Hc as (C1 & C2 & C3).
  destruct (eidx_spec c C1 C2) as (_ & _ & E). rewrite C3 in E. rewrite E. reflexivity.
Qed.

Lemma emit_out_Ok : forall x, good V r par x -> emit_out (edge_dict (make_tree edges) []) x = Ok (outs_of x).
Proof.
  intros [[v p] cs] (Hv & Hp & Sc & Ic). unfold emit_out, outs_of. subst p. unfold popt.
  destruct (Nat.eqb_spec v r); auto.
  destruct (eidx_spec v Hv n) as (_ & E & _). rewrite E. reflexivity.
Qed.

Lemma sum_children : forall np, bfs_list V r par np ->
  length (concat (map ins_of np)) = V + (V - 1).
Proof.
  intros np B.
  assert (NC : NoDup (concat (map (fun x : entry => snd x) np))).
  { pose proof (bl_good _ _ _ _ B) as G.
    assert (ND : NoDup (map ev np)).
    { eapply Permutation_NoDup; [symmetry; apply B|]. apply seq_NoDup. }
    clear B. induction np as [|[[v p] cs] np]; simpl; [constructor|].
    inversion G as [|? ? G1 G2]; inversion ND as [|? ? N1 N2]; subst.
    destruct G1 as (Hv & Hp & Sc & Ic).
    specialize (IHnp G2 N2). apply ssorted_NoDup in Sc.
    assert (DIS : forall c, In c cs -> ~ In c (concat (map (fun x : entry => snd x) np))).
    { intros c Hc H. apply in_concat in H. destruct H as (l & Hl & Hcl).
      apply in_map_iff in Hl. destruct Hl as ([[w q] ds] & E & Hw). simpl in E. subst l.
      rewrite Forall_forall in G2. pose proof (G2 _ Hw) as (_ & _ & _ & Iw).
      apply Ic in Hc. apply Iw in Hcl. destruct Hc as (_ & _ & Hc), Hcl as (_ & _ & Hcl).
      apply N1. rewrite <- Hc in *. rewrite Hcl. apply in_map_iff. exists (w, q, ds). auto. }
    clear Ic N1 ND G. revert DIS. induction Sc; simpl; intros; auto.
    constructor.
    + intro A. apply in_app_or in A. destruct A; auto. apply (DIS x); auto.
    + apply IHSc. intros; apply DIS; auto. }
  assert (PC : Permutation (concat (map (fun x : entry => snd x) np)) (nonroot V r)).
  { apply NoDup_Permutation; auto. apply nonroot_NoDup.
    intros x. rewrite nonroot_In. rewrite in_concat. split.
    - intros (l & Hl & Hx). apply in_map_iff in Hl. destruct Hl as ([[w q] ds] & E & Hw).
      simpl in E; subst l. pose proof (bl_good _ _ _ _ B) as G. rewrite Forall_forall in G.
      destruct (G _ Hw) as (_ & _ & _ & Iw). apply Iw in Hx. tauto.
    - intros [Hx N].
      assert (In (par x) (map ev np)).
      { eapply Permutation_in; [symmetry; apply B|]. apply in_seq. pose proof (par_lt _ _ _ _ _ RT x Hx). lia. }
      apply in_map_iff in H. destruct H as ([[w q] ds] & E & Hw). unfold ev in E; simpl in E.
      exists ds. split. { apply in_map_iff. exists (w, q, ds). auto. }
      pose proof (bl_good _ _ _ _ B) as G. rewrite Forall_forall in G.
      destruct (G _ Hw) as (_ & _ & _ & Iw). apply Iw. auto. }
  assert (L1 : length (concat (map ins_of np)) = length np + length (concat (map (fun x : entry => snd x) np))).
  { clear. induction np as [|[[v p] cs] np]; simpl; auto.
    rewrite !app_length, map_length, IHnp. simpl. lia. }
  rewrite L1, (Permutation_length PC).
  pose proof (nonroot_length V r (rt_root _ _ _ _ _ RT)).
  pose proof (Permutation_length (bl_perm _ _ _ _ B)) as H1. rewrite map_length, seq_length in H1. lia.
Qed.

Lemma sum_outs : forall np, bfs_list V r par np ->
  length (concat (map outs_of np)) = V + (V - 1).
Proof.
  intros np B.
  assert (L1 : length (concat (map outs_of np)) = length np + length (filter (fun v => negb (v =? r)) (map ev np))).
  { clear. induction np as [|[[v p] cs] np]; simpl; auto.
    unfold ev at 1; simpl. destruct (Nat.eqb_spec v r); simpl; rewrite IHnp; lia. }
  rewrite L1.
  assert (P : Permutation (filter (fun v => negb (v =? r)) (map ev np)) (nonroot V r)).
  { unfold nonroot. pose proof (bl_perm _ _ _ _ B) as P. revert P. generalize (map ev np) (seq 0 V). clear.
    induction 1; simpl; auto.
    - destruct (negb (x =? r)); auto.
    - destruct (negb (x =? r)), (negb (y =? r)); auto. constructor.
    - etransitivity; eauto. }
  rewrite (Permutation_length P).
  pose proof (nonroot_length V r (rt_root _ _ _ _ _ RT)).
  pose proof (Permutation_length (bl_perm _ _ _ _ B)) as H1. rewrite map_length, seq_length in H1. lia.
Qed.

Lemma concat_perm_length : forall A (l m : list (list A)), Permutation l m -> length (concat l) = length (concat m).
Proof. induction 1; simpl; rewrite ?app_length; lia. Qed.

Lemma make_program_rooted_Ok : exists np,
  make_program_rooted (make_tree edges) r = Ok (prog_of np) /\ bfs_list V r par np.
Proof.
  unfold make_program_rooted. rewrite make_tree_length.
  assert (LV : 1 + length edges = V).
  { pose proof (rt_len _ _ _ _ _ RT) as L. unfold es in L. unfold grid_edges in L.
    rewrite map_length, make_tree_length in L. auto. }
  rewrite LV.
  destruct (build_neighbors_ok V es) as (nb & EN & NB). { apply RT. }
  fold es. rewrite EN. simpl bind.
  destruct (bfs_tree _ _ _ _ _ RT nb NB) as (np & EB & BL). rewrite EB. simpl bind.
  exists np. split; auto.
  pose proof (bl_good _ _ _ _ BL) as G. rewrite Forall_forall in G.
  rewrite (mapM_Ok _ _ _ ins_of). 2:{ intros x Hx. apply emit_in_Ok. apply G. now apply in_rev. }
  simpl bind.
  rewrite (mapM_Ok _ _ _ outs_of). 2:{ intros x Hx. apply emit_out_Ok. now apply G. }
  assert (LP : length (prog_of np) = V + length edges + 1 + length edges + V).
  { unfold prog_of. rewrite !app_length, sum_outs by auto.
    rewrite (concat_perm_length _ _ (map ins_of np)) by (apply Permutation_map; symmetry; apply Permutation_rev).
    rewrite sum_children by auto. simpl. lia. }
  change ((if V + length edges + 1 + length edges + V <? length (prog_of np) then Raise IndexError
           else bind (assert_ (length (prog_of np) =? V + length edges + 1 + length edges + V))
                  (fun _ => Ok (prog_of np))) = Ok (prog_of np)).
  rewrite LP, Nat.ltb_irrefl, Nat.eqb_refl. reflexivity.
Qed.
End Program.
