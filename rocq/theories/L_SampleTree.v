(** [sample_tree]: the array state always represents a spanning tree. *)
From Coq Require Import List Reals Lra Lia Arith Bool Permutation Sorted.
From Verif Require Import Base Spec_Graph Spec_Sum M_Structure M_Rand M_SampleTree
  L_Base L_Graph L_Pairing L_MakeTree L_Program L_JitSet L_RemoveEdge L_Sum L_Rand.
Import ListNotations.
Open Scope nat_scope.

Notation fce := (fun '(x, y) => find_complete_edge x y).

(** ** Deciding reachability *)

Lemma dist_pred : forall es u v d, dist es u v (S d) -> exists w, adj es w v /\ dist es u w d.
Proof.
  intros es u v d [W M]. apply walk_snoc_inv in W. destruct W as (w & W & A). exists w. split; auto.
  split; auto. intros n Wn. assert (S d <= n + 1). { apply M. eapply walk_app; eauto. now apply walk_one. } lia.
Qed.

Lemma dist_prefix : forall es u v d, dist es u v d -> forall i, i <= d -> exists w, dist es u w i /\ (w = v \/ exists z, adj es w z).
Proof.
  intros es u v d D i Hi. revert v D. induction d; intros.
  - assert (i = 0) by lia. subst. eauto.
  - destruct (Nat.eq_dec i (S d)); [subst; eauto|].
    destruct (dist_pred _ _ _ _ D) as (w & A & D'). destruct (IHd ltac:(lia) w D') as (x & Dx & X).
    exists x. split; auto. destruct X as [->|X]; eauto.
Qed.

Lemma dist_lt : forall V es u v d, in_range V es -> v < V -> dist es u v d -> d < V.
Proof.
  intros V es u v d R Hv D.
  destruct (fin_choice (fun i w => dist es u w i /\ w < V) (S d)) as [f F].
  - intros i Hi. destruct (dist_prefix _ _ _ _ D i) as (w & Dw & X); [lia|]. exists w. split; auto.
    destruct X as [->|[z A]]; auto. apply (proj1 (in_range_adj V es) R) in A. tauto.
  - assert (L : length (map f (seq 0 (S d))) <= V).
    { apply NoDup_bounded_length.
      - apply NoDup_map_inj; [|apply seq_NoDup]. intros x y Hx Hy E. apply in_seq in Hx. apply in_seq in Hy.
        destruct (F x) as [Dx _]; [lia|]. destruct (F y) as [Dy _]; [lia|]. rewrite E in Dx. eapply dist_fun; eauto.
      - intros x I. apply in_map_iff in I. destruct I as (i & <- & I). apply in_seq in I. apply F. lia. }
    rewrite map_length, seq_length in L. lia.
Qed.

Definition reachb (V : nat) (es : list edge) (u v : nat) : bool :=
  existsb (fun n => if walk_dec es u v n then true else false) (seq 0 V).

Lemma reachb_iff : forall V es u v, in_range V es -> v < V -> (reachb V es u v = true <-> reach es u v).
Proof.
  intros. unfold reachb. rewrite existsb_exists. split.
  - intros (n & _ & E). destruct (walk_dec es u v n); [|discriminate]. eexists; eauto.
  - intros Q. destruct (dist_exists _ _ _ Q) as (d & D). exists d. split.
    + apply in_seq. pose proof (dist_lt _ _ _ _ _ H H0 D). lia.
    + destruct (walk_dec es u v d); auto. destruct D. contradiction.
Qed.

(** ** Abstract moves *)

Definition removed (cur : list edge) (e : nat) : list edge := firstn e cur ++ skipn (S e) cur.

(** The pairs whose endpoints are in different components of [rest]. *)
Definition cands (V : nat) (rest : list edge) : list edge :=
  filter (fun p => negb (reachb V rest (fst p) (snd p))) (pair_loop V).

Lemma nth_error_split3 : forall A (l : list A) i x, nth_error l i = Some x -> l = firstn i l ++ x :: skipn (S i) l.
Proof.
  induction l; intros; destruct i; simpl in *; try discriminate.
  - now inversion H.
  - f_equal. auto.
Qed.

Lemma removed_perm : forall cur e x, nth_error cur e = Some x -> Permutation cur (x :: removed cur e).
Proof.
  intros. rewrite (nth_error_split3 _ _ _ _ H) at 1. unfold removed. symmetry. apply Permutation_middle.
Qed.

Lemma upd_split : forall A (l : list A) i x, i < length l -> upd l i x = firstn i l ++ x :: skipn (S i) l.
Proof. induction l; intros; simpl in *; [lia|]. destruct i; simpl; auto. f_equal. apply IHl. lia. Qed.

Lemma upd_perm : forall cur e (x : edge), e < length cur -> Permutation (upd cur e x) (x :: removed cur e).
Proof. intros. rewrite upd_split by auto. unfold removed. symmetry. apply Permutation_middle. Qed.

Lemma in_range_incl : forall V es fs, incl fs es -> in_range V es -> in_range V fs.
Proof. unfold in_range; intros. apply H0. auto. Qed.

Lemma removed_in_range : forall V cur e, in_range V cur -> in_range V (removed cur e).
Proof.
  intros. eapply in_range_incl; [|eauto]. unfold removed. intros x I. apply in_app_or in I.
  rewrite <- (firstn_skipn e cur). apply in_or_app. destruct I as [I|I]; auto. right.
  rewrite <- (firstn_skipn 1 (skipn e cur)). apply in_or_app. right.
  assert (SS : forall (l : list edge) n, skipn 1 (skipn n l) = skipn (S n) l).
  { clear. induction l; intros. now rewrite !skipn_nil. destruct n; auto. simpl (skipn (S n) (a :: l)). rewrite IHl. reflexivity. }
  now rewrite SS.
Qed.

Lemma cands_In : forall V rest x y, in_range V rest ->
  (In (x, y) (cands V rest) <-> x < y /\ y < V /\ ~ reach rest x y).
Proof.
  intros. unfold cands. rewrite filter_In, pair_loop_In. simpl. rewrite negb_true_iff, <- not_true_iff_false.
  split; intros ((A & B) & C) || intros (A & B & C).
  - split; auto. split; auto. rewrite reachb_iff in C; auto.
  - split; auto. rewrite reachb_iff; auto.
Qed.

Lemma cands_NoDup : forall V rest, NoDup (cands V rest).
Proof. intros. apply NoDup_filter, pair_loop_NoDup. Qed.

Lemma two_comps : forall V a b rest, spanning_tree V ((a, b) :: rest) -> forall v, v < V ->
  (reach rest a v /\ ~ reach rest b v) \/ (reach rest b v /\ ~ reach rest a v).
Proof.
  intros V a b rest T. destruct (re_ab _ _ _ _ T) as (Ha & Hb & N).
  destruct (tree_rooted V _ a T Ha) as (par & dep & RT).
  set (D := fun x => exists n, Nat.iter n par x = b).
  assert (PB := re_par_b V a b rest T par dep RT).
  assert (ALL : forall x, x < V -> reach rest a x \/ reach rest b x).
  { apply (rooted_ind _ _ _ _ _ RT (fun x => reach rest a x \/ reach rest b x)).
    - left. apply reach_refl.
    - intros x Hx Nx IH. destruct (Nat.eq_dec x b) as [->|Nb]; [right; apply reach_refl|].
      assert (A : adj rest (par x) x).
      { apply (re_adj V a b rest T par dep RT). split; auto. apply (par_lt _ _ _ _ _ RT); auto. }
      destruct IH; [left|right]; (eapply reach_trans; [eauto|now apply reach_adj]). }
  assert (NAB : ~ reach rest a b).
  { intros Q. assert (C : connected V rest).
    { intros u w Hu Hw. assert (X : forall z, z < V -> reach rest a z).
      { intros z Hz. destruct (ALL z Hz); auto. eapply reach_trans; eauto. }
      eapply reach_trans; [apply reach_sym|]; apply X; auto. }
    apply connected_edges in C.
    - destruct T as [L _]. simpl in L. lia.
    - destruct T as (_ & R & _). intros u w I. apply R. now right. }
  intros v Hv. destruct (ALL v Hv) as [Q|Q]; [left|right]; split; auto; intro Q'; apply NAB.
  - eapply reach_trans; [exact Q|]. now apply reach_sym.
  - eapply reach_trans; [exact Q'|]. now apply reach_sym.
Qed.

(** Adding a bridging pair gives a spanning tree again. *)
Lemma add_bridge : forall V a b rest x y, spanning_tree V ((a, b) :: rest) -> x < V -> y < V ->
  ~ reach rest x y -> spanning_tree V ((x, y) :: rest).
Proof.
  intros V a b rest x y T Hx Hy N. pose proof (two_comps V a b rest T) as TC.
  assert (R : in_range V rest) by (destruct T as (_ & R & _); intros u w I; apply R; now right).
  split; [|split].
  - destruct T as [L _]. exact L.
  - intros u w [E|I]; [inversion E; subst; auto|apply R; auto].
  - assert (INC : forall u w, reach rest u w -> reach ((x, y) :: rest) u w).
    { intros u w. apply reach_incl. intros. apply adj_cons_iff; auto. }
    assert (XY : reach ((x, y) :: rest) x y) by (apply reach_adj, adj_cons_iff; auto).
    assert (X : forall z, z < V -> reach ((x, y) :: rest) x z).
    { intros z Hz. destruct (TC x Hx) as [[X1 X2]|[X1 X2]], (TC y Hy) as [[Y1 Y2]|[Y1 Y2]], (TC z Hz) as [[Z1 Z2]|[Z1 Z2]];
        try (exfalso; apply N; eapply reach_trans; [apply reach_sym; exact X1|exact Y1]);
        try (apply INC; eapply reach_trans; [apply reach_sym; exact X1|exact Z1]);
        try (eapply reach_trans; [exact XY|]; apply INC; eapply reach_trans; [apply reach_sym; exact Y1|exact Z1]). }
    intros u w Hu Hw. eapply reach_trans; [apply reach_sym|]; apply X; auto.
Qed.

Lemma bridge_not_adj : forall rest x y, ~ reach rest x y -> ~ adj rest x y.
Proof. intros rest x y N A. apply N. now apply reach_adj. Qed.

(** ** The representation invariant *)

Definition rep (V : nat) (cur : list edge) (st : st_state) : Prop :=
  let '(e2k, nb, comp, buf) := st in
  spanning_tree V cur /\ (forall x y, In (x, y) cur -> x < y) /\
  e2k = map fce cur /\ nbrep V cur nb /\ comp = repeat false V /\ length buf = tri V.

(** One sweep step in terms of the represented tree. *)
Lemma upd_map : forall A B (f : A -> B) l i x, upd (map f l) i (f x) = map f (upd l i x).
Proof. induction l; intros; simpl; auto. destruct i; simpl; auto. now rewrite IHl. Qed.

Lemma nth_error_firstn : forall A (l : list A) n i x, nth_error (firstn n l) i = Some x -> nth_error l i = Some x.
Proof.
  induction l; intros; destruct n, i; simpl in *; auto; try discriminate. eapply IHl; eauto.
Qed.

Lemma jit_add_edge_Ok : forall V cur e a b nb comp x y, spanning_tree V cur -> nth_error cur e = Some (a, b) ->
  (forall x y, In (x, y) cur -> x < y) ->
  nbrep V (removed cur e) nb -> length comp = V -> In (x, y) (cands V (removed cur e)) ->
  exists nb', jit_add_edge (complete_grid V) (map fce cur) nb comp e (find_complete_edge x y) =
    Ok (map fce (upd cur e (x, y)), nb', repeat false V) /\
    spanning_tree V (upd cur e (x, y)) /\ (forall u v, In (u, v) (upd cur e (x, y)) -> u < v) /\
    nbrep V (upd cur e (x, y)) nb'.
Proof.
  intros V cur e a b nb comp x y T NE LT NB LC I.
  assert (He : e < length cur) by (apply nth_error_Some; congruence).
  assert (R : in_range V (removed cur e)) by (apply removed_in_range, T).
  apply cands_In in I; auto. destruct I as (XY & Y & NR).
  assert (T1 : spanning_tree V ((a, b) :: removed cur e)) by (eapply spanning_tree_perm; [apply removed_perm; eauto|auto]).
  assert (T2 : spanning_tree V ((x, y) :: removed cur e)) by (eapply add_bridge; eauto; lia).
  assert (PU : Permutation ((x, y) :: removed cur e) (upd cur e (x, y))) by (symmetry; now apply upd_perm).
  unfold jit_add_edge. rewrite put_Ok by (now rewrite map_length). cbn [bind].
  unfold get at 1. rewrite complete_grid_fce by auto. cbn [bind].
  destruct (nbrep_add V (removed cur e) nb x y NB) as (nb1 & nb' & E1 & E2 & NB').
  { now apply tree_goodedges. }
  rewrite E1. cbn [bind]. rewrite E2. cbn [bind].
  exists nb'. split; [|split; [|split]].
  - rewrite <- (upd_map _ _ fce cur e (x, y)). repeat f_equal.
    rewrite <- LC. clear. induction comp; simpl; f_equal; auto.
  - eapply spanning_tree_perm; eauto.
  - intros u v I. apply (Permutation_in _ (Permutation_sym PU)) in I. destruct I as [E|I].
    + inversion E; subst; auto.
    + apply LT. eapply Permutation_in; [symmetry; apply removed_perm; eauto|]. now right.
  - eapply nbrep_perm; eauto.
Qed.

Lemma filter_ext_In' : forall A (f g : A -> bool) l, (forall x, In x l -> f x = g x) -> filter f l = filter g l.
Proof. intros. apply filter_ext_in. auto. Qed.

Lemma bridge_cands : forall V a b rest comp, spanning_tree V ((a, b) :: rest) ->
  (forall v, v < V -> (nth v comp false = true <-> reach rest a v) /\ (nth v comp false = false <-> reach rest b v)) ->
  filter (bridge_of comp) (pair_loop V) = cands V rest.
Proof.
  intros V a b rest comp T C. unfold cands. apply filter_ext_in. intros [x y] I. apply pair_loop_In in I.
  destruct I as [XY Y]. assert (R : in_range V rest) by (destruct T as (_ & R & _); intros u w I; apply R; now right).
  unfold bridge_of. simpl.
  destruct (C x) as [X1 X2]; [lia|]. destruct (C y) as [Y1 Y2]; [lia|].
  pose proof (two_comps V a b rest T x ltac:(lia)) as TX. pose proof (two_comps V a b rest T y ltac:(lia)) as TY.
  destruct (reachb V rest x y) eqn:RB.
  - apply reachb_iff in RB; auto. simpl.
    destruct (nth y comp false), (nth x comp false); simpl; auto.
    + assert (reach rest a y) by tauto. assert (reach rest b x) by tauto.
      assert (reach rest b y) by (eapply reach_trans; eauto). tauto.
    + assert (reach rest b y) by tauto. assert (reach rest a x) by tauto.
      assert (reach rest a y) by (eapply reach_trans; eauto). tauto.
  - assert (NR : ~ reach rest x y) by (rewrite <- (reachb_iff V); [congruence|auto|auto]). simpl.
    destruct (nth y comp false), (nth x comp false); simpl; auto; exfalso; apply NR.
    + eapply reach_trans; [apply reach_sym; apply X1; reflexivity|]. tauto.
    + eapply reach_trans; [apply reach_sym; apply X2; reflexivity|]. tauto.
Qed.

Lemma old_edge_cand : forall V cur e a b, spanning_tree V cur -> nth_error cur e = Some (a, b) -> a < b ->
  In (a, b) (cands V (removed cur e)).
Proof.
  intros. assert (R : in_range V (removed cur e)) by (apply removed_in_range, H).
  assert (T1 : spanning_tree V ((a, b) :: removed cur e)) by (eapply spanning_tree_perm; [apply removed_perm; eauto|auto]).
  destruct (re_ab _ _ _ _ T1) as (Ha & Hb & _). apply cands_In; auto. split; auto. split; auto.
  destruct (two_comps V a b _ T1 b Hb) as [[A B]|[A B]]; auto. exfalso. apply B. apply reach_refl.
Qed.

Definition logit_of (logits : list (option R)) (p : edge) : option R := nth (find_complete_edge (fst p) (snd p)) logits None.

Lemma mapM_get_cands : forall V rest logits, length logits = tri V ->
  mapM (get IndexError logits) (map fce (cands V rest)) = Ok (map (logit_of logits) (cands V rest)).
Proof.
  intros. unfold cands.
  assert (G : forall l, (forall x y, In (x, y) l -> x < y < V) ->
    mapM (get IndexError logits) (map fce l) = Ok (map (logit_of logits) l)).
  { induction l as [|[x y] l IH]; intros; auto. simpl. rewrite (get_Ok _ _ _ _ None).
    - simpl. rewrite IH; auto. intros; apply H0; now right.
    - rewrite H. destruct (H0 x y) as [X Y]; [now left|]. apply fce_range; lia. }
  apply G. intros x y I. apply filter_In in I. destruct I as [I _]. apply pair_loop_In in I. lia.
Qed.

Lemma st_step_form : forall V cur st e a b logits, rep V cur st -> nth_error cur e = Some (a, b) ->
  length logits = tri V ->
  exists w buf F, 
    st_step (complete_grid V) logits st e = rbind (choose_edge w buf (find_complete_edge a b)) F /\
    valid_probs (map (logit_of logits) (cands V (removed cur e))) = Ok w /\
    (forall i p, nth_error (cands V (removed cur e)) i = Some p -> get IndexError buf i = Ok (fce p)) /\
    (forall x y, In (x, y) (cands V (removed cur e)) ->
       exists st', F (find_complete_edge x y) = Ret st' /\ rep V (upd cur e (x, y)) st').
Proof.
  intros V cur [[[e2k nb] comp] buf] e a b logits (T & LT & -> & NB & -> & LB) NE LL.
  assert (AB : a < b) by (apply LT; eapply nth_error_In; eauto).
  destruct (jit_remove_edge_Ok V cur e a b nb (removed cur e)) as (nb' & comp' & E & NB' & LC & C); auto.
  { now apply removed_perm. }
  unfold st_step. rewrite E. cbn [lift rbind].
  assert (T1 : spanning_tree V ((a, b) :: removed cur e)) by (eapply spanning_tree_perm; [apply removed_perm; eauto|auto]).
  destruct (find_valid_edges_Ok V comp' buf LC LB) as (buf' & EF & LB' & FB).
  rewrite (bridge_cands V a b (removed cur e)) in * by auto.
  rewrite EF. cbn [lift rbind]. rewrite FB. rewrite mapM_get_cands by auto. cbn [lift rbind].
  assert (OC := old_edge_cand V cur e a b T NE AB).
  destruct (cands V (removed cur e)) as [|p ps] eqn:EC; [destruct OC|]. rewrite <- EC in *.
  destruct (valid_probs (map (logit_of logits) (cands V (removed cur e)))) as [w|] eqn:VP.
  2:{ unfold valid_probs in VP. rewrite EC in VP. simpl in VP. destruct (emax2 _ _); discriminate. }
  cbn [lift rbind]. eexists w, buf', _. split; [reflexivity|]. split; auto. split.
  - intros i q Hi. assert (Hl : i < length (cands V (removed cur e))) by (apply nth_error_Some; congruence).
    assert (N : nth_error (firstn (length (cands V (removed cur e))) buf') i = Some (fce q)).
    { rewrite FB, nth_error_map, Hi. reflexivity. }
    apply nth_error_firstn in N. unfold get. now rewrite N.
  - intros x y I. destruct (jit_add_edge_Ok V cur e a b nb' comp' x y) as (nb2 & EA & T2 & LT2 & NB2); auto.
    rewrite EA. cbn [lift rbind]. eexists. split; [reflexivity|].
    repeat (split; auto).
Qed.

Lemma st_init_Ok : forall V edges, spanning_tree V edges -> exists nb,
  st_init V edges = Ok (map fce (map norm edges), nb) /\ nbrep V (map norm edges) nb.
Proof.
  intros V edges T. apply tree_goodedges in T.
  assert (G : forall post pre nb, nbrep V pre nb -> goodedges V (rev post ++ pre) ->
    exists nb', foldM (fun nb '(v1, v2) => bind (jit_row_add nb v1 v2) (fun nb => jit_row_add nb v2 v1)) post nb = Ok nb' /\
      nbrep V (rev post ++ pre) nb').
  { induction post as [|[v1 v2] post IH]; intros pre nb NB G; simpl.
    - eauto.
    - simpl in G. rewrite <- app_assoc in G. simpl in G.
      assert (G1 : goodedges V ((v1, v2) :: pre)).
      { destruct G as [G1 G2]. split.
        - intros. apply G1. apply in_or_app. now right.
        - rewrite map_app in G2. apply NoDup_app_inv in G2. tauto. }
      destruct (nbrep_add V pre nb v1 v2 NB G1) as (nb1 & nb2 & E1 & E2 & NB2).
      rewrite E1. cbn [bind]. rewrite E2. cbn [bind].
      destruct (IH ((v1, v2) :: pre) nb2 NB2 G) as (nb' & E & NB'). exists nb'. split; auto.
      rewrite <- app_assoc. exact NB'. }
  destruct (G edges [] _ (nbrep_init V)) as (nb & E & NB).
  { rewrite app_nil_r. eapply goodedges_perm; [apply Permutation_rev|auto]. }
  exists nb. unfold st_init. rewrite E. cbn [bind]. split.
  - do 2 f_equal. rewrite map_map. apply map_ext. intros [x y]. unfold norm. simpl.
    destruct (le_lt_dec x y).
    + rewrite Nat.min_l, Nat.max_r by lia. reflexivity.
    + rewrite Nat.min_r, Nat.max_l by lia. apply fce_sym.
  - rewrite app_nil_r in NB. destruct NB as [L R]. split; auto. intros v Hv. destruct (R v Hv) as (it & J & Le & ND & M).
    exists it. split; auto. split; auto. split; auto. intros. rewrite M, adj_norm.
    split; apply adj_perm; [|apply Permutation_rev]. symmetry. apply Permutation_rev.
Qed.

Lemma rep_init : forall V edges nb, spanning_tree V edges -> nbrep V (map norm edges) nb ->
  rep V (map norm edges) (map fce (map norm edges), nb, repeat false V, repeat 0 (tri V)).
Proof.
  intros. split; [now apply spanning_tree_norm|]. split.
  - intros x y I. apply in_map_iff in I. destruct I as ([a b] & E & I).
    apply tree_goodedges in H. apply H in I. unfold norm in E. simpl in E. inversion E. lia.
  - split; auto. split; auto. split; auto. apply repeat_length.
Qed.

Lemma st_edges_Ok : forall V cur st, rep V cur st ->
  st_edges (complete_grid V) (map fce cur) = Ok (pair_sort cur).
Proof.
  intros V cur [[[e2k nb] comp] buf] (T & LT & _). unfold st_edges.
  assert (G : forall l, (forall x y, In (x, y) l -> x < y /\ y < V) ->
    mapM (fun k => bind (get IndexError (complete_grid V) k) (fun x => let '(_, v1, v2) := x in Ok (v1, v2))) (map fce l) = Ok l).
  { induction l as [|[x y] l IH]; intros; auto. cbn [map mapM]. destruct (H x y) as [A B]; [now left|].
    unfold get at 1. rewrite complete_grid_fce by auto. cbn [bind]. rewrite IH. reflexivity.
    intros; apply H; now right. }
  rewrite G. reflexivity. intros x y I. split; auto. destruct T as (_ & R & _). apply R in I. tauto.
Qed.

(** ** Nonzero weights *)

Lemma valid_probs_shape : forall lp w, valid_probs lp = Ok (Some w) -> length w = length lp /\
  exists m, w = map (shift_exp m) lp.
Proof.
  unfold valid_probs; intros. destruct lp; [discriminate|]. destruct (emax (o :: lp)); inversion H; subst.
  split. simpl; now rewrite map_length. exists r; reflexivity.
Qed.

Lemma choose_always : forall V rest w buf a b logits (P : nat -> Prop),
  valid_probs (map (logit_of logits) (cands V rest)) = Ok w ->
  (forall i p, nth_error (cands V rest) i = Some p -> get IndexError buf i = Ok (fce p)) ->
  In (a, b) (cands V rest) ->
  (forall x y, In (x, y) (cands V rest) -> P (find_complete_edge x y)) ->
  always P (choose_edge w buf (find_complete_edge a b)).
Proof.
  intros V rest w buf a b logits P VP B I H. unfold choose_edge. destruct w as [w|]; [|simpl; auto].
  apply valid_probs_shape in VP. destruct VP as [L _]. rewrite map_length in L.
  destruct (Rlt_dec 0 (rsum w)); [|simpl; auto]. simpl. split.
  - intros ->. destruct (cands V rest); [destruct I|discriminate].
  - intros i [Hi _]. rewrite L in Hi. destruct (nth_error (cands V rest) i) as [[x y]|] eqn:E.
    + rewrite (B i _ E). simpl. apply H. eapply nth_error_In; eauto.
    + apply nth_error_None in E. lia.
Qed.

Lemma st_step_always : forall V cur st e logits, rep V cur st -> e < length cur -> length logits = tri V ->
  always (fun st' => exists cur', rep V cur' st' /\ length cur' = length cur) (st_step (complete_grid V) logits st e).
Proof.
  intros V cur st e logits R He LL. destruct (nth_error cur e) as [[a b]|] eqn:NE.
  2:{ apply nth_error_None in NE. lia. }
  destruct (st_step_form V cur st e a b logits R NE LL) as (w & buf & F & E & VP & B & HF).
  rewrite E. apply always_bind. destruct st as [[[e2k nb] comp] bf]. destruct R as (T & LT & _).
  eapply choose_always; eauto.
  - eapply old_edge_cand; eauto. apply LT. eapply nth_error_In; eauto.
  - intros x y I. destruct (HF x y I) as (st' & E' & R'). rewrite E'. simpl. exists (upd cur e (x, y)).
    split; auto. apply upd_length.
Qed.

Lemma sweep_always : forall V logits order cur st, rep V cur st -> (forall e, In e order -> e < length cur) ->
  length logits = tri V ->
  always (fun st' => exists cur', rep V cur' st' /\ length cur' = length cur)
    (rfold (st_step (complete_grid V) logits) order st).
Proof.
  intros V logits order cur st R HO LL. apply always_rfold with (P := fun st' => exists cur', rep V cur' st' /\ length cur' = length cur).
  - eauto.
  - intros s e (c & R' & L') I. eapply always_mono; [|eapply st_step_always; eauto; rewrite L'; auto].
    intros s' (c' & R2 & L2). exists c'. split; auto. congruence.
Qed.

Lemma sample_tree_always : forall V grid logits edges, make_complete_graph V = Ok grid ->
  spanning_tree V edges -> length logits = tri V -> 2 <= length edges ->
  always (fun T => spanning_tree V T /\ StronglySorted pair_le T /\ (forall x y, In (x, y) T -> x < y))
    (sample_tree grid logits edges).
Proof.
  intros V grid logits edges G T LL HE. rewrite make_complete_graph_Ok in G. inversion G; subst grid. clear G.
  unfold sample_tree. destruct (Nat.leb_spec (length edges) 1); [lia|].
  assert (VE : length edges + 1 = V) by (destruct T; lia). rewrite VE.
  destruct (st_init_Ok V edges T) as (nb & EI & NB). rewrite EI. cbn [lift rbind always].
  intros order PO. apply always_bind. pose proof (rep_init V edges nb T NB) as R0.
  fold (tri V). eapply always_mono; [|eapply sweep_always; eauto].
  - intros [[[e2k nb'] comp] buf] (cur & R & LC). pose proof R as (T' & LT & -> & _).
    rewrite (st_edges_Ok V cur _ R). cbn [lift rbind].
    assert (LS : length (pair_sort cur) = length edges).
    { rewrite (Permutation_length (pair_sort_perm cur)), LC. apply map_length. }
    rewrite LS, Nat.eqb_refl. simpl. split; [|split].
    + eapply spanning_tree_perm; [symmetry; apply pair_sort_perm|auto].
    + apply pair_sort_sorted.
    + intros x y I. apply LT. eapply Permutation_in; [apply pair_sort_perm|auto].
  - intros e I. rewrite map_length. apply (Permutation_in _ PO) in I. apply in_seq in I. lia.
Qed.

(** ** C06 *)

Lemma map_fce_pair_loop : forall V, map fce (pair_loop V) = seq 0 (tri V).
Proof.
  intros. apply nth_error_ext. intros i. rewrite nth_error_map.
  destruct (nth_error (pair_loop V) i) as [[x y]|] eqn:E.
  - pose proof (nth_error_pair_loop _ _ _ _ E) as (_ & _ & K). simpl. rewrite K.
    assert (i < tri V) by (rewrite <- pair_loop_length; apply nth_error_Some; congruence).
    rewrite (nth_error_nth' _ 0) by (rewrite seq_length; auto). now rewrite seq_nth.
  - simpl. symmetry. apply nth_error_None in E. apply nth_error_None. rewrite seq_length, <- pair_loop_length. auto.
Qed.

Lemma filter_sorted : forall (l : list edge) f, StronglySorted lt (map fce l) -> StronglySorted lt (map fce (filter f l)).
Proof.
  induction l; intros; simpl in *; auto. inversion H; subst. destruct (f a); simpl; auto.
  constructor; auto. rewrite Forall_forall in *. intros x I. apply H3.
  apply in_map_iff in I. destruct I as (p & <- & I). apply filter_In in I. apply in_map_iff. exists p. tauto.
Qed.

Lemma seq_sorted : forall n s, StronglySorted lt (seq s n).
Proof.
  induction n; intros; simpl; constructor; auto. apply Forall_forall. intros x I. apply in_seq in I. lia.
Qed.

Lemma candidates_Ok : forall V cur e2k nb comp buf e a b,
  rep V cur (e2k, nb, comp, buf) -> nth_error cur e = Some (a, b) ->
  exists nb' comp' n buf',
    jit_remove_edge (complete_grid V) e2k nb comp e = Ok (find_complete_edge a b, nb', comp') /\
    find_valid_edges comp' buf = Ok (n, buf') /\
    StronglySorted lt (firstn n buf') /\
    (forall k, In k (firstn n buf') <->
       exists x y, x < y /\ y < V /\ k = find_complete_edge x y /\ ~ reach (removed cur e) x y) /\
    In (find_complete_edge a b) (firstn n buf').
Proof.
  intros V cur e2k nb comp buf e a b (T & LT & -> & NB & -> & LB) NE.
  assert (AB : a < b) by (apply LT; eapply nth_error_In; eauto).
  destruct (jit_remove_edge_Ok V cur e a b nb (removed cur e)) as (nb' & comp' & E & NB' & LC & C); auto.
  { now apply removed_perm. }
  assert (T1 : spanning_tree V ((a, b) :: removed cur e)) by (eapply spanning_tree_perm; [apply removed_perm; eauto|auto]).
  destruct (find_valid_edges_Ok V comp' buf LC LB) as (buf' & EF & LB' & FB).
  rewrite (bridge_cands V a b (removed cur e)) in * by auto.
  assert (R : in_range V (removed cur e)) by (apply removed_in_range, T).
  assert (M : forall k, In k (map fce (cands V (removed cur e))) <->
       exists x y, x < y /\ y < V /\ k = find_complete_edge x y /\ ~ reach (removed cur e) x y).
  { intros k. rewrite in_map_iff. split.
    - intros ([x y] & <- & I). apply cands_In in I; auto. exists x, y. tauto.
    - intros (x & y & A & B & -> & D). exists (x, y). split; auto. apply cands_In; auto. }
  exists nb', comp', (length (cands V (removed cur e))), buf'. split; [exact E|]. split; [exact EF|]. rewrite FB. split; [|split]; auto.
  - apply filter_sorted. rewrite map_fce_pair_loop. apply seq_sorted.
  - apply M. pose proof (old_edge_cand V cur e a b T NE AB) as I. apply cands_In in I; auto. exists a, b. tauto.
Qed.
