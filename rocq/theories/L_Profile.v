(** The statistics of sample_tree and the timers add up. *)
From Coq Require Import String.
From Coq Require Import List Reals Lra Lia Arith Bool Permutation Sorted FunctionalExtensionality.
From Verif Require Import Base Spec_Graph Spec_Sum M_Structure M_Rand M_SampleTree
  L_Base L_Graph L_Pairing L_MakeTree L_Program L_JitSet L_RemoveEdge L_Sum L_Rand L_SampleTree M_Profile Spec_Profile.
Import ListNotations.
Open Scope list_scope.
Open Scope nat_scope.

(** ** Counting changes nothing *)
Lemma rbind_assoc {A B C} (p : rprog A) (f : A -> rprog B) (g : B -> rprog C) : rbind (rbind p f) g = rbind p (fun x => rbind (f x) g).
Proof. induction p as [a|x|w k IH|n k IH]; cbn; auto; f_equal; apply functional_extensionality; intros i; apply IH. Qed.

Lemma rbind_ext {A B} (p : rprog A) (f g : A -> rprog B) : (forall x, f x = g x) -> rbind p f = rbind p g.
Proof. intros H. f_equal. now apply functional_extensionality. Qed.

Lemma choose_erase {B} w buf k1 (F : nat -> rprog B) : rbind (choose_counted w buf k1) (fun x => F (fst x)) = rbind (choose_edge w buf k1) F.
Proof.
  unfold choose_counted, choose_edge. destruct w as [w|]; [|reflexivity]. destruct (Rlt_dec 0 (rsum w)); [|reflexivity]. cbn [rbind]. f_equal. apply functional_extensionality. intros i.
  destruct (get IndexError buf i); reflexivity.
Qed.

Definition erase (all : st_state * tallies * nat * list nat) : st_state := fst (fst (fst all)).

Lemma step_erase {B} grid logits all e (F : st_state -> rprog B) :
  rbind (counted_step grid logits all e) (fun x => F (erase x)) = rbind (st_step grid logits (erase all) e) F.
Proof.
  destruct all as [[[[[[e2k nb] comp] buf] t] acc] ch]. unfold counted_step, st_step, erase. cbn [fst].
  destruct (jit_remove_edge grid e2k nb comp e) as [[[k1 nb'] comp']|]; [|reflexivity]. cbn [lift rbind].
  destruct (find_valid_edges comp' buf) as [[n buf']|]; [|reflexivity]. cbn [lift rbind].
  destruct (mapM _ _) as [lp|]; [|reflexivity]. cbn [lift rbind]. destruct (valid_probs lp) as [w|]; [|reflexivity]. cbn [lift rbind].
  rewrite !rbind_assoc. rewrite <- (choose_erase w buf' k1). apply rbind_ext. intros [k2 failed]. cbn [fst].
  destruct (jit_add_edge grid e2k nb' comp' e k2) as [[[e2k' nb2] comp2]|]; reflexivity.
Qed.

Lemma fold_erase {B} grid logits order : forall all (F : st_state -> rprog B),
  rbind (rfold (counted_step grid logits) order all) (fun x => F (erase x)) = rbind (rfold (st_step grid logits) order (erase all)) F.
Proof.
  induction order as [|e order IH]; intros all F; [reflexivity|]. cbn [rfold]. rewrite !rbind_assoc.
  rewrite <- (step_erase grid logits all e (fun st => rbind (rfold (st_step grid logits) order st) F)). apply rbind_ext. intros x. apply IH.
Qed.

Lemma counted_same grid logits edges t : rbind (counted_sample_tree grid logits edges t) (fun x => Ret (fst x)) = sample_tree grid logits edges.
Proof.
  unfold counted_sample_tree, sample_tree. destruct (length edges <=? 1); [reflexivity|]. destruct (st_init _ edges) as [[e2k nb]|]; [|reflexivity]. cbn [lift rbind]. f_equal.
  apply functional_extensionality. intros order. rewrite rbind_assoc.
  set (all := (e2k, nb, _, _, _, _, _)). set (st := (e2k, nb, _, _)).
  etransitivity; [|exact (fold_erase grid logits order all (fun '(e2k, nb, comp, buf) =>
    rbind (lift (st_edges grid e2k)) (fun es => rbind (lift (assert_ (length es =? length edges))) (fun _ => Ret es))))].
  apply rbind_ext. intros [[[[[[x1 x2] x3] x4] x5] x6] x7]. unfold erase. cbn [fst].
  destruct (st_edges grid x1); [|reflexivity]. cbn [lift rbind]. destruct (assert_ _); reflexivity.
Qed.

(** ** One step *)
Lemma choose_counted_always V rest w buf a b logits (P : nat * nat -> Prop) :
  valid_probs (map (logit_of logits) (cands V rest)) = Ok w ->
  (forall i p, nth_error (cands V rest) i = Some p -> get IndexError buf i = Ok (fce p)) ->
  In (a, b) (cands V rest) ->
  (forall x y, In (x, y) (cands V rest) -> P (find_complete_edge x y, 0)) ->
  ((exists x y, In (x, y) (cands V rest) /\ logit_of logits (x, y) <> None) \/ P (find_complete_edge a b, 1)) ->
  always P (choose_counted w buf (find_complete_edge a b)).
Proof.
  intros VP B I H H1. unfold choose_counted. destruct w as [w|].
  - pose proof (valid_probs_shape _ _ VP) as (L & m & E). rewrite map_length in L.
    destruct (Rlt_dec 0 (rsum w)) as [W|W].
    + cbn [always]. split; [intros ->; destruct (cands V rest); [destruct I|discriminate]|]. intros i [Hi _]. rewrite L in Hi.
      destruct (nth_error (cands V rest) i) as [[x y]|] eqn:EI; [|apply nth_error_None in EI; lia]. rewrite (B i _ EI). cbn. apply H. eapply nth_error_In; eauto.
    + destruct H1 as [(x & y & J & NJ)|H1]; [|exact H1]. exfalso. apply W.
      assert (NN : forall r, In r w -> (0 <= r)%R). { intros r Ir. rewrite E in Ir. apply in_map_iff in Ir as (o & <- & _). destruct o; cbn; [left; apply exp_pos|lra]. }
      destruct (logit_of logits (x, y)) as [r|] eqn:ER; [|congruence].
      apply Rlt_le_trans with (shift_exp m (Some r)); [apply exp_pos|]. apply (sumf_member_le w (fun x => x)); [exact NN|].
      rewrite E. apply in_map. rewrite <- ER. now apply in_map.
  - destruct H1 as [(x & y & J & NJ)|H1]; [|exact H1]. exfalso.
    assert (EN : forall l, emax l = None -> forall o, In o l -> o = None).
    { induction l as [|o l IH]; intros EM o' Io; [destruct Io|]. change (emax2 o (emax l) = None) in EM. destruct o as [r|].
      - destruct (emax l); discriminate EM.
      - cbn in EM. destruct Io as [<- | Io]; [reflexivity|]. apply IH; auto. }
    unfold valid_probs in VP. destruct (map (logit_of logits) (cands V rest)) as [|o l] eqn:EM; [discriminate|]. destruct (emax (o :: l)) eqn:EX; [discriminate|].
    apply NJ, (EN _ EX). rewrite <- EM. now apply in_map.
Qed.

(** What one sweep adds. *)
Definition plus_failed (t : tallies) (i : nat) : tallies :=
  Tallies (t_calls t) (t_infeasible t + i) (t_accept t) (t_propose t) (t_accepted t) (t_choices t).

Definition edge_dec (p q : nat * nat) : {p = q} + {p <> q}.
Proof. decide equality; apply Nat.eq_dec. Defined.
Definition moved_in (orig cur : list (nat * nat)) : list (nat * nat) := filter (fun p => if in_dec edge_dec p orig then false else true) cur.

(** [orig] is the tree at the start, [todo] are the edges that are still to be moved. *)
Definition moves (orig : list (nat * nat)) (todo : list nat) (acc : nat) (cur : list (nat * nat)) : Prop :=
  (forall e, In e todo -> nth_error cur e = nth_error orig e) /\
  length (moved_in orig cur) <= acc /\ (acc = 0 -> cur = orig) /\ (1 <= acc -> exists p, In p cur /\ ~ In p orig).

Lemma moved_perm orig c1 c2 : Permutation c1 c2 -> length (moved_in orig c1) = length (moved_in orig c2).
Proof. intros P. unfold moved_in. induction P; cbn; auto; repeat (destruct (in_dec _ _ _)); cbn; auto; congruence. Qed.

Lemma upd_same_nth {A} (l : list A) i x : nth_error l i = Some x -> upd l i x = l.
Proof. revert i. induction l as [|y l IH]; intros [|i] E; try discriminate; cbn in *; [congruence|]. f_equal. now apply IH. Qed.

Lemma moves_step orig e todo acc cur a b x y : moves orig (e :: todo) acc cur -> ~ In e todo -> nth_error cur e = Some (a, b) ->
  ((x, y) <> (a, b) -> ~ In (x, y) cur) ->
  moves orig todo (acc + (if edge_dec (a, b) (x, y) then 0 else 1)) (upd cur e (x, y)).
Proof.
  intros (M1 & M2 & M3 & M4) NI NE NEW. assert (LE : e < length cur) by (apply nth_error_Some; congruence).
  assert (IO : In (a, b) orig). { rewrite (M1 e (or_introl eq_refl)) in NE. eapply nth_error_In; eauto. }
  assert (OTH : forall f, f <> e -> nth_error (upd cur e (x, y)) f = nth_error cur f).
  { clear - LE. revert e LE. induction cur as [|z cur IH]; intros [|e] LE [|f] N; cbn in *; try lia; auto. apply IH; lia. }
  split; [|split; [|split]].
  - intros f I. rewrite OTH by (intros ->; auto). apply M1. now right.
  - rewrite (moved_perm orig _ _ (upd_perm cur e (x, y) LE)). rewrite (moved_perm orig _ _ (removed_perm cur e (a, b) NE)) in M2.
    unfold moved_in in *. cbn [filter] in *. destruct (in_dec edge_dec (a, b) orig) as [_|]; [|contradiction].
    destruct (edge_dec (a, b) (x, y)) as [<-|N]; [destruct (in_dec _ _ _); [lia|contradiction]|]. destruct (in_dec _ _ _); cbn [length]; lia.
  - destruct (edge_dec (a, b) (x, y)) as [E|N]; [|lia]. rewrite Nat.add_0_r. intros Z. rewrite <- E, <- (M3 Z). apply upd_same_nth. exact NE.
  - intros G. destruct (Nat.eq_dec acc 0) as [Z|Z].
    + destruct (edge_dec (a, b) (x, y)) as [E|N]; [lia|]. exists (x, y). split.
      * apply (Permutation_in _ (Permutation_sym (upd_perm cur e (x, y) LE))). now left.
      * rewrite <- (M3 Z). apply NEW. congruence.
    + destruct M4 as (p & I & NO); [lia|]. exists p. split; [|exact NO]. apply (Permutation_in _ (Permutation_sym (upd_perm cur e (x, y) LE))).
      apply (Permutation_in _ (removed_perm cur e (a, b) NE)) in I. destruct I as [<-|I]; [contradiction|now right].
Qed.

Definition swept (V : nat) (orig : list (nat * nat)) (todo : list nat) (n : nat) (logits : list (option R)) (t0 : tallies) (all : st_state * tallies * nat * list nat) : Prop :=
  let '(st, t, acc, ch) := all in
  exists cur i ns, rep V cur st /\ length cur = V - 1 /\ moves orig todo acc cur /\ t = plus_failed t0 i /\ acc + i <= n /\ ((forall k, k < tri V -> nth k logits None <> None) -> i = 0) /\
    ch = map bit_length ns /\ length ns = n /\ Forall (fun k => 1 <= k <= tri V) ns.

Lemma cands_bound V rest : length (cands V rest) <= tri V.
Proof.
  rewrite <- pair_loop_length. unfold cands. induction (pair_loop V) as [|p l IH]; cbn; [lia|]. destruct (negb _); cbn; lia.
Qed.

Lemma step_swept V orig todo n logits t0 all e : swept V orig (e :: todo) n logits t0 all -> ~ In e todo -> e < V - 1 -> length logits = tri V ->
  always (swept V orig todo (S n) logits t0) (counted_step (complete_grid V) logits all e).
Proof.
  destruct all as [[[[[[e2k nb] comp] buf] t] acc] ch]. intros (cur & i & ns & (T & LT & -> & NB & -> & LB) & LC & MV & -> & AI & FIN & -> & LN & FN) NT He LL.
  destruct (nth_error cur e) as [[a b]|] eqn:NE. 2:{ apply nth_error_None in NE. lia. }
  assert (AB : a < b) by (apply LT; eapply nth_error_In; eauto).
  destruct (jit_remove_edge_Ok V cur e a b nb (removed cur e)) as (nb' & comp' & E & NB' & LC' & C); auto.
  { now apply removed_perm. }
  unfold counted_step. rewrite E. cbn [lift rbind].
  assert (T1 : spanning_tree V ((a, b) :: removed cur e)) by (eapply spanning_tree_perm; [apply removed_perm; eauto|auto]).
  destruct (find_valid_edges_Ok V comp' buf LC' LB) as (buf' & EF & LB' & FB).
  rewrite (bridge_cands V a b (removed cur e)) in * by auto.
  rewrite EF. cbn [lift rbind]. rewrite FB. rewrite mapM_get_cands by auto. cbn [lift rbind].
  assert (OC := old_edge_cand V cur e a b T NE AB).
  destruct (valid_probs (map (logit_of logits) (cands V (removed cur e)))) as [w|] eqn:VP.
  2:{ unfold valid_probs in VP. destruct (cands V (removed cur e)); [destruct OC|]. cbn [map] in VP. destruct (emax _); discriminate. }
  cbn [lift rbind]. apply always_bind.
  assert (NEW : forall x y failed, In (x, y) (cands V (removed cur e)) -> (failed = 1 -> (x, y) = (a, b)) -> failed <= 1 -> (failed = 1 -> ~ forall k, k < tri V -> nth k logits None <> None) ->
    always (swept V orig todo (S n) logits t0) (rbind (lift (jit_add_edge (complete_grid V) (map fce cur) nb' comp' e (find_complete_edge x y)))
      (fun x0 => let '(e2k, nb, comp) := x0 in Ret (e2k, nb, comp, buf', plus_failed (plus_failed t0 i) failed, acc + (if find_complete_edge a b =? find_complete_edge x y then 0 else 1), map bit_length ns ++ [bit_length (length (cands V (removed cur e)))])))).
  { intros x y failed I F1 F2 F3. destruct (jit_add_edge_Ok V cur e a b nb' comp' x y) as (nb2 & EA & T2 & LT2 & NB2); auto.
    rewrite EA. cbn [lift rbind always swept]. exists (upd cur e (x, y)), (i + failed), (ns ++ [length (cands V (removed cur e))]).
    split; [repeat (split; auto)|]. split; [now rewrite upd_length|].
    split. { replace (if find_complete_edge a b =? find_complete_edge x y then 0 else 1) with (if edge_dec (a, b) (x, y) then 0 else 1).
      - apply moves_step; auto. intros N J. apply cands_In in I; [|apply removed_in_range, T]. destruct I as (_ & _ & NR). apply NR.
        apply (Permutation_in _ (removed_perm cur e (a, b) NE)) in J. destruct J as [EJ|J]; [congruence|]. apply reach_adj. now left.
      - apply cands_In in I; [|apply removed_in_range, T]. destruct I as (XY & _). destruct (edge_dec (a, b) (x, y)) as [Q|N]; [injection Q as -> ->; now rewrite Nat.eqb_refl|].
        destruct (Nat.eqb_spec (find_complete_edge a b) (find_complete_edge x y)) as [Q|]; [|reflexivity]. exfalso. apply N. apply fce_inj_lt in Q; auto. destruct Q. congruence. }
    split; [unfold plus_failed; cbn [t_calls t_infeasible t_accept t_propose t_accepted t_choices]; f_equal; lia|].
    split. { destruct failed as [|[|failed]]; [destruct (_ =? _); lia| |lia]. injection (F1 eq_refl) as -> ->. rewrite Nat.eqb_refl. lia. }
    split. { intros FI. rewrite (FIN FI). destruct failed as [|[|failed]]; [reflexivity| |lia]. exfalso. now apply (F3 eq_refl). }
    split; [now rewrite map_app|]. split; [rewrite app_length; cbn; lia|]. apply Forall_app. split; [exact FN|]. constructor; [|constructor].
    split; [|apply cands_bound]. destruct (cands V (removed cur e)); [destruct OC|cbn; lia]. }
  apply (choose_counted_always V (removed cur e) w buf' a b logits); auto.
  - intros j q Hj. assert (Hl : j < length (cands V (removed cur e))) by (apply nth_error_Some; congruence).
    assert (NQ : nth_error (firstn (length (cands V (removed cur e))) buf') j = Some (fce q)) by (rewrite FB, nth_error_map, Hj; reflexivity).
    apply nth_error_firstn in NQ. unfold get. now rewrite NQ.
  - intros x y I. apply (NEW x y 0 I); [discriminate|lia|discriminate].
  - assert (KB : forall x y, In (x, y) (cands V (removed cur e)) -> find_complete_edge x y < tri V).
    { intros x y I. unfold cands in I. apply filter_In in I as (I & _). apply (in_map fce) in I. rewrite map_fce_pair_loop in I. apply in_seq in I. lia. }
    destruct (logit_of logits (a, b)) as [r|] eqn:EL.
    + left. exists a, b. split; [exact OC|congruence].
    + right. apply (NEW a b 1 OC); [reflexivity|lia|]. intros _ FI. apply (FI (find_complete_edge a b)); [now apply KB|exact EL].
Qed.

Lemma fold_swept V orig logits t0 order : length logits = tri V -> (forall e, In e order -> e < V - 1) -> NoDup order -> forall n all, swept V orig order n logits t0 all ->
  always (swept V orig [] (n + length order) logits t0) (rfold (counted_step (complete_grid V) logits) order all).
Proof.
  intros LL. induction order as [|e order IH]; intros HO ND n all S0; [|inversion ND as [|? ? NT ND']; subst].
  - cbn. now rewrite Nat.add_0_r.
  - cbn [rfold length]. apply always_bind. eapply always_mono; [|apply (step_swept V orig order); eauto; apply HO; now left].
    intros all' S1. replace (n + S (length order)) with (S n + length order) by lia. apply IH; auto. intros; apply HO; now right.
Qed.

(** ** One call *)
Lemma list_sum_one x : list_sum [x] = x.
Proof. cbn. lia. Qed.

Lemma update_count l : forall c b, counter_update c l b = c b + length (filter (fun x => x =? b) l).
Proof.
  unfold counter_update. induction l as [|x l IH]; intros c b; [cbn; lia|]. cbn [fold_left filter]. rewrite IH. rewrite (Nat.eqb_sym x b). destruct (b =? x); cbn [length]; lia.
Qed.

Lemma digits k b : 1 <= k -> (bit_length k =? b) = (2 ^ b <=? 2 * k) && (k <? 2 ^ b).
Proof.
  intros K. replace (bit_length k) with (S (Nat.log2 k)) by (destruct k; [lia|reflexivity]).
  destruct (Nat.eqb_spec (S (Nat.log2 k)) b) as [<-|N].
  - destruct (Nat.log2_spec k ltac:(lia)) as [L1 L2]. symmetry. apply andb_true_iff. split; [apply Nat.leb_le; rewrite Nat.pow_succ_r'; lia|apply Nat.ltb_lt; exact L2].
  - symmetry. apply andb_false_iff. destruct (Nat.leb_spec (2 ^ b) (2 * k)) as [L1|L1]; [|now left]. destruct (Nat.ltb_spec k (2 ^ b)) as [L2|L2]; [|now right].
    exfalso. destruct b as [|b]; [cbn in L2; lia|]. apply N. f_equal. apply Nat.log2_unique; [lia|]. rewrite Nat.pow_succ_r' in L1. split; [lia|exact L2].
Qed.

Lemma new_edge_dec edges x y : x < y ->
  negb (existsb (fun '(a, b) => ((a =? x) && (b =? y)) || ((a =? y) && (b =? x))) edges) = if in_dec edge_dec (x, y) (map norm edges) then false else true.
Proof.
  intros XY. destruct (in_dec edge_dec (x, y) (map norm edges)) as [I|N].
  - apply negb_false_iff, existsb_exists. apply in_map_iff in I as ([a b] & E & I). exists (a, b). split; [exact I|]. unfold norm in E. cbn in E. inversion E.
    apply orb_true_iff. rewrite !andb_true_iff, !Nat.eqb_eq. lia.
  - apply negb_true_iff, not_true_iff_false. intros EX. apply existsb_exists in EX as ([a b] & I & E). apply N. apply in_map_iff. exists (a, b). split; [|exact I].
    apply orb_true_iff in E. rewrite !andb_true_iff, !Nat.eqb_eq in E. unfold norm. cbn. f_equal; lia.
Qed.

Lemma tallied_call V grid logits edges h t : make_complete_graph V = Ok grid -> spanning_tree V edges -> length logits = length grid -> add_up h t ->
  always (fun '(T, t') => add_up (h ++ [length edges]) t' /\
      (2 <= length edges -> exists a, t_accepted t' = t_accepted t ++ [a] /\ length (new_edges edges T) <= a /\ (new_edges edges T = [] -> a = 0)) /\
      ((forall k, k < length grid -> nth k logits None <> None) -> t_infeasible t' = t_infeasible t))
    (counted_sample_tree grid logits edges t).
Proof.
  intros G T LL (A1 & A2 & A3 & A4 & A5 & choices & A6 & A7 & A8). rewrite make_complete_graph_Ok in G. inversion G; subst grid. clear G.
  assert (LG : length (complete_grid V) = tri V).
  { unfold complete_grid. rewrite ?map_length, ?combine_length, ?seq_length, ?pair_loop_length. lia. }
  rewrite LG in *. unfold counted_sample_tree. destruct (Nat.leb_spec (length edges) 1) as [LE|LE].
  - cbn [always]. split; [|split; [lia|reflexivity]]. unfold add_up. rewrite filter_app. cbn [filter]. replace (2 <=? length edges) with false by (symmetry; apply Nat.leb_gt; lia). rewrite app_nil_r, app_length.
    cbn [t_calls t_infeasible t_accept t_propose t_accepted t_choices length]. split; [lia|]. split; [exact A2|]. split; [exact A3|]. split; [exact A4|]. split; [exact A5|]. exists choices. auto.
  - assert (VE : length edges + 1 = V) by (destruct T; lia). rewrite VE.
    destruct (st_init_Ok V edges T) as (nb & EI & NB). rewrite EI. cbn [lift rbind always].
    intros order PO. apply always_bind. pose proof (rep_init V edges nb T NB) as R0. fold (tri V).
    set (t1 := Tallies (t_calls t + 1) _ _ _ _ _).
    assert (LO : length order = length edges) by (rewrite (Permutation_length PO); apply seq_length).
    eapply always_mono; [|apply (fold_swept V (map norm edges) logits t1 order LL) with (n := 0)].
    + intros [[[[[[e2k nb'] comp] buf] t'] acc] ch] (cur & i & ns & R & LC & (_ & M2 & M3 & M4) & -> & AI & FIN & -> & LN & FN). pose proof R as (T' & LT & -> & _).
      rewrite (st_edges_Ok V cur _ R). cbn [lift rbind].
      assert (LS : length (pair_sort cur) = length edges) by (rewrite (Permutation_length (pair_sort_perm cur)), LC; lia).
      rewrite LS, Nat.eqb_refl. cbn [assert_ lift rbind always]. cbn [Nat.add] in *. split; [|split].
      * unfold add_up. rewrite filter_app. cbn [filter]. replace (2 <=? length edges) with true by (symmetry; apply Nat.leb_le; lia). rewrite app_length.
        unfold plus_failed, t1. cbn [t_calls t_infeasible t_accept t_propose t_accepted t_choices length].
        split; [lia|]. split; [rewrite list_sum_app, list_sum_one; lia|]. split; [apply Forall2_app; [exact A3|constructor; [lia|constructor]]|].
        split; [rewrite list_sum_app, list_sum_one; lia|]. split; [lia|]. exists (choices ++ [ns]). split; [rewrite map_app, A6; cbn; rewrite LN, LO; reflexivity|].
        split. { apply Forall2_app; [exact A7|]. constructor; [|constructor]. replace ((length edges + 1) * length edges / 2) with (tri V); [exact FN|]. unfold tri. rewrite <- VE. do 2 f_equal. lia. }
        intros b. rewrite update_count, A8, concat_app, filter_app, app_length. cbn [concat]. rewrite app_nil_r. f_equal.
        clear - FN. induction ns as [|k ns IH]; [reflexivity|]. inversion FN as [|? ? K1 FN']; subst. cbn [map filter]. rewrite (digits k b) by lia. destruct (_ && _); cbn [length]; rewrite IH; auto.
      * intros _. unfold plus_failed, t1. cbn [t_accepted]. exists acc. split; [reflexivity|].
        assert (LN2 : length (new_edges edges (pair_sort cur)) = length (moved_in (map norm edges) cur)).
        { rewrite <- (moved_perm _ _ _ (pair_sort_perm cur)). unfold new_edges, moved_in. f_equal. apply filter_ext_in. intros [x y] I.
          apply (Permutation_in _ (pair_sort_perm cur)) in I. apply LT in I. apply new_edge_dec. lia. }
        split; [rewrite LN2; exact M2|]. intros NE. rewrite NE in LN2. destruct acc as [|acc]; [reflexivity|]. exfalso. destruct M4 as (p & I & NI); [lia|].
        assert (J : In p (moved_in (map norm edges) cur)). { unfold moved_in. apply filter_In. split; [exact I|]. destruct (in_dec _ _ _); [contradiction|reflexivity]. }
        destruct (moved_in (map norm edges) cur); [destruct J|discriminate].
      * intros FI. unfold plus_failed, t1. cbn [t_infeasible]. rewrite (FIN FI). lia.
    + intros e I. apply (Permutation_in _ PO) in I. apply in_seq in I. lia.
    + eapply Permutation_NoDup; [apply Permutation_sym, PO|apply seq_NoDup].
    + cbn [swept]. exists (map norm edges), 0, []. split; [exact R0|]. split; [rewrite map_length; lia|].
      split. { split; [reflexivity|]. split; [|split; [reflexivity|lia]]. replace (moved_in (map norm edges) (map norm edges)) with (@nil (nat * nat)); [cbn; lia|].
        unfold moved_in. symmetry. assert (G : forall l, incl l (map norm edges) -> filter (fun p => if in_dec edge_dec p (map norm edges) then false else true) l = []).
        { induction l as [|p l IH]; intros IC; [reflexivity|]. cbn [filter]. destruct (in_dec _ _ _) as [_|N]; [|exfalso; apply N, IC; now left]. apply IH. intros q Hq. apply IC. now right. }
        apply G, incl_refl. }
 split; [unfold plus_failed, t1; cbn [t_calls t_infeasible t_accept t_propose t_accepted t_choices]; f_equal; lia|].
      split; [lia|]. split; [reflexivity|]. split; [reflexivity|]. split; [reflexivity|constructor].
Qed.

Lemma nothing_tallied : add_up [] no_tallies.
Proof. unfold add_up, no_tallies. cbn. repeat split; auto. exists []. repeat split; constructor. Qed.

(** ** Timers *)
Open Scope R_scope.
Fixpoint call_size (c : call) : nat := match c with Call _ _ cs _ => S (list_sum (map call_size cs)) end.

Lemma time_app l1 l2 : time_in (l1 ++ l2) = time_in l1 + time_in l2.
Proof. unfold time_in. apply sumf_app. Qed.

Lemma calls_app f cs1 cs2 : calls_of f (cs1 ++ cs2) = calls_of f cs1 ++ calls_of f cs2.
Proof. unfold calls_of. now rewrite flat_map_app, filter_app. Qed.

Lemma calls_one f g a cs b : calls_of f [Call g a cs b] = (if String.eqb f g then [(g, a, b)] else []) ++ calls_of f cs.
Proof. unfold calls_of. cbn [flat_map all_calls]. rewrite app_nil_r. cbn [filter fst]. rewrite String.eqb_sym. destruct (String.eqb f g); reflexivity. Qed.

Definition timed (f : string) (cs : list call) (t : timer) : timer :=
  Timer (tm_elapsed t + time_in (calls_of f cs)) (tm_count t + length (calls_of f cs)).

Lemma timed_calls n : forall cs, (list_sum (map call_size cs) <= n)%nat -> forall ts f, run_calls cs ts f = timed f cs (ts f).
Proof.
  induction n as [|n IH]; intros cs Hn ts f.
  - destruct cs as [|[g a cs' b] cs]; [|cbn in Hn; lia]. unfold timed. cbn. rewrite Nat.add_0_r, Rplus_0_r. now destruct (ts f).
  - revert ts Hn. induction cs as [|[g a cs' b] cs IHc]; intros ts Hn.
    { unfold timed. cbn. rewrite Nat.add_0_r, Rplus_0_r. now destruct (ts f). }
    cbn [map list_sum fold_right call_size] in Hn. change (fold_right Nat.add 0%nat (map call_size cs)) with (list_sum (map call_size cs)) in Hn.
    unfold run_calls. cbn [fold_left run_call]. change (fold_left (fun ts c => run_call c ts) cs ?x) with (run_calls cs x).
    rewrite IHc by lia. change (fold_left (fun ts c => run_call c ts) cs' ?x) with (run_calls cs' x).
    change (Call g a cs' b :: cs) with ([Call g a cs' b] ++ cs). unfold timed. rewrite calls_app, time_app, app_length.
    rewrite calls_one, time_app, app_length. assert (IN : run_calls cs' (at_timer ts g (timer_enter a)) f = timed f cs' (at_timer ts g (timer_enter a) f)) by (apply IH; lia).
    set (ts' := run_calls cs' _) in *. unfold at_timer. rewrite IN. unfold timed, at_timer. destruct (String.eqb f g).
    + unfold timer_enter, timer_exit. cbn [tm_elapsed tm_count length]. f_equal; [|lia]. change (time_in [(g, a, b)]) with (b - a + 0). lra.
    + cbn [tm_elapsed tm_count length]. change (time_in []) with 0. f_equal; [lra|lia].
Qed.

Lemma timers_add_up cs ts f : run_calls cs ts f = Timer (tm_elapsed (ts f) + time_in (calls_of f cs)) (tm_count (ts f) + length (calls_of f cs)).
Proof. exact (timed_calls _ cs (le_n _) ts f). Qed.

(** While a call is running its timer shows minus the time at which it started. *)
Lemma running_negative (now : R) : 0 < now -> tm_elapsed (at_timer (fun _ => new_timer) "f"%string (timer_enter now) "f"%string) < 0.
Proof. intros H. cbn. lra. Qed.
