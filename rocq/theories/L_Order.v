(** order_vertices: a permutation that keeps every branch contiguous. *)
From Coq Require Import List Arith Lia Bool Permutation.
From Verif Require Import Base L_Base Spec_Graph L_Graph M_Structure L_MakeTree L_Program L_Center L_JitSet L_RemoveEdge L_SampleTree L_Rose L_PrintTree.
Import ListNotations.

(** the elements of [s] stand next to each other in [o] *)
Definition block (o s : list nat) : Prop := exists o1 o2 o3, o = o1 ++ o2 ++ o3 /\ Permutation o2 s.

Lemma block_rev : forall o s, block o s -> block (rev o) s.
Proof.
  intros o s (o1 & o2 & o3 & -> & P). exists (rev o3), (rev o2), (rev o1). split.
  - rewrite !rev_app_distr. now rewrite app_assoc.
  - rewrite <- P. symmetry. apply Permutation_rev.
Qed.
Lemma block_app_l : forall o s x, block o s -> block (x ++ o) s.
Proof. intros o s x (o1 & o2 & o3 & -> & P). exists (x ++ o1), o2, o3. now rewrite <- app_assoc. Qed.
Lemma block_app_r : forall o s x, block o s -> block (o ++ x) s.
Proof. intros o s x (o1 & o2 & o3 & -> & P). exists o1, o2, (o3 ++ x). now rewrite <- !app_assoc. Qed.
Lemma block_all : forall o s, Permutation o s -> block o s.
Proof. intros. exists [], o, []. rewrite app_nil_r. auto. Qed.

Lemma list_index_Ok : forall l x, In x l -> exists i, list_index l x = Ok i.
Proof.
  induction l; intros x I; [destruct I|]. simpl. destruct (Nat.eqb_spec a x); [eauto|].
  destruct I as [|I]; [congruence|]. destruct (IHl _ I) as (i & ->). simpl. eauto.
Qed.

Lemma parts_insert_perm : forall p l, Permutation (parts_insert p l) (p :: l).
Proof.
  induction l; simpl; auto. destruct (length (snd p) <=? length (snd a)); auto.
  rewrite IHl. apply perm_swap.
Qed.
Lemma parts_sort_perm : forall l, Permutation (parts_sort l) l.
Proof. induction l; simpl; auto. rewrite parts_insert_perm. auto. Qed.

Lemma pack_fold : forall ps lhs rhs, (forall v2 p, In (v2, p) ps -> In v2 p) ->
  exists lhs' rhs', foldM pack_part ps (lhs, rhs) = Ok (lhs', rhs') /\
    Permutation (lhs' ++ rhs') (lhs ++ rhs ++ concat (map snd ps)) /\
    (forall s, block lhs s -> block lhs' s) /\ (forall s, block rhs s -> block rhs' s) /\
    (forall v2 p s, In (v2, p) ps -> block p s -> block lhs' s \/ block rhs' s).
Proof.
  induction ps as [|[v2 part] ps IH]; intros lhs rhs H.
  - exists lhs, rhs. simpl. rewrite app_nil_r. split; auto. repeat split; auto. intros ? ? ? [].
  - destruct (list_index_Ok part v2) as (i & Ei). { apply H. now left. }
    assert (HP : forall p0, p0 = part \/ p0 = rev part -> Permutation p0 part /\ (forall s, block part s -> block p0 s)).
    { intros p0 [->| ->]; split; auto. symmetry. apply Permutation_rev. intros; now apply block_rev. }
    simpl foldM. rewrite Ei. cbn [bind]. destruct (length lhs <? length rhs).
    + set (q := if 2 * i + 1 <? length part then rev part else part).
      destruct (HP q) as [Pq Bq]. { unfold q. destruct (_ <? _); auto. }
      cbn [bind]. destruct (IH (q ++ lhs) rhs) as (l' & r' & E & P & B1 & B2 & B3). { intros; eapply H; right; eauto. }
      exists l', r'. split; auto. split; [|split; [|split]].
      * rewrite P. simpl. rewrite Pq. rewrite <- app_assoc. rewrite Permutation_app_comm. rewrite <- !app_assoc.
        apply Permutation_app_head. apply Permutation_app_head. apply Permutation_app_comm.
      * intros s B. apply B1. now apply block_app_l.
      * intros s B. now apply B2.
      * intros w p s [X|I] B.
        -- inversion X; subst. left. apply B1. apply block_app_r. auto.
        -- eapply B3; eauto.
    + set (q := if length part <? 2 * i + 1 then rev part else part).
      destruct (HP q) as [Pq Bq]. { unfold q. destruct (_ <? _); auto. }
      cbn [bind]. destruct (IH lhs (rhs ++ q)) as (l' & r' & E & P & B1 & B2 & B3). { intros; eapply H; right; eauto. }
      exists l', r'. split; auto. split; [|split; [|split]].
      * rewrite P. simpl. rewrite Pq. now rewrite <- app_assoc.
      * intros s B. now apply B1.
      * intros s B. apply B2. now apply block_app_r.
      * intros w p s [X|I] B.
        -- inversion X; subst. right. apply B2. apply block_app_l. auto.
        -- eapply B3; eauto.
Qed.

Definition ord (orders : list (option (list nat))) (n : nat) : list nat :=
  match nth n orders None with Some p => p | None => [] end.
Definition has (orders : list (option (list nat))) (n : nat) : bool :=
  match nth n orders None with Some p => true | None => false end.

Lemma gather_Ok : forall orders ns, (forall n, In n ns -> n < length orders) ->
  gather_parts orders ns = Ok (map (fun n => (n, ord orders n)) (filter (has orders) ns)).
Proof.
  induction ns; intros; simpl; auto. rewrite (get_Ok _ _ _ _ None) by (apply H; now left). cbn [bind].
  rewrite IHns by (intros; apply H; now right). cbn [bind]. unfold has at 2, ord at 2. unfold has, ord.
  destruct (nth a orders None) eqn:E; simpl; auto. now rewrite E.
Qed.

Lemma first_unseen_Ok : forall seen ns, (forall n, In n ns -> n < length seen) ->
  first_unseen seen ns = Ok (hd_error (filter (fun n => negb (nth n seen false)) ns)).
Proof.
  induction ns; intros; simpl; auto. rewrite (get_Ok _ _ _ _ false) by (apply H; now left). cbn [bind].
  destruct (nth a seen false); simpl; auto. apply IHns. intros; apply H; now right.
Qed.

Section Rooted.
Variables (V : nat) (es : list edge) (r : nat) (par dep : nat -> nat).
Hypothesis RT : rooted V es r par dep.
Variable nbr : nat -> list nat.
Hypothesis NBN : forall v, v < V -> NoDup (nbr v).
Hypothesis NBA : forall v w, v < V -> (In w (nbr v) <-> adj es v w).

Notation ch := (ch r par nbr).

Lemma chI : forall v c, v < V -> (In c (ch v) <-> c < V /\ c <> r /\ par c = v).
Proof.
  intros v c Hv. unfold L_PrintTree.ch. rewrite filter_In, NBA, andb_true_iff, negb_true_iff, Nat.eqb_neq, Nat.eqb_eq by auto.
  rewrite (rt_adj _ _ _ _ _ RT). intuition.
Qed.
Lemma chN : forall v, v < V -> NoDup (ch v).
Proof. intros. apply NoDup_filter. now apply NBN. Qed.

Notation ok := (rose_ok V ch).

Definition good (t : rose) (o : list nat) : Prop :=
  Permutation o (flatten t) /\ forall s, subtree s t -> block o (flatten s).

Lemma hd_filter : forall (f : nat -> bool) l1 c l2, (forall x, In x l1 -> f x = false) -> f c = true ->
  hd_error (filter f (l1 ++ c :: l2)) = Some c.
Proof. induction l1; simpl; intros. now rewrite H0. rewrite H by now left. apply IHl1; auto. Qed.

Lemma hd_filter2 : forall (f g : nat -> bool) l, (forall x, In x l -> f x = true -> g x = true) ->
  hd_error (filter f l) = hd_error (filter f (filter g l)).
Proof.
  induction l; simpl; intros; auto. destruct (f a) eqn:E.
  - rewrite H; simpl; auto. now rewrite E.
  - destruct (g a); simpl; rewrite ?E; apply IHl; intros; apply H; auto.
Qed.

Lemma nth_upd_eq : forall A (l : list A) i x d, i < length l -> nth i (upd l i x) d = x.
Proof. induction l; destruct i; simpl; intros; auto; try lia. apply IHl. lia. Qed.
Lemma nth_upd_neq : forall A (l : list A) i j x d, i <> j -> nth j (upd l i x) d = nth j l d.
Proof. induction l; destruct i, j; simpl; intros; auto; try lia. Qed.

Lemma order_rose : forall t, ok t -> forall below seen orders fuel,
  length seen = V -> length orders = V ->
  nth (label t) seen false = true ->
  (forall u, In u (flatten t) -> u <> label t -> nth u seen false = false) ->
  (label t <> r -> nth (par (label t)) seen false = true /\ nth (par (label t)) orders None = None) ->
  (forall u, In u (flatten t) -> nth u orders None = None) ->
  exists seen' orders', length seen' = V /\ length orders' = V /\
    (forall u, u < V -> nth u seen' false = true <-> (nth u seen false = true \/ In u (flatten t))) /\
    (forall u, ~ In u (flatten t) -> nth u orders' None = nth u orders None) /\
    (exists o, nth (label t) orders' None = Some o /\ good t o) /\
    order_loop (2 * size t - 1 + fuel) nbr (label t :: below) seen orders =
    order_loop fuel nbr below seen' orders'.
Proof.
  induction t using rose_ind'. intros O below seen0 orders0 fuel0 LS0 LO0 IL0 UN0 PS0 ON0. pose proof O as O'.
  inversion O as [v' cs' Hv EC OC]; subst v' cs'. simpl label in *.
  pose proof (rose_NoDup V es r par dep RT ch chI chN _ O') as ND0. simpl in ND0.
  assert (Nv : ~ In v (flat_map flatten cs)) by (inversion ND0; auto).
  assert (NDc : NoDup (flat_map flatten cs)) by (inversion ND0; auto).
  assert (RNG : forall n, In n (nbr v) -> n < V).
  { intros n I. apply NBA in I; auto. apply (rt_adj _ _ _ _ _ RT) in I. tauto. }
  assert (G : forall rem done, cs = done ++ rem -> forall seen orders,
    length seen = V -> length orders = V ->
    nth v seen false = true -> (v <> r -> nth (par v) seen false = true /\ nth (par v) orders None = None) ->
    (forall c, In c done -> nth (label c) seen false = true /\ exists o, nth (label c) orders None = Some o /\ good c o) ->
    (forall u, In u (flat_map flatten rem) -> nth u seen false = false /\ nth u orders None = None) ->
    nth v orders None = None ->
    exists seen' orders', length seen' = V /\ length orders' = V /\
      (forall u, u < V -> nth u seen' false = true <-> (nth u seen false = true \/ In u (v :: flat_map flatten rem))) /\
      (forall u, u <> v -> ~ In u (flat_map flatten rem) -> nth u orders' None = nth u orders None) /\
      (exists o, nth v orders' None = Some o /\ good (Node v cs) o) /\
      order_loop (2 * list_sum (map size rem) + 1 + fuel0) nbr (v :: below) seen orders =
      order_loop fuel0 nbr below seen' orders').
  { induction rem as [|c rem IH]; intros done E seen orders LS LO IV PS DS UN OV.
    - rewrite app_nil_r in E. subst done. simpl list_sum. simpl (2 * 0 + 1 + fuel0). cbn [order_loop].
      rewrite first_unseen_Ok by (intros; rewrite LS; auto). cbn [bind].
      assert (F : filter (fun n => negb (nth n seen false)) (nbr v) = []).
      { destruct (filter _ _) as [|n l] eqn:F; auto. exfalso.
        assert (I : In n (filter (fun n => negb (nth n seen false)) (nbr v))) by (rewrite F; now left).
        apply filter_In in I. destruct I as [I U]. apply NBA in I; auto.
        apply negb_true_iff in U. apply (rt_adj _ _ _ _ _ RT) in I. destruct I as (_ & Hn & [[N P]|[N P]]).
        - subst n. apply PS in N. destruct N. congruence.
        - assert (J : In n (ch v)) by (apply chI; auto). rewrite <- EC in J.
          apply in_map_iff in J. destruct J as (k & <- & K). apply DS in K. destruct K. congruence. }
      rewrite F. cbn [hd_error]. rewrite gather_Ok by (intros; rewrite LO; auto). cbn [bind].
      assert (FH : filter (has orders) (nbr v) = map label cs).
      { rewrite EC. unfold L_PrintTree.ch. apply filter_ext_in. intros n I.
        assert (A : adj es v n) by (apply NBA; auto). apply (rt_adj _ _ _ _ _ RT) in A. destruct A as (_ & Hn & [[N P]|[N P]]).
        - subst n. unfold has. destruct (PS N) as [_ ->]. symmetry. apply andb_false_iff. right. apply Nat.eqb_neq.
          intros X. destruct (Nat.eq_dec (par v) r) as [Y|Y].
          + rewrite Y in X. rewrite (rt_parr _ _ _ _ _ RT) in X. congruence.
          + pose proof (par_dep _ _ _ _ _ RT v Hv N). pose proof (par_dep _ _ _ _ _ RT (par v) Hn Y). rewrite X in *. lia.
        - assert (J : In n (ch v)) by (apply chI; auto). rewrite <- EC in J.
          apply in_map_iff in J. destruct J as (k & <- & K). apply DS in K. destruct K as (_ & o & Eo & _).
          unfold has. rewrite Eo, P, Nat.eqb_refl. apply Nat.eqb_neq in N. now rewrite N. }
      rewrite FH, map_map.
      set (parts := map (fun c => (label c, ord orders (label c))) cs).
      assert (PI : forall v2 p, In (v2, p) parts -> exists c, In c cs /\ v2 = label c /\ good c p).
      { intros v2 p I. apply in_map_iff in I. destruct I as (c & X & Ic). inversion X; subst. exists c. split; auto. split; auto.
        destruct (DS c Ic) as (_ & o & Eo & Go). unfold ord. now rewrite Eo. }
      destruct (pack_fold (parts_sort parts) [] []) as (lhs & rhs & EF & PM & _ & _ & BL).
      { intros v2 p I. apply (Permutation_in _ (parts_sort_perm parts)) in I. apply PI in I. destruct I as (c & Ic & -> & Gc & _).
        apply (Permutation_in _ (Permutation_sym Gc)). apply label_flatten. }
      rewrite EF. cbn [bind]. rewrite put_Ok by lia. cbn [bind].
      exists seen, (upd orders v (Some (lhs ++ [v] ++ rhs))). rewrite upd_length. split; auto. split; auto.
      split; [|split; [|split]].
      + intros u Hu. simpl. split; auto. intros [X|[->|[]]]; auto.
      + intros u Nu _. now rewrite nth_upd_neq by auto.
      + exists (lhs ++ [v] ++ rhs). split. { apply nth_upd_eq. lia. }
        split.
        * simpl. rewrite <- Permutation_middle. constructor. rewrite PM. simpl.
          transitivity (concat (map snd parts)).
          -- rewrite <- !flat_map_concat_map. apply Permutation_flat_map, parts_sort_perm.
          -- unfold parts. rewrite map_map. simpl. clear - DS.
             induction cs as [|c cs IHc]; simpl; auto. apply Permutation_app.
             ++ destruct (DS c) as (_ & o & Eo & Go & _); [now left|]. unfold ord. now rewrite Eo.
             ++ apply IHc. intros; apply DS; now right.
        * intros s Sb. assert (SB2 : s = Node v cs \/ exists c, In c cs /\ subtree s c) by (inversion Sb; subst; [now left|right; eauto]).
          clear Sb. destruct SB2 as [->|Sb].
          -- apply block_all. simpl. rewrite <- Permutation_middle. constructor. rewrite PM. simpl.
             transitivity (concat (map snd parts)).
             ++ rewrite <- !flat_map_concat_map. apply Permutation_flat_map, parts_sort_perm.
             ++ unfold parts. rewrite map_map. simpl. clear - DS.
                induction cs as [|c cs IHc]; simpl; auto. apply Permutation_app.
                ** destruct (DS c) as (_ & o & Eo & Go & _); [now left|]. unfold ord. now rewrite Eo.
                ** apply IHc. intros; apply DS; now right.
          -- destruct Sb as (c & Ic & Sc). destruct (DS c Ic) as (_ & o & Eo & Go & Bo).
             assert (I : In (label c, o) (parts_sort parts)).
             { apply (Permutation_in _ (Permutation_sym (parts_sort_perm parts))). apply in_map_iff. exists c. split; auto.
               unfold ord. now rewrite Eo. }
             destruct (BL _ _ (flatten s) I (Bo s Sc)) as [B|B].
             ++ now apply block_app_r.
             ++ now apply block_app_l, block_app_l.
      + reflexivity.
    - assert (Ic : In c cs) by (rewrite E, !in_app_iff; simpl; auto).
      pose proof (OC c Ic) as Oc. pose proof (rose_kid V r par ch chI v cs c O' Ic) as (Hc & Nc & Pc).
      assert (NDf : NoDup (flat_map flatten (c :: rem))).
      { rewrite E, flat_map_app in NDc. apply NoDup_app_inv in NDc. tauto. }
      simpl in NDf. apply NoDup_app_inv in NDf. destruct NDf as (ND1 & ND2 & ND3).
      simpl in UN.
      simpl map. simpl list_sum.
      replace (2 * (size c + list_sum (map size rem)) + 1 + fuel0)
        with (S (2 * size c - 1 + (2 * list_sum (map size rem) + 1 + fuel0))) by (destruct c; simpl; lia).
      cbn [order_loop]. rewrite first_unseen_Ok by (intros; rewrite LS; auto). cbn [bind].
      assert (F : hd_error (filter (fun n => negb (nth n seen false)) (nbr v)) = Some (label c)).
      { rewrite (hd_filter2 _ (fun c => negb (c =? r) && (par c =? v))).
        - fold (ch v). rewrite <- EC, E, map_app. simpl. apply hd_filter.
          + intros x I. apply in_map_iff in I. destruct I as (k & <- & K). apply DS in K. destruct K as [-> _]. auto.
          + destruct (UN (label c)) as [-> _]; auto. apply in_or_app. left. apply label_flatten.
        - intros x I U. apply negb_true_iff in U. apply NBA in I; auto. apply (rt_adj _ _ _ _ _ RT) in I.
          destruct I as (_ & Hx & [[N P]|[N P]]).
          + subst x. apply PS in N. destruct N. congruence.
          + rewrite P, Nat.eqb_refl. apply Nat.eqb_neq in N. now rewrite N. }
      rewrite F. rewrite put_Ok by lia. cbn [bind].
      assert (Vc : v <> label c). { intros ->. apply Nv. apply in_flat_map. exists c. split; auto. apply label_flatten. }
      assert (Vf : ~ In v (flatten c)). { intros X. apply Nv. apply in_flat_map. exists c. auto. }
      destruct (H c Ic Oc (v :: below) (upd seen (label c) true) orders (2 * list_sum (map size rem) + 1 + fuel0))
        as (seen1 & orders1 & LS1 & LO1 & S1 & O1 & (oc & Eoc & Goc) & E1).
      + now rewrite upd_length.
      + auto.
      + apply nth_upd_eq. lia.
      + intros u Iu Nu. rewrite nth_upd_neq by auto. apply UN. apply in_or_app; auto.
      + intros _. rewrite Pc. rewrite nth_upd_neq by auto. auto.
      + intros u Iu. apply UN. apply in_or_app; auto.
      + rewrite E1. clear E1.
        assert (S2 : forall u, u < V -> (nth u seen1 false = true <-> nth u seen false = true \/ In u (flatten c))).
        { intros u Hu. rewrite S1 by auto. destruct (Nat.eq_dec u (label c)) as [->|Nu].
          - pose proof (label_flatten c) as LF. clear - LF. tauto.
          - now rewrite nth_upd_neq by auto. }
        assert (PV : v <> r -> par v < V). { intros. now apply (rt_par _ _ _ _ _ RT). }
        assert (PF : v <> r -> ~ In (par v) (flatten c)).
        { intros N X. assert (par v = label c \/ par v <> label c) as [Y|Y] by lia.
          - pose proof (par_dep _ _ _ _ _ RT v Hv N). pose proof (par_dep _ _ _ _ _ RT (label c) Hc Nc).
            rewrite Y in H0. rewrite Pc in H1. lia.
          - destruct (UN (par v)) as [Z _]. apply in_or_app; auto. apply PS in N. destruct N; congruence. }
        destruct (IH (done ++ [c])) with (seen := seen1) (orders := orders1)
          as (seen2 & orders2 & LS2 & LO2 & T2 & O2 & Q2 & E2); auto.
        * rewrite E, <- app_assoc. reflexivity.
        * apply S2; auto.
        * intros N. split. apply S2; auto. left. now apply PS. rewrite O1 by auto. now apply PS.
        * intros k K. apply in_app_or in K. destruct K as [K|[<-|[]]].
          -- destruct (DS k K) as (Sk & o & Eo & Go).
             assert (Ik : In k cs) by (rewrite E, in_app_iff; auto).
             pose proof (rose_kid V r par ch chI v cs k O' Ik) as (Hk & _).
             split. apply S2; auto. exists o. split; auto. rewrite O1; auto.
             intros X. destruct (UN (label k)) as [Z _]. apply in_or_app; auto. congruence.
          -- split; [apply S2; auto; right; apply label_flatten|]. exists oc. auto.
        * intros u Iu. assert (NC : ~ In u (flatten c)) by (intros X; apply (ND3 u); auto).
          destruct (UN u) as [U1 U2]. apply in_or_app; auto. split.
          -- destruct (nth u seen1 false) eqn:Z; auto. exfalso. apply S2 in Z. destruct Z; [congruence|auto].
             apply in_flat_map in Iu. destruct Iu as (k & Kk & Ku).
             eapply (rose_ok_lt V ch); [|exact Ku]. apply OC. rewrite E, in_app_iff. simpl. auto.
          -- now rewrite O1.
        * now rewrite O1.
        * exists seen2, orders2. split; auto. split; auto. split; [|split; [|split]]; auto.
          -- intros u Hu. rewrite T2, S2 by auto. simpl. rewrite in_app_iff. clear. tauto.
          -- intros u Nu X. simpl in X. rewrite in_app_iff in X. rewrite O2, O1; auto. }
  destruct (G cs [] eq_refl) with (seen := seen0) (orders := orders0) as (seen' & orders' & L1 & L2 & S' & O1' & Q & E'); auto.
  - intros c [].
  - intros u Iu. split. apply UN0. simpl; auto. intros ->; auto. apply ON0. simpl; auto.
  - apply ON0. simpl; auto.
  - exists seen', orders'. split; auto. split; auto. split; [exact S'|]. split; [|split; auto].
    + intros u X. apply O1'; intros Y; apply X; simpl; auto.
    + simpl size. replace (2 * S (list_sum (map size cs)) - 1 + fuel0) with
      (2 * list_sum (map size cs) + 1 + fuel0) by lia. exact E'.
Qed.

(** the component cut off from the root by removing the edge above [x] is the
    part of the tree below [x] *)
Lemma branch_component : forall t s x rest, spanning_tree V es -> rose_ok V ch t -> label t = r -> subtree s t -> label s = x -> x <> r ->
  (Permutation es ((x, par x) :: rest) \/ Permutation es ((par x, x) :: rest)) ->
  forall u, u < V -> (In u (flatten s) <-> ~ reach rest r u).
Proof.
  intros t s x rest T O L SB LS Nx PM.
  assert (Os : rose_ok V ch s) by (eapply rose_subtree_ok; eauto).
  assert (Hx : x < V). { rewrite <- LS. eapply rose_ok_lt; [exact Os|apply label_flatten]. }
  destruct (rt_par _ _ _ _ _ RT x Hx Nx) as (Hp & Dp & Ap).
  assert (INC : forall a b, adj rest a b -> adj es a b).
  { intros a b [A|A]; [left|right]; destruct PM as [P|P]; apply (Permutation_in _ (Permutation_sym P)); now right. }
  assert (NE : ~ adj rest x (par x)).
  { intros A. pose proof (rt_nodup _ _ _ _ _ RT) as ND.
    assert (ND' : NoDup (map norm ((x, par x) :: rest))).
    { destruct PM as [P|P].
      - eapply Permutation_NoDup; [apply Permutation_map; exact P|exact ND].
      - assert (Q : map norm ((x, par x) :: rest) = map norm ((par x, x) :: rest)).
        { simpl. f_equal. unfold norm. simpl. destruct (Nat.ltb_spec x (par x)), (Nat.ltb_spec (par x) x); auto; try lia; f_equal; lia. }
        rewrite Q. eapply Permutation_NoDup; [apply Permutation_map; exact P|exact ND]. }
    simpl in ND'. inversion ND'; subst. apply H1. destruct A as [A|A]; apply (in_map norm) in A; auto.
    assert (Q : norm (label s, par (label s)) = norm (par (label s), label s)).
    { unfold norm. simpl. destruct (Nat.ltb_spec (label s) (par (label s))), (Nat.ltb_spec (par (label s)) (label s)); auto; try lia; f_equal; lia. }
    now rewrite Q. }
  assert (CL : forall u w, adj rest u w -> In u (flatten s) -> In w (flatten s)).
  { intros u w A I. pose proof (INC _ _ A) as A'. apply (rt_adj _ _ _ _ _ RT) in A'. destruct A' as (Hu & Hw & [[N P]|[N P]]).
    - subst w. destruct (Nat.eq_dec u x) as [->|Nu]; [contradiction|].
      eapply rose_par_in; eauto using chI. congruence.
    - eapply rose_closed; eauto using chI. }
  assert (CR : forall n u w, walk rest u w n -> In u (flatten s) -> In w (flatten s)).
  { intros n u w W. induction W; auto. intros. apply IHW. eapply CL; eauto. }
  assert (RS : ~ In r (flatten s)).
  { intros X. destruct (rose_anc V es r par dep RT ch chI s Os r X) as [D _].
    rewrite LS, (rt_dep _ _ _ _ _ RT) in D. pose proof (par_dep _ _ _ _ _ RT x Hx Nx). lia. }
  assert (XS : In x (flatten s)) by (rewrite <- LS; apply label_flatten).
  assert (TC : forall u, u < V -> reach rest x u \/ reach rest (par x) u).
  { intros u Hu. destruct PM as [P|P].
    - pose proof (two_comps V x (par x) rest (spanning_tree_perm _ _ _ P T) u Hu). tauto.
    - pose proof (two_comps V (par x) x rest (spanning_tree_perm _ _ _ P T) u Hu). tauto. }
  intros u Hu. split.
  - intros I R. apply reach_sym in R. destruct R as [n W]. apply RS. eapply CR; eauto.
  - intros NR. destruct (TC u Hu) as [[n W]|W]; [eapply CR; eauto|]. exfalso. apply NR.
    destruct (TC r (rt_root _ _ _ _ _ RT)) as [[n W']|W']; [exfalso; apply RS; eapply CR; eauto|].
    eapply reach_trans; [apply reach_sym; exact W'|exact W].
Qed.
End Rooted.

Lemma invert_Ok : forall l i order, NoDup l -> (forall v, In v l -> v < length order) ->
  exists order', invert l i order = Ok order' /\ length order' = length order /\
    (forall k v, nth_error l k = Some v -> nth v order' None = Some (i + k)) /\
    (forall v, ~ In v l -> nth v order' None = nth v order None).
Proof.
  induction l; intros i order ND LT.
  - exists order. simpl. repeat split; auto. intros [|k] v; discriminate.
  - inversion ND; subst. simpl. rewrite put_Ok by (apply LT; now left). cbn [bind].
    destruct (IHl (S i) (upd order a (Some i))) as (o' & E & LN & A & B); auto.
    { intros. rewrite upd_length. apply LT. now right. }
    exists o'. rewrite upd_length in LN. split; auto. split; auto. split.
    + intros [|k] v E'; simpl in E'.
      * inversion E'; subst. rewrite B by auto. rewrite nth_upd_eq by (apply LT; now left). f_equal. lia.
      * rewrite (A _ _ E'). f_equal. lia.
    + intros v N. simpl in N. rewrite B by tauto. apply nth_upd_neq. intuition.
Qed.

Lemma C11_proof : forall V edges iter, spanning_tree V edges -> (forall v s, NoDup s -> Permutation (iter v s) s) ->
  exists order order_inv c, order_vertices iter edges = Ok (map Some order, order_inv) /\
    Permutation order (seq 0 V) /\ Permutation order_inv (seq 0 V) /\
    (forall i v, nth_error order_inv i = Some v <-> nth_error order v = Some i) /\
    center V edges c /\
    (forall e rest, Permutation edges (e :: rest) ->
       exists o1 o2 o3, order_inv = o1 ++ o2 ++ o3 /\ forall u, u < V -> (In u o2 <-> ~ reach rest c u)).
Proof.
  intros V edges iter T HI. destruct (find_center_Ok V edges T) as (c & EC & CC).
  assert (Hc : c < V) by (destruct CC; auto).
  destruct (tree_rooted V edges c T Hc) as (par & dep & RT).
  assert (LV : length edges + 1 = V) by (destruct T; lia).
  destruct (build_neighbors_ok V edges) as (nb & EN & NB). { apply T. }
  unfold order_vertices. rewrite EC. cbn [bind]. rewrite LV, EN. cbn [bind].
  rewrite put_Ok by (rewrite repeat_length; auto). cbn [bind].
  set (nbr := fun v => iter v (nth v nb [])).
  assert (NBN : forall v, v < V -> NoDup (nbr v)).
  { intros v Hv. unfold nbr. destruct NB as [LN NB]. destruct (NB v) as [SS _].
    eapply Permutation_NoDup; [symmetry; apply HI|]; now apply ssorted_NoDup. }
  assert (NBA : forall v w, v < V -> (In w (nbr v) <-> adj edges v w)).
  { intros v w Hv. unfold nbr. destruct NB as [LN NB]. destruct (NB v) as [SS A].
    rewrite <- A by auto. apply ssorted_NoDup in SS. split; apply Permutation_in; [|symmetry]; auto. }
  destruct (rose_exists V edges c par dep RT (ch c par nbr) (chI V edges c par dep RT nbr NBA) c Hc) as (t & O & L).
  pose proof (rose_root_perm V edges c par dep RT _ (chI V edges c par dep RT nbr NBA) (chN V c par nbr NBN) t O L) as PM.
  pose proof (rose_size V edges c par dep RT _ (chI V edges c par dep RT nbr NBA) (chN V c par nbr NBN) t O L) as SZ.
  assert (NR : forall A u (x : A), nth u (repeat x V) x = x) by (intros; apply nth_repeat).
  destruct (order_rose V edges c par dep RT nbr NBN NBA t O [] (upd (repeat false V) c true) (repeat None V) 2)
    as (seen' & orders' & LS & LO & S' & O' & (o & Eo & (Po & Bo)) & E).
  - now rewrite upd_length, repeat_length.
  - now rewrite repeat_length.
  - rewrite L. apply nth_upd_eq. now rewrite repeat_length.
  - intros u _ N. rewrite nth_upd_neq by congruence. apply NR.
  - congruence.
  - intros. apply NR.
  - replace (2 * V + 1) with (2 * size t - 1 + 2) by lia. rewrite L in E. fold nbr. rewrite E. cbn [order_loop bind].
    rewrite L in Eo. rewrite (get_Ok _ _ _ _ None) by lia. cbn [bind]. rewrite Eo.
    assert (PO : Permutation o (seq 0 V)) by (etransitivity; eauto).
    assert (ND : NoDup o) by (eapply Permutation_NoDup; [symmetry; exact PO|apply seq_NoDup]).
    assert (IO : forall v, In v o <-> v < V).
    { intros v. rewrite (Permutation_in' eq_refl PO). rewrite in_seq. lia. }
    destruct (invert_Ok o 0 (repeat None V) ND) as (order' & EI & LI & AI & _).
    { intros v I. rewrite repeat_length. now apply IO. }
    rewrite EI. cbn [bind]. rewrite repeat_length in LI.
    assert (OL : exists order, order' = map Some order /\ forall v, v < V -> exists k, nth_error order v = Some k /\ nth_error o k = Some v).
    { exists (map (fun x => match x with Some k => k | None => 0 end) order').
      assert (Z : forall v, v < V -> exists k, nth_error order' v = Some (Some k) /\ nth_error o k = Some v).
      { intros v Hv. apply IO in Hv. apply In_nth_error in Hv. destruct Hv as [k Ek]. exists k. split; auto.
        pose proof (AI _ _ Ek) as Q. simpl in Q.
        assert (v < V) by (apply IO; eapply nth_error_In; eauto).
        rewrite (nth_error_nth' _ None) by lia. now rewrite Q. }
      split.
      - rewrite map_map. rewrite <- (map_id order') at 1. apply map_ext_in. intros x I.
        apply In_nth_error in I. destruct I as [v Ev]. assert (v < V) by (rewrite <- LI; apply nth_error_Some; congruence).
        destruct (Z v H) as (k & E1 & _). rewrite Ev in E1. inversion E1. reflexivity.
      - intros v Hv. destruct (Z v Hv) as (k & E1 & E2). exists k. split; auto. now rewrite nth_error_map, E1. }
    destruct OL as (order & -> & OK). rewrite map_length in LI.
    assert (LO' : length o = V) by (rewrite (Permutation_length PO); apply seq_length).
    assert (INV : forall i v, nth_error o i = Some v <-> nth_error order v = Some i).
    { intros i v. split.
      - intros Ei. assert (Hv : v < V) by (apply IO; eapply nth_error_In; eauto).
        destruct (OK v Hv) as (k & E1 & E2). rewrite E1. f_equal. symmetry. rewrite NoDup_nth_error in ND. apply ND.
        apply nth_error_Some; congruence. congruence.
      - intros Ev. assert (Hv : v < V) by (rewrite <- LI; apply nth_error_Some; congruence).
        destruct (OK v Hv) as (k & E1 & E2). congruence. }
    exists order, o, c. split; auto. split; [|split; [|split; [|split]]]; auto.
    + apply NoDup_Permutation; [|apply seq_NoDup|].
      * apply NoDup_nth_error. intros i j Hi EQ. destruct (nth_error order i) as [k|] eqn:E1; [|apply nth_error_Some in Hi; congruence].
        apply INV in E1. symmetry in EQ. apply INV in EQ. congruence.
      * intros x. rewrite in_seq. split.
        -- intros I. apply In_nth_error in I. destruct I as [v Ev]. apply INV in Ev.
           assert (x < length o) by (apply nth_error_Some; congruence). lia.
        -- intros Hx. destruct (nth_error o x) as [v|] eqn:Ex; [|apply nth_error_None in Ex; lia].
           apply INV in Ex. eapply nth_error_In; eauto.
    + intros [a b] rest P.
      assert (HE : (a <> c /\ par a = b) \/ (b <> c /\ par b = a)).
      { apply (rt_edge _ _ _ _ _ RT). apply (Permutation_in _ (Permutation_sym P)). now left. }
      assert (RN : a < V /\ b < V). { apply (rt_range _ _ _ _ _ RT). apply (Permutation_in _ (Permutation_sym P)). now left. }
      assert (W : exists x, x < V /\ x <> c /\ (Permutation edges ((x, par x) :: rest) \/ Permutation edges ((par x, x) :: rest))).
      { destruct HE as [[N <-]|[N <-]]; [exists a|exists b]; tauto. }
      destruct W as (x & Hx & Nx & PX).
      assert (Ix : In x (flatten t)) by (apply (Permutation_in _ (Permutation_sym PM)), in_seq; lia).
      destruct (flatten_subtree t x Ix) as (s & SB & Ls).
      destruct (Bo s SB) as (o1 & o2 & o3 & EO & P2). exists o1, o2, o3. split; auto.
      intros u Hu. rewrite (Permutation_in' eq_refl P2).
      eapply branch_component; eauto.
Qed.
