(** C04: the programs are valid. *)
From Coq Require Import List Arith Lia Bool Permutation Sorted.
From Verif Require Import Base L_Base Spec_Graph Spec_Program L_Graph M_Structure L_MakeTree L_Program.
Import ListNotations.

Lemma precedes_split : forall A (l m : list A) x y, In x l -> In y m -> precedes (l ++ m) x y.
Proof.
  intros A l m x y Hx Hy. apply in_split in Hx, Hy. destruct Hx as (a & b & ->), Hy as (c & d & ->).
  exists a, (b ++ c), d. now repeat (simpl; rewrite <- ?app_assoc).
Qed.

Lemma precedes_app_l : forall A (l m : list A) x y, precedes l x y -> precedes (l ++ m) x y.
Proof.
  intros A l m x y (a & b & c & ->). exists a, b, (c ++ m).
  now repeat (simpl; rewrite <- ?app_assoc).
Qed.

Lemma precedes_app_r : forall A (l m : list A) x y, precedes m x y -> precedes (l ++ m) x y.
Proof. intros A l m x y (a & b & c & ->). exists (l ++ a), b, c. now rewrite <- app_assoc. Qed.

Lemma df_app_l : forall A (l m : list A) x y, directly_follows l x y -> directly_follows (l ++ m) x y.
Proof. intros A l m x y (a & b & ->). exists a, (b ++ m). now rewrite <- app_assoc. Qed.
Lemma df_app_r : forall A (l m : list A) x y, directly_follows m x y -> directly_follows (l ++ m) x y.
Proof. intros A l m x y (a & b & ->). exists (l ++ a), b. now rewrite <- app_assoc. Qed.

Lemma precedes_concat : forall A B (f : A -> list B) l a b x y,
  precedes l a b -> In x (f a) -> In y (f b) -> precedes (concat (map f l)) x y.
Proof.
  intros A B f l a b x y (l1 & l2 & l3 & ->) Hx Hy.
  rewrite map_app, concat_app. apply precedes_app_r. simpl. apply precedes_split; auto.
  rewrite map_app, concat_app. apply in_or_app. right. simpl. apply in_or_app. now left.
Qed.

Lemma precedes_concat_in : forall A B (f : A -> list B) l a x y,
  In a l -> precedes (f a) x y -> precedes (concat (map f l)) x y.
Proof.
  intros A B f l a x y Ha P. apply in_split in Ha. destruct Ha as (l1 & l2 & ->).
  rewrite map_app, concat_app. apply precedes_app_r. simpl. now apply precedes_app_l.
Qed.

Lemma df_concat_in : forall A B (f : A -> list B) l a x y,
  In a l -> directly_follows (f a) x y -> directly_follows (concat (map f l)) x y.
Proof.
  intros A B f l a x y Ha P. apply in_split in Ha. destruct Ha as (l1 & l2 & ->).
  rewrite map_app, concat_app. apply df_app_r. simpl. now apply df_app_l.
Qed.

Lemma precedes_rev : forall A (l : list A) x y, precedes l x y -> precedes (rev l) y x.
Proof.
  intros A l x y (a & b & c & ->). exists (rev c), (rev b), (rev a).
  rewrite rev_app_distr. simpl. rewrite rev_app_distr. now repeat (simpl; rewrite <- ?app_assoc).
Qed.

Lemma precedes_cons_in : forall A (x y : A) l, In y l -> precedes (x :: l) x y.
Proof. intros. apply (precedes_split _ [x] l); auto. now left. Qed.

Lemma NoDup_concat_key : forall A B (f : A -> list B) (key : B -> nat) (ka : A -> nat) l,
  NoDup (map ka l) -> (forall a, In a l -> NoDup (f a)) -> (forall a x, In a l -> In x (f a) -> key x = ka a) ->
  NoDup (concat (map f l)).
Proof.
  induction l; simpl; intros; [constructor|]. inversion H; subst.
  apply NoDup_app_intro; auto.
  intros x Hx Hc. apply in_concat in Hc. destruct Hc as (m & Hm & Hxm).
  apply in_map_iff in Hm. destruct Hm as (b & <- & Hb).
  apply H4. apply in_map_iff. exists b. split; auto.
  rewrite <- (H1 a x), <- (H1 b x); auto.
Qed.

Section PV.
Variables (V : nat) (edges : list edge) (r : nat) (par dep : nat -> nat).
Let es := grid_edges (make_tree edges).
Hypothesis RT : rooted V es r par dep.
Variable np : list (nat * option nat * list nat).
Hypothesis BL : bfs_list V r par np.

Notation eix := (eidx edges par).
Notation prog := (prog_of edges r par np).

Lemma np_entry : forall v, v < V -> exists p cs, In (v, p, cs) np /\
  NoDup cs /\ (forall c, In c cs <-> c < V /\ c <> r /\ par c = v).
Proof.
  intros v Hv. assert (In v (map ev np)).
  { eapply Permutation_in; [symmetry; apply BL|]. apply in_seq. lia. }
  apply in_map_iff in H. destruct H as ([[w p] cs] & E & H). unfold ev in E; simpl in E; subst.
  exists p, cs. split; auto. pose proof (bl_good _ _ _ _ BL) as G. rewrite Forall_forall in G.
  destruct (G _ H) as (_ & _ & S & Ic). split; auto. now apply ssorted_NoDup.
Qed.

Lemma np_entry_inv : forall v p cs, In (v, p, cs) np -> v < V /\ NoDup cs /\
  (forall c, In c cs <-> c < V /\ c <> r /\ par c = v).
Proof.
  intros. pose proof (bl_good _ _ _ _ BL) as G. rewrite Forall_forall in G.
  destruct (G _ H) as (? & _ & S & Ic). split; auto. split; auto. now apply ssorted_NoDup.
Qed.

Lemma np_nodup : NoDup (map ev np).
Proof. eapply Permutation_NoDup; [symmetry; apply BL|]. apply seq_NoDup. Qed.

Lemma np_precedes : forall c, c < V -> c <> r -> forall x y, In x np -> In y np ->
  ev x = par c -> ev y = c -> precedes np x y.
Proof.
  intros c Hc N x y Hx Hy Ex Ey.
  apply in_split in Hy. destruct Hy as (l1 & l2 & E).
  assert (In (par c) (map ev l1)).
  { apply (bl_first _ _ _ _ BL _ c (map ev l2)); auto. rewrite E, map_app. simpl. now rewrite Ey. }
  apply in_map_iff in H. destruct H as (x' & Ex' & Hx').
  assert (x = x').
  { pose proof np_nodup as ND. assert (In x' np) by (rewrite E; apply in_or_app; auto).
    clear - ND H Hx Ex Ex'. rewrite <- Ex' in Ex. clear Ex'.
    induction np; simpl in *; [tauto|]. inversion ND; subst.
    destruct H as [->|H], Hx as [->|Hx]; auto.
    - exfalso. apply H2. rewrite <- Ex. now apply in_map.
    - exfalso. apply H2. rewrite Ex. now apply in_map. }
  subst x'. apply in_split in Hx'. destruct Hx' as (a & b & ->).
  rewrite E. exists a, b, l2. now rewrite <- app_assoc.
Qed.

Lemma in_ins : forall i, In i (concat (map (ins_of edges par) (rev np))) <->
  (exists v, v < V /\ i = I OP_UP v 0 0) \/ (exists c, c < V /\ c <> r /\ i = I OP_IN (par c) c (eix c)).
Proof.
  intros. rewrite in_concat. split.
  - intros (l & Hl & Hi). apply in_map_iff in Hl. destruct Hl as ([[v p] cs] & <- & Hv).
    apply in_rev in Hv. apply np_entry_inv in Hv. destruct Hv as (Hv & _ & Ic).
    destruct Hi as [<-|Hi]; [left; eauto|]. apply in_map_iff in Hi. destruct Hi as (c & <- & Hc).
    apply Ic in Hc. right. exists c. destruct Hc as (? & ? & <-). auto.
  - intros [(v & Hv & ->)|(c & Hc & N & ->)].
    + destruct (np_entry v Hv) as (p & cs & He & _). exists (ins_of edges par (v, p, cs)). split.
      * apply in_map. now apply -> in_rev.
      * now left.
    + destruct (np_entry (par c)) as (p & cs & He & _ & Ic). { now apply (par_lt _ _ _ _ _ RT). }
      exists (ins_of edges par (par c, p, cs)). split.
      * apply in_map. now apply -> in_rev.
      * right. apply in_map_iff. exists c. split; auto. apply Ic. auto.
Qed.

Lemma in_outs : forall i, In i (concat (map (outs_of edges r par) np)) <->
  (exists v, v < V /\ i = I OP_DOWN v 0 0) \/ (exists c, c < V /\ c <> r /\ i = I OP_OUT c (par c) (eix c)).
Proof.
  intros. rewrite in_concat. split.
  - intros (l & Hl & Hi). apply in_map_iff in Hl. destruct Hl as ([[v p] cs] & <- & Hv).
    apply np_entry_inv in Hv. destruct Hv as (Hv & _ & _).
    simpl in Hi. destruct (Nat.eqb_spec v r).
    + destruct Hi as [<-|[]]. eauto.
    + destruct Hi as [<-|[<-|[]]]; eauto.
  - intros [(v & Hv & ->)|(v & Hv & N & ->)];
    destruct (np_entry v Hv) as (p & cs & He & _); exists (outs_of edges r par (v, p, cs)); split;
     try (now apply in_map); simpl.
    + destruct (v =? r); simpl; auto.
    + destruct (Nat.eqb_spec v r); [congruence|]. simpl; auto.
Qed.

Lemma parent_edge_iff : forall p c e, parent_edge es r p c e <-> c < V /\ c <> r /\ p = par c /\ e = eix c.
Proof.
  intros. split.
  - intros ((f & Ef & S) & d & Dp & Dc).
    assert (A : adj es c p).
    { apply nth_error_In in Ef. destruct f as [a b]. destruct S as [S|[S1 S2]].
      - inversion S; subst. now right.
      - simpl in *. subst. now left. }
    apply (rt_adj _ _ _ _ _ RT) in A. destruct A as (Hc & Hp & A).
    assert (N : c <> r /\ par c = p).
    { destruct A as [A|[N A]]; auto. exfalso. pose proof (par_dep _ _ _ _ _ RT p Hp N) as D.
      rewrite A in D.
      pose proof (dist_fun _ _ _ _ _ Dp (rt_dist _ _ _ _ _ RT p Hp)).
      pose proof (dist_fun _ _ _ _ _ Dc (rt_dist _ _ _ _ _ RT c Hc)). lia. }
    destruct N as [N E]. split; auto. split; auto. split; auto.
    destruct (eidx_spec _ _ _ _ _ RT c Hc N) as (Ee & _).
    assert (norm f = norm (c, par c)).
    { apply norm_same in S. rewrite <- S, E. unfold norm; simpl; f_equal; lia. }
    assert (e = eix c); auto.
    apply (proj1 (NoDup_nth_error (map norm es))).
    + apply RT.
    + rewrite map_length. apply nth_error_Some. congruence.
    + rewrite !nth_error_map. fold es in Ee. rewrite Ef, Ee. simpl. f_equal. now rewrite norm_idem.
  - intros (Hc & N & -> & ->). destruct (eidx_spec _ _ _ _ _ RT c Hc N) as (Ee & _). split.
    + eexists. split; [exact Ee|]. apply norm_same. rewrite norm_idem. unfold norm; simpl; f_equal; lia.
    + exists (dep (par c)). split. { apply RT. now apply (par_lt _ _ _ _ _ RT). }
      rewrite <- (par_dep _ _ _ _ _ RT) by auto. now apply RT.
Qed.

Lemma in_prog : forall i, In i prog <->
  (exists v, v < V /\ i = I OP_UP v 0 0) \/ (exists c, c < V /\ c <> r /\ i = I OP_IN (par c) c (eix c)) \/
  i = I OP_ROOT r 0 0 \/
  (exists v, v < V /\ i = I OP_DOWN v 0 0) \/ (exists c, c < V /\ c <> r /\ i = I OP_OUT c (par c) (eix c)).
Proof.
  intros. unfold prog_of. rewrite !in_app_iff, in_ins, in_outs. simpl. intuition.
Qed.

Ltac ip := rewrite in_prog; split;
  [intros [(?&?&?)|[(?&?&?&?)|[?|[(?&?&?)|(?&?&?&?)]]]]; try discriminate|].

Lemma prog_valid : valid_program V es r prog.
Proof.
  assert (E0 : exists l0 l1, np = l0 :: l1 /\ ev l0 = r).
  { pose proof (bl_first _ _ _ _ BL) as PF.
    destruct np as [|x l] eqn:E.
    - pose proof (Permutation_length (bl_perm _ _ _ _ BL)). simpl in H. rewrite seq_length in H.
      pose proof (rt_root _ _ _ _ _ RT). lia.
    - exists x, l. split; auto. destruct (Nat.eq_dec (ev x) r); auto.
      exfalso. apply (PF [] (ev x) (map ev l) eq_refl n). }
  constructor.
  - unfold prog_of. rewrite !app_length, (sum_outs _ _ _ _ _ RT) by auto.
    rewrite (concat_perm_length _ _ (map (ins_of edges par) np)) by (apply Permutation_map; symmetry; apply Permutation_rev).
    rewrite (sum_children _ _ _ _ _ RT) by auto. simpl. pose proof (rt_len _ _ _ _ _ RT). fold es in H. lia.
  - unfold prog_of. apply NoDup_app_intro.
    + apply (NoDup_concat_key _ _ _ i_v ev).
      * rewrite map_rev. apply NoDup_rev, np_nodup.
      * intros [[v p] cs] H. apply in_rev in H. apply np_entry_inv in H. simpl. constructor.
        -- intro A. apply in_map_iff in A. destruct A as (? & ? & _). discriminate.
        -- apply NoDup_map_inj; [|tauto]. intros x y _ _ E. now inversion E.
      * intros [[v p] cs] x _ [<-|H]; auto. apply in_map_iff in H. destruct H as (? & <- & _). reflexivity.
    + simpl. constructor.
      * intro A. apply in_outs in A. destruct A as [(? & _ & A)|(? & _ & _ & A)]; discriminate.
      * apply (NoDup_concat_key _ _ _ i_v ev).
        -- apply np_nodup.
        -- intros [[v p] cs] _. simpl. destruct (v =? r).
           ++ repeat constructor. auto.
           ++ repeat constructor; simpl; auto. intros [H|[]]. discriminate.
        -- intros [[v p] cs] x _ H. simpl in H. destruct (v =? r).
           ++ destruct H as [<-|[]]; auto.
           ++ destruct H as [<-|[<-|[]]]; auto.
    + intros x Hx Hy. apply in_ins in Hx. destruct Hy as [<-|Hy].
      * destruct Hx as [(?&_&A)|(?&_&_&A)]; discriminate.
      * apply in_outs in Hy. destruct Hx as [(?&_&->)|(?&_&_&->)], Hy as [(?&_&A)|(?&_&_&A)]; discriminate.
  - intros. ip. { inversion H0; subst; auto. } intros (? & -> & ->). left; eauto.
  - intros. rewrite parent_edge_iff. ip. { inversion H1; subst; auto. } intros (? & ? & -> & ->). right; left; eauto.
  - intros. ip. { inversion H; subst; auto. } intros (-> & -> & ->). auto.
  - intros. rewrite parent_edge_iff. ip. { inversion H1; subst; auto. } intros (? & ? & -> & ->). do 4 right; eauto.
  - intros. ip. { inversion H0; subst; auto. } intros (? & -> & ->). do 3 right; left; eauto.
  - intros p c e H. assert (C : c < V /\ c <> r /\ p = par c /\ e = eix c).
    { apply in_prog in H. destruct H as [(?&?&?)|[(?&?&?&?)|[?|[(?&?&?)|(?&?&?&?)]]]]; try discriminate.
      inversion H1; subst; auto. }
    destruct C as (Hc & N & -> & ->). pose proof (par_lt _ _ _ _ _ RT c Hc) as Hp.
    destruct (np_entry c Hc) as (pc & cc & Ec & _ & _).
    destruct (np_entry (par c) Hp) as (pp & cp & Ep & _ & Ip).
    split; apply precedes_app_l.
    + eapply precedes_concat; [apply precedes_rev, (np_precedes c Hc N _ _ Ep Ec); reflexivity|now left|].
      right. apply in_map_iff. exists c. split; auto. apply Ip; auto.
    + eapply precedes_concat_in; [apply -> in_rev; exact Ep|]. apply precedes_cons_in.
      apply in_map_iff. exists c. split; auto. apply Ip; auto.
  - intros p c e d e' H H'. assert (C : c < V /\ c <> r /\ p = par c /\ e = eix c).
    { apply in_prog in H. destruct H as [(?&?&?)|[(?&?&?&?)|[?|[(?&?&?)|(?&?&?&?)]]]]; try discriminate.
      inversion H1; subst; auto. }
    assert (C' : d < V /\ d <> r /\ c = par d /\ e' = eix d).
    { apply in_prog in H'. destruct H' as [(?&?&?)|[(?&?&?&?)|[?|[(?&?&?)|(?&?&?&?)]]]]; try discriminate.
      inversion H2; subst; auto. }
    destruct C as (Hc & N & -> & ->). pose proof (par_lt _ _ _ _ _ RT c Hc) as Hp.
    destruct (np_entry c Hc) as (pc & cc & Ec & _ & Icc).
    destruct (np_entry (par c) Hp) as (pp & cp & Ep & _ & Ip).
    destruct C' as (Hd & Nd & Ed & ->).
    apply precedes_app_l.
    eapply precedes_concat; [apply precedes_rev, (np_precedes c Hc N _ _ Ep Ec); reflexivity| |].
    + right. apply in_map_iff. exists d. split; auto. apply Icc; auto.
    + right. apply in_map_iff. exists c. split; auto. apply Ip; auto.
  - intros v Hv. unfold prog_of. rewrite app_assoc. apply precedes_app_l.
    apply precedes_split; [|now left]. apply in_ins. eauto.
  - intros p c e H. unfold prog_of. rewrite app_assoc. apply precedes_app_l.
    apply precedes_split; [|now left]. apply in_ins.
    apply in_prog in H. destruct H as [(?&?&?)|[(?&?&?&?)|[?|[(?&?&?)|(?&?&?&?)]]]]; try discriminate.
    right; eauto.
  - intros c p e H. unfold prog_of. apply precedes_app_r.
    apply (precedes_split _ [_]); [now left|]. apply in_outs.
    apply in_prog in H. destruct H as [(?&?&?)|[(?&?&?&?)|[?|[(?&?&?)|(?&?&?&?)]]]]; try discriminate.
    right; eauto.
  - intros c p e H. assert (C : c < V /\ c <> r /\ p = par c /\ e = eix c).
    { apply in_prog in H. destruct H as [(?&?&?)|[(?&?&?&?)|[?|[(?&?&?)|(?&?&?&?)]]]]; try discriminate.
      inversion H1; subst; auto. }
    destruct C as (Hc & N & -> & ->). pose proof (par_lt _ _ _ _ _ RT c Hc) as Hp.
    destruct (np_entry c Hc) as (pc & cc & Ec & _ & _).
    destruct (np_entry (par c) Hp) as (pp & cp & Ep & _ & Ip).
    do 2 apply precedes_app_r.
    eapply precedes_concat; [apply (np_precedes c Hc N _ _ Ep Ec); reflexivity| |].
    + simpl. destruct (par c =? r); simpl; auto.
    + simpl. destruct (Nat.eqb_spec c r); [congruence|]. simpl; auto.
  - intros c p e H. assert (C : c < V /\ c <> r /\ p = par c /\ e = eix c).
    { apply in_prog in H. destruct H as [(?&?&?)|[(?&?&?&?)|[?|[(?&?&?)|(?&?&?&?)]]]]; try discriminate.
      inversion H1; subst; auto. }
    destruct C as (Hc & N & -> & ->).
    destruct (np_entry c Hc) as (pc & cc & Ec & _ & _).
    do 2 apply df_app_r. eapply df_concat_in; [exact Ec|].
    simpl. destruct (Nat.eqb_spec c r); [congruence|]. exists [], []. reflexivity.
  - destruct E0 as ([[v p] cs] & l1 & E & Er). unfold ev in Er; simpl in Er. subst v.
    unfold prog_of. apply df_app_r. rewrite E. simpl. rewrite Nat.eqb_refl. simpl.
    exists [], (concat (map (outs_of edges r par) l1)). reflexivity.
Qed.
End PV.

Lemma make_program_valid : forall V edges r, spanning_tree V edges -> r < V ->
  exists prog, make_propagation_program (make_tree edges) (Some r) = Ok prog /\
    valid_program V (grid_edges (make_tree edges)) r prog.
Proof.
  intros V edges r T Hr. destruct (tree_rooted V _ r (make_tree_spanning _ _ T) Hr) as (par & dep & RT).
  destruct (make_program_rooted_Ok _ _ _ _ _ RT) as (np & E & BL).
  exists (prog_of edges r par np). split; auto. eapply prog_valid; eauto.
Qed.
