(** Rooted trees as rose trees. *)
From Coq Require Import List Arith Lia Bool Permutation Sorted.
From Verif Require Import Base L_Base Spec_Graph L_Graph M_Structure L_MakeTree L_Program L_JitSet L_SampleTree L_RemoveEdge.
Import ListNotations.

Inductive rose := Node (v : nat) (cs : list rose).
Definition label (t : rose) : nat := let 'Node v _ := t in v.
Definition kids (t : rose) : list rose := let 'Node _ cs := t in cs.

Fixpoint rose_ind' (P : rose -> Prop)
  (H : forall v cs, (forall c, In c cs -> P c) -> P (Node v cs)) (t : rose) : P t :=
  match t with
  | Node v cs => H v cs ((fix go (l : list rose) : forall c, In c l -> P c :=
      match l with
      | [] => fun c F => match F with end
      | x :: l' => fun c I => match I with
                              | or_introl E => eq_ind x P (rose_ind' P H x) c E
                              | or_intror I' => go l' c I'
                              end
      end) cs)
  end.

Fixpoint flatten (t : rose) : list nat :=
  match t with Node v cs => v :: flat_map flatten cs end.

Fixpoint size (t : rose) : nat :=
  match t with Node v cs => S (list_sum (map size cs)) end.

Lemma flatten_length : forall t, length (flatten t) = size t.
Proof.
  induction t using rose_ind'. simpl. f_equal. induction cs; simpl; auto. rewrite app_length.
  rewrite H by now left. f_equal. apply IHcs. intros; apply H; now right.
Qed.

Lemma label_flatten : forall t, In (label t) (flatten t).
Proof. destruct t; simpl; auto. Qed.

(** subtrees *)
Inductive subtree : rose -> rose -> Prop :=
| sub_refl : forall t, subtree t t
| sub_kid : forall s c v cs, In c cs -> subtree s c -> subtree s (Node v cs).

Lemma subtree_incl : forall s t, subtree s t -> incl (flatten s) (flatten t).
Proof.
  induction 1; intros x I; auto. simpl. right. apply in_flat_map. eauto.
Qed.

Lemma flatten_subtree : forall t u, In u (flatten t) -> exists s, subtree s t /\ label s = u.
Proof.
  induction t using rose_ind'. simpl. intros u [<-|I].
  - exists (Node v cs). split; auto. constructor.
  - apply in_flat_map in I. destruct I as (c & Ic & I). destruct (H c Ic u I) as (s & S & L).
    exists s. split; auto. econstructor; eauto.
Qed.

Section Rooted.
Variables (V : nat) (es : list edge) (r : nat) (par dep : nat -> nat).
Hypothesis RT : rooted V es r par dep.
Variable ch : nat -> list nat.
Hypothesis CH : forall v c, v < V -> (In c (ch v) <-> c < V /\ c <> r /\ par c = v).
Hypothesis CHN : forall v, v < V -> NoDup (ch v).

(** [t] is the part of the tree below its label, children in the order [ch]. *)
Inductive rose_ok : rose -> Prop :=
| rose_ok_node : forall v cs, v < V -> map label cs = ch v -> (forall c, In c cs -> rose_ok c) -> rose_ok (Node v cs).

Lemma dep_lt : forall v, v < V -> dep v < V.
Proof.
  intros. eapply dist_lt; [apply (rt_range _ _ _ _ _ RT)|exact H|]. apply (rt_dist _ _ _ _ _ RT); auto.
Qed.

Lemma rose_exists : forall v, v < V -> exists t, rose_ok t /\ label t = v.
Proof.
  assert (G : forall n v, v < V -> V - dep v <= n -> exists t, rose_ok t /\ label t = v).
  { induction n; intros v Hv Hn.
    - pose proof (dep_lt v Hv). lia.
    - assert (X : exists cs, map label cs = ch v /\ forall c, In c cs -> rose_ok c).
      { assert (Y : forall l, incl l (ch v) -> exists cs, map label cs = l /\ forall c, In c cs -> rose_ok c).
        { induction l; intros I.
          - exists []. split; auto. intros c [].
          - destruct IHl as (cs & E & O); [intros x J; apply I; now right|].
            assert (Ia : In a (ch v)) by (apply I; now left). apply CH in Ia; auto. destruct Ia as (Ha & Na & Pa).
            destruct (IHn a Ha) as (t & Ot & Lt).
            { pose proof (par_dep _ _ _ _ _ RT a Ha Na). rewrite Pa in H. pose proof (dep_lt v Hv). lia. }
            exists (t :: cs). split; [simpl; congruence|]. intros c [<-|J]; auto. }
        apply Y. intros x J; auto. }
      destruct X as (cs & E & O). exists (Node v cs). split; auto. now constructor. }
  intros. eapply G; eauto.
Qed.

Lemma rose_ok_lt : forall t, rose_ok t -> forall u, In u (flatten t) -> u < V.
Proof.
  induction t using rose_ind'. intros O u I. inversion O; subst. simpl in I. destruct I as [<-|I]; auto.
  apply in_flat_map in I. destruct I as (c & Ic & I). eapply H; eauto.
Qed.

Lemma rose_kid : forall v cs c, rose_ok (Node v cs) -> In c cs -> label c < V /\ label c <> r /\ par (label c) = v.
Proof.
  intros. inversion H; subst. apply CH; auto. rewrite <- H4. now apply in_map.
Qed.

Lemma rose_subtree_ok : forall s t, subtree s t -> rose_ok t -> rose_ok s.
Proof. induction 1; intros O; auto. inversion O; subst. auto. Qed.

(** closed under children *)
Lemma rose_closed : forall t, rose_ok t -> forall u c, In u (flatten t) -> c < V -> c <> r -> par c = u -> In c (flatten t).
Proof.
  induction t using rose_ind'. intros O u c I Hc Nc P. inversion O; subst. simpl in *. destruct I as [E|I].
  - right. assert (J : In c (ch (par c))) by (apply CH; auto; now apply (par_lt _ _ _ _ _ RT)).
    rewrite <- E in J. rewrite <- H3 in J. apply in_map_iff in J. destruct J as (k & L & K). apply in_flat_map. exists k.
    split; auto. rewrite <- L. apply label_flatten.
  - right. apply in_flat_map in I. destruct I as (k & K & I). apply in_flat_map. exists k. split; auto. eapply H; eauto.
Qed.

Lemma rose_root_all : forall t, rose_ok t -> label t = r -> forall u, u < V -> In u (flatten t).
Proof.
  intros t O L. apply (rooted_ind _ _ _ _ _ RT (fun u => In u (flatten t))).
  - rewrite <- L. apply label_flatten.
  - intros v Hv Nv I. eapply rose_closed; eauto.
Qed.

(** the label is the ancestor at the right depth *)
Lemma rose_anc : forall t, rose_ok t -> forall u, In u (flatten t) ->
  dep (label t) <= dep u /\ Nat.iter (dep u - dep (label t)) par u = label t.
Proof.
  induction t using rose_ind'. intros O u I. simpl in *. destruct I as [<-|I].
  - rewrite Nat.sub_diag. split; auto.
  - apply in_flat_map in I. destruct I as (c & Ic & I). pose proof (rose_kid v cs c O Ic) as (Hc & Nc & Pc).
    inversion O; subst. destruct (H c Ic (H4 c Ic) u I) as [D E].
    pose proof (par_dep _ _ _ _ _ RT (label c) Hc Nc) as DC. split; [lia|].
    replace (dep u - dep (par (label c))) with (S (dep u - dep (label c))) by lia. simpl. now rewrite E.
Qed.

Lemma NoDup_flat_map : forall (cs : list rose), (forall c, In c cs -> NoDup (flatten c)) -> NoDup (map label cs) ->
  (forall c d u, In c cs -> In d cs -> In u (flatten c) -> In u (flatten d) -> label c = label d) ->
  NoDup (flat_map flatten cs).
Proof.
  induction cs; intros H ND D; simpl; [constructor|]. simpl in ND. inversion ND; subst. apply NoDup_app_intro.
  - apply H; now left.
  - apply IHcs; auto. intros; apply H; now right. intros; eapply D; eauto; now right.
  - intros u I J. apply in_flat_map in J. destruct J as (d & Id & J).
    assert (E : label a = label d) by (eapply D; eauto; [now left|now right]). apply H2. rewrite E. now apply in_map.
Qed.

Lemma rose_NoDup : forall t, rose_ok t -> NoDup (flatten t).
Proof.
  induction t using rose_ind'. intros O. inversion O; subst. simpl. constructor.
  - intros I. apply in_flat_map in I. destruct I as (c & Ic & I).
    destruct (rose_anc c (H4 c Ic) v I) as [D _]. pose proof (rose_kid v cs c O Ic) as (Hc & Nc & Pc).
    pose proof (par_dep _ _ _ _ _ RT (label c) Hc Nc). rewrite Pc in H0. lia.
  - apply NoDup_flat_map; auto.
    + rewrite H3. auto.
    + intros c d u Ic Id Iu Ju. destruct (rose_anc c (H4 c Ic) u Iu) as [D1 E1].
      destruct (rose_anc d (H4 d Id) u Ju) as [D2 E2].
      pose proof (rose_kid v cs c O Ic) as (Hc & Nc & Pc). pose proof (rose_kid v cs d O Id) as (Hd & Nd & Pd).
      pose proof (par_dep _ _ _ _ _ RT (label c) Hc Nc) as X. pose proof (par_dep _ _ _ _ _ RT (label d) Hd Nd) as Y.
      rewrite Pc in X. rewrite Pd in Y. rewrite <- E1, <- E2. f_equal. lia.
Qed.

Lemma rose_root_perm : forall t, rose_ok t -> label t = r -> Permutation (flatten t) (seq 0 V).
Proof.
  intros t O L. apply NoDup_Permutation; [now apply rose_NoDup|apply seq_NoDup|].
  intros u. rewrite in_seq. split.
  - intros I. apply (rose_ok_lt t O) in I. lia.
  - intros I. apply (rose_root_all t O L). lia.
Qed.

Lemma rose_par_in : forall t, rose_ok t -> forall u, In u (flatten t) -> u <> label t -> In (par u) (flatten t).
Proof.
  induction t using rose_ind'. intros O u I N. simpl in *. destruct I as [E|I]; [congruence|].
  apply in_flat_map in I. destruct I as (c & Ic & I). inversion O; subst.
  destruct (Nat.eq_dec u (label c)) as [->|Nc].
  - left. symmetry. now apply (rose_kid v cs c O Ic).
  - right. apply in_flat_map. exists c. split; auto.
Qed.

Lemma rose_size : forall t, rose_ok t -> label t = r -> size t = V.
Proof.
  intros. rewrite <- flatten_length, (Permutation_length (rose_root_perm t H H0)). apply seq_length.
Qed.
End Rooted.
