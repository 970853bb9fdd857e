(** C03: find_center_of_tree returns a vertex of minimal eccentricity. *)
From Coq Require Import List Arith Lia Bool Permutation Sorted.
From Verif Require Import Base L_Base Spec_Graph L_Graph M_Structure L_MakeTree L_Program.
Import ListNotations.

Section Center.
Variables (V : nat) (es : list edge).
Hypothesis T : spanning_tree V es.

Definition deg_le1 (v : nat) : Prop := forall a b, adj es v a -> adj es v b -> a = b.

(** How a vertex got its level: it was a leaf, or it was pushed when its
    neighbor [u] was popped and [x] was its only neighbor left. *)
Definition lev_ok (P : list nat) (lev : nat -> nat) (v : nat) : Prop :=
  (deg_le1 v /\ lev v = 0) \/
  (exists x u A B, P = A ++ u :: B /\ x <> u /\ adj es v x /\ adj es v u /\ lev v = S (lev u) /\
     ~ In x A /\ ~ In v (A ++ [u]) /\ forall w, adj es v w -> w <> x -> In w (A ++ [u])).

Definition lev_sorted (lev : nat -> nat) (l : list nat) : Prop :=
  StronglySorted (fun a b => lev a <= lev b) l.

Record cinv (P Q : list nat) (nb : list (list nat)) (lev : nat -> nat) : Prop := {
  ci_len : length nb = V;
  ci_nodup : NoDup (P ++ Q);
  ci_lt : forall v, In v (P ++ Q) -> v < V;
  ci_nb : forall v, v < V -> ~ In v P -> ssorted (nth v nb []) /\
            forall w, In w (nth v nb []) <-> adj es v w /\ ~ In w P;
  ci_q : forall v, v < V -> ~ In v P -> (In v Q <-> length (nth v nb []) <= 1);
  ci_lev : forall v, In v (P ++ Q) -> lev_ok P lev v;
  ci_sorted : lev_sorted lev (P ++ Q);
  ci_diff : forall h t q, Q = h :: t -> In q Q -> lev q <= S (lev h);
  ci_late : forall A v B a b, P = A ++ v :: B -> adj es v a -> adj es v b -> ~ In a A -> ~ In b A -> a = b
}.

Lemma no_self : forall v, ~ adj es v v.
Proof.
  intros v A. destruct T as (L & R & C).
  assert (Hv : v < V) by (destruct A as [A|A]; apply R in A; tauto).
  destruct (tree_rooted V es v T Hv) as (par & dep & RT).
  apply (rt_adj _ _ _ _ _ RT) in A. destruct A as (_ & _ & [[N _]|[N _]]); congruence.
Qed.

Lemma lev_ok_app : forall P R lev v, lev_ok P lev v -> lev_ok (P ++ R) lev v.
Proof.
  intros P R lev v [H|(x & u & A & B & E & H)]; [now left|]. right.
  exists x, u, A, (B ++ R). split; auto. rewrite E, <- app_assoc. reflexivity.
Qed.

Lemma lev_ok_ext : forall P lev lev' v, (forall w, In w P \/ w = v -> lev' w = lev w) -> lev_ok P lev v -> lev_ok P lev' v.
Proof.
  intros P lev lev' v X [[H H']|(x & u & A & B & E & H1 & H2 & H3 & H4 & H5)].
  - left. split; auto. rewrite X; auto.
  - right. exists x, u, A, B. split; auto. split; auto. split; auto. split; auto. split; auto.
    rewrite !X; auto. left. rewrite E. apply in_or_app. right. now left.
Qed.

Lemma ss_app_inv : forall A (R : A -> A -> Prop) l m, StronglySorted R (l ++ m) ->
  StronglySorted R l /\ StronglySorted R m /\ forall x y, In x l -> In y m -> R x y.
Proof.
  induction l; simpl; intros.
  - split; [constructor|]. split; auto. tauto.
  - inversion H; subst. destruct (IHl _ H2) as (X & Y & Z). rewrite Forall_app in H3.
    destruct H3 as [F1 F2]. rewrite Forall_forall in F2.
    split; [now constructor|]. split; auto. intros x y [->|Hx] Hy; auto.
Qed.

Lemma ss_app_intro : forall A (R : A -> A -> Prop) l m, StronglySorted R l -> StronglySorted R m ->
  (forall x y, In x l -> In y m -> R x y) -> StronglySorted R (l ++ m).
Proof.
  induction l; simpl; intros; auto. inversion H; subst. constructor.
  - apply IHl; auto.
  - rewrite Forall_app. split; auto. rewrite Forall_forall. intros; apply H1; auto.
Qed.

Lemma ss_ext : forall lev lev' l, (forall v, In v l -> lev' v = lev v) -> lev_sorted lev l -> lev_sorted lev' l.
Proof.
  unfold lev_sorted. induction l; intros; [constructor|]. inversion H0; subst. constructor.
  - apply IHl; auto. intros; apply H; now right.
  - rewrite Forall_forall in *. intros x Hx. rewrite !H; auto. now right. now left.
Qed.

Lemma late_snoc : forall P v, 
  (forall A w B a b, P = A ++ w :: B -> adj es w a -> adj es w b -> ~ In a A -> ~ In b A -> a = b) ->
  (forall a b, adj es v a -> adj es v b -> ~ In a P -> ~ In b P -> a = b) ->
  forall A w B a b, P ++ [v] = A ++ w :: B -> adj es w a -> adj es w b -> ~ In a A -> ~ In b A -> a = b.
Proof.
  intros P v H1 H2 A w B a b E. destruct B as [|y B'] using rev_ind.
  - apply app_inj_tail in E. destruct E as [-> ->]. auto.
  - clear IHB'. rewrite app_comm_cons, app_assoc in E. apply app_inj_tail in E. destruct E as [-> _].
    eapply H1; eauto.
Qed.

Lemma cinv_step : forall P v Q nb lev, cinv P (v :: Q) nb lev ->
  exists nb' Q' lev',
    foldM (center_visit v) (rev (nth v nb [])) (nb, Q) = Ok (nb', Q') /\
    cinv (P ++ [v]) Q' nb' lev'.
Proof.
  intros P v Q nb lev I. pose proof no_self as NS.
  pose proof (ci_len _ _ _ _ I) as LEN.
  assert (Hv : v < V) by (apply (ci_lt _ _ _ _ I); apply in_or_app; right; now left).
  assert (NP : ~ In v P).
  { pose proof (ci_nodup _ _ _ _ I) as N. apply NoDup_remove_2 in N. intro. apply N. apply in_or_app; auto. }
  assert (NQ : ~ In v Q).
  { pose proof (ci_nodup _ _ _ _ I) as N. apply NoDup_remove_2 in N. intro. apply N. apply in_or_app; auto. }
  destruct (ci_nb _ _ _ _ I v Hv NP) as [Sv Iv].
  assert (Lv : length (nth v nb []) <= 1) by (apply (ci_q _ _ _ _ I v Hv NP); now left).
  assert (LATE : forall a b, adj es v a -> adj es v b -> ~ In a P -> ~ In b P -> a = b).
  { intros a b A1 A2 N1 N2. assert (In a (nth v nb [])) by (apply Iv; auto).
    assert (In b (nth v nb [])) by (apply Iv; auto).
    destruct (nth v nb []) as [|y [|? ?]]; simpl in *; try lia; try tauto. }
  assert (EQ : (P ++ [v]) ++ Q = P ++ v :: Q) by (rewrite <- app_assoc; reflexivity).
  assert (ADJ : forall a b, adj es a b -> a < V /\ b < V).
  { destruct T as (_ & R & _). now apply in_range_adj. }
  assert (DF : forall q, In q Q -> lev q <= S (lev v)).
  { intros q Hq. apply (ci_diff _ _ _ _ I v Q); auto. now right. }
  assert (SRT := ci_sorted _ _ _ _ I).
  assert (VMIN : forall q, In q Q -> lev v <= lev q).
  { intros. apply ss_app_inv in SRT. destruct SRT as (_ & X & _). inversion X; subst.
    rewrite Forall_forall in H3. auto. }
  assert (OTHER : forall w, w < V -> ~ In w (P ++ [v]) -> ~ In w (nth v nb []) ->
     ssorted (nth w nb []) /\ forall z, In z (nth w nb []) <-> adj es w z /\ ~ In z (P ++ [v])).
  { intros w Hw Nw Nn. assert (NwP : ~ In w P) by (intro; apply Nw; apply in_or_app; auto).
    destruct (ci_nb _ _ _ _ I w Hw NwP) as [Sw Iw]. split; auto.
    intros z. rewrite Iw. split; [|intros [X Y]; split; auto; intro; apply Y; apply in_or_app; auto].
    intros [X Y]. split; auto. intro Z. apply in_app_or in Z. destruct Z as [Z|[<-|[]]]; auto.
    apply Nn. apply Iv. split; auto. now apply adj_sym. }
  destruct (nth v nb []) as [|v2 [|? ?]] eqn:En; [| |simpl in Lv; lia].
  - (* no neighbor left *)
    exists nb, Q, lev. simpl. split; auto. constructor; auto.
    + rewrite EQ. apply I.
    + rewrite EQ. apply I.
    + intros w Hw Nw. assert (NwP : ~ In w P) by (intro; apply Nw; apply in_or_app; auto).
      assert (w <> v) by (intro; subst; apply Nw; apply in_or_app; right; now left).
      rewrite <- (ci_q _ _ _ _ I w Hw NwP). simpl. intuition congruence.
    + intros w Hw. rewrite EQ in Hw. apply lev_ok_app. now apply (ci_lev _ _ _ _ I).
    + now rewrite EQ.
    + intros h t q E Hq. apply DF in Hq. assert (lev v <= lev h) by (apply VMIN; rewrite E; now left). lia.
    + apply late_snoc; auto. apply I.
  - (* one neighbor v2 left *)
    assert (H2 : adj es v v2 /\ ~ In v2 P) by (apply Iv; now left). destruct H2 as [A2 N2].
    assert (Hv2 : v2 < V) by (apply ADJ in A2; tauto).
    assert (v2 <> v) by (intro; subst; now apply NS in A2).
    destruct (ci_nb _ _ _ _ I v2 Hv2 N2) as [S2 I2].
    assert (IN : In v (nth v2 nb [])) by (apply I2; split; auto; now apply adj_sym).
    set (s' := set_remove_raw v (nth v2 nb [])).
    simpl. rewrite (get_Ok _ _ _ _ []) by lia. simpl.
    rewrite set_remove_Ok by auto. simpl. rewrite put_Ok by lia. simpl. fold s'.
    assert (Ls : S (length s') = length (nth v2 nb [])) by (apply set_remove_raw_length; auto).
    assert (NB2 : forall w, w < V -> ~ In w (P ++ [v]) -> ssorted (nth w (upd nb v2 s') []) /\
        forall z, In z (nth w (upd nb v2 s') []) <-> adj es w z /\ ~ In z (P ++ [v])).
    { intros w Hw Nw. rewrite nth_upd by lia. destruct (Nat.eqb_spec v2 w).
      - subst w. split. { now apply set_remove_raw_sorted. }
        intros z. unfold s'. rewrite set_remove_raw_In, I2 by auto. rewrite in_app_iff. simpl. intuition.
      - apply OTHER; auto. simpl. intuition. }
    assert (Q2 : In v2 Q <-> length (nth v2 nb []) <= 1).
    { rewrite <- (ci_q _ _ _ _ I v2 Hv2 N2). simpl. intuition congruence. }
    destruct (Nat.eqb_spec (length s') 1) as [E1|E1].
    + (* pushed *)
      assert (NQ2 : ~ In v2 Q) by (rewrite Q2; lia).
      set (lev' := fun w => if w =? v2 then S (lev v) else lev w).
      assert (LE : forall w, w <> v2 -> lev' w = lev w).
      { intros w Hw. unfold lev'. destruct (Nat.eqb_spec w v2); congruence. }
      assert (L2 : lev' v2 = S (lev v)) by (unfold lev'; now rewrite Nat.eqb_refl).
      assert (NPQ : ~ In v2 (P ++ v :: Q)).
      { rewrite in_app_iff. simpl. intuition. }
      assert (EQ2 : (P ++ [v]) ++ Q ++ [v2] = (P ++ v :: Q) ++ [v2]) by (rewrite <- !app_assoc; reflexivity).
      exists (upd nb v2 s'), (Q ++ [v2]), lev'. split; auto. constructor.
      * now rewrite upd_length.
      * rewrite EQ2. apply NoDup_app_intro; [apply I|repeat constructor; auto|]. intros w Hw [<-|[]]. auto.
      * intros w. rewrite EQ2, in_app_iff. intros [Hw|[<-|[]]]; auto. now apply (ci_lt _ _ _ _ I).
      * apply NB2.
      * intros w Hw Nw. rewrite nth_upd by lia. destruct (Nat.eqb_spec v2 w).
        -- subst w. rewrite in_app_iff. simpl. split; [lia|auto].
        -- assert (NwP : ~ In w P) by (intro; apply Nw; apply in_or_app; auto).
           assert (w <> v) by (intro; subst; apply Nw; apply in_or_app; right; now left).
           rewrite <- (ci_q _ _ _ _ I w Hw NwP). rewrite in_app_iff. simpl. intuition congruence.
      * intros w. rewrite EQ2, in_app_iff. intros [Hw|[<-|[]]].
        -- apply (lev_ok_ext _ lev).
           { intros z [Hz| ->]; apply LE; intro; subst.
             - apply in_app_or in Hz. destruct Hz as [Hz|[Hz|[]]]; auto.
             - auto. }
           apply lev_ok_app. now apply (ci_lev _ _ _ _ I).
        -- right. destruct s' as [|x [|? ?]] eqn:Es; simpl in E1; try lia.
           assert (Hx : x <> v /\ adj es v2 x /\ ~ In x P).
           { assert (In x s') by (rewrite Es; now left). unfold s' in H0.
             rewrite set_remove_raw_In in H0 by auto. rewrite I2 in H0. auto. }
           exists x, v, P, []. repeat split; try tauto.
           ++ now apply adj_sym.
           ++ rewrite L2. rewrite LE by auto. reflexivity.
           ++ rewrite in_app_iff. simpl. intuition.
           ++ intros w Aw Nw. rewrite in_app_iff. simpl.
              destruct (in_dec Nat.eq_dec w P); auto. destruct (Nat.eq_dec v w); auto.
              exfalso. apply Nw. assert (In w s').
              { unfold s'. rewrite set_remove_raw_In by auto. split; auto. rewrite I2. auto. }
              rewrite Es in H0. destruct H0 as [<-|[]]; auto.
      * rewrite EQ2. apply ss_app_intro.
        -- apply (ss_ext lev); auto. intros w Hw. apply LE. intro; subst; auto.
        -- repeat constructor.
        -- intros x y Hx [<-|[]]. rewrite L2. rewrite LE by (intro; subst; auto).
           apply in_app_or in Hx. destruct Hx as [Hx|[<-|Hx]]; auto.
           apply ss_app_inv in SRT. destruct SRT as (_ & _ & Z). specialize (Z x v Hx (or_introl eq_refl)). lia.
      * assert (forall q, In q (Q ++ [v2]) -> lev v <= lev' q <= S (lev v)).
        { intros q Hq. apply in_app_or in Hq. destruct Hq as [Hq|[<-|[]]]; [|lia].
          rewrite LE by (intro; subst; auto). split; auto. }
        intros h t q E Hq. apply H0 in Hq. assert (In h (Q ++ [v2])) by (rewrite E; now left).
        apply H0 in H1. lia.
      * apply late_snoc; auto. apply I.
    + exists (upd nb v2 s'), Q, lev. split; auto. constructor; auto.
      * now rewrite upd_length.
      * rewrite EQ. apply I.
      * rewrite EQ. apply I.
      * intros w Hw Nw. rewrite nth_upd by lia. destruct (Nat.eqb_spec v2 w).
        -- subst w. rewrite Q2. lia.
        -- assert (NwP : ~ In w P) by (intro; apply Nw; apply in_or_app; auto).
           assert (w <> v) by (intro; subst; apply Nw; apply in_or_app; right; now left).
           rewrite <- (ci_q _ _ _ _ I w Hw NwP). simpl. intuition congruence.
      * intros w Hw. rewrite EQ in Hw. apply lev_ok_app. now apply (ci_lev _ _ _ _ I).
      * now rewrite EQ.
      * intros h t q E Hq. apply DF in Hq. assert (lev v <= lev h) by (apply VMIN; rewrite E; now left). lia.
      * apply late_snoc; auto. apply I.
Qed.

(** When the queue is empty everything has been popped. *)
Lemma cinv_done : forall P nb lev, cinv P [] nb lev -> forall v, v < V -> In v P.
Proof.
  intros P nb lev I. destruct T as (L & R & C).
  assert (V0 : 0 < V) by lia.
  destruct (tree_rooted V es 0 T V0) as (par & dep & RT).
  enough (forall n v, v < V -> n <= dep v -> In v P) by (intros; apply (H 0); auto; lia).
  assert (B : exists B, forall v, v < V -> dep v < B).
  { clear. induction V. exists 0; intros; lia. destruct IHn as [B HB].
    exists (S (B + dep n)). intros. destruct (Nat.eq_dec v n); [subst; lia|]. specialize (HB v). lia. }
  destruct B as [B HB].
  assert (forall k n, B <= n + k -> forall v, v < V -> n <= dep v -> In v P).
  { induction k; intros.
    - specialize (HB v H0). lia.
    - destruct (in_dec Nat.eq_dec v P); auto. exfalso.
      assert (Q : In v [] <-> length (nth v nb []) <= 1) by (apply (ci_q _ _ _ _ I v); auto).
      destruct (ci_nb _ _ _ _ I v H0 n0) as [SS In'].
      assert (U : forall w, In w (nth v nb []) -> w = par v).
      { intros w Hw. apply In' in Hw. destruct Hw as [A N].
        apply (rt_adj _ _ _ _ _ RT) in A. destruct A as (_ & Hw & [[_ A]|[N' A]]); auto.
        exfalso. apply N. apply (IHk (S n)); auto. lia.
        rewrite (par_dep _ _ _ _ _ RT w Hw N'), A. lia. }
      simpl in Q. apply Q. apply ssorted_NoDup in SS. clear Q In'.
      destruct (nth v nb []) as [|a [|b l]]; simpl; try lia.
      exfalso. inversion SS; subst. apply H4. left. rewrite (U a), (U b); simpl; auto. }
  intros n v Hv Hn. apply (H B n); auto. lia.
Qed.

Lemma center_loop_Ok : forall fuel P Q nb lev last, cinv P Q nb lev ->
  (forall A c, P = A ++ [c] -> last = c) -> V < fuel + length P ->
  exists P' nb' lev' c, center_loop fuel nb Q last = Ok c /\ cinv P' [] nb' lev' /\
    (forall A c', P' = A ++ [c'] -> c = c').
Proof.
  induction fuel; intros P Q nb lev last I HL F.
  - exfalso. assert (NoDup P).
    { pose proof (ci_nodup _ _ _ _ I) as N. clear - N. induction P; constructor; inversion N; subst.
      - intro. apply H1. apply in_or_app; auto.
      - auto. }
    apply NoDup_bounded_length with (n := V) in H; [lia|]. intros. apply (ci_lt _ _ _ _ I). apply in_or_app; auto.
  - destruct Q as [|v Q]; simpl.
    + exists P, nb, lev, last. auto.
    + assert (Hv : v < V) by (apply (ci_lt _ _ _ _ I); apply in_or_app; right; now left).
      rewrite (get_Ok _ _ _ _ []) by (rewrite (ci_len _ _ _ _ I); auto). simpl bind.
      destruct (cinv_step _ _ _ _ _ I) as (nb' & Q' & lev' & E & I').
      rewrite E. simpl. eapply IHfuel; [exact I'| |].
      * intros A c Ec. apply app_inj_tail in Ec. tauto.
      * rewrite app_length. simpl. lia.
Qed.

Lemma cinv_init : forall nb, nb_ok V es nb ->
  cinv [] (filter (fun v => length (nth v nb []) <=? 1) (rev (seq 0 V))) nb (fun _ => 0).
Proof.
  intros nb [L H]. constructor; simpl; auto.
  - apply NoDup_filter, NoDup_rev, seq_NoDup.
  - intros v Hv. apply filter_In in Hv. destruct Hv as [Hv _]. apply in_rev, in_seq in Hv. lia.
  - intros v Hv _. destruct (H v) as [S Iv]. split; auto. intros w. rewrite Iv by auto. tauto.
  - intros v Hv _. rewrite filter_In, <- in_rev, in_seq, Nat.leb_le. lia.
  - intros v Hv. apply filter_In in Hv. destruct Hv as [Hv E]. apply in_rev, in_seq in Hv. apply Nat.leb_le in E.
    left. split; auto. intros a b A B. destruct (H v) as [S Iv].
    apply Iv in A, B; try lia. destruct (nth v nb []) as [|y [|? ?]]; simpl in *; try lia; try tauto.
  - unfold lev_sorted. induction (filter _ _); constructor; auto. apply Forall_forall. auto.
  - intros A v B a b E. destruct A; discriminate.
Qed.

(** ** From the invariant to eccentricity *)

Section Final.
Variables (A : list nat) (c : nat) (nb : list (list nat)) (lev : nat -> nat).
Hypothesis I : cinv (A ++ [c]) [] nb lev.
Variables (par dep : nat -> nat).
Hypothesis RT : rooted V es c par dep.

Definition before (u v : nat) : Prop := exists X Y, A ++ [c] = X ++ v :: Y /\ In u X.

Let P := A ++ [c].
Let NDP : NoDup P.
Proof. pose proof (ci_nodup _ _ _ _ I) as N. now rewrite app_nil_r in N. Qed.

Lemma split_unique : forall v X Y X' Y', P = X ++ v :: Y -> P = X' ++ v :: Y' -> X = X'.
Proof.
  intros v X Y X' Y' E E'. rewrite E in E'. pose proof NDP as N. rewrite E in N. clear - E' N.
  revert X' E' N. induction X; intros; destruct X'; simpl in *; auto.
  - inversion E'; subst. exfalso. inversion N; subst. apply H1. apply in_or_app. right. now left.
  - inversion E'; subst. exfalso. inversion N; subst. apply H1. apply in_or_app. right. now left.
  - inversion E'; subst. inversion N; subst. f_equal. apply IHX; auto.
Qed.

Lemma before_total : forall u v, u < V -> v < V -> u <> v -> before u v \/ before v u.
Proof.
  intros u v Hu Hv N. pose proof (cinv_done _ _ _ I v Hv) as Iv.
  apply in_split in Iv. destruct Iv as (X & Y & E).
  pose proof (cinv_done _ _ _ I u Hu) as Iu. rewrite E in Iu.
  apply in_app_or in Iu. destruct Iu as [Iu|[Iu|Iu]]; [left; exists X, Y; auto|congruence|].
  right. apply in_split in Iu. destruct Iu as (Y1 & Y2 & ->).
  exists (X ++ v :: Y1), Y2. split. { rewrite E, <- app_assoc. reflexivity. }
  apply in_or_app. right. now left.
Qed.

Lemma before_antisym : forall u v, before u v -> before v u -> False.
Proof.
  intros u v (X & Y & E & Hu) (X' & Y' & E' & Hv).
  apply in_split in Hu. destruct Hu as (X1 & X2 & ->).
  assert (X1 = X').
  { eapply (split_unique u X1 (X2 ++ v :: Y)). 2: exact E'. unfold P. rewrite E, <- app_assoc. reflexivity. }
  subst X'. pose proof NDP as N. unfold P in N. rewrite E in N. rewrite <- app_assoc in N. simpl in N.
  apply in_split in Hv. destruct Hv as (a & b & ->). rewrite <- app_assoc in N. simpl in N.
  apply NoDup_remove_2 in N. apply N. apply in_or_app. right. apply in_or_app. right. right.
  apply in_or_app. right. now left.
Qed.

Lemma before_c : forall v, v < V -> v <> c -> before v c.
Proof.
  intros v Hv N. exists A, []. split; auto.
  pose proof (cinv_done _ _ _ I v Hv) as H. apply in_app_or in H. destruct H as [H|[H|[]]]; congruence.
Qed.

Lemma before_lev : forall u v, before u v -> lev u <= lev v.
Proof.
  intros u v (X & Y & E & Hu). pose proof (ci_sorted _ _ _ _ I) as S. rewrite app_nil_r, E in S.
  apply ss_app_inv in S. destruct S as (_ & _ & Z). apply Z; auto. now left.
Qed.

Lemma par_late : forall v, v < V -> v <> c -> before v (par v).
Proof.
  apply (rooted_ind _ _ _ _ _ RT (fun v => v <> c -> before v (par v))); [congruence|].
  intros v Hv N IHv _. pose proof (par_lt _ _ _ _ _ RT v Hv) as Hp.
  destruct (Nat.eq_dec (par v) c) as [->|Np]; [now apply before_c|].
  specialize (IHv Np).
  destruct (before_total v (par v)) as [B|B]; auto. { intro. now apply (par_neq _ _ _ _ _ RT v). }
  exfalso. destruct (rt_par _ _ _ _ _ RT v Hv N) as (_ & D1 & A1).
  destruct (rt_par _ _ _ _ _ RT (par v) Hp Np) as (_ & D2 & A2).
  assert (v = par (par v)).
  { pose proof (cinv_done _ _ _ I (par v) Hp) as Ip. apply in_split in Ip. destruct Ip as (X & Y & E).
    apply (ci_late _ _ _ _ I X (par v) Y); auto.
    - now apply adj_sym.
    - intro H1. apply (before_antisym v (par v)); auto. exists X, Y; auto.
    - intro H1. apply (before_antisym (par (par v)) (par v)); auto. exists X, Y; auto. }
  rewrite <- H in D2. lia.
Qed.

(** Levels are heights. *)
Lemma lev_child : forall w v, w < V -> w <> c -> par w = v -> v <> c -> S (lev w) <= lev v.
Proof.
  intros w v Hw Nw Ew Nv.
  assert (Hv : v < V) by (subst; now apply (par_lt _ _ _ _ _ RT)).
  destruct (rt_par _ _ _ _ _ RT w Hw Nw) as (_ & Dw & Aw). rewrite Ew in Dw, Aw.
  destruct (rt_par _ _ _ _ _ RT v Hv Nv) as (_ & Dv & Av).
  pose proof (ci_lev _ _ _ _ I v) as L. rewrite app_nil_r in L. specialize (L (cinv_done _ _ _ I v Hv)).
  destruct L as [[D _]|(x & u & X & Y & E & Nxu & Ax & Au & Lv & NxX & NvX & ALL)].
  - exfalso. assert (w = par v) by (apply D; auto; now apply adj_sym). subst w. lia.
  - assert (x = par v).
    { destruct (Nat.eq_dec x (par v)); auto. exfalso.
      assert (In (par v) (X ++ [u])) by (apply ALL; auto).
      apply (before_antisym (par v) v).
      - destruct (before_total (par v) v); auto.
        + now apply (par_lt _ _ _ _ _ RT).
        + now apply (par_neq _ _ _ _ _ RT).
        + exfalso. destruct H0 as (X' & Y' & E' & Hv').
          apply NvX. apply in_app_or in H. destruct H as [H|[H|[]]].
          * apply in_split in H. destruct H as (x1 & x2 & ->).
            assert (x1 = X'). { eapply split_unique; [|exact E']. unfold P. rewrite E, <- app_assoc. reflexivity. }
            subst. apply in_or_app. left. apply in_or_app. now left.
          * subst u. assert (X = X') by (eapply split_unique; [exact E|exact E']). subst. apply in_or_app. now left.
      - now apply par_late. }
    subst x.
    assert (Iw : In w (X ++ [u])).
    { apply ALL. now apply adj_sym. intro. subst w. lia. }
    rewrite Lv. apply le_n_S. apply in_app_or in Iw. destruct Iw as [Iw|[->|[]]]; auto.
    apply before_lev. exists X, Y. auto.
Qed.

Lemma lev_deep : forall v, v < V -> v <> c -> lev v = 0 \/ exists u, u < V /\ u <> c /\ par u = v /\ lev v = S (lev u).
Proof.
  intros v Hv Nv. pose proof (ci_lev _ _ _ _ I v) as L. rewrite app_nil_r in L. specialize (L (cinv_done _ _ _ I v Hv)).
  destruct L as [[D ?]|(x & u & X & Y & E & Nxu & Ax & Au & Lv & NxX & NvX & ALL)]; auto.
  right. exists u. apply (rt_adj _ _ _ _ _ RT) in Au. destruct Au as (_ & Hu & [[_ Au]|[Nu Au]]); auto.
  exfalso. (* u is the parent of v: popped before v, impossible *)
  apply (before_antisym v u).
  - rewrite <- Au. now apply par_late.
  - destruct (before_total u v) as [B|(X' & Y' & E' & Hv')]; auto. { intro. subst u. now apply (par_neq _ _ _ _ _ RT v). }
    exfalso. assert (X = X') by (eapply split_unique; [exact E|exact E']). subst X'. apply NvX. apply in_or_app; auto.
Qed.

(** The child of the root above a vertex. *)
Definition top (v : nat) : nat := Nat.iter (dep v - 1) par v.

Lemma top_child : forall v, v < V -> v <> c -> par v = c -> top v = v.
Proof.
  intros. unfold top. rewrite (par_dep _ _ _ _ _ RT v) by auto. rewrite H1, (rt_dep _ _ _ _ _ RT). reflexivity.
Qed.

Lemma top_par : forall v, v < V -> v <> c -> par v <> c -> top v = top (par v).
Proof.
  intros. unfold top. rewrite (par_dep _ _ _ _ _ RT v) by auto.
  rewrite (par_dep _ _ _ _ _ RT (par v)) by (auto using (par_lt _ _ _ _ _ RT)).
  simpl. rewrite Nat.sub_0_r. change (Nat.iter (S (dep (par (par v)))) par v = Nat.iter (dep (par (par v))) par (par v)).
  induction (dep (par (par v))); simpl in *; congruence.
Qed.

Lemma top_props : forall v, v < V -> v <> c -> top v < V /\ top v <> c /\ par (top v) = c /\ dep v <= 1 + lev (top v) - lev v /\ lev v <= lev (top v).
Proof.
  apply (rooted_ind _ _ _ _ _ RT (fun v => v <> c -> top v < V /\ top v <> c /\ par (top v) = c /\
           dep v <= 1 + lev (top v) - lev v /\ lev v <= lev (top v))); [congruence|].
  intros v Hv N IHv _.
  pose proof (par_lt _ _ _ _ _ RT v Hv) as Hp.
  destruct (Nat.eq_dec (par v) c) as [E|Np].
  - rewrite top_child by auto. rewrite (par_dep _ _ _ _ _ RT v), E, (rt_dep _ _ _ _ _ RT) by auto.
    repeat split; auto. lia.
  - rewrite top_par by auto. destruct (IHv Np) as (X1 & X2 & X3 & X4 & X5).
    pose proof (lev_child v (par v) Hv N eq_refl Np). rewrite (par_dep _ _ _ _ _ RT v) by auto.
    repeat split; auto; lia.
Qed.

(** Every child [z] of the root has a descendant at depth [1 + lev z]. *)
Lemma deep_exists : forall n v, lev v = n -> v < V -> v <> c ->
  exists y, y < V /\ y <> c /\ top y = top v /\ dep y = dep v + lev v.
Proof.
  induction n; intros.
  - exists v. repeat split; auto; lia.
  - destruct (lev_deep v H0 H1) as [Z|(u & Hu & Nu & Eu & L)]; [lia|].
    destruct (IHn u) as (y & Hy & Ny & Ty & Dy); auto; [lia|].
    exists y. repeat split; auto.
    + rewrite Ty. rewrite (top_par u); auto; rewrite Eu; auto.
    + rewrite Dy. rewrite (par_dep _ _ _ _ _ RT u), Eu by auto. lia.
Qed.

(** Lower bound on walks between different branches. *)
Lemma walk_branches : forall x, x < V -> x <> c -> par x = c -> forall u v n, walk es u v n ->
  u < V -> u <> c -> top u = x -> v < V -> (v = c \/ top v <> x) -> dep u + dep v <= n.
Proof.
  intros x Hx Nx Ex.
  set (sd := fun w => negb (w =? c) && (top w =? x)).
  enough (forall u v n, walk es u v n -> u < V -> v < V -> sd v = false ->
            (sd u = true -> dep u + dep v <= n) /\ (sd u = false -> dep v <= n + dep u)).
  { intros u v n W Hu Nu Tu Hv Tv. destruct (H u v n W Hu Hv) as [H1 _].
    - unfold sd. destruct (Nat.eqb_spec v c); auto. simpl. apply Nat.eqb_neq. tauto.
    - apply H1. unfold sd. destruct (Nat.eqb_spec u c); [congruence|]. simpl. now apply Nat.eqb_eq. }
  induction 1 as [v|u w v n Auw W]; intros Hu Hv Sv.
  - split; intros; [congruence|lia].
  - apply (rt_adj _ _ _ _ _ RT) in Auw. destruct Auw as (_ & Hw & Auw).
    destruct (IHW Hw Hv Sv) as [IH1 IH2].
    assert (STEP : dep u <= S (dep w) /\ dep w <= S (dep u)).
    { destruct Auw as [[N E]|[N E]]; [pose proof (par_dep _ _ _ _ _ RT u Hu N)|pose proof (par_dep _ _ _ _ _ RT w Hw N)];
        rewrite E in H; lia. }
    destruct (sd u) eqn:Su, (sd w) eqn:Sw; split; intros; try congruence.
    + specialize (IH1 eq_refl). lia.
    + (* leaving the branch: u = x, w = c *)
      specialize (IH2 eq_refl).
      unfold sd in Su. apply andb_true_iff in Su. destruct Su as [S1 S2].
      apply negb_true_iff, Nat.eqb_neq in S1. apply Nat.eqb_eq in S2.
      assert (w = c).
      { destruct (Nat.eq_dec w c); auto. exfalso. unfold sd in Sw.
        destruct (Nat.eqb_spec w c); [congruence|]. simpl in Sw. apply Nat.eqb_neq in Sw.
        destruct Auw as [[N E]|[N E]].
        - apply Sw. rewrite <- S2, <- E. symmetry. apply top_par; auto. congruence.
        - apply Sw. rewrite <- S2, <- E. apply top_par; auto. congruence. }
      subst w. rewrite (rt_dep _ _ _ _ _ RT) in *. lia.
    + (* entering the branch *)
      specialize (IH1 eq_refl). lia.
    + specialize (IH2 eq_refl). lia.
Qed.

Lemma max_dep : exists v, v < V /\ forall w, w < V -> dep w <= dep v.
Proof.
  pose proof (rt_root _ _ _ _ _ RT) as H.
  assert (forall n, 0 < n -> exists v, v < n /\ forall w, w < n -> dep w <= dep v).
  { induction n; intros; [lia|]. destruct n.
    - exists 0. split; auto. intros. replace w with 0 by lia. auto.
    - destruct IHn as (v & Hv & M); [lia|].
      destruct (le_lt_dec (dep (S n)) (dep v)).
      + exists v. split; [lia|]. intros. destruct (Nat.eq_dec w (S n)); [subst; auto|]. apply M. lia.
      + exists (S n). split; [lia|]. intros. destruct (Nat.eq_dec w (S n)); [subst; auto|].
        specialize (M w). lia. }
  apply H0. lia.
Qed.

Lemma final_center : center V es c.
Proof.
  pose proof (rt_root _ _ _ _ _ RT) as Hc. split; auto.
  destruct max_dep as (m & Hm & M). exists (dep m). split.
  - split. { exists m. split; auto. now apply RT. }
    intros v n Hv D. rewrite (dist_fun _ _ _ _ _ D (rt_dist _ _ _ _ _ RT v Hv)). auto.
  - intros c' d' Hc' E.
    assert (FAR : forall y, y < V -> forall k, (forall n, walk es c' y n -> k <= n) -> k <= d').
    { intros y Hy k Hk. destruct T as (_ & _ & C). destruct (dist_exists es c' y (C c' y Hc' Hy)) as [d D].
      destruct E as [_ E]. specialize (E y d Hy D). destruct D as [W _]. apply Hk in W. lia. }
    destruct (Nat.eq_dec c' c) as [->|Nc'].
    { apply (FAR m Hm). intros. now apply (rt_dist _ _ _ _ _ RT m Hm). }
    destruct (Nat.eq_dec m c) as [->|Nm].
    { rewrite (rt_dep _ _ _ _ _ RT). lia. }
    destruct (top_props m Hm Nm) as (Tm & NTm & PTm & DTm & _).
    pose proof (ci_lev _ _ _ _ I c) as L. rewrite app_nil_r in L. specialize (L (cinv_done _ _ _ I c Hc)).
    destruct L as [[D L0]|(x & u & X & Y & EX & Nxu & Ax & Au & Lv & NxX & NvX & ALL)].
    + assert (lev (top m) <= lev c) by (apply before_lev, before_c; auto).
      apply (FAR c Hc). intros n W. inversion W; subst; [congruence|]. lia.
    + (* u and x are children of c *)
      assert (CH : forall w, adj es c w -> w < V /\ w <> c /\ par w = c).
      { intros w Aw. apply (rt_adj _ _ _ _ _ RT) in Aw. destruct Aw as (_ & Hw & [[N _]|[N E']]); [congruence|auto]. }
      destruct (CH u Au) as (Hu & Nu & Pu), (CH x Ax) as (Hx & Nx & Px).
      assert (LU : lev (top m) <= S (lev u)).
      { rewrite <- Lv. apply before_lev, before_c; auto. }
      assert (LX : lev u <= lev x).
      { apply before_lev. destruct (before_total u x) as [B|(X' & Y' & E' & Hx')]; auto.
        exfalso. assert (X = X') by (eapply split_unique; [exact EX|exact E']). subst. auto. }
      assert (LM : lev (top m) <= lev u \/ top m = x).
      { destruct (Nat.eq_dec (top m) x); auto. left.
        assert (In (top m) (X ++ [u])).
        { apply ALL; auto. apply (rt_adj _ _ _ _ _ RT). repeat split; auto. }
        apply in_app_or in H. destruct H as [H|[->|[]]]; auto. apply before_lev. exists X, Y. auto. }
      destruct (top_props c' Hc' Nc') as (Tc & NTc & PTc & _ & _).
      assert (D1 : 1 <= dep c') by (rewrite (par_dep _ _ _ _ _ RT c') by auto; lia).
      destruct (Nat.eq_dec (top c') u) as [Tu|Tu].
      * destruct (deep_exists (lev x) x) as (y & Hy & Ny & Ty & Dy); auto.
        rewrite (top_child x) in Ty by auto.
        apply (FAR y Hy). intros n W.
        assert (dep c' + dep y <= n).
        { apply (walk_branches (top c') Tc NTc PTc c' y n W); auto. right. congruence. }
        rewrite (par_dep _ _ _ _ _ RT x), Px, (rt_dep _ _ _ _ _ RT) in Dy by auto.
        assert (lev (top m) <= lev x) by (destruct LM as [LM| ->]; lia). lia.
      * destruct (deep_exists (lev u) u) as (y & Hy & Ny & Ty & Dy); auto.
        rewrite (top_child u) in Ty by auto.
        apply (FAR y Hy). intros n W.
        assert (dep c' + dep y <= n).
        { apply (walk_branches (top c') Tc NTc PTc c' y n W); auto. right. congruence. }
        rewrite (par_dep _ _ _ _ _ RT u), Pu, (rt_dep _ _ _ _ _ RT) in Dy by auto. lia.
Qed.
End Final.
End Center.

Lemma find_center_Ok : forall V edges, spanning_tree V edges ->
  exists c, find_center_of_tree (make_tree edges) = Ok c /\ center V edges c.
Proof.
  intros V edges T. pose proof (make_tree_spanning _ _ T) as T'.
  set (es := grid_edges (make_tree edges)) in *.
  unfold find_center_of_tree. rewrite make_tree_length. fold es.
  assert (LV : 1 + length edges = V) by (destruct T; lia). rewrite LV.
  destruct (build_neighbors_ok V es) as (nb & EN & NB). { apply T'. }
  rewrite EN. simpl bind.
  destruct (center_loop_Ok V es T' (V + 1) [] _ nb (fun _ => 0) 0 (cinv_init V es nb NB)) as (P' & nb' & lev' & c & E & I & HC).
  - intros A c E. destruct A; discriminate.
  - simpl. lia.
  - exists c. split; auto.
    destruct P' as [|c' A] using rev_ind.
    + exfalso. pose proof (cinv_done V es T' [] nb' lev' I 0). simpl in H. apply H. lia.
    + clear IHA. assert (c = c') by (eapply HC; eauto). subst c'.
      assert (Hc : c < V). { apply (ci_lt _ _ _ _ _ _ I). rewrite app_nil_r. apply in_or_app. right. now left. }
      destruct (tree_rooted V es c T' Hc) as (par & dep & RT).
      pose proof (final_center V es T' A c nb' lev' I par dep RT) as C.
      assert (AD : forall u v, adj es u v <-> adj edges u v).
      { intros. rewrite <- (adj_norm edges). split; apply adj_perm; unfold es; [|symmetry]; apply make_tree_perm. }
      assert (WK : forall u v n, walk es u v n <-> walk edges u v n).
      { intros. split; apply walk_incl; intros; now apply AD. }
      assert (DS : forall u v d, dist es u v d <-> dist edges u v d).
      { intros. unfold dist. rewrite WK. split; intros [X Y]; split; auto; intros; apply Y; now apply WK. }
      assert (EC : forall u d, ecc V es u d <-> ecc V edges u d).
      { intros. unfold ecc. split; intros [(v & Hv & D) M]; (split; [exists v; split; auto; now apply DS|]);
          intros; eapply M; eauto; now apply DS. }
      destruct C as (_ & d & E1 & M). split; auto. exists d. split. { now apply EC. }
      intros. apply (M c'); auto. now apply EC.
Qed.
