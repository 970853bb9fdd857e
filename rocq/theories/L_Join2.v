From Coq Require Import String Ascii.
From Coq Require Import List Arith Lia Bool Permutation Sorted.
From Verif Require Import Base M_Config M_Cache M_Join Spec_Join L_Config L_Cache L_Join.
Import ListNotations.
Open Scope list_scope.
Open Scope nat_scope.

(** the join, key by key *)
Definition at_key (k : cell) (rows : list (cell * list cell)) : list (list cell) := map snd (filter (fun '(k', _) => cell_eqb k' k) rows).
Lemma at_key_app : forall k a b, at_key k (a ++ b) = at_key k a ++ at_key k b.
Proof. intros. unfold at_key. now rewrite filter_app, map_app. Qed.
Lemma at_key_cons : forall k k' r l, at_key k ((k', r) :: l) = (if cell_eqb k' k then [r] else []) ++ at_key k l.
Proof. intros. unfold at_key. cbn. now destruct (cell_eqb k' k). Qed.
Lemma at_key_perm : forall k a b, Permutation a b -> Permutation (at_key k a) (at_key k b).
Proof. intros k a b P. unfold at_key. apply Permutation_map. induction P; cbn.
  - constructor.
  - destruct x. destruct (cell_eqb c k); auto.
  - destruct x, y. destruct (cell_eqb c k), (cell_eqb c0 k); auto. constructor.
  - etransitivity; eauto. Qed.

Definition beside (nones : list cell) (R : list (list cell)) (l : list cell) : list (list cell) :=
  match R with [] => [l ++ nones] | _ => map (app l) R end.

Lemma matched : forall wr k l right, at_key k (match filter (fun '(k', _) => cell_eqb k k') right with [] => [(k, l ++ repeat None wr)] | ms => map (fun '(_, r) => (k, l ++ r)) ms end) = beside (repeat None wr) (at_key k right) l.
Proof.
  intros. assert (F : filter (fun '(k', _) => cell_eqb k k') right = filter (fun kr : cell * list cell => let '(k', _) := kr in cell_eqb k' k) right) by (apply filter_ext; intros []; apply cell_eqb_sym).
  rewrite F. unfold at_key at 2. generalize (filter (fun kr : cell * list cell => let '(k', _) := kr in cell_eqb k' k) right) as ms. intros ms. destruct ms as [|[k1 r1] ms].
  - cbn. unfold at_key. cbn. now rewrite cell_eqb_refl.
  - unfold beside. cbn [map snd]. rewrite at_key_cons, cell_eqb_refl. cbn. f_equal. clear. induction ms as [|[k2 r2] ms IH]; [auto|]. cbn [map]. rewrite at_key_cons, cell_eqb_refl. cbn. now rewrite IH.
Qed.
Lemma unmatched : forall wr k k2 l (right : list (cell * list cell)), k2 <> k -> at_key k (match filter (fun '(k', _) => cell_eqb k2 k') right with [] => [(k2, l ++ repeat None wr)] | ms => map (fun '(_, r) => (k2, l ++ r)) ms end) = [].
Proof.
  intros wr k k2 l right N. assert (X : cell_eqb k2 k = false) by (apply not_true_iff_false; rewrite cell_eqb_eq; auto).
  destruct (filter (fun '(k', _) => cell_eqb k2 k') right) as [|p ms].
  - unfold at_key. cbn. now rewrite X.
  - generalize (p :: ms) as q. induction q as [|[k3 r3] q IH]; [auto|]. cbn [map]. rewrite at_key_cons, X. exact IH.
Qed.
Lemma outer_under : forall wl wr left right k,
  at_key k (outer_rows wl wr left right) = flat_map (beside (repeat None wr) (at_key k right)) (at_key k left) ++
    match at_key k left with [] => map (app (repeat None wl)) (at_key k right) | _ => [] end.
Proof.
  intros. unfold outer_rows. rewrite at_key_app. f_equal.
  - induction left as [|[k2 l] left IH]; [auto|]. cbn [flat_map]. rewrite at_key_app, IH, at_key_cons. destruct (cell_eqb k2 k) eqn:E.
    + apply cell_eqb_eq in E. subst k2. rewrite matched. reflexivity.
    + rewrite unmatched; [auto|]. intros ->. rewrite cell_eqb_refl in E. discriminate E.
  - assert (H : existsb (fun '(k', _) => cell_eqb k k') left = match at_key k left with [] => false | _ => true end).
    { induction left as [|[k2 l] left IH]; [auto|]. cbn [existsb]. rewrite at_key_cons, (cell_eqb_sym k k2). destruct (cell_eqb k2 k); [auto|]. exact IH. }
    induction right as [|[k2 r] right IH]; [now destruct (at_key k left)|]. cbn [filter]. rewrite at_key_cons.
    destruct (cell_eqb k2 k) eqn:E.
    + apply cell_eqb_eq in E. subst k2. rewrite H. destruct (at_key k left); cbn [negb].
      * cbn [map]. rewrite at_key_cons, cell_eqb_refl. cbn. now rewrite IH.
      * exact IH.
    + cbn [app]. destruct (negb _); [cbn [map]; rewrite at_key_cons, E; exact IH|exact IH].
Qed.
Lemma outer_len : forall wl wr left right, (forall k r, In (k, r) left -> length r = wl) -> (forall k r, In (k, r) right -> length r = wr) ->
  forall k r, In (k, r) (outer_rows wl wr left right) -> length r = wl + wr.
Proof.
  intros wl wr left right HL HR k r I. unfold outer_rows in I. apply in_app_or in I. destruct I as [I|I].
  - apply in_flat_map in I. destruct I as ([k2 l] & Il & I). destruct (filter (fun '(k', _) => cell_eqb k2 k') right) as [|p ms] eqn:F.
    + destruct I as [E|[]]. inversion E; subst. rewrite app_length, repeat_length. f_equal. eauto.
    + apply in_map_iff in I. destruct I as ([k3 r3] & E & I). inversion E; subst. rewrite <- F in I. apply filter_In in I. rewrite app_length. f_equal; [eauto|]. destruct I; eauto.
  - apply in_map_iff in I. destruct I as ([k2 r2] & E & I). inversion E; subst. apply filter_In in I. rewrite app_length, repeat_length. f_equal. destruct I; eauto.
Qed.

(** the rows of one frame *)
Lemma index_Ok : forall on df, table on df -> exists D, set_index on df = Ok {| i_cols := D; i_rows := map (fun row => (field df row on, map (field df row) D)) (f_rows df) |} /\
  NoDup D /\ forall c, In c D <-> In c (f_cols df) /\ c <> on.
Proof.
  intros on df (ND & I & L). destruct (place_Some on _ I) as (i & P & _). exists (drop_at i (f_cols df)). rewrite (drop_place on (f_cols df) i ND P).
  split; [|split; [now apply NoDup_filter|intros c; rewrite filter_In, negb_true_iff, String.eqb_neq; tauto]].
  unfold set_index. rewrite P. f_equal. f_equal; [now apply drop_place|]. apply map_ext_in. intros row Ir. specialize (L row Ir).
  f_equal; [rewrite field_look by auto; unfold look; now rewrite P|].
  rewrite <- (drop_place on (f_cols df) i ND P), <- drop_map. f_equal. rewrite <- (look_row (f_cols df) row ND L) at 1. apply map_ext. intros c. symmetry. now apply field_look.
Qed.
Lemma field_out : forall on df row c, table on df -> In row (f_rows df) -> ~ In c (f_cols df) -> field df row c = None.
Proof. intros on df row c (_ & _ & L) I N. rewrite field_look by auto. now apply look_out. Qed.

Lemma at_key_frame : forall on k D df, at_key k (map (fun row => (field df row on, map (field df row) D)) (f_rows df)) = map (fun row => map (field df row) D) (keyed on k df).
Proof. intros. unfold keyed, at_key. induction (f_rows df) as [|row t IH]; [auto|]. cbn [map filter]. destruct (cell_eqb (field df row on) k); cbn [map snd]; [now rewrite IH|exact IH]. Qed.

(** picking rows *)
Definition extend (on : string) (k : cell) (df : frame) (p : list (frame * list cell)) : list (list (frame * list cell)) :=
  match keyed on k df with [] => [p] | rows => map (fun row => p ++ [(df, row)]) rows end.
Lemma flat_map_flat_map : forall {A B C} (f : A -> list B) (g : B -> list C) l, flat_map g (flat_map f l) = flat_map (fun a => flat_map g (f a)) l.
Proof. induction l as [|a l IH]; [auto|]. cbn. now rewrite flat_map_app, IH. Qed.
Lemma flat_map_map : forall {A B C} (f : A -> B) (g : B -> list C) l, flat_map g (map f l) = flat_map (fun a => g (f a)) l.
Proof. induction l as [|a l IH]; [auto|]. cbn. now rewrite IH. Qed.
Lemma map_flat_map : forall {A B C} (f : A -> list B) (g : B -> C) l, map g (flat_map f l) = flat_map (fun a => map g (f a)) l.
Proof. induction l as [|a l IH]; [auto|]. cbn. now rewrite map_app, IH. Qed.
Lemma picks_snoc : forall on k dfs df, picks on k (dfs ++ [df]) = flat_map (extend on k df) (picks on k dfs).
Proof.
  intros on k dfs df. induction dfs as [|d dfs IH].
  - assert (Q : forall q : list (list cell), flat_map (fun row => map (cons (df, row)) [[]]) q = map (fun row => [(df, row)]) q) by (induction q as [|r q IHq]; [auto|]; cbn; f_equal; exact IHq).
    cbn [app picks flat_map]. rewrite app_nil_r. unfold extend. destruct (keyed on k df) as [|r0 rs]; [auto|]. exact (Q (r0 :: rs)).
  - cbn [app picks]. rewrite IH. destruct (keyed on k d) as [|r0 rs]; [auto|]. generalize (r0 :: rs) as q. intros q. rewrite flat_map_flat_map. apply flat_map_ext. intros r.
    rewrite flat_map_map, map_flat_map. apply flat_map_ext. intros p. unfold extend. destruct (keyed on k df); [auto|]. rewrite map_map. reflexivity.
Qed.
Lemma picks_cases : forall on k dfs, picks on k dfs = [[]] \/ (picks on k dfs <> [] /\ forall p, In p (picks on k dfs) -> p <> []).
Proof.
  intros on k dfs. induction dfs as [|d dfs IH]; [now left|]. cbn [picks]. destruct (keyed on k d) as [|r0 rs]; [auto|]. right. split.
  - cbn [flat_map]. destruct IH as [-> | [N _]]; [discriminate|]. destruct (picks on k dfs); [congruence|discriminate].
  - intros p I. change (In p (flat_map (fun row => map (cons (d, row)) (picks on k dfs)) (r0 :: rs))) in I. apply in_flat_map in I. destruct I as (r & _ & I). apply in_map_iff in I. destruct I as (q & <- & _). discriminate.
Qed.
Lemma first_snoc : forall p df row c, first_value (p ++ [(df, row)]) c = fillna (first_value p c) (field df row c).
Proof. induction p as [|[d r] p IH]; intros; cbn; [now destruct (field df row c)|]. destruct (field d r c); [auto|apply IH]. Qed.
Definition some_pick (pick : list (frame * list cell)) : bool := match pick with [] => false | _ => true end.
Lemma filter_all : forall {A} (f : A -> bool) l, (forall x, In x l -> f x = true) -> filter f l = l.
Proof. induction l as [|x l IH]; intros H; [auto|]. cbn. rewrite H by now left. f_equal. apply IH. intros y I. apply H. now right. Qed.

Lemma picks_in : forall on k dfs p df row, In p (picks on k dfs) -> In (df, row) p -> In df dfs /\ In row (f_rows df).
Proof.
  intros on k dfs. induction dfs as [|d dfs IH]; intros p df row Ip I.
  - destruct Ip as [<-|[]]. destruct I.
  - cbn in Ip. destruct (keyed on k d) as [|r0 rs] eqn:K.
    + destruct (IH p df row Ip I). split; [now right|auto].
    + change (In p (flat_map (fun row => map (cons (d, row)) (picks on k dfs)) (r0 :: rs))) in Ip. rewrite <- K in Ip. apply in_flat_map in Ip. destruct Ip as (r & Ir & Ip). apply in_map_iff in Ip. destruct Ip as (q & <- & Iq). destruct I as [E|I].
      * inversion E; subst. split; [now left|]. apply filter_In in Ir. tauto.
      * destruct (IH q df row Iq I). split; [now right|auto].
Qed.
Lemma first_out : forall on k dfs p c, (forall df, In df dfs -> table on df) -> In p (picks on k dfs) -> (forall df, In df dfs -> ~ In c (f_cols df)) -> first_value p c = None.
Proof.
  intros on k dfs p c J Ip N. assert (H : forall df row, In (df, row) p -> field df row c = None).
  { intros df row I. destruct (picks_in on k dfs p df row Ip I). eapply field_out; eauto. }
  clear Ip. induction p as [|[d r] p IH]; [auto|]. cbn. rewrite (H d r) by now left. apply IH. intros. apply H. now right.
Qed.
