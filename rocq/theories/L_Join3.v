From Coq Require Import String Ascii.
From Coq Require Import List Arith Lia Bool Permutation Sorted.
From Verif Require Import Base M_Config M_Cache M_Join Spec_Join L_Config L_Cache L_Join L_Join2.
Import ListNotations.
Open Scope list_scope.
Open Scope nat_scope.

Record sofar (on : string) (dfs : list frame) (res : indexed) : Prop := {
  so_nd : NoDup (i_cols res);
  so_cols : forall c, In c (i_cols res) <-> c <> on /\ exists df, In df dfs /\ In c (f_cols df);
  so_len : forall k row, In (k, row) (i_rows res) -> length row = length (i_cols res);
  so_rows : forall k, Permutation (at_key k (i_rows res)) (map (fun p => map (first_value p) (i_cols res)) (filter some_pick (picks on k dfs)))
}.

Section Suffix.
Variable sfx : string.
Notation plain := (L_Join.plain sfx).
Notation jn := (L_Join.jn sfx).
Notation jn_ends := (L_Join.jn_ends sfx).
Notation jn_inj := (L_Join.jn_inj sfx).
Notation blended := (L_Join.blended sfx).
Notation merge_fold := (L_Join.merge_fold sfx).
Notation join_frame := (M_Join.join_frame sfx).
Notation pd_outer_join := (outer_join_with sfx).
Definition good (on : string) (df : frame) : Prop := table on df /\ forall c s, In c (f_cols df) -> c <> (s ++ sfx)%string.

Lemma good_plain : forall on df c, good on df -> In c (f_cols df) -> plain c.
Proof. intros on df c (_ & P) I. unfold L_Join.plain. apply not_true_iff_false. intros E. destruct (ends_inv _ _ E) as (a & X). now apply (P c a I). Qed.

Lemma sofar_one : forall on df, good on df -> exists res, set_index on df = Ok res /\ sofar on [df] res.
Proof.
  intros on df J. destruct (index_Ok on df (proj1 J)) as (D & E & ND & ID). eexists. split; [exact E|]. split; cbn [i_cols i_rows].
  - exact ND.
  - intros c. rewrite ID. split; [intros [A B]; split; [auto|exists df; split; [now left|auto]]|intros (A & d & [<-|[]] & B); auto].
  - intros k row I. apply in_map_iff in I. destruct I as (r & X & _). inversion X. apply map_length.
  - intros k. rewrite at_key_frame. replace (picks on k [df]) with (extend on k df []).
    + unfold extend. destruct (keyed on k df) as [|r0 rs]; [reflexivity|]. rewrite filter_all by (intros p I; apply in_map_iff in I; destruct I as (r & <- & _); reflexivity).
      rewrite map_map. erewrite map_ext; [reflexivity|]. intros r. apply map_ext. intros c. cbn. now destruct (field df r c).
    + pose proof (picks_snoc on k [] df) as PP. cbn [app] in PP. rewrite PP. cbn. now rewrite app_nil_r.
Qed.

Lemma NoDup_app : forall {A} (a b : list A), NoDup a -> NoDup b -> (forall x, In x a -> ~ In x b) -> NoDup (a ++ b).
Proof. induction a as [|x a IH]; intros b Na Nb H; [auto|]. inversion Na; subst. cbn. constructor.
  - intros I. apply in_app_or in I. destruct I; [contradiction|]. apply (H x); [now left|auto].
  - apply IH; auto. intros y Iy. apply H. now right. Qed.
Lemma NoDup_map_inj : forall {A B} (f : A -> B) l, (forall a b, In a l -> In b l -> f a = f b -> a = b) -> NoDup l -> NoDup (map f l).
Proof. induction l as [|x l IH]; intros H N; [constructor|]. inversion N; subst. cbn. constructor.
  - intros I. apply in_map_iff in I. destruct I as (y & E & Iy). apply H in E; [subst; contradiction|now right|now left].
  - apply IH; auto. intros a b Ia Ib. apply H; now right. Qed.
Lemma repeat_map : forall {A B} (x : B) (l : list A), repeat x (length l) = map (fun _ => x) l.
Proof. induction l; cbn; congruence. Qed.
Lemma at_key_map : forall k (M : list cell -> list cell) rows, at_key k (map (fun '(k', row) => (k', M row)) rows) = map M (at_key k rows).
Proof. intros. induction rows as [|[k2 r] rows IH]; [auto|]. cbn [map]. rewrite !at_key_cons, map_app, IH. now destruct (cell_eqb k2 k). Qed.
Lemma flat_map_perm : forall {A B} (f : A -> list B) a b, Permutation a b -> Permutation (flat_map f a) (flat_map f b).
Proof. intros A B f a b P. induction P; cbn; auto.
  - now apply Permutation_app_head.
  - rewrite !app_assoc. apply Permutation_app_tail, Permutation_app_comm.
  - etransitivity; eauto. Qed.

Section Step.
Variables (C D : list string).
Hypothesis NC : NoDup C.
Hypothesis ND : NoDup D.
Hypothesis PC : forall c, In c C -> plain c.
Hypothesis PD : forall c, In c D -> plain c.
Definition suf (c : string) : string := if has_col c C then jn c else c.
Definition Z0 : list string := C ++ map suf D.
Definition Z' : list string := filter (fun z => negb (ends_with sfx z && has_col z Z0)) Z0.
Lemma suf_in : forall c, In c C -> suf c = jn c.
Proof. intros c I. unfold suf. apply has_col_In in I. now rewrite I. Qed.
Lemma suf_out : forall c, ~ In c C -> suf c = c.
Proof. intros c I. unfold suf. apply has_col_not in I. now rewrite I. Qed.
Lemma plain_jn : forall c, ~ plain (jn c). Proof. intros c P. unfold L_Join.plain in P. rewrite jn_ends in P. discriminate P. Qed.
Lemma suf_inj : forall a b, In a D -> In b D -> suf a = suf b -> a = b.
Proof. intros a b Ia Ib. destruct (in_dec string_dec a C) as [A|A], (in_dec string_dec b C) as [B|B];
  rewrite ?(suf_in a A), ?(suf_in b B), ?(suf_out a A), ?(suf_out b B); intros E; auto.
  - now apply jn_inj. - destruct (plain_jn a). rewrite E. auto. - destruct (plain_jn b). rewrite <- E. auto. Qed.
Lemma suf_notC : forall d, In d D -> ~ In (suf d) C.
Proof. intros d Id I. destruct (in_dec string_dec d C) as [A|A]; [rewrite (suf_in d A) in I; apply (plain_jn d); auto|rewrite (suf_out d A) in I; auto]. Qed.
Lemma Z0_nd : NoDup Z0.
Proof. apply NoDup_app; [auto|apply NoDup_map_inj; [apply suf_inj|auto]|]. intros x Ix Iy. apply in_map_iff in Iy. destruct Iy as (d & <- & Id). now apply (suf_notC d). Qed.
Lemma Z'_nd : NoDup Z'. Proof. apply NoDup_filter, Z0_nd. Qed.
Lemma Z'_In : forall c, In c Z' <-> In c C \/ In c D.
Proof.
  intros c. unfold Z'. rewrite filter_In. split.
  - intros [I F]. assert (P : plain c). { unfold L_Join.plain. apply has_col_In in I. rewrite I, andb_true_r in F. now apply negb_true_iff in F. }
    apply in_app_or in I. destruct I as [I|I]; [auto|]. apply in_map_iff in I. destruct I as (d & <- & Id). destruct (in_dec string_dec d C) as [A|A].
    + rewrite (suf_in d A) in P. destruct (plain_jn d P). + rewrite (suf_out d A). auto.
  - intros H. assert (P : plain c) by (destruct H; auto). split; [|unfold L_Join.plain in P; now rewrite P].
    apply in_or_app. destruct (in_dec string_dec c C) as [A|A]; [auto|]. destruct H as [H|H]; [contradiction|]. right. apply in_map_iff. exists c. split; [now apply suf_out|auto].
Qed.
Lemma Z'_plain : forall c, In c Z' -> plain c. Proof. intros c I. apply Z'_In in I. destruct I; auto. Qed.
Lemma jn_in_Z0 : forall c, plain c -> has_col (jn c) Z0 = (has_col c C && has_col c D)%bool.
Proof.
  intros c P. apply eq_true_iff_eq. rewrite andb_true_iff, !has_col_In. unfold Z0. rewrite in_app_iff. split.
  - intros [I|I]; [destruct (plain_jn c); auto|]. apply in_map_iff in I. destruct I as (d & E & Id). destruct (in_dec string_dec d C) as [A|A].
    + rewrite (suf_in d A) in E. apply jn_inj in E. subst. auto.
    + rewrite (suf_out d A) in E. subst d. destruct (plain_jn c); auto.
  - intros [A B]. right. apply in_map_iff. exists c. split; [now apply suf_in|auto].
Qed.
Definition M (row : list cell) : list cell := map (blended Z0 (look Z0 row)) Z'.
Lemma M_app : forall (f g : string -> cell), (forall c, In c D -> ~ In c C -> f c = None) -> (forall c, In c C -> ~ In c D -> g c = None) ->
  M (map f C ++ map g D) = map (fun c => fillna (f c) (g c)) Z'.
Proof.
  intros f g Hf Hg. apply map_ext_in. intros c I. unfold L_Join.blended. rewrite jn_in_Z0 by now apply Z'_plain.
  destruct (has_col c C) eqn:EC.
  - apply has_col_In in EC. assert (X : look Z0 (map f C ++ map g D) c = f c). { unfold Z0. rewrite look_app_l; [now apply look_map|apply map_length|auto]. } rewrite X.
    destruct (has_col c D) eqn:ED; cbn [andb].
    + apply has_col_In in ED. f_equal. unfold Z0. rewrite look_app_r; [|apply map_length|intros J; apply (plain_jn c); auto].
      rewrite <- (suf_in c EC). apply look_inj; [apply suf_inj|auto].
    + apply has_col_not in ED. rewrite Hg by auto. now destruct (f c).
  - apply has_col_not in EC. cbn [andb]. apply Z'_In in I. destruct I as [I|I]; [contradiction|]. rewrite (Hf c) by auto. cbn.
    unfold Z0. rewrite look_app_r; [|apply map_length|auto]. transitivity (look (map suf D) (map g D) (suf c)); [now rewrite (suf_out c EC)|]. apply look_inj; [apply suf_inj|auto].
Qed.
End Step.

Lemma sofar_step : forall arrange on dfs df res, (forall l, Permutation (arrange l) l) -> (forall d, In d dfs -> good on d) -> good on df ->
  sofar on dfs res -> exists res', join_frame arrange on res df = Ok res' /\ sofar on (dfs ++ [df]) res'.
Proof.
  intros arrange on dfs df res AR JS J [NC SC LC RC]. destruct res as [C rows]. cbn [i_cols i_rows] in *.
  assert (PC : forall c, In c C -> plain c). { intros c I. apply SC in I. destruct I as (_ & d & Id & I). exact (good_plain on d c (JS d Id) I). }
  destruct (index_Ok on df (proj1 J)) as (D & EI & ND & ID).
  assert (PD : forall c, In c D -> plain c). { intros c I. apply ID in I. destruct I as [I _]. exact (good_plain on df c J I). }
  unfold M_Join.join_frame. cbn [i_cols]. assert (A0 : existsb (ends_with sfx) C = false).
  { apply not_true_iff_false. rewrite existsb_exists. intros (c & I & E). apply PC in I. unfold L_Join.plain in I. congruence. }
  rewrite A0. cbn [negb assert_ bind]. rewrite EI. cbn [bind]. unfold outer_join. cbn [i_cols i_rows].
  change (C ++ map (fun c => if has_col c C then (c ++ sfx)%string else c) D) with (Z0 C D).
  assert (DZ : distinct (Z0 C D) = true) by (apply distinct_NoDup, Z0_nd; auto). rewrite DZ. cbn [bind i_cols].
  set (right := map (fun row => (field df row on, map (field df row) D)) (f_rows df)).
  set (R0 := arrange (outer_rows (length C) (length D) rows right)).
  assert (PR : Permutation R0 (outer_rows (length C) (length D) rows right)) by apply AR.
  assert (LR : forall k row, In (k, row) R0 -> length row = length (Z0 C D)).
  { intros k row I. apply (Permutation_in _ PR) in I. unfold Z0. rewrite app_length, map_length. eapply outer_len; [| |exact I]; [exact LC|].
    intros k2 r2 I2. apply in_map_iff in I2. destruct I2 as (r & E & _). inversion E. apply map_length. }
  assert (HS : R0 = as_rows (Z0 C D) (map (fun '(k, row) => (k, look (Z0 C D) row)) R0)).
  { unfold as_rows. rewrite map_map. rewrite <- (map_id R0) at 1. apply map_ext_in. intros [k row] I. f_equal. symmetry. apply look_row; [apply Z0_nd; auto|eapply LR; eauto]. }
  rewrite HS.
  destruct (merge_fold (f_cols df) (Z0 C D) (Z0 C D) (map (fun '(k, row) => (k, look (Z0 C D) row)) R0)) as (Z1 & hs' & EQ & EZ & _ & F).
  { apply Z0_nd; auto. } { apply Z0_nd; auto. } { intros z I; exact I. }
  { intros r I E. apply in_app_or in I. destruct I as [I|I]; [apply PC in I; unfold L_Join.plain in I; congruence|]. apply in_map_iff in I. destruct I as (d & <- & Id).
    destruct (in_dec string_dec d C) as [A|A].
    - exists d. split; [now apply suf_in|]. split; [apply in_or_app; now left|]. split; [now apply ID in Id|auto].
    - rewrite (suf_out C d A) in E. apply PD in Id. unfold L_Join.plain in Id. congruence. }
  rewrite EQ. eexists. split; [reflexivity|]. fold (Z' C D) in EZ. subst Z1.
  assert (RW : as_rows (Z' C D) hs' = map (fun '(k, row) => (k, M C D row)) R0).
  { clear EQ HS PR LR. clearbody R0. revert hs' F. induction R0 as [|[k row] R1 IH]; intros hs' F; inversion F; subst; [auto|]. destruct y as [k2 h2]. destruct H1 as [A B]. cbn [fst snd] in A, B. subst k2.
    cbn [as_rows map]. f_equal; [|now apply IH]. f_equal. apply map_ext_in. intros c I. apply B. now apply (Z'_plain C D). }
  split; cbn [i_cols i_rows].
  - apply Z'_nd; auto.
  - intros c. rewrite Z'_In by auto. rewrite SC, ID. split.
    + intros [(A & d & Id & B)|[A B]]; (split; [auto|]); [exists d|exists df]; (split; [apply in_or_app|auto]); [now left|right; now left].
    + intros (A & d & Id & B). apply in_app_or in Id. destruct Id as [Id|[<-|[]]]; [left; split; [auto|now exists d]|right; auto].
  - intros k row I. rewrite RW in I. apply in_map_iff in I. destruct I as ([k2 r2] & E & _). inversion E. unfold M. apply map_length.
  - intros k. rewrite RW, at_key_map. specialize (RC k).
    rewrite (at_key_perm k _ _ PR). rewrite outer_under. unfold right. rewrite at_key_frame. rewrite picks_snoc.
    assert (FD : forall p, In p (picks on k dfs) -> forall c, In c D -> ~ In c C -> first_value p c = None).
    { intros p Ip c Id Ic. apply (first_out on k dfs p c (fun d I => proj1 (JS d I)) Ip). intros d Idd Icd. apply Ic, SC. apply ID in Id. split; [tauto|eauto]. }
    assert (FC : forall row, In row (keyed on k df) -> forall c, In c C -> ~ In c D -> field df row c = None).
    { intros row Ir c Ic Id. apply filter_In in Ir. eapply field_out; [exact (proj1 J)|tauto|]. intros Icd. apply Id, ID. split; [auto|]. now apply SC in Ic. }
    destruct (picks_cases on k dfs) as [EP|[NP AP]].
    + rewrite EP in RC. cbn in RC. symmetry in RC. apply Permutation_nil in RC. rewrite RC. cbn [flat_map app]. rewrite EP. cbn [flat_map]. rewrite app_nil_r.
      rewrite !map_map. unfold extend. destruct (keyed on k df) as [|r0 rs] eqn:K; [reflexivity|]. rewrite <- K in *.
      rewrite filter_all by (intros p I; apply in_map_iff in I; destruct I as (r & <- & _); reflexivity). rewrite map_map.
      erewrite map_ext_in; [reflexivity|]. intros row Ir. cbv beta. transitivity (M C D (map (fun _ => None) C ++ map (field df row) D)); [f_equal; f_equal; apply repeat_map|]. etransitivity; [apply (M_app C D PC PD (fun _ => None) (field df row)); [auto|apply FC; auto]|].
      apply map_ext. intros c. cbn. now destruct (field df row c).
    + rewrite (filter_all some_pick) in RC by (intros p I; specialize (AP p I); destruct p; [congruence|reflexivity]).
      destruct (at_key k rows) as [|l0 ls] eqn:K0; [apply Permutation_nil in RC; destruct (picks on k dfs); [congruence|discriminate RC]|]. rewrite <- K0 in *. clear l0 ls K0.
      rewrite app_nil_r. rewrite (filter_all some_pick).
      2:{ intros p I. apply in_flat_map in I. destruct I as (q & Iq & I). unfold extend in I. destruct (keyed on k df); [destruct I as [<-|[]]; specialize (AP q Iq); destruct q; [congruence|reflexivity]|].
          apply in_map_iff in I. destruct I as (r & <- & _). now destruct q. }
      rewrite (flat_map_perm _ _ _ RC). rewrite flat_map_map, !map_flat_map.
      assert (EE : forall ps, incl ps (picks on k dfs) ->
        flat_map (fun p => map (M C D) (beside (repeat None (length D)) (map (fun row => map (field df row) D) (keyed on k df)) (map (first_value p) C))) ps =
        flat_map (fun p => map (fun p' => map (first_value p') (Z' C D)) (extend on k df p)) ps).
      { induction ps as [|p ps IHp]; intros IN; [auto|]. cbn [flat_map]. rewrite IHp by (intros q Iq; apply IN; now right). f_equal.
        assert (Ip : In p (picks on k dfs)) by (apply IN; now left). unfold beside, extend. destruct (keyed on k df) as [|r0 rs] eqn:K.
        - cbn [map]. f_equal. transitivity (M C D (map (first_value p) C ++ map (fun _ => None) D)); [f_equal; f_equal; apply repeat_map|]. etransitivity; [apply (M_app C D PC PD (first_value p) (fun _ => None)); [apply FD; auto|auto]|]. apply map_ext. intros c. now destruct (first_value p c).
        - rewrite <- K. destruct (map (fun row => map (field df row) D) (keyed on k df)) as [|x xs] eqn:Q; [rewrite K in Q; discriminate Q|]. rewrite <- Q. rewrite !map_map.
          apply map_ext_in. intros row Ir. rewrite (M_app C D PC PD (first_value p) (field df row)); [|apply FD; auto|apply FC; rewrite <- K; auto].
          apply map_ext. intros c. symmetry. apply first_snoc. }
      rewrite EE by (intros p I; exact I). reflexivity.
Qed.

Lemma sofar_all : forall arrange on rest dfs res, (forall l, Permutation (arrange l) l) -> (forall d, In d (dfs ++ rest) -> good on d) ->
  sofar on dfs res -> exists res', foldM (join_frame arrange on) rest res = Ok res' /\ sofar on (dfs ++ rest) res'.
Proof.
  intros arrange on rest. induction rest as [|df rest IH]; intros dfs res AR J SF.
  - exists res. rewrite app_nil_r. split; [reflexivity|auto].
  - destruct (sofar_step arrange on dfs df res AR) as (r1 & E1 & S1); auto.
    { intros d I. apply J, in_or_app. now left. } { apply J, in_or_app. right. now left. }
    cbn [foldM]. rewrite E1. cbn [bind]. replace (dfs ++ df :: rest) with ((dfs ++ [df]) ++ rest) in * by (rewrite <- app_assoc; reflexivity). apply IH; auto.
Qed.

Lemma C72_join : forall arrange dfs on, (forall l, Permutation (arrange l) l) -> dfs <> [] -> (forall df, In df dfs -> good on df) ->
  exists t, pd_outer_join arrange dfs on = Ok t /\ joined_columns on dfs t /\ joined_rows on dfs t.
Proof.
  intros arrange [|df rest] on AR N J; [congruence|]. destruct (sofar_one on df) as (r0 & E0 & S0); [apply J; now left|].
  destruct (sofar_all arrange on rest [df] r0 AR J S0) as (r1 & E1 & [ND SC LC RC]). unfold outer_join_with. rewrite E0. cbn [bind]. rewrite E1. cbn [bind].
  eexists. split; [reflexivity|]. pose proof (str_sort_perm (i_cols r1)) as PS. split.
  - split; [|split].
    + cbn. eapply Permutation_NoDup; [symmetry; exact PS|exact ND].
    + intros c. cbn [sort_columns i_cols]. rewrite <- (SC c). split; apply Permutation_in; [exact PS|now symmetry].
    + cbn. exact (str_sort_sorted (i_cols r1)).
  - intros k. cbn [sort_columns i_cols]. change (under k (sort_columns r1)) with (at_key k (map (fun '(k', row) => (k', map (look (i_cols r1) row) (str_sort (i_cols r1)))) (i_rows r1))).
    rewrite (at_key_map k (fun row => map (look (i_cols r1) row) (str_sort (i_cols r1)))). rewrite (Permutation_map _ (RC k)). rewrite map_map. erewrite map_ext; [reflexivity|].
    intros p. cbv beta. apply map_ext_in. intros c I. apply look_map. now apply (Permutation_in _ PS).
Qed.

(** distinct keys: one row for each key *)
Lemma C72_unique : forall arrange dfs on t, (forall l, Permutation (arrange l) l) -> (forall df, In df dfs -> good on df) ->
  (forall df, In df dfs -> NoDup (map (fun row => field df row on) (f_rows df))) -> pd_outer_join arrange dfs on = Ok t ->
  forall k, (~ (exists df row, In df dfs /\ In row (f_rows df) /\ field df row on = k) -> under k t = []) /\
   ((exists df row, In df dfs /\ In row (f_rows df) /\ field df row on = k) -> exists row, under k t = [row] /\
     length row = length (i_cols t) /\ forall i v, i < length row -> nth i row None = Some v <->
       exists before df after r, dfs = before ++ df :: after /\ In r (f_rows df) /\ field df r on = k /\ field df r (nth i (i_cols t) EmptyString) = Some v /\
         forall d r', In d before -> In r' (f_rows d) -> field d r' on = k -> field d r' (nth i (i_cols t) EmptyString) = None).
Proof.
  intros arrange dfs on t AR J U E k.
  assert (N : dfs <> []) by (intros ->; discriminate E). destruct (C72_join arrange dfs on AR N J) as (t' & E' & _ & R). rewrite E in E'. inversion E'; subst t'. clear E'. specialize (R k).
  assert (KU : forall df, In df dfs -> keyed on k df = [] \/ exists r, keyed on k df = [r]).
  { intros df I. specialize (U df I). unfold keyed. induction (f_rows df) as [|r rs IH]; [now left|]. cbn in U |- *. inversion U; subst. destruct (cell_eqb (field df r on) k) eqn:X; [|auto].
    right. exists r. f_equal. apply cell_eqb_eq in X. subst k. clear -H1. induction rs as [|s rs IH]; [auto|]. cbn in *. destruct (cell_eqb (field df s on) (field df r on)) eqn:Y.
    - apply cell_eqb_eq in Y. destruct H1. now left. - apply IH. tauto. }
  assert (KI : forall df row, In row (keyed on k df) <-> In row (f_rows df) /\ field df row on = k).
  { intros. unfold keyed. rewrite filter_In, cell_eqb_eq. tauto. }
  assert (P1 : exists p, picks on k dfs = [p] /\ (p = [] <-> ~ (exists df row, In df dfs /\ In row (f_rows df) /\ field df row on = k)) /\
     forall c v, first_value p c = Some v <-> exists before df after r, dfs = before ++ df :: after /\ In r (f_rows df) /\ field df r on = k /\ field df r c = Some v /\
         forall d r', In d before -> In r' (f_rows d) -> field d r' on = k -> field d r' c = None).
  { clear -KU KI. induction dfs as [|d dfs IH].
    - exists []. split; [reflexivity|]. split; [split; [intros _ (? & ? & [] & _)|auto]|]. intros c v. split; [discriminate|]. intros (b & df & a & r & X & _). destruct b; discriminate X.
    - destruct IH as (p & Ep & Np & Fp); [intros df I; apply KU; now right|]. cbn [picks]. rewrite Ep. destruct (KU d (or_introl eq_refl)) as [K|(r0 & K)]; rewrite K.
      + assert (K' : forall row, In row (f_rows d) -> field d row on <> k) by (intros row I X; assert (Y : In row (keyed on k d)) by (apply KI; auto); rewrite K in Y; destruct Y).
        exists p. split; [reflexivity|]. split.
        * rewrite Np. split; intros H; intros (df & row & I & Ir & X); [destruct I as [<-|I]; [now apply (K' row Ir)|]|]; apply H; exists df, row; [|split; [now right|]]; auto.
        * intros c v. rewrite Fp. split.
          -- intros (b & df & a & r & -> & I & X & Y & H). exists (d :: b), df, a, r. split; [reflexivity|]. split; [auto|]. split; [auto|]. split; [auto|].
             intros d' r' [<-|Id] Ir Xr; [destruct (K' r' Ir Xr)|eauto].
          -- intros (b & df & a & r & Q & I & X & Y & H). destruct b as [|b0 b]; injection Q as Q1 Q2; [subst df; destruct (K' r I X)|]. subst dfs. exists b, df, a, r. repeat (split; [auto|]). intros d' r' Id. apply H. now right.
      + assert (R0 : In r0 (f_rows d) /\ field d r0 on = k) by (apply KI; rewrite K; now left).
        assert (RU : forall r, In r (f_rows d) -> field d r on = k -> r = r0) by (intros r I X; assert (Y : In r (keyed on k d)) by (apply KI; auto); rewrite K in Y; destruct Y as [->|[]]; auto).
        exists ((d, r0) :: p). split; [reflexivity|]. split.
        * split; [discriminate|]. intros H. destruct H. exists d, r0. split; [now left|auto].
        * intros c v. cbn [first_value]. destruct (field d r0 c) as [w|] eqn:W.
          -- split.
             ++ intros X. inversion X; subst. exists [], d, dfs, r0. split; [reflexivity|]. destruct R0. repeat (split; [auto|]). intros d' r' [].
             ++ intros (b & df & a & r & Q & I & X & Y & H). destruct b as [|b0 b]; injection Q as Q1 Q2; [subst df; rewrite <- (RU r I X) in W; congruence|]. subst b0.
                destruct R0 as [R1 R2]. rewrite (H d r0 (or_introl eq_refl) R1 R2) in W. discriminate W.
          -- rewrite Fp. split.
             ++ intros (b & df & a & r & -> & I & X & Y & H). exists (d :: b), df, a, r. repeat (split; [auto|]).
                intros d' r' [<-|Id] Ir Xr; [rewrite (RU r' Ir Xr); exact W|eauto].
             ++ intros (b & df & a & r & Q & I & X & Y & H). destruct b as [|b0 b]; injection Q as Q1 Q2; [subst df; rewrite (RU r I X) in Y; congruence|]. subst dfs. exists b, df, a, r. repeat (split; [auto|]). intros d' r' Id. apply H. now right. }
  destruct P1 as (p & EP & NP & FP). rewrite EP in R. split.
  - intros H. apply NP in H. subst p. cbn in R. symmetry in R. now apply Permutation_nil in R.
  - intros H. destruct p as [|x p]; [destruct (proj1 NP eq_refl H)|]. cbn [filter map] in R. symmetry in R. apply Permutation_length_1_inv in R. eexists. split; [exact R|]. split; [apply map_length|].
    intros i v L. rewrite map_length in L. rewrite <- FP. rewrite (nth_indep _ None (first_value (x :: p) EmptyString)) by (rewrite map_length; auto). rewrite (map_nth (first_value (x :: p))). reflexivity.
Qed.

Lemma sofar_plain : forall on dfs res, (forall d, In d dfs -> good on d) -> sofar on dfs res -> existsb (ends_with sfx) (i_cols res) = false.
Proof. intros on dfs res J [_ SC _ _]. apply not_true_iff_false. rewrite existsb_exists. intros (c & I & E). apply SC in I. destruct I as (_ & d & Id & I).
  pose proof (good_plain on d c (J d Id) I) as P. unfold L_Join.plain in P. congruence. Qed.

Lemma foldM_app' : forall {A T} (f : T -> A -> result T) a b s, foldM f (a ++ b) s = (s' <- foldM f a s ;; foldM f b s').
Proof. induction a as [|x a IH]; intros; cbn; [auto|]. destruct (f s x); cbn; auto. Qed.

Lemma C72_missing : forall arrange before df after on, (forall l, Permutation (arrange l) l) -> (forall d, In d before -> good on d) -> ~ In on (f_cols df) ->
  pd_outer_join arrange (before ++ df :: after) on = Raise KeyError.
Proof.
  intros arrange before df after on AR J N. assert (S0 : set_index on df = Raise KeyError) by (unfold set_index; now rewrite place_None).
  destruct before as [|d before]; cbn [app outer_join_with]; [now rewrite S0|].
  destruct (sofar_one on d) as (r0 & E0 & SF0); [apply J; now left|]. destruct (sofar_all arrange on before [d] r0 AR J SF0) as (r1 & E1 & SF1).
  rewrite E0. cbn [bind]. rewrite foldM_app', E1. cbn [bind foldM]. unfold M_Join.join_frame at 1. rewrite (sofar_plain on _ r1 J SF1). cbn [negb assert_ bind]. now rewrite S0.
Qed.

End Suffix.

Lemma C72_suffix : forall arrange, (forall l, Permutation (arrange l) l) -> exists on dfs dfs',
  (forall df, In df (dfs ++ dfs') -> NoDup (f_cols df) /\ In on (f_cols df) /\ forall row, In row (f_rows df) -> length row = length (f_cols df)) /\
  pd_outer_join arrange dfs on = Raise AssertionError /\
  exists t df c, pd_outer_join arrange dfs' on = Ok t /\ In df dfs' /\ In c (f_cols df) /\ c <> on /\ ~ In c (i_cols t).
Proof.
  intros arrange AR. set (k := Some "7"%string). assert (A1 : forall x, arrange [x] = [x]) by (intros x; apply Permutation_length_1_inv; symmetry; apply AR).
  exists "id"%string, [{| f_cols := ["id"%string]; f_rows := [[k]] |}; {| f_cols := ["id"%string; "x_JOIN_"%string]; f_rows := [[k; k]] |}; {| f_cols := ["id"%string]; f_rows := [[k]] |}],
    [{| f_cols := ["id"%string]; f_rows := [[k]] |}; {| f_cols := ["id"%string; "x"%string; "x_JOIN_"%string]; f_rows := [[k; None; k]] |}].
  split; [|split].
  - assert (D : forall l, distinct l = true -> NoDup l) by (intros l H; now apply distinct_NoDup).
    intros df I. cbn in I. repeat (destruct I as [<-|I]); try destruct I; (split; [apply D; reflexivity|]); (split; [now left|]); intros row [<-|[]]; reflexivity.
  - repeat (cbv; rewrite A1); reflexivity.
  - eexists _, _, "x_JOIN_"%string. split; [repeat (cbv; rewrite A1); reflexivity|]. split; [right; left; reflexivity|]. split; [right; right; now left|]. split; [discriminate|].
    cbn. intros [X|[]]; discriminate X.
Qed.

(** the frames of the unit test *)
Definition df_a : frame := {| f_cols := ["id"; "a"; "b"]%string; f_rows := [[Some "0"; Some "foo"; Some "panda"]; [Some "1"; Some "bar"; Some "zebra"]; [Some "2"; Some "baz"; None]; [Some "3"; None; None]]%string |}.
Definition df_b : frame := {| f_cols := ["id"; "b"; "c"]%string; f_rows := [[Some "1"; Some "mouse"; Some "toe"]; [Some "2"; None; Some "finger"]; [Some "3"; Some "tiger"; Some "nose"]; [Some "4"; Some "egret"; None]]%string |}.
Lemma df_joinable : forall df, In df [df_a; df_b] -> joinable "id" df /\ NoDup (map (fun row => field df row "id") (f_rows df)).
Proof.
  assert (D : forall l, distinct l = true -> NoDup l) by (intros l H; now apply distinct_NoDup).
  assert (PL : forall l, existsb (ends_with "_JOIN_") l = false -> forall c s, In c l -> c <> (s ++ "_JOIN_")%string).
  { intros l H c s I ->. apply not_true_iff_false in H. apply H, existsb_exists. eexists. split; [exact I|apply ends_app]. }
  intros df [<-|[<-|[]]]; (split; [split; [split; [apply D; reflexivity|]; split; [now left|]|apply PL; reflexivity]|]).
  1, 3: intros row I; cbn in I; repeat (destruct I as [<-|I]; [reflexivity|]); destruct I.
  all: cbn; repeat constructor; cbn; intuition discriminate.
Qed.

(** the suffix of the repaired code is longer than any name *)
Lemma underscores_length : forall n, String.length (underscores n) = n.
Proof. induction n; cbn; congruence. Qed.
Lemma longest_le : forall l c, In c l -> String.length c <= longest l.
Proof. induction l as [|x l IH]; intros c []; unfold longest in *; cbn; [subst; lia|]. specialize (IH c H). lia. Qed.
Lemma fresh_good : forall on dfs df, In df dfs -> table on df -> good (underscores (longest (flat_map f_cols dfs)) ++ "_JOIN_") on df.
Proof.
  intros on dfs df I Tb. split; [exact Tb|]. intros c s Ic ->. assert (L : In (s ++ (underscores (longest (flat_map f_cols dfs)) ++ "_JOIN_"))%string (flat_map f_cols dfs)) by (apply in_flat_map; eauto).
  apply longest_le in L. rewrite !slen_app, underscores_length in L. cbn [String.length] in L. lia.
Qed.
Lemma C72_repaired : forall arrange dfs on, (forall l, Permutation (arrange l) l) -> dfs <> [] -> (forall df, In df dfs -> table on df) ->
  exists t, repaired_outer_join arrange dfs on = Ok t /\ joined_columns on dfs t /\ joined_rows on dfs t.
Proof. intros arrange dfs on AR N H. apply (C72_join _ arrange dfs on AR N). intros df I. now apply fresh_good; auto. Qed.
Definition df_c : frame := {| f_cols := ["id"; "x_JOIN_"]%string; f_rows := [[Some "7"; Some "b"]]%string |}.
Definition df_d : frame := {| f_cols := ["id"; "x"; "x_JOIN_"]%string; f_rows := [[Some "7"; None; Some "a"]]%string |}.
Lemma df_table : forall df, In df [df_d; df_c] -> table "id" df.
Proof.
  assert (D : forall l, distinct l = true -> NoDup l) by (intros l H; now apply distinct_NoDup).
  intros df [<-|[<-|[]]]; (split; [apply D; reflexivity|]; split; [now left|]); intros row [<-|[]]; reflexivity.
Qed.
