From Coq Require Import String Ascii.
From Coq Require Import List Arith Lia Bool Permutation Sorted.
From Verif Require Import Base L_Base M_Config M_Cache M_Join Spec_Join M_JoinFiles Spec_JoinFiles L_Config L_Cache L_Join L_Join2 L_Join3.
Import ListNotations.
Open Scope list_scope.
Open Scope nat_scope.

Lemma split_one_c : forall a, comma_free a -> split_commas a = [a].
Proof.
  induction a as [|c a IH]; intros H; [reflexivity|]. unfold comma_free in *. cbn in *. destruct (Ascii.eqb_spec c ","%char) as [->|N]; [exfalso; apply H; now left|].
  rewrite IH by tauto. reflexivity.
Qed.
Lemma split_app_c : forall a s, comma_free a -> split_commas (a ++ String "," s) = a :: split_commas s.
Proof.
  induction a as [|c a IH]; intros s H; [reflexivity|]. unfold comma_free in *. cbn in *. destruct (Ascii.eqb_spec c ","%char) as [->|N]; [exfalso; apply H; now left|].
  rewrite IH by tauto. reflexivity.
Qed.
Lemma split_names : forall names, names <> [] -> Forall comma_free names -> split_commas (String.concat "," names) = names.
Proof.
  induction names as [|a [|b names] IH]; intros NE F; [congruence|inversion F; now apply split_one_c|].
  inversion F as [|? ? Fa Fr]; subst. change (String.concat "," (a :: b :: names)) with (a ++ String "," (String.concat "," (b :: names)))%string.
  rewrite split_app_c by exact Fa. f_equal. apply IH; [discriminate|exact Fr].
Qed.

(** Picks from two lists of tables. *)
Lemma picks_app : forall on k a b, picks on k (a ++ b) = flat_map (fun p => map (app p) (picks on k b)) (picks on k a).
Proof.
  intros on k a b. induction a as [|d a IH].
  - cbn. rewrite app_nil_r. now rewrite map_id.
  - cbn [app picks]. rewrite IH. destruct (keyed on k d) as [|r0 rs]; [reflexivity|]. generalize (r0 :: rs) as q. intros q. rewrite flat_map_flat_map. apply flat_map_ext. intros r.
    rewrite flat_map_map, map_flat_map. apply flat_map_ext. intros p. rewrite map_map. reflexivity.
Qed.
Lemma first_app : forall p q c, first_value (p ++ q) c = fillna (first_value p c) (first_value q c).
Proof. induction p as [|[d r] p IH]; intros; [reflexivity|]. cbn. destruct (field d r c); [reflexivity|apply IH]. Qed.

Definition frame_of (on : string) (t : indexed) : frame := {| f_cols := on :: i_cols t; f_rows := map (fun '(k, row) => k :: row) (i_rows t) |}.

Section Joined.
Variables (on : string) (dfs : list frame) (t : indexed).
Hypothesis (G : forall df, In df dfs -> joinable on df).
Hypothesis (NE : dfs <> []).
Hypothesis (JC : joined_columns on dfs t).
Hypothesis (JR : joined_rows on dfs t).

Lemma joined_pick : forall k row, In (k, row) (i_rows t) -> exists p, In p (picks on k dfs) /\ row = map (first_value p) (i_cols t).
Proof.
  intros k row I. assert (U : In row (under k t)). { unfold under. apply in_map_iff. exists (k, row). split; [reflexivity|]. apply filter_In. split; [exact I|apply cell_eqb_refl]. }
  apply (Permutation_in _ (JR k)) in U. apply in_map_iff in U. destruct U as (p & <- & Ip). apply filter_In in Ip. exists p. tauto.
Qed.
Lemma on_out : ~ In on (i_cols t).
Proof. destruct JC as (_ & M & _). intros I. apply M in I. tauto. Qed.
Lemma frame_joinable : joinable on (frame_of on t).
Proof.
  split; [split; [|split]|].
  - cbn. constructor; [apply on_out|apply JC].
  - now left.
  - intros row I. cbn in I. apply in_map_iff in I. destruct I as ([k r] & <- & I). destruct (joined_pick k r I) as (p & _ & ->). cbn. now rewrite map_length.
  - intros c s [<-|I].
    + destruct dfs as [|df rest]; [congruence|]. destruct (G df ltac:(now left)) as ((_ & I & _) & P). now apply P.
    + destruct JC as (_ & M & _). apply M in I. destruct I as (_ & df & Id & Ic). now apply (G df Id).
Qed.

Lemma frame_field_on : forall k row, field (frame_of on t) (k :: row) on = k.
Proof. intros. unfold field. cbn. now rewrite String.eqb_refl. Qed.
Lemma frame_keyed : forall k, keyed on k (frame_of on t) = map (cons k) (under k t).
Proof.
  intros k. unfold keyed, under. change (f_rows (frame_of on t)) with (map (fun '(k0, row) => k0 :: row) (i_rows t)).
  pose proof frame_field_on as H. revert H. generalize (field (frame_of on t)) as h. intros h H.
  induction (i_rows t) as [|[k' r] l IH]; [reflexivity|]. cbn [map filter]. rewrite H.
  destruct (cell_eqb k' k) eqn:E; [|exact IH]. cbn [map snd]. apply cell_eqb_eq in E. subst k'. f_equal. exact IH.
Qed.
Lemma frame_field : forall k p c, In p (picks on k dfs) -> c <> on -> field (frame_of on t) (k :: map (first_value p) (i_cols t)) c = first_value p c.
Proof.
  intros k p c Ip N. rewrite field_look by (cbn; now rewrite map_length). cbn [frame_of f_cols]. rewrite look_cons. destruct (String.eqb_spec c on) as [->|_]; [congruence|].
  destruct (in_dec string_dec c (i_cols t)) as [I|O]; [now apply look_map|]. rewrite look_out by exact O. symmetry.
  apply (first_out on k dfs p c); [intros df I; apply (G df I)|exact Ip|]. intros df Id Ic. apply O. destruct JC as (_ & M & _). apply M. split; [exact N|]. now exists df.
Qed.

(** The join of the join with further tables is the join of all. *)
Lemma rejoin_columns : forall rest u, joined_columns on (frame_of on t :: rest) u -> joined_columns on (dfs ++ rest) u.
Proof.
  intros rest u (ND & M & SS). split; [exact ND|]. split; [|exact SS]. intros c. rewrite M. destruct JC as (_ & MC & _). split; intros (N & df & I & Ic); (split; [exact N|]).
  - destruct I as [<-|I]; [|exists df; split; [apply in_or_app; now right|exact Ic]]. destruct Ic as [->|Ic]; [congruence|]. apply MC in Ic. destruct Ic as (_ & d & Id & Ic).
    exists d. split; [apply in_or_app; now left|exact Ic].
  - apply in_app_or in I. destruct I as [I|I]; [|exists df; split; [now right|exact Ic]]. exists (frame_of on t). split; [now left|]. right. apply MC. split; [exact N|]. now exists df.
Qed.
Lemma rejoin_rows : forall rest u, joined_columns on (frame_of on t :: rest) u -> joined_rows on (frame_of on t :: rest) u -> joined_rows on (dfs ++ rest) u.
Proof.
  intros rest u UC UR k. rewrite (UR k). rewrite picks_app. cbn [picks]. rewrite frame_keyed.
  assert (NC : forall c, In c (i_cols u) -> c <> on) by (destruct UC as (_ & M & _); intros c I; apply M in I; tauto).
  pose proof (JR k) as P. fold some_pick in *. change (fun pick : list (frame * list cell) => match pick with [] => false | _ => true end) with some_pick in *.
  destruct (picks_cases on k dfs) as [E|[NP AP]].
  - rewrite E in *. cbn [filter some_pick map] in P. apply Permutation_sym, Permutation_nil in P. rewrite P. cbn [map flat_map]. rewrite app_nil_r, map_id. reflexivity.
  - rewrite filter_all in P by (intros p I; specialize (AP p I); destruct p; [congruence|reflexivity]).
    assert (EM : exists r0 rs, map (cons k) (under k t) = r0 :: rs).
    { destruct (under k t) as [|r0 rs]; [|cbn; eauto]. apply Permutation_nil in P. apply map_eq_nil in P. congruence. }
    destruct EM as (r0 & rs & EM). rewrite EM.
    change (Permutation (map (fun pick => map (first_value pick) (i_cols u)) (filter some_pick (flat_map (fun row => map (cons (frame_of on t, row)) (picks on k rest)) (r0 :: rs))))
      (map (fun pick => map (first_value pick) (i_cols u)) (filter some_pick (flat_map (fun p => map (app p) (picks on k rest)) (picks on k dfs))))).
    rewrite <- EM. clear r0 rs EM. rewrite !filter_all.
    2: { intros q I. apply in_flat_map in I. destruct I as (p & Ip & I). apply in_map_iff in I. destruct I as (x & <- & _). specialize (AP p Ip). destruct p; [congruence|reflexivity]. }
    2: { intros q I. apply in_flat_map in I. destruct I as (p & Ip & I). apply in_map_iff in I. destruct I as (x & <- & _). reflexivity. }
    rewrite flat_map_map, (flat_map_perm _ _ _ P), flat_map_map, !map_flat_map.
    rewrite !flat_map_concat_map. erewrite map_ext_in; [reflexivity|]. intros p Ip. cbv beta. rewrite !map_map. apply map_ext. intros q. apply map_ext_in. intros c Ic.
    rewrite first_app. cbn [first_value]. rewrite (frame_field k p c Ip (NC c Ic)). now destruct (first_value p c).
Qed.

Lemma pick_key : forall ds k p df row, In p (picks on k ds) -> In (df, row) p -> field df row on = k.
Proof.
  intros ds k. induction ds as [|d ds IH]; intros p df row Ip I.
  - destruct Ip as [<-|[]]. destruct I.
  - cbn in Ip. destruct (keyed on k d) as [|r0 rs] eqn:K; [eapply IH; eauto|].
    change (In p (flat_map (fun row => map (cons (d, row)) (picks on k ds)) (r0 :: rs))) in Ip. rewrite <- K in Ip.
    apply in_flat_map in Ip. destruct Ip as (r & Ir & Ip). apply in_map_iff in Ip. destruct Ip as (q & <- & Iq). destruct I as [E|I]; [|eapply IH; eauto].
    inversion E; subst. apply filter_In in Ir. now apply cell_eqb_eq.
Qed.

(** Every cell of the join is a cell of some table. *)
Variable P : cell -> Prop.
Hypothesis (P0 : P None).
Hypothesis (PD : forall df row c, In df dfs -> In row (f_rows df) -> In c row -> P c).
Lemma field_P : forall df row c, In df dfs -> In row (f_rows df) -> P (field df row c).
Proof.
  intros df row c Id Ir. unfold field. destruct (find _ _) as [[x v]|] eqn:E; [|exact P0]. apply find_some in E. destruct E as (I & _). apply in_combine_r in I. eapply PD; eauto.
Qed.
Lemma first_P : forall p c, (forall df row, In (df, row) p -> In df dfs /\ In row (f_rows df)) -> P (first_value p c).
Proof.
  induction p as [|[d r] p IH]; intros c H; [exact P0|]. cbn. destruct (field d r c) eqn:E; [|apply IH; intros; apply H; now right].
  rewrite <- E. destruct (H d r ltac:(now left)). now apply field_P.
Qed.
Lemma joined_P : forall k row, In (k, row) (i_rows t) -> Forall P (k :: row).
Proof.
  intros k row I. assert (U : In row (under k t)). { unfold under. apply in_map_iff. exists (k, row). split; [reflexivity|]. apply filter_In. split; [exact I|apply cell_eqb_refl]. }
  apply (Permutation_in _ (JR k)) in U. apply in_map_iff in U. destruct U as (p & <- & Ip). apply filter_In in Ip. destruct Ip as (Ip & N).
  constructor.
  - destruct p as [|[d r] p]; [discriminate N|]. rewrite <- (pick_key dfs k _ d r Ip (or_introl eq_refl)).
    destruct (picks_in on k dfs _ d r Ip (or_introl eq_refl)). now apply field_P.
  - apply Forall_forall. intros c Ic. apply in_map_iff in Ic. destruct Ic as (x & <- & _). apply first_P. intros df r Ir. eapply picks_in; eauto.
Qed.
End Joined.

(** The join is unique up to the order of the rows. *)
Lemma leb_antisym' : forall a b, String.leb a b = true -> String.leb b a = true -> a = b.
Proof.
  intros a b. unfold String.leb. destruct (String.compare a b) eqn:E; try discriminate.
  - intros _ _. now apply String.compare_eq_iff.
  - rewrite String.compare_antisym, E. discriminate.
Qed.
Lemma sorted_same : forall a b, NoDup a -> NoDup b -> (forall x, In x a <-> In x b) ->
  StronglySorted (fun a b => String.leb a b = true) a -> StronglySorted (fun a b => String.leb a b = true) b -> a = b.
Proof.
  induction a as [|x a IH]; intros b Na Nb H Sa Sb.
  - destruct b as [|y b]; [reflexivity|]. destruct (proj2 (H y) ltac:(now left)).
  - destruct b as [|y b]; [destruct (proj1 (H x) ltac:(now left))|]. inversion Na as [|? ? Xa Na']; inversion Nb as [|? ? Yb Nb']; inversion Sa as [|? ? Sa' Fa]; inversion Sb as [|? ? Sb' Fb]; subst.
    rewrite Forall_forall in Fa, Fb. assert (E : x = y).
    { destruct (proj1 (H x) ltac:(now left)) as [->|Ix]; [reflexivity|]. destruct (proj2 (H y) ltac:(now left)) as [->|Iy]; [reflexivity|]. apply leb_antisym'; auto. }
    subst y. f_equal. apply IH; auto. intros z. split; intros I.
    + destruct (proj1 (H z) ltac:(now right)) as [->|?]; [contradiction|auto].
    + destruct (proj2 (H z) ltac:(now right)) as [->|?]; [contradiction|auto].
Qed.
Definition cell_dec : forall a b : cell, {a = b} + {a <> b}. Proof. decide equality. apply string_dec. Defined.
Definition row_dec : forall a b : cell * list cell, {a = b} + {a <> b}. Proof. decide equality; [apply list_eq_dec, cell_dec|apply cell_dec]. Defined.
Lemma under_count : forall t k row, count_occ row_dec (i_rows t) (k, row) = count_occ (list_eq_dec cell_dec) (under k t) row.
Proof.
  intros t k row. unfold under. induction (i_rows t) as [|[k' r] l IH]; [reflexivity|]. cbn [filter]. destruct (cell_eqb k' k) eqn:E.
  - apply cell_eqb_eq in E. subst k'. cbn [map snd]. destruct (list_eq_dec cell_dec r row) as [->|N].
    + rewrite !count_occ_cons_eq by reflexivity. now rewrite IH.
    + rewrite !count_occ_cons_neq by congruence. exact IH.
  - rewrite count_occ_cons_neq; [exact IH|]. intros X. inversion X; subst. rewrite cell_eqb_refl in E. discriminate E.
Qed.
Lemma join_unique : forall on dfs t u, joined_columns on dfs t -> joined_rows on dfs t -> joined_columns on dfs u -> joined_rows on dfs u ->
  i_cols t = i_cols u /\ Permutation (i_rows t) (i_rows u).
Proof.
  intros on dfs t u (N1 & M1 & S1) R1 (N2 & M2 & S2) R2. assert (E : i_cols t = i_cols u) by (apply sorted_same; auto; intros x; now rewrite M1, M2).
  split; [exact E|]. apply (Permutation_count_occ row_dec). intros [k row]. rewrite !under_count. apply Permutation_count_occ. rewrite (R1 k), (R2 k), E. reflexivity.
Qed.

(** Files. *)
Definition kept (na : string -> bool) (c : cell) : Prop := match c with None => True | Some s => na s = false end.
Lemma read_kept : forall na fs n df, read_csv na fs n = Ok df -> forall row c, In row (f_rows df) -> In c row -> kept na c.
Proof.
  intros na fs n df E row c Ir Ic. unfold read_csv in E. destruct (fs n); [|discriminate]. inversion E; subst. cbn in Ir. apply in_map_iff in Ir. destruct Ir as (r & <- & _).
  apply in_map_iff in Ic. destruct Ic as (s & <- & _). unfold kept. now destruct (na s) eqn:?.
Qed.
Lemma read_all : forall na fs names column, (forall n, In n names -> exists df, read_csv na fs n = Ok df /\ joinable column df) ->
  exists dfs, mapM (read_csv na fs) names = Ok dfs /\ Forall2 (fun n df => read_csv na fs n = Ok df) names dfs /\ (forall df, In df dfs -> joinable column df) /\
    (forall df row c, In df dfs -> In row (f_rows df) -> In c row -> kept na c).
Proof.
  intros na fs names column. induction names as [|n names IH]; intros H.
  - exists []. split; [reflexivity|]. split; [constructor|]. split; intros df; intros; contradiction.
  - destruct (H n ltac:(now left)) as (df & E & J). destruct IH as (dfs & E2 & F2 & J2 & K2); [intros m I; apply H; now right|].
    exists (df :: dfs). split; [cbn; rewrite E; cbn; rewrite E2; reflexivity|]. split; [now constructor|]. split; [intros d [<-|I]; auto|].
    intros d row c [<-|I] Ir Ic; [eapply read_kept; eauto|eapply K2; eauto].
Qed.
Lemma read_back : forall na fs out on t, na EmptyString = true -> (forall k row, In (k, row) (i_rows t) -> Forall (kept na) (k :: row)) ->
  read_csv na (put fs out (to_csv on t)) out = Ok (frame_of on t).
Proof.
  intros na fs out on t H0 K. unfold read_csv, put. rewrite String.eqb_refl. unfold frame_of, to_csv. cbn [c_header c_body]. do 2 f_equal. rewrite map_map. apply map_ext_in.
  intros [k row] I. rewrite map_map. specialize (K k row I). rewrite Forall_forall in K. rewrite <- (map_id (k :: row)) at 2. apply map_ext_in. intros c Ic. specialize (K c Ic).
  destruct c as [s|]; cbn in *; [now rewrite K|now rewrite H0].
Qed.

Lemma join_runs : forall na arrange fs names out column, na EmptyString = true -> (forall l, Permutation (arrange l) l) -> names <> [] -> Forall comma_free names ->
  (forall n, In n names -> exists df, read_csv na fs n = Ok df /\ joinable column df) ->
  exists dfs t, Forall2 (fun n df => read_csv na fs n = Ok df) names dfs /\ dfs <> [] /\ (forall df, In df dfs -> joinable column df) /\
    join_csvs na arrange column (String.concat "," names) out fs = Ok (put fs out (to_csv column t)) /\
    joined_columns column dfs t /\ joined_rows column dfs t /\ read_csv na (put fs out (to_csv column t)) out = Ok (frame_of column t).
Proof.
  intros na arrange fs names out column H0 AR NE CF H. destruct (read_all na fs names column H) as (dfs & E & F2 & J & K).
  assert (ND : dfs <> []) by (intros ->; inversion F2; subst; congruence).
  destruct (C72_join "_JOIN_" arrange dfs column AR ND J) as (t & ET & JC & JR). exists dfs, t. split; [exact F2|]. split; [exact ND|]. split; [exact J|].
  split. { unfold join_csvs. rewrite split_names by auto. rewrite E. cbn [bind]. change pd_outer_join with (outer_join_with "_JOIN_"). rewrite ET. reflexivity. }
  split; [exact JC|]. split; [exact JR|]. apply read_back; [exact H0|]. intros k row I. eapply (joined_P column dfs t); eauto. exact Logic.I.
Qed.

Lemma C92_join_proof : forall na arrange fs names out column, na EmptyString = true -> (forall l, Permutation (arrange l) l) -> names <> [] -> Forall comma_free names ->
  (forall n, In n names -> exists df, read_csv na fs n = Ok df /\ joinable column df) ->
  exists fs' dfs f, join_csvs na arrange column (String.concat "," names) out fs = Ok fs' /\
    Forall2 (fun n df => read_csv na fs n = Ok df) names dfs /\ read_csv na fs' out = Ok f /\ is_join_of column dfs f /\
    forall n, n <> out -> fs' n = fs n.
Proof.
  intros na arrange fs names out column H0 AR NE CF H. destruct (join_runs na arrange fs names out column H0 AR NE CF H) as (dfs & t & F2 & _ & _ & E & JC & JR & RB).
  eexists _, dfs, _. split; [exact E|]. split; [exact F2|]. split; [exact RB|]. split; [exists t; auto|]. intros n N. unfold put. destruct (String.eqb_spec n out); [contradiction|reflexivity].
Qed.

Lemma C92_steps_proof : forall na a1 a2 a3 fs names1 names2 out1 out2 column, na EmptyString = true ->
  (forall l, Permutation (a1 l) l) -> (forall l, Permutation (a2 l) l) -> (forall l, Permutation (a3 l) l) -> names1 <> [] -> Forall comma_free (out1 :: names1 ++ names2) ->
  ~ In out1 names2 -> (forall n, In n (names1 ++ names2) -> exists df, read_csv na fs n = Ok df /\ joinable column df) ->
  exists fs1 fs2 fs3 f g,
    join_csvs na a1 column (String.concat "," names1) out1 fs = Ok fs1 /\
    join_csvs na a2 column (String.concat "," (out1 :: names2)) out2 fs1 = Ok fs2 /\ read_csv na fs2 out2 = Ok f /\
    join_csvs na a3 column (String.concat "," (names1 ++ names2)) out2 fs = Ok fs3 /\ read_csv na fs3 out2 = Ok g /\
    same_table f g.
Proof.
  intros na a1 a2 a3 fs names1 names2 out1 out2 column H0 A1 A2 A3 NE CF NO H. inversion CF as [|? ? C1 CR]; subst. apply Forall_app in CR. destruct CR as (CR1 & CR2).
  destruct (join_runs na a1 fs names1 out1 column H0 A1 NE CR1) as (d1 & t1 & F1 & N1 & J1 & E1 & JC1 & JR1 & RB1); [intros n I; apply H, in_or_app; now left|].
  pose proof (frame_joinable column d1 t1 J1 N1 JC1 JR1) as FJ. set (fs1 := put fs out1 (to_csv column t1)) in *.
  assert (SAME : forall n, In n names2 -> read_csv na fs1 n = read_csv na fs n).
  { intros n I. unfold read_csv, fs1, put. destruct (String.eqb_spec n out1) as [->|_]; [contradiction|reflexivity]. }
  destruct (join_runs na a2 fs1 (out1 :: names2) out2 column H0 A2 ltac:(discriminate) ltac:(now constructor)) as (d2 & t2 & F2 & N2 & J2 & E2 & JC2 & JR2 & RB2).
  { intros n [<-|I]; [exists (frame_of column t1); auto|]. rewrite SAME by exact I. apply H, in_or_app. now right. }
  destruct (join_runs na a3 fs (names1 ++ names2) out2 column H0 A3) as (d3 & t3 & F3 & N3 & J3 & E3 & JC3 & JR3 & RB3); [intros X; apply app_eq_nil in X; tauto|now apply Forall_app|exact H|].
  inversion F2 as [|? r ? rest Hr Frest]; subst. rewrite RB1 in Hr. inversion Hr; subst r.
  assert (D3 : d3 = d1 ++ rest).
  { assert (F3' : Forall2 (fun n df => read_csv na fs n = Ok df) (names1 ++ names2) (d1 ++ rest)).
    { apply Forall2_app; [exact F1|]. clear - Frest SAME. induction Frest; constructor; [rewrite <- SAME by (now left); assumption|]. apply IHFrest. intros n I. apply SAME. now right. }
    clear - F3 F3'. revert F3'. generalize (d1 ++ rest). induction F3 as [|n df ns ds E F IH]; intros l F3'; inversion F3'; subst; [reflexivity|]. f_equal; [congruence|]. now apply IH. }
  subst d3. destruct (join_unique column (d1 ++ rest) t2 t3) as (EC & EP); auto.
  { eapply rejoin_columns; eauto. } { eapply rejoin_rows; eauto. }
  exists fs1. eexists _, _, _, _. split; [exact E1|]. split; [exact E2|]. split; [exact RB2|]. split; [exact E3|]. split; [exact RB3|].
  split; [cbn; now rewrite EC|]. cbn. now apply Permutation_map.
Qed.

(** Three files. *)
Definition na0 : string -> bool := String.eqb EmptyString.
Definition csv_a : csv := {| c_header := ["id"; "a"; "b"]%string; c_body := [["0"; "foo"; ""]; ["1"; "bar"; "zebra"]]%string |}.
Definition csv_b : csv := {| c_header := ["b"; "id"]%string; c_body := [["mouse"; "0"]; ["egret"; "4"]]%string |}.
Definition csv_c : csv := {| c_header := ["id"; "c"]%string; c_body := [["4"; "nose"]; ["1"; "toe"]; ["1"; "chin"]]%string |}.
Definition fs0 : files := put (put (put (put (fun _ => None) "a.csv" csv_a) "b.csv" csv_b) "c.csv" csv_c) "a,b.csv" csv_a.

Lemma not_suffix : forall c, ends_with "_JOIN_" c = false -> forall s, c <> (s ++ "_JOIN_")%string.
Proof. intros c E s ->. rewrite ends_app in E. discriminate E. Qed.
Lemma fs0_joinable : forall n, In n ["a.csv"; "b.csv"; "c.csv"; "a,b.csv"]%string -> exists df, read_csv na0 fs0 n = Ok df /\ joinable "id" df.
Proof.
  assert (K : forall f, distinct (c_header f) = true -> has_col "id" (c_header f) = true -> forallb (fun row => Nat.eqb (length row) (length (c_header f))) (c_body f) = true ->
    existsb (ends_with "_JOIN_") (c_header f) = false ->
    joinable "id" {| f_cols := c_header f; f_rows := map (map (fun s => if na0 s then None else Some s)) (c_body f) |}).
  { intros f D I L S0. split; [split; [now apply distinct_NoDup|split; [now apply has_col_In|]]|].
    - cbn. intros row Ir. apply in_map_iff in Ir. destruct Ir as (r & <- & Ir). rewrite map_length. rewrite forallb_forall in L. now apply Nat.eqb_eq, L.
    - cbn. intros c s Ic. apply not_suffix. destruct (ends_with "_JOIN_" c) eqn:E; [|reflexivity]. rewrite <- S0. symmetry. apply existsb_exists. exists c. auto. }
  intros n [<-|[<-|[<-|[<-|[]]]]]; (eexists; split; [reflexivity|]); apply K; reflexivity.
Qed.
Lemma C92_commas_proof : exists fs name, (exists df, read_csv na0 fs name = Ok df /\ joinable "id" df) /\
  forall arrange out, join_csvs na0 arrange "id" (String.concat "," [name]) out fs = Raise OSError.
Proof.
  exists (put (fun _ => None) "a,b.csv" csv_a), "a,b.csv"%string. split.
  - destruct (fs0_joinable "a,b.csv" ltac:(cbn; tauto)) as (df & E & J). exists df. split; [rewrite <- E; reflexivity|exact J].
  - intros arrange out. reflexivity.
Qed.
Lemma C92_case_proof : na0 EmptyString = true /\ (forall l : list (cell * list cell), Permutation (rev l) l) /\
  Forall comma_free ["ab.csv"; "a.csv"; "b.csv"; "c.csv"]%string /\
  (forall n, In n ["a.csv"; "b.csv"; "c.csv"]%string -> exists df, read_csv na0 fs0 n = Ok df /\ joinable "id" df) /\
  exists fs' f, join_csvs na0 (@rev _) "id" "a.csv,b.csv,c.csv" "abc.csv" fs0 = Ok fs' /\ read_csv na0 fs' "abc.csv" = Ok f /\
    f_cols f = ["id"; "a"; "b"; "c"]%string /\ length (f_rows f) = 4 /\ In [Some "0"; Some "foo"; Some "mouse"; None]%string (f_rows f).
Proof.
  split; [reflexivity|]. split; [intros l; symmetry; apply Permutation_rev|]. split.
  { repeat constructor; unfold comma_free; cbn; intros H; repeat (destruct H as [H|H]; [discriminate H|]); exact H. }
  split. { intros n I. apply fs0_joinable. cbn in *. tauto. }
  eexists _, _. split; [reflexivity|]. split; [reflexivity|]. split; [reflexivity|]. split; [reflexivity|]. cbn. tauto.
Qed.

(** Stopped and run again. *)
Lemma mapM_same : forall {A B} (f g : A -> result B) l, (forall x, In x l -> f x = g x) -> mapM f l = mapM g l.
Proof. induction l as [|x l IH]; intros H; [reflexivity|]. cbn. rewrite H by now left. rewrite IH; [reflexivity|]. intros y I. apply H. now right. Qed.
Lemma C92_again_proof : forall k na a arrange fs names out column stopped done, Forall comma_free names -> names <> [] -> ~ In out names ->
  join_csvs_stopped k na a column (String.concat "," names) out fs = Ok stopped ->
  join_csvs na arrange column (String.concat "," names) out fs = Ok done ->
  (forall n, In n names -> stopped n = fs n) /\
  exists again, join_csvs na arrange column (String.concat "," names) out stopped = Ok again /\ forall n, again n = done n.
Proof.
  intros k na a arrange fs names out column stopped done CF NE NO ES ED. unfold join_csvs_stopped, join_csvs in *. rewrite split_names in * by auto.
  assert (ST : forall n, n <> out -> stopped n = fs n).
  { destruct (mapM (read_csv na fs) names) as [dfs|]; [|discriminate]. cbn [bind] in ES. destruct (pd_outer_join a dfs column) as [t|]; [|discriminate]. cbn [bind] in ES.
    inversion ES. intros n N. unfold put. destruct (String.eqb_spec n out); [contradiction|reflexivity]. }
  assert (SN : forall n, In n names -> stopped n = fs n) by (intros n I; apply ST; intros ->; contradiction).
  split; [exact SN|]. rewrite (mapM_same (read_csv na stopped) (read_csv na fs)) by (intros n I; unfold read_csv; now rewrite SN).
  destruct (mapM (read_csv na fs) names) as [dfs|]; [|discriminate]. cbn [bind] in *. destruct (pd_outer_join arrange dfs column) as [t|]; [|discriminate]. cbn [bind] in *.
  inversion ED. eexists. split; [reflexivity|]. intros n. unfold put. destruct (String.eqb_spec n out); [reflexivity|now apply ST].
Qed.
Lemma C92_in_place_proof : exists k names stopped again f g, names = ["a.csv"; "b.csv"]%string /\
  join_csvs_stopped k na0 (@rev _) "id" (String.concat "," names) "a.csv" fs0 = Ok stopped /\
  join_csvs na0 (@rev _) "id" (String.concat "," names) "a.csv" stopped = Ok again /\
  read_csv na0 fs0 "a.csv" = Ok f /\ In [Some "1"; Some "bar"; Some "zebra"]%string (f_rows f) /\
  read_csv na0 again "a.csv" = Ok g /\ f_cols g = f_cols f /\ ~ exists row, In row (f_rows g) /\ In (Some "bar"%string) row.
Proof.
  exists 0, ["a.csv"; "b.csv"]%string. eexists _, _, _, _. split; [reflexivity|]. split; [reflexivity|]. split; [reflexivity|]. split; [reflexivity|]. split; [cbn; tauto|]. split; [reflexivity|].
  split; [reflexivity|]. vm_compute. intros (row & H & I). repeat (destruct H as [H|H]; [subst row; repeat (destruct I as [I|I]; [discriminate I|]); destruct I|]). destruct H.
Qed.
Lemma C92_again_case_proof : Forall comma_free ["a.csv"; "b.csv"]%string /\ ~ In "ab.csv"%string ["a.csv"; "b.csv"]%string /\
  exists stopped done, join_csvs_stopped 1 na0 (@rev _) "id" "a.csv,b.csv" "ab.csv" fs0 = Ok stopped /\
    join_csvs na0 (@rev _) "id" "a.csv,b.csv" "ab.csv" fs0 = Ok done /\ stopped "ab.csv"%string <> done "ab.csv"%string.
Proof.
  split. { repeat constructor; unfold comma_free; cbn; intros H; repeat (destruct H as [H|H]; [discriminate H|]); exact H. }
  split. { cbn. intros H. repeat (destruct H as [H|H]; [discriminate H|]). exact H. }
  eexists _, _. split; [reflexivity|]. split; [reflexivity|]. discriminate.
Qed.
