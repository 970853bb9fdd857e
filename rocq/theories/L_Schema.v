From Coq Require Import String Ascii.
From Coq Require Import List Arith Lia Bool ZArith Reals.
From Verif Require Import Base M_Structure M_Util M_Strings M_Format Spec_Schema L_Dict L_Ragged.
Import ListNotations.
Open Scope list_scope.
Open Scope nat_scope.

Definition is_listed (row : list string) : bool := (2 <=? length row) && negb (String.eqb (cell 1 row) EmptyString).

Lemma parse_type_name : forall s t, parse_type s = Some t <-> s = type_name t.
Proof.
  intros s t. unfold parse_type. destruct (String.eqb_spec s "categorical") as [->|N].
  - split; [intros E; injection E as <-; reflexivity|]. destruct t; [reflexivity|discriminate].
  - destruct (String.eqb_spec s "ordinal") as [->|M].
    + split; [intros E; injection E as <-; reflexivity|]. destruct t; [discriminate|reflexivity].
    + split; [discriminate|]. intros ->. destruct t; cbn in *; congruence.
Qed.

Definition types_step := (fun '(names, types) (row : list string) =>
    if length row <? 2 then Ok (names, types)
    else
      let name := nth 0 row EmptyString in
      let typename := nth 1 row EmptyString in
      if String.eqb typename EmptyString then Ok (names, types)
      else match parse_type typename with
           | None => Raise ValueError
           | Some t => Ok (names ++ [name], dset types name t)
           end) : list string * sdict ftype -> list string -> result (list string * sdict ftype).

Definition last_listing (rows : list (list string)) name t :=
  exists before row after, filter is_listed rows = before ++ row :: after /\
    cell 0 row = name /\ cell 1 row = type_name t /\ forall r, In r after -> cell 0 r <> name.

Lemma types_fold : forall rows names types, foldM types_step rows ([], []) = Ok (names, types) ->
  names = map (cell 0) (filter is_listed rows) /\
  (forall row, In row (filter is_listed rows) -> exists t, cell 1 row = type_name t) /\
  NoDup (map fst types) /\
  forall n t, dget types n = Some t <-> last_listing rows n t.
Proof.
  induction rows as [|row rows IH] using rev_ind; intros names types E.
  - cbn in E. injection E as <- <-. split; auto. split; [intros ? []|]. split; [constructor|]. intros n t. split; [discriminate|].
    intros (b & r & a & F & _). cbn in F. destruct b; discriminate.
  - rewrite foldM_app in E. destruct (foldM types_step rows ([], [])) as [(names0, types0)|] eqn:F; [|discriminate].
    cbn [bind] in E. cbn [foldM] in E. destruct (IH _ _ eq_refl) as (A & T & ND & B). clear IH.
    destruct (types_step (names0, types0) row) as [(names1, types1)|] eqn:G; [|discriminate]. cbn [bind] in E. injection E as <- <-.
    rewrite filter_app. cbn [filter]. unfold types_step in G. fold (cell 0 row) (cell 1 row) in G.
    destruct (Nat.ltb_spec (length row) 2) as [L|L].
    + injection G as <- <-. assert (X : is_listed row = false).
      { unfold is_listed. destruct (Nat.leb_spec 2 (length row)); auto. lia. }
      rewrite X, app_nil_r. unfold last_listing. rewrite filter_app. cbn [filter]. rewrite X, app_nil_r. auto.
    + cbv zeta in G. destruct (String.eqb_spec (cell 1 row) EmptyString) as [Z|Z].
      * injection G as <- <-. assert (X : is_listed row = false).
        { unfold is_listed. rewrite Z. cbn. now rewrite andb_false_r. }
        rewrite X, app_nil_r. unfold last_listing. rewrite filter_app. cbn [filter]. rewrite X, app_nil_r. auto.
      * destruct (parse_type (cell 1 row)) as [t0|] eqn:P; [|discriminate]. injection G as <- <-. apply parse_type_name in P.
        assert (X : is_listed row = true).
        { unfold is_listed. rewrite (proj2 (Nat.leb_le _ _) L). destruct (String.eqb_spec (cell 1 row) EmptyString); auto. }
        rewrite X. split; [rewrite map_app; cbn; now rewrite A|]. split.
        { intros r I. apply in_app_or in I. destruct I as [I|[<-|[]]]; eauto. }
        split; [now apply dset_NoDup|].
        intros n t. rewrite dget_dset. unfold last_listing. rewrite filter_app. cbn [filter]. rewrite X.
        destruct (String.eqb_spec n (cell 0 row)) as [->|N].
        -- split.
           ++ intros H. injection H as <-. exists (filter is_listed rows), row, []. repeat split; auto.
           ++ intros (b & r & a & H & R0 & R1 & R2). destruct a as [|x a _] using rev_ind.
              ** apply app_inj_tail in H. destruct H as [_ <-]. f_equal. rewrite R1 in P. destruct t, t0; cbn in P; congruence.
              ** exfalso. change (b ++ r :: a ++ [x]) with (b ++ (r :: a) ++ [x]) in H. rewrite app_assoc in H. apply app_inj_tail in H. destruct H as [_ <-].
                 apply (R2 row); auto. apply in_or_app. right. now left.
        -- rewrite B. unfold last_listing. split.
           ++ intros (b & r & a & H & R0 & R1 & R2). exists b, r, (a ++ [row]). rewrite H. rewrite <- app_assoc. repeat split; auto.
              intros q I. apply in_app_or in I. destruct I as [I|[<-|[]]]; auto.
           ++ intros (b & r & a & H & R0 & R1 & R2). destruct a as [|x a _] using rev_ind.
              ** apply app_inj_tail in H. destruct H as [_ <-]. congruence.
              ** change (b ++ r :: a ++ [x]) with (b ++ (r :: a) ++ [x]) in H. rewrite app_assoc in H. apply app_inj_tail in H. destruct H as [H _].
                 exists b, r, a. repeat split; auto. intros q I. apply R2. apply in_or_app. now left.
Qed.

(** Values. *)
Definition values_step (types : sdict ftype) := (fun '(cats, ords) (row : list string) =>
    if length row <? 2 then Ok (cats, ords)
    else
      let name := nth 0 row EmptyString in
      let value := nth 1 row EmptyString in
      match dget types name with
      | None => Ok (cats, ords)
      | Some Categorical => Ok (dset cats name (dget_default cats name [] ++ [value]), ords)
      | Some Ordinal =>
        match int_of_str value with
        | None => Raise ValueError
        | Some z => Ok (cats, dset ords name (dget_default ords name [] ++ [z]))
        end
      end) : sdict (list string) * sdict (list Z) -> list string -> result (sdict (list string) * sdict (list Z)).

Definition vals (rows : list (list string)) name := map (cell 1) (filter (fun row => (2 <=? length row) && String.eqb (cell 0 row) name) rows).

Lemma values_fold : forall types rows cats ords, foldM (values_step types) rows ([], []) = Ok (cats, ords) ->
  (forall n, dget types n = Some Categorical -> dget_default cats n [] = vals rows n) /\
  (forall n, dget types n = Some Ordinal -> map Some (dget_default ords n []) = map int_of_str (vals rows n)).
Proof.
  intros types. induction rows as [|row rows IH] using rev_ind; intros cats ords E.
  - cbn in E. injection E as <- <-. split; reflexivity.
  - rewrite foldM_app in E. destruct (foldM (values_step types) rows ([], [])) as [(cats0, ords0)|] eqn:F; [|discriminate].
    cbn [bind foldM] in E. destruct (IH _ _ eq_refl) as (A & B). clear IH.
    destruct (values_step types (cats0, ords0) row) as [(cats1, ords1)|] eqn:G; [|discriminate]. cbn [bind] in E. injection E as <- <-.
    unfold vals in *. setoid_rewrite filter_app. setoid_rewrite map_app. cbn [filter]. unfold values_step in G. fold (cell 0 row) (cell 1 row) in G.
    destruct (Nat.ltb_spec (length row) 2) as [L|L].
    + injection G as <- <-. replace (2 <=? length row) with false by (symmetry; apply Nat.leb_gt; auto). cbn [andb map]. setoid_rewrite app_nil_r. auto.
    + replace (2 <=? length row) with true by (symmetry; apply Nat.leb_le; auto). cbn [andb]. cbv zeta in G.
      destruct (dget types (cell 0 row)) as [[]|] eqn:T.
      * injection G as <- <-. split; intros n H.
        -- rewrite dget_default_dset. rewrite (String.eqb_sym n). destruct (String.eqb_spec (cell 0 row) n) as [Q|N]; cbn [map]; [rewrite Q in *|].
           ++ now rewrite A.
           ++ rewrite app_nil_r. auto.
        -- destruct (String.eqb_spec (cell 0 row) n) as [Q|N]; [rewrite Q in T; congruence|]. cbn [map]. rewrite app_nil_r. auto.
      * destruct (int_of_str (cell 1 row)) as [z|] eqn:Z; [|discriminate]. injection G as <- <-. split; intros n H.
        -- destruct (String.eqb_spec (cell 0 row) n) as [Q|N]; [rewrite Q in T; congruence|]. cbn [map]. rewrite app_nil_r. auto.
        -- rewrite dget_default_dset. rewrite (String.eqb_sym n). destruct (String.eqb_spec (cell 0 row) n) as [Q|N]; cbn [map]; [rewrite Q in *|].
           ++ rewrite !map_app. cbn [map]. rewrite Z. f_equal. now apply B.
           ++ rewrite app_nil_r. auto.
      * injection G as <- <-. split; intros n H; (destruct (String.eqb_spec (cell 0 row) n) as [Q|N]; [rewrite Q in T; congruence|]); cbn [map]; rewrite app_nil_r; auto.
Qed.

(** Value indices. *)
Lemma enumerate_spec : forall vs,
  (forall v i, dget (enumerate_dict vs) v = Some i -> nth_error vs i = Some v) /\
  (forall v, In v vs <-> exists i, dget (enumerate_dict vs) v = Some i).
Proof.
  assert (SN : forall vs x, enumerate_dict (vs ++ [x]) = dset (enumerate_dict vs) x (length vs)).
  { intros. unfold enumerate_dict. rewrite app_length. cbn [length]. rewrite seq_app. cbn [seq].
    assert (C : forall (A B : Type) (a : list A) (b : list B) x y, length a = length b -> combine (a ++ [x]) (b ++ [y]) = combine a b ++ [(x, y)]).
    { induction a; destruct b; cbn; intros; try lia; auto. f_equal. auto. }
    rewrite C by apply seq_length. rewrite fold_left_app. reflexivity. }
  induction vs as [|x vs (A & B)] using rev_ind.
  - cbn. split; [discriminate|]. intros v. split; [tauto|]. intros (i & H). discriminate.
  - rewrite SN. split.
    + intros v i H. rewrite dget_dset in H. destruct (String.eqb_spec v x) as [->|N].
      * injection H as <-. rewrite nth_error_app2 by lia. now rewrite Nat.sub_diag.
      * apply A in H. rewrite nth_error_app1; auto. apply nth_error_Some. congruence.
    + intros v. rewrite in_app_iff. cbn [In]. rewrite dget_dset. destruct (String.eqb_spec v x) as [->|N].
      * split; eauto.
      * rewrite <- B. intuition congruence.
Qed.

Definition index_step (ords : sdict (list Z)) := (fun '(cv, ci, ranges) '(name, t) =>
    match t with
    | Categorical =>
      let values := dget_default cv name [] in
      Ok (dset cv name values, dset ci name (enumerate_dict values), ranges)
    | Ordinal =>
      r <- zrange (dget_default ords name []) ;;
      Ok (cv, ci, dset ranges name r)
    end) : sdict (list string) * sdict (sdict nat) * sdict (Z * Z) -> string * ftype -> result (sdict (list string) * sdict (sdict nat) * sdict (Z * Z)).

Lemma index_fold : forall ords cats types cv ci ranges, foldM (index_step ords) types (cats, [], []) = Ok (cv, ci, ranges) ->
  (forall n, dget_default cv n [] = dget_default cats n []) /\
  (forall n, In (n, Categorical) types -> dget cv n = Some (dget_default cats n []) /\ dget ci n = Some (enumerate_dict (dget_default cats n []))) /\
  (forall n, In (n, Ordinal) types -> exists r, zrange (dget_default ords n []) = Ok r /\ dget ranges n = Some r) /\
  (forall n r, dget ranges n = Some r -> In (n, Ordinal) types) /\
  (forall n r, dget ci n = Some r -> In (n, Categorical) types).
Proof.
  intros ords cats. induction types as [|(name, t) types IH] using rev_ind; intros cv ci ranges E.
  - cbn in E. injection E as <- <- <-. split; [auto|]. split; [intros ? []|]. split; [intros ? []|]. split; intros n r H; discriminate H.
  - rewrite foldM_app in E. destruct (foldM (index_step ords) types (cats, [], [])) as [((cv0, ci0), ranges0)|] eqn:F; [|discriminate].
    cbn [bind foldM] in E. destruct (IH _ _ _ eq_refl) as (A & B & C & D & G). clear IH.
    setoid_rewrite in_app_iff. cbn [In].
    destruct t; cbn [index_step] in E.
    + cbn [bind] in E. injection E as <- <- <-. split; [|split; [|split; [|split]]].
      * intros n. rewrite dget_default_dset. destruct (String.eqb_spec n name) as [->|N]; auto.
      * intros n [I|[I|[]]].
        -- rewrite !dget_dset. destruct (String.eqb_spec n name) as [->|N]; [rewrite A; auto|]. now apply B.
        -- injection I as ->. rewrite !dget_dset_same, A. auto.
      * intros n [I|[I|[]]]; [auto|discriminate].
      * intros n r H. left. eauto.
      * intros n r H. rewrite dget_dset in H. destruct (String.eqb_spec n name) as [->|N]; [right; now left|]. left. eauto.
    + destruct (zrange (dget_default ords name [])) as [r|] eqn:Z; [|discriminate]. cbn [bind] in E. injection E as <- <- <-.
      split; [|split; [|split; [|split]]]; auto.
      * intros n [I|[I|[]]]; [auto|discriminate].
      * intros n [I|[I|[]]].
        -- rewrite dget_dset. destruct (String.eqb_spec n name) as [->|N]; [eauto|]. now apply C.
        -- injection I as ->. exists r. rewrite dget_dset_same. auto.
      * intros n q H. rewrite dget_dset in H. destruct (String.eqb_spec n name) as [->|N]; [right; now left|]. left. eauto.
      * intros n q H. left. eauto.
Qed.

Lemma zrange_spec : forall l lo hi, zrange l = Ok (lo, hi) ->
  In lo l /\ In hi l /\ forall z, In z l -> (lo <= z <= hi)%Z.
Proof.
  intros [|x l] lo hi E; [discriminate|]. cbn in E. injection E as <- <-.
  assert (MN : forall l x, In (fold_left Z.min l x) (x :: l) /\ forall z, In z (x :: l) -> (fold_left Z.min l x <= z)%Z).
  { induction l0 as [|y l0 IH]; intros a; cbn [fold_left].
    - split; [now left|]. intros z [<-|[]]. lia.
    - destruct (IH (Z.min a y)) as (I & M). split.
      + destruct I as [I|I]; [|right; now right]. rewrite <- I. destruct (Z.min_spec a y) as [[_ ->]|[_ ->]]; [now left|right; now left].
      + intros z [<-|[<-|H]].
        * specialize (M (Z.min a y) (or_introl eq_refl)). lia.
        * specialize (M (Z.min a y) (or_introl eq_refl)). lia.
        * apply M. now right. }
  assert (MX : forall l x, In (fold_left Z.max l x) (x :: l) /\ forall z, In z (x :: l) -> (z <= fold_left Z.max l x)%Z).
  { induction l0 as [|y l0 IH]; intros a; cbn [fold_left].
    - split; [now left|]. intros z [<-|[]]. lia.
    - destruct (IH (Z.max a y)) as (I & M). split.
      + destruct I as [I|I]; [|right; now right]. rewrite <- I. destruct (Z.max_spec a y) as [[_ ->]|[_ ->]]; [right; now left|now left].
      + intros z [<-|[<-|H]].
        * specialize (M (Z.max a y) (or_introl eq_refl)). lia.
        * specialize (M (Z.max a y) (or_introl eq_refl)). lia.
        * apply M. now right. }
  destruct (MN l x) as (A & B), (MX l x) as (C & D). split; auto.
Qed.

(** Layout. *)
Lemma mri_from_snoc : forall ws acc w, make_ragged_index_from acc (ws ++ [w]) = make_ragged_index_from acc ws ++ [acc + list_sum ws + w].
Proof.
  induction ws; intros; cbn; [replace (acc + 0 + w) with (acc + w) by lia; reflexivity|]. rewrite IHws. cbn.
  replace (acc + a + list_sum ws + w) with (acc + (a + list_sum ws) + w) by lia. reflexivity.
Qed.

Definition layout_step types cv := (fun '(ri, index) '(pos, name) =>
    let index := dset index name pos in
    dim <- feature_dim types cv name ;;
    prev <- get IndexError ri pos ;;
    Ok (ri ++ [prev + dim], index)) : list nat * sdict nat -> nat * string -> result (list nat * sdict nat).

Lemma combine_snoc : forall (A B : Type) (a : list A) (b : list B) x y, length a = length b -> combine (a ++ [x]) (b ++ [y]) = combine a b ++ [(x, y)].
Proof. induction a; destruct b; cbn; intros; try lia; auto. f_equal. auto. Qed.

Lemma layout_fold : forall types cv (w : string -> nat) names,
  (forall n, In n names -> feature_dim types cv n = Ok (w n)) ->
  exists index, foldM (layout_step types cv) (combine (seq 0 (length names)) names) ([0], []) = Ok (make_ragged_index (map w names), index) /\
    (forall n, In n names <-> exists p, dget index n = Some p) /\
    (forall n p, dget index n = Some p -> nth_error names p = Some n /\ forall q, nth_error names q = Some n -> q <= p).
Proof.
  intros types cv w. induction names as [|x names IH] using rev_ind; intros H.
  - exists []. cbn. split; auto. split; [|discriminate]. intros n. split; [tauto|]. intros (p & E). discriminate.
  - destruct IH as (index & E & A & B); [intros; apply H; apply in_or_app; auto|].
    exists (dset index x (length names)). split; [|split].
    + rewrite app_length. cbn [length]. rewrite seq_app. cbn [seq Nat.add]. rewrite combine_snoc by apply seq_length.
      rewrite foldM_app, E. cbn [bind foldM layout_step]. cbv zeta. rewrite H by (apply in_or_app; right; now left). cbn [bind].
      assert (G : get IndexError (make_ragged_index (map w names)) (length names) = Ok (list_sum (map w names))).
      { assert (Y := mri_get (map w names) IndexError (length names)). rewrite firstn_all2 in Y by now rewrite map_length. apply Y. now rewrite map_length. }
      rewrite G. cbn [bind]. rewrite map_app. cbn [map]. unfold make_ragged_index. rewrite mri_from_snoc. reflexivity.
    + intros n. rewrite in_app_iff. cbn [In]. rewrite dget_dset. destruct (String.eqb_spec n x) as [->|N]; [split; eauto|]. rewrite <- A. intuition congruence.
    + intros n p. rewrite dget_dset. destruct (String.eqb_spec n x) as [->|N].
      * intros G. injection G as <-. split; [rewrite nth_error_app2 by lia; now rewrite Nat.sub_diag|].
        intros q Q. assert (q < length (names ++ [x])) by (apply nth_error_Some; congruence). rewrite app_length in *. cbn in *. lia.
      * intros G. destruct (B _ _ G) as (C & D). split; [rewrite nth_error_app1; auto; apply nth_error_Some; congruence|].
        intros q Q. destruct (Nat.lt_ge_cases q (length names)) as [L|L].
        -- rewrite nth_error_app1 in Q by auto. auto.
        -- rewrite nth_error_app2 in Q by auto. destruct (q - length names) as [|k]; cbn in Q; [congruence|]. destruct k; discriminate.
Qed.

(** The whole loader. *)
Lemma load_schema_spec : forall float_ types_csv values_csv groups_csv sc, load_schema float_ types_csv values_csv groups_csv = Ok sc ->
  sc_names sc = map (cell 0) (listed types_csv) /\ sc_names sc <> [] /\
  (forall n t, dget (sc_types sc) n = Some t <-> listed_type types_csv n t) /\
  schema_ok sc /\
  (forall n p q, dget (sc_index sc) n = Some p -> nth_error (sc_names sc) q = Some n -> q <= p) /\
  (forall n, dget (sc_types sc) n = Some Categorical -> dget (sc_cat_values sc) n = Some (listed_values values_csv n)) /\
  (forall n, dget (sc_types sc) n = Some Ordinal -> exists zs lo hi,
     map int_of_str (listed_values values_csv n) = map Some zs /\ dget (sc_ranges sc) n = Some (lo, hi) /\
     In lo zs /\ In hi zs /\ forall z, In z zs -> (lo <= z <= hi)%Z) /\
  (forall n r, dget (sc_ranges sc) n = Some r -> dget (sc_types sc) n = Some Ordinal).
Proof.
  intros float_ types_csv values_csv groups_csv sc E. unfold load_schema in E.
  destruct (load_types types_csv) as [(names, types)|] eqn:LT; [|discriminate]. cbn [bind] in E.
  destruct (load_values types values_csv) as [(cats, ords)|] eqn:LV; [|discriminate]. cbn [bind] in E.
  destruct names as [|n0 names0] eqn:NE; [discriminate|]. rewrite <- NE in *.
  destruct (load_groups float_ groups_csv) as [g|]; [|discriminate]. cbn [bind] in E.
  destruct (value_indices types cats ords) as [((cv, ci), ranges)|] eqn:VI; [|discriminate]. cbn [bind] in E.
  destruct (ragged_layout names types cv) as [(ri, index)|] eqn:RL; [|discriminate]. cbn [bind] in E.
  destruct (load_prior (length names) index g) as [prior|]; [|discriminate]. cbn [bind] in E. injection E as <-. cbn [sc_names sc_types sc_index sc_cat_values sc_ranges].
  (* types *)
  unfold load_types in LT. destruct types_csv as [|h trows]; [discriminate|]. cbn [next_row bind] in LT.
  destruct (check_header h 0 "name"); [|discriminate]. cbn [bind] in LT. destruct (check_header h 1 "type"); [|discriminate]. cbn [bind] in LT.
  destruct (types_fold trows names types LT) as (TN & TT & TD & TG).
  (* values *)
  unfold load_values in LV. destruct values_csv as [|h' vrows]; [discriminate|]. cbn [next_row bind] in LV.
  destruct (check_header h' 0 "name"); [|discriminate]. cbn [bind] in LV. destruct (check_header h' 1 "value"); [|discriminate]. cbn [bind] in LV.
  destruct (values_fold types vrows cats ords LV) as (VC & VO).
  destruct (index_fold ords cats types cv ci ranges VI) as (IA & IB & IC & ID & IE).
  assert (TYP : forall n, In n names -> exists t, dget types n = Some t).
  { intros n I. rewrite TN in I. apply in_map_iff in I. destruct I as (row & <- & I).
    (* the last listing *)
    assert (Q : forall l : list (list string), (forall r, In r l -> exists t, cell 1 r = type_name t) -> In row l ->
      exists b r a t, l = b ++ r :: a /\ cell 0 r = cell 0 row /\ cell 1 r = type_name t /\ forall q, In q a -> cell 0 q <> cell 0 row).
    { induction l as [|x l IH] using rev_ind; [intros _ []|]. intros TY J. destruct (string_dec (cell 0 x) (cell 0 row)) as [Y|Y].
      - destruct (TY x) as (t & Ht); [apply in_or_app; right; now left|]. exists l, x, [], t. repeat split; auto.
      - apply in_app_or in J. destruct J as [J|[J|[]]]; [|subst; congruence].
        destruct IH as (b & r & aft & t & A1 & A2 & A3 & A4); auto; [intros; apply TY; apply in_or_app; auto|].
        exists b, r, (aft ++ [x]), t. rewrite A1, <- app_assoc. repeat split; auto. intros q K. apply in_app_or in K. destruct K as [K|[<-|[]]]; auto. }
    destruct (Q _ TT I) as (b & r & aft & t & A1 & A2 & A3 & A4). exists t. apply TG. exists b, r, aft. auto. }
  assert (TYP' : forall n t, dget types n = Some t -> In n names).
  { intros n t G. apply TG in G. destruct G as (b & r & aft & A1 & A2 & _). rewrite TN, <- A2. apply in_map. rewrite A1. apply in_or_app. right. now left. }
  set (w := fun n => match dget types n with Some Ordinal => 2 | Some Categorical => length (dget_default cv n []) | None => 0 end).
  assert (FD : forall n, In n names -> feature_dim types cv n = Ok (w n)).
  { intros n I. destruct (TYP n I) as (t & T). unfold feature_dim, w, dget_. rewrite T. cbn [bind]. destruct t; auto. }
  destruct (layout_fold types cv w names FD) as (index' & L & LA & LB).
  assert (EQ : (ri, index) = (make_ragged_index (map w names), index')).
  { unfold ragged_layout in RL. change (foldM (layout_step types cv) (combine (seq 0 (length names)) names) ([0], []) = Ok (ri, index)) in RL. congruence. }
  injection EQ as -> ->.
  assert (CV : forall n, dget types n = Some Categorical -> dget cv n = Some (listed_values (h' :: vrows) n) /\ dget ci n = Some (enumerate_dict (listed_values (h' :: vrows) n))).
  { intros n T. assert (I := dget_In _ _ _ _ T). destruct (IB n I) as (A & B). rewrite A, B, (VC n T). auto. }
  assert (OR : forall n, dget types n = Some Ordinal -> exists zs lo hi,
     map int_of_str (listed_values (h' :: vrows) n) = map Some zs /\ dget ranges n = Some (lo, hi) /\
     In lo zs /\ In hi zs /\ forall z, In z zs -> (lo <= z <= hi)%Z).
  { intros n T. destruct (IC n (dget_In _ _ _ _ T)) as ((lo, hi) & Z & G). exists (dget_default ords n []), lo, hi.
    split; [symmetry; now apply VO|]. split; auto. now apply zrange_spec. }
  assert (RG : forall n r, dget ranges n = Some r -> dget types n = Some Ordinal).
  { intros n r G. apply In_dget; auto. eauto. }
  split; [exact TN|]. split; [rewrite NE; discriminate|]. split; [exact TG|]. split.
  - constructor; cbn [sc_ri sc_names sc_types sc_index sc_cat_values sc_cat_index sc_ranges].
    + f_equal. unfold widths. cbn. apply map_ext_in. intros n I. unfold w, feature_width. cbn. destruct (dget types n) as [[]|] eqn:T; auto.
      unfold dget_default. destruct (CV n T) as (A & _). now rewrite A.
    + intros n. split; [apply TYP|]. intros (t & T). eauto.
    + exact LA.
    + intros n p G. exact (proj1 (LB n p G)).
    + intros n T. destruct (CV n T) as (A & B). eexists. eexists. split; [exact A|]. split; [exact B|]. destruct (enumerate_spec (listed_values (h' :: vrows) n)) as (X & Y). split; auto.
    + intros n T. destruct (OR n T) as (zs & lo & hi & _ & G & L1 & L2 & L3). exists lo, hi. split; auto. apply L3. auto.
  - split; [intros n p q G; exact (proj2 (LB n p G) q)|]. split; [intros n T; exact (proj1 (CV n T))|]. split; auto.
Qed.
