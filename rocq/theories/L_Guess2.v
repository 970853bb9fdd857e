From Coq Require Import String Ascii.
From Coq Require Import List Arith Lia Bool ZArith Reals Permutation Sorted.
From Verif Require Import Base M_Structure M_Util M_Config M_Strings M_Format Spec_Schema Spec_Guess L_Dict L_Schema L_Config L_Guess.
Import ListNotations.
Open Scope list_scope.
Open Scope nat_scope.

Lemma foldM_total : forall A T (f : T -> A -> result T) l s, (forall s a, In a l -> exists s', f s a = Ok s') -> exists s', foldM f l s = Ok s'.
Proof.
  induction l as [|a l IH]; intros s H; cbn [foldM]; [eauto|]. destruct (H s a (or_introl eq_refl)) as (s' & E). rewrite E. cbn [bind]. apply IH.
  intros. apply H. now right.
Qed.

(** When is a pair of files accepted? *)
Lemma load_schema_accepts : forall float_ ht trows hv vrows,
  check_header ht 0 "name" = Ok tt -> check_header ht 1 "type" = Ok tt ->
  check_header hv 0 "name" = Ok tt -> check_header hv 1 "value" = Ok tt ->
  (forall row, In row (listed (ht :: trows)) -> exists t, cell 1 row = type_name t) ->
  listed (ht :: trows) <> [] ->
  (forall n, listed_type (ht :: trows) n Ordinal -> listed_values (hv :: vrows) n <> [] /\ forall v, In v (listed_values (hv :: vrows) n) -> int_of_str v <> None) ->
  exists sc, load_schema float_ (ht :: trows) (hv :: vrows) None = Ok sc.
Proof.
  intros float_ ht trows hv vrows H1 H2 H3 H4 TY NE ORD. unfold load_schema.
  assert (LT : exists names types, load_types (ht :: trows) = Ok (names, types)).
  { unfold load_types. cbn [next_row bind]. rewrite H1, H2. cbn [bind]. change (exists names types, foldM types_step trows ([], []) = Ok (names, types)).
    destruct (foldM_total _ _ types_step trows ([], [])) as ((names, types) & E); [|eauto].
    intros (names, types) row I. unfold types_step. fold (cell 0 row) (cell 1 row). destruct (Nat.ltb_spec (length row) 2); [eauto|]. cbv zeta.
    destruct (String.eqb_spec (cell 1 row) EmptyString) as [|N]; [eauto|].
    destruct (TY row) as (t & T).
    { unfold listed. cbn [tl]. apply filter_In. split; auto. rewrite (proj2 (Nat.leb_le 2 _)) by auto. destruct (String.eqb_spec (cell 1 row) EmptyString); auto. }
    apply parse_type_name in T. rewrite T. eauto. }
  destruct LT as (names & types & LT). rewrite LT. cbn [bind].
  unfold load_types in LT. cbn [next_row bind] in LT. rewrite H1, H2 in LT. cbn [bind] in LT.
  destruct (types_fold trows names types LT) as (TN & _ & TD & TG).
  assert (OT : forall n, dget types n = Some Ordinal -> listed_values (hv :: vrows) n <> [] /\ forall v, In v (listed_values (hv :: vrows) n) -> int_of_str v <> None).
  { intros n T. apply ORD. exact (proj1 (TG n Ordinal) T). }
  assert (LV : exists cats ords, load_values types (hv :: vrows) = Ok (cats, ords)).
  { unfold load_values. cbn [next_row bind]. rewrite H3, H4. cbn [bind]. change (exists cats ords, foldM (values_step types) vrows ([], []) = Ok (cats, ords)).
    destruct (foldM_total _ _ (values_step types) vrows ([], [])) as ((cats, ords) & E); [|eauto].
    intros (cats, ords) row I. unfold values_step. fold (cell 0 row) (cell 1 row). destruct (Nat.ltb_spec (length row) 2); [eauto|]. cbv zeta.
    destruct (dget types (cell 0 row)) as [[]|] eqn:T; eauto. destruct (int_of_str (cell 1 row)) eqn:Z; [eauto|]. exfalso. apply (proj2 (OT _ T) (cell 1 row)); auto.
    unfold listed_values. cbn [tl]. apply in_map. apply filter_In. split; auto. rewrite (proj2 (Nat.leb_le 2 _)) by auto. now rewrite String.eqb_refl. }
  destruct LV as (cats & ords & LV). rewrite LV. cbn [bind].
  unfold load_values in LV. cbn [next_row bind] in LV. rewrite H3, H4 in LV. cbn [bind] in LV.
  destruct (values_fold types vrows cats ords LV) as (_ & VO).
  assert (NN : names <> []).
  { rewrite TN. intros X. apply map_eq_nil in X. exact (NE X). }
  destruct names as [|n0 names0] eqn:EN; [congruence|]. rewrite <- EN in *. cbn [load_groups bind].
  assert (VI : exists cv ci ranges, value_indices types cats ords = Ok (cv, ci, ranges)).
  { unfold value_indices. change (exists cv ci ranges, foldM (index_step ords) types (cats, [], []) = Ok (cv, ci, ranges)).
    destruct (foldM_total _ _ (index_step ords) types (cats, [], [])) as (((cv, ci), ranges) & E); [|eauto].
    intros ((cv, ci), ranges) (n, t) I. destruct t; cbn [index_step]; [eauto|]. apply In_dget in I; auto. destruct (OT n I) as (A & _). specialize (VO n I).
    destruct (dget_default ords n []) as [|z zs]; [exfalso; apply A; destruct (vals vrows n) eqn:VV; [exact VV|discriminate]|]. cbn. eauto. }
  destruct VI as (cv & ci & ranges & VI). rewrite VI. cbn [bind].
  assert (RL : exists p, ragged_layout names types cv = Ok p).
  { set (w := fun n => match dget types n with Some Ordinal => 2 | Some Categorical => length (dget_default cv n []) | None => 0 end).
    destruct (layout_fold types cv w names) as (index & L & _); [|eexists; exact L].
    intros n I. unfold feature_dim, w, dget_. destruct (dget types n) as [[]|] eqn:T; cbn [bind]; auto. exfalso.
    assert (X : In n names -> exists t, dget types n = Some t).
    { clear - LT. revert names types LT. induction trows as [|row rows IH] using rev_ind; intros names types LT J.
      - cbn in LT. injection LT as <- <-. destruct J.
      - change (foldM types_step (rows ++ [row]) ([], []) = Ok (names, types)) in LT. rewrite foldM_app in LT. destruct (foldM types_step rows ([], [])) as [(na, ty)|] eqn:F; [|discriminate].
        cbn [bind foldM] in LT. unfold types_step in LT. cbn zeta in LT.
        destruct (length row <? 2); [cbn [bind] in LT; injection LT as <- <-; eauto|].
        destruct (String.eqb (nth 1 row EmptyString) EmptyString); [cbn [bind] in LT; injection LT as <- <-; eauto|].
        destruct (parse_type (nth 1 row EmptyString)) as [t|]; [|discriminate]. cbn [bind] in LT. injection LT as <- <-.
        rewrite dget_dset. destruct (String.eqb_spec n (nth 0 row EmptyString)) as [->|N]; [eauto|]. apply in_app_or in J. destruct J as [J|[J|[]]]; [|congruence]. eapply IH; eauto. }
    destruct (X I). congruence. }
  destruct RL as ((ri, index) & RL). rewrite RL. cbn. eauto.
Qed.

(** The values file. *)
Lemma guessed_values : forall (fv : string -> sdict nat) names n, NoDup names ->
  listed_values (["name"; "value"; "count"]%string :: concat (map (fun name => map (fun '(v, c) => [name; v; str_nat c]) (fv name)) names)) n
  = if in_dec string_dec n names then map fst (fv n) else [].
Proof.
  intros fv names n. unfold listed_values. cbn [tl]. induction names as [|x names IH]; intros N; auto. inversion N as [|? ? N1 N2]. subst.
  cbn [map concat]. rewrite filter_app, map_app, IH; auto.
  assert (Q : map (cell 1) (filter (fun row => (2 <=? length row) && String.eqb (cell 0 row) n) (map (fun '(v, c) => [x; v; str_nat c]) (fv x))) = if string_dec x n then map fst (fv x) else []).
  { clear. induction (fv x) as [|(v, c) l IHl]; [cbn; now destruct (string_dec x n)|].
    change (map (fun '(v, c) => [x; v; str_nat c]) ((v, c) :: l)) with ([x; v; str_nat c] :: map (fun '(v, c) => [x; v; str_nat c]) l).
    unfold filter. fold (filter (fun row : list string => (2 <=? length row) && String.eqb (cell 0 row) n)).
    change ((2 <=? length [x; v; str_nat c]) && String.eqb (cell 0 [x; v; str_nat c]) n) with (String.eqb x n).
    destruct (String.eqb_spec x n) as [E|E]; destruct (string_dec x n); try congruence. cbn [map fst]. f_equal. exact IHl. }
  rewrite Q. destruct (string_dec x n) as [->|E].
  - destruct (in_dec string_dec n names); [tauto|]. destruct (in_dec string_dec n (n :: names)) as [_|X]; [now rewrite app_nil_r|]. exfalso. apply X. now left.
  - destruct (in_dec string_dec n names) as [A|A], (in_dec string_dec n (x :: names)) as [B|B]; auto.
    + exfalso. apply B. now right.
    + destruct B; tauto.
Qed.

Lemma small_int_iff : forall v, is_small_int v = true <-> small_int v.
Proof.
  intros v. unfold is_small_int, small_int. destruct (int_of_str v) as [z|].
  - rewrite andb_true_iff, !Z.leb_le. change (Z.of_nat MAX_CATEGORIES) with 20%Z. split; [intros; exists z; auto|]. intros (z' & E & H). injection E as <-. auto.
  - split; [discriminate|]. intros (z & E & _). discriminate.
Qed.

Lemma count_total : forall (l : list string) (vs : list string), NoDup vs -> list_sum (map (count_occ string_dec l) vs) <= length l.
Proof.
  induction l as [|x l IH]; intros vs N.
  - clear N. induction vs; cbn in *; auto.
  - cbn [length]. specialize (IH vs N). enough (list_sum (map (count_occ string_dec (x :: l)) vs) <= S (list_sum (map (count_occ string_dec l) vs))) by lia.
    clear IH. induction vs as [|v vs IHv]; [cbn; lia|]. inversion N as [|? ? N1 N2]. subst. specialize (IHv N2).
    assert (K : list_sum (map (count_occ string_dec (x :: l)) (v :: vs)) = count_occ string_dec (x :: l) v + list_sum (map (count_occ string_dec (x :: l)) vs)) by reflexivity.
    assert (K' : list_sum (map (count_occ string_dec l) (v :: vs)) = count_occ string_dec l v + list_sum (map (count_occ string_dec l) vs)) by reflexivity.
    rewrite K, K'. destruct (string_dec x v) as [->|E].
    + rewrite count_occ_cons_eq by auto. enough (list_sum (map (count_occ string_dec (v :: l)) vs) = list_sum (map (count_occ string_dec l) vs)) by lia.
      f_equal. apply map_ext_in. intros u I. apply count_occ_cons_neq. intros ->. tauto.
    + rewrite count_occ_cons_neq by auto. lia.
Qed.

Lemma guess_main : forall files types values, guess_schema files = Ok (types, values) ->
  (NoDup (map (cell 0) (tl types)) /\ StronglySorted (fun a b => String.leb a b = true) (map (cell 0) (tl types)) /\
   forall n, In n (map (cell 0) (tl types)) <-> is_feature files n) /\
  (forall row, In row (tl types) -> typed_row files values row) /\
  (forall n, is_feature files n -> let vs := listed_values values n in
     NoDup vs /\ length vs = Nat.min 20 (length (repeated files n)) /\
     (forall v, In v vs -> 2 <= occurrences files n v) /\
     (forall v, In v (repeated files n) -> ~ In v vs -> forall u, In u vs -> occurrences files n v <= occurrences files n u) /\
     StronglySorted (fun u v => occurrences files n v < occurrences files n u \/ (occurrences files n u = occurrences files n v /\ String.leb u v = true)) vs) /\
  (forall n, ~ is_feature files n -> listed_values values n = []) /\
  ((exists row, In row (tl types) /\ cell 1 row <> EmptyString) -> forall float_, exists sc, load_schema float_ types values None = Ok sc).
Proof.
  intros files types values E. unfold guess_schema in E.
  destruct (foldM guess_file files (GStats [] [] [] [])) as [st|] eqn:F; [|discriminate]. cbn [bind] in E. injection E as ET EV.
  destruct (guess_files files st F) as (ST & ND & NM & _).
  set (counts := fun name => dget_default (gs_values st) name []) in *. set (names := str_sort (gs_names st)) in *.
  set (total := fun name => dget_default (gs_totals st) name 0) in *.
  set (typename := fun name => match guess_feature_type (total name) (frequent_values (counts name)) with Some t => type_name t | None => EmptyString end) in *.
  change (["name"; "type"; "total"; "unique"; "singletons"; "source"]%string ::
      map (fun name => [name; typename name; str_nat (total name); str_nat (length (counts name));
                        str_nat (length (filter (fun '(_, c) => c =? 1) (counts name)));
                        String.concat "," (dget_default (gs_sources st) name [])]) names = types) in ET.
  assert (NDn : NoDup names) by (eapply Permutation_NoDup; [symmetry; apply str_sort_perm|exact ND]).
  assert (IN : forall n, In n names <-> is_feature files n).
  { intros n. rewrite <- NM. split; apply Permutation_in; [|symmetry]; apply str_sort_perm. }
  assert (TL : map (cell 0) (tl types) = names).
  { rewrite <- ET. cbn [tl]. rewrite map_map. cbn. apply map_id. }
  assert (CO : forall n, total n = length (observations files n) /\ counts_ok (counts n) (observations files n)).
  { intros n. exact (ST n). }
  assert (GV : forall n, listed_values values n = if in_dec string_dec n names then map fst (frequent_values (counts n)) else []).
  { intros n. rewrite <- EV. exact (guessed_values (fun n => frequent_values (counts n)) names n NDn). }
  assert (FV : forall n, is_feature files n -> listed_values values n = map fst (frequent_values (counts n))).
  { intros n I. rewrite GV. destruct (in_dec string_dec n names) as [_|X]; auto. exfalso. apply X. now apply IN. }
  assert (SP := fun n => frequent_spec (counts n) (observations files n) (proj2 (CO n))). cbv zeta in SP.
  assert (TR : forall row, In row (tl types) -> typed_row files values row).
  { intros row I. assert (I0 := in_map (cell 0) _ _ I). rewrite TL in I0. rewrite <- ET in I. cbn [tl] in I. apply in_map_iff in I. destruct I as (n & <- & _).
    unfold typed_row. cbn [cell nth] in *. apply IN in I0. rewrite FV by auto.
    destruct (SP n) as (_ & S2 & S3 & S4 & _). destruct (CO n) as (CT & CC). destruct (counts_perm _ _ CC) as (CP & CK).
    assert (RL : length (frequent_values (counts n)) = Nat.min 20 (length (repeated files n))) by exact S4.
    assert (SMALL : forallb (fun '(v, _) => is_small_int v) (frequent_values (counts n)) = true <-> forall v, In v (map fst (frequent_values (counts n))) -> small_int v).
    { rewrite forallb_forall. split.
      - intros H v J. apply in_map_iff in J. destruct J as ((v', c) & <- & J). apply small_int_iff. exact (H _ J).
      - intros H (v, c) J. apply small_int_iff, H. apply in_map_iff. exists (v, c). auto. }
    assert (BIG : 2 * length (frequent_values (counts n)) <= total n).
    { rewrite CT. etransitivity; [|apply (count_total (observations files n) (map fst (frequent_values (counts n))) S3)].
      clear - S2. induction (frequent_values (counts n)) as [|(v, c) l IH]; auto. assert (J := S2 v c (or_introl eq_refl)).
      assert (2 * length l <= list_sum (map (count_occ string_dec (observations files n)) (map fst l))) by (apply IH; intros; apply S2; now right).
      cbn [map fst length]. change (list_sum (?a :: ?b)) with (a + list_sum b). lia. }
    assert (TY : match guess_feature_type (total n) (frequent_values (counts n)) with
                 | None => length (repeated files n) < 2
                 | Some Ordinal => 2 <= length (repeated files n) /\ forall v, In v (map fst (frequent_values (counts n))) -> small_int v
                 | Some Categorical => 2 <= length (repeated files n) /\ exists v, In v (map fst (frequent_values (counts n))) /\ ~ small_int v end).
    { unfold guess_feature_type. cbv zeta. destruct (Nat.leb_spec (length (frequent_values (counts n))) 1) as [L|L]; [lia|].
      replace (length (frequent_values (counts n)) <=? MAX_CATEGORIES) with true by (symmetry; apply Nat.leb_le; unfold MAX_CATEGORIES; lia).
      cbn [andb]. destruct (forallb (fun '(v, _) => is_small_int v) (frequent_values (counts n))) eqn:FB.
      - split; [lia|now apply SMALL].
      - replace (2 * length (frequent_values (counts n)) <=? total n) with true by (symmetry; apply Nat.leb_le; lia). cbn [andb]. split; [lia|].
        assert (X : forall l : list (string * nat), forallb (fun '(v, _) => is_small_int v) l = false -> exists v, In v (map fst l) /\ is_small_int v = false).
        { clear. induction l as [|(v, c) l IH]; [discriminate|]. cbn [forallb]. destruct (is_small_int v) eqn:S; [|exists v; split; [now left|auto]].
          cbn [andb]. intros H. destruct (IH H) as (u & A & B). exists u. split; [now right|auto]. }
        destruct (X _ FB) as (v & A & B). exists v. split; auto. intros C. apply small_int_iff in C. congruence. }
    unfold cell. cbn [nth]. unfold typename.
    destruct (guess_feature_type (total n) (frequent_values (counts n))) as [[]|]; cbn [type_name].
    - destruct TY as (A & v & B & C). split; [split; [discriminate|lia]|]. split; [split; [discriminate|intros (_ & H); exfalso; auto]|]. split; [split; auto; intros _; split; eauto|].
      split; [now rewrite CT|]. split; [now rewrite <- (Permutation_length CP), map_length|].
      f_equal. rewrite <- (map_length fst). rewrite (filter_map_fst _ _ CK (fun c => c =? 1)). apply Permutation_length. now apply perm_filter.
    - destruct TY as (A & B). split; [split; [discriminate|lia]|]. split; [split; auto|]. split; [split; [discriminate|intros (_ & v & H1 & H2); exfalso; auto]|].
      split; [now rewrite CT|]. split; [now rewrite <- (Permutation_length CP), map_length|].
      f_equal. rewrite <- (map_length fst). rewrite (filter_map_fst _ _ CK (fun c => c =? 1)). apply Permutation_length. now apply perm_filter.
    - split; [split; auto|]. split; [split; [discriminate|lia]|]. split; [split; [discriminate|lia]|].
      split; [now rewrite CT|]. split; [now rewrite <- (Permutation_length CP), map_length|].
      f_equal. rewrite <- (map_length fst). rewrite (filter_map_fst _ _ CK (fun c => c =? 1)). apply Permutation_length. now apply perm_filter. }
  assert (VS : forall n, is_feature files n -> let vs := listed_values values n in
     NoDup vs /\ length vs = Nat.min 20 (length (repeated files n)) /\
     (forall v, In v vs -> 2 <= occurrences files n v) /\
     (forall v, In v (repeated files n) -> ~ In v vs -> forall u, In u vs -> occurrences files n v <= occurrences files n u) /\
     StronglySorted (fun u v => occurrences files n v < occurrences files n u \/ (occurrences files n u = occurrences files n v /\ String.leb u v = true)) vs).
  { intros n I. cbv zeta. rewrite FV by auto. destruct (SP n) as (S1 & S2 & S3 & S4 & S5). split; auto. split; [now rewrite map_length|]. split; [|split].
    - intros v J. apply in_map_iff in J. destruct J as ((v', c) & <- & J). destruct (S2 v' c J) as (-> & L). exact L.
    - intros v R N u J. apply in_map_iff in J. destruct J as ((u', c) & <- & J). unfold repeated in R. apply filter_In in R. destruct R as (_ & R). apply Nat.leb_le in R.
      specialize (S5 v u' c R N J). destruct (S2 u' c J) as (Q & _). unfold occurrences. cbn [fst]. lia.
    - clear S3 S4 S5. revert S1 S2. generalize (frequent_values (counts n)) as fl. induction fl as [|(v, c) fl IH]; intros S1 S2; cbn [map]; constructor.
      + apply IH; [now inversion S1|]. intros. apply S2. now right.
      + inversion S1 as [|? ? S1' S1'']. subst. rewrite Forall_forall in *. intros u J. apply in_map_iff in J. destruct J as ((u', d) & <- & J). specialize (S1'' _ J).
        destruct (S2 v c (or_introl eq_refl)) as (Q1 & _). destruct (S2 u' d (or_intror J)) as (Q2 & _). unfold vc_le in S1''. cbn [fst snd] in *. unfold occurrences. rewrite <- Q1, <- Q2. exact S1''. }
  split; [|split; [exact TR|split; [exact VS|split]]].
  - rewrite TL. split; auto. split; auto. exact (str_sort_sorted (gs_names st)).
  - intros n N. rewrite GV. destruct (in_dec string_dec n names) as [X|_]; auto. exfalso. apply N. now apply IN.
  - intros (r0 & R0 & R1) float_.
    assert (LEN : forall row, In row (tl types) -> length row = 6). { rewrite <- ET. cbn [tl]. intros row I. apply in_map_iff in I. destruct I as (n & <- & _). reflexivity. }
    assert (HT : exists ht, types = ht :: tl types /\ check_header ht 0 "name" = Ok tt /\ check_header ht 1 "type" = Ok tt).
    { eexists. rewrite <- ET at 1. cbn [tl]. split; [rewrite <- ET; reflexivity|]. split; reflexivity. }
    assert (HV : exists hv, values = hv :: tl values /\ check_header hv 0 "name" = Ok tt /\ check_header hv 1 "value" = Ok tt).
    { eexists. split; [rewrite <- EV; reflexivity|]. split; reflexivity. }
    destruct HT as (ht & HT & HT0 & HT1). destruct HV as (hv & HV & HV0 & HV1). rewrite HT, HV. apply load_schema_accepts; auto.
    + intros row I. rewrite <- HT in I. unfold listed in I. apply filter_In in I. destruct I as (I & J). apply andb_true_iff in J. destruct J as (_ & J).
      apply negb_true_iff, String.eqb_neq in J. rewrite <- ET in I. cbn [tl] in I. apply in_map_iff in I. destruct I as (n & <- & _).
      cbn [cell nth] in *. unfold typename in *. destruct (guess_feature_type (total n) (frequent_values (counts n))) as [t|]; [exists t; auto|congruence].
    + rewrite <- HT. intros X. assert (Y : In r0 (listed types)); [|rewrite X in Y; destruct Y]. unfold listed. apply filter_In. split; auto. rewrite (LEN r0 R0). cbn [Nat.leb andb].
      destruct (String.eqb_spec (cell 1 r0) EmptyString); auto.
    + intros n (b & row & a & L & L0 & L1 & _). rewrite <- HT in L. rewrite <- HV. assert (J : In row (tl types)).
      { assert (J : In row (listed types)) by (rewrite L; apply in_or_app; right; now left). unfold listed in J. apply filter_In in J. tauto. }
      destruct (TR row J) as (_ & T2 & _). cbv zeta in T2. rewrite L0 in T2. destruct (proj1 T2 L1) as (A & B).
      assert (FE : is_feature files n). { apply IN. rewrite <- TL, <- L0. now apply in_map. }
      destruct (VS n FE) as (_ & V2 & _). split.
      * intros X. rewrite X in V2. cbn [length] in V2. lia.
      * intros v K. destruct (B v K) as (z & Z & _). congruence.
Qed.

(** Sources. *)
Lemma from_first_none : forall n files, ~ is_feature files n -> from_first n files = [].
Proof.
  induction files as [|f r IH]; intros H; auto. cbn. destruct (in_dec string_dec n (header f)) as [I|I].
  - exfalso. apply H. exists f. split; [now left|auto].
  - apply IH. intros (g & A & B). apply H. exists g. split; [now right|auto].
Qed.
Lemma from_first_snoc : forall n files f, is_feature (files ++ [f]) n -> from_first n (files ++ [f]) = from_first n files ++ [f].
Proof.
  induction files as [|g r IH]; intros f (h & I & J); cbn.
  - destruct I as [<-|[]]. destruct (in_dec string_dec n (header f)); tauto.
  - destruct (in_dec string_dec n (header g)) as [K|K]; auto. apply IH. destruct I as [<-|I]; [tauto|]. exists h. auto.
Qed.

Lemma sources_fold : forall fname names src n, NoDup names ->
  dget_default (fold_left (fun s name => dset s name (dget_default s name [] ++ [fname])) names src) n [] =
  dget_default src n [] ++ (if in_dec string_dec n names then [fname] else [] : list string).
Proof.
  induction names as [|x names IH]; intros src n N; cbn [fold_left]; [cbn; now rewrite app_nil_r|]. inversion N as [|? ? N1 N2]. subst.
  rewrite IH by auto. rewrite dget_default_dset. destruct (String.eqb_spec n x) as [->|Q].
  - destruct (in_dec string_dec x names); [tauto|]. destruct (in_dec string_dec x (x :: names)) as [_|X]; [now rewrite app_nil_r|]. exfalso. apply X. now left.
  - destruct (in_dec string_dec n names) as [A|A], (in_dec string_dec n (x :: names)) as [B|B]; auto; exfalso; [apply B; now right|]. destruct B; [congruence|tauto].
Qed.

Lemma guess_sources : forall files st, foldM guess_file files (GStats [] [] [] []) = Ok st ->
  forall n, dget_default (gs_sources st) n [] = map fst (from_first n files).
Proof.
  induction files as [|f files IH] using rev_ind; intros st E n.
  - cbn in E. injection E as <-. reflexivity.
  - assert (GF := guess_files _ _ E). rewrite foldM_app in E. destruct (foldM guess_file files (GStats [] [] [] [])) as [st0|] eqn:F; [|discriminate]. cbn [bind foldM] in E.
    specialize (IH st0 eq_refl n). unfold guess_file in E. destruct f as (fname, rows). cbn [snd fst] in E.
    destruct rows as [|h rows]; [discriminate|]. cbn [next_row bind] in E. injection E as <-.
    destruct (guess_files _ _ F) as (_ & N0 & _ & _). destruct (str_adds h (gs_names st0) N0) as (N' & _).
    match goal with |- context [fold_left _ rows ?s0] => set (st1 := s0) in * end.
    destruct (guess_rows_same h rows st1) as (GN & GS). cbv zeta in GN, GS. rewrite GS. cbn [st1 gs_sources]. rewrite sources_fold by auto. rewrite IH.
    destruct GF as (_ & _ & NM & _). rewrite GN in NM. cbn [st1 gs_names] in NM.
    destruct (in_dec string_dec n (fold_left str_add h (gs_names st0))) as [I|I].
    + rewrite from_first_snoc by (now apply NM). now rewrite map_app.
    + rewrite app_nil_r. rewrite (from_first_none n (files ++ [(fname, h :: rows)])) by (intros X; apply I; now apply NM).
      rewrite from_first_none; auto. intros (g & A & B). apply I, NM. exists g. split; [apply in_or_app; auto|auto].
Qed.

Lemma C46_partial_proof : forall files types values, guess_schema files = Ok (types, values) -> forall row, In row (tl types) ->
  cell 5 row = String.concat "," (map fst (from_first (cell 0 row) files)).
Proof.
  intros files types values E row I. unfold guess_schema in E.
  destruct (foldM guess_file files (GStats [] [] [] [])) as [st|] eqn:F; [|discriminate]. cbn [bind] in E. injection E as ET EV.
  rewrite <- ET in I. cbn [tl] in I. apply in_map_iff in I. destruct I as (n & <- & _). cbn [cell nth]. now rewrite (guess_sources files st F).
Qed.

Lemma guess_raises : forall files, (exists f, In f files /\ snd f = []) -> guess_schema files = Raise StopIteration.
Proof.
  intros files (f & I & N). unfold guess_schema.
  assert (X : forall files st, In f files -> foldM guess_file files st = Raise StopIteration).
  { clear files I. induction files as [|g files IH]; intros st I; [destruct I|]. cbn [foldM]. unfold guess_file at 1. destruct (snd g) as [|h rows] eqn:S; [reflexivity|].
    cbn [next_row bind]. apply IH. destruct I as [->|I]; [congruence|auto]. }
  now rewrite X.
Qed.
Lemma guess_runs : forall files, (forall f, In f files -> snd f <> []) -> exists types values, guess_schema files = Ok (types, values).
Proof.
  intros files H. unfold guess_schema. destruct (guess_files_ok files H (GStats [] [] [] [])) as (st & ->). cbn [bind]. eauto.
Qed.

Lemma check_header_iff : forall h i name, check_header h i name = Ok tt <-> exists c, nth_error h i = Some c /\ lower c = name.
Proof.
  intros h i name. unfold check_header, get. destruct (nth_error h i) as [c|].
  - cbn [bind]. unfold assert_. destruct (String.eqb_spec (lower c) name) as [E|E]; split; auto; eauto; [discriminate|].
    intros (c' & Q & R). injection Q as <-. congruence.
  - cbn [bind]. split; [discriminate|]. intros (c & Q & _). discriminate.
Qed.
Lemma C53_proof : forall float_ types_csv values_csv,
  (exists sc, load_schema float_ types_csv values_csv None = Ok sc) <->
  headed types_csv 0 "name" /\ headed types_csv 1 "type" /\ headed values_csv 0 "name" /\ headed values_csv 1 "value" /\
  listed types_csv <> [] /\ (forall row, In row (listed types_csv) -> exists t, cell 1 row = type_name t) /\
  (forall n, listed_type types_csv n Ordinal -> listed_values values_csv n <> [] /\ forall v, In v (listed_values values_csv n) -> int_of_str v <> None).
Proof.
  intros float_ types_csv values_csv. split.
  - intros (sc & E). destruct (load_schema_spec _ _ _ _ _ E) as (S1 & S2 & S3 & _ & _ & _ & S7 & _). unfold load_schema in E.
    destruct (load_types types_csv) as [(names, types)|] eqn:LT; [|discriminate]. cbn [bind] in E.
    destruct (load_values types values_csv) as [(cats, ords)|] eqn:LV; [|discriminate]. clear E.
    unfold load_types in LT. destruct types_csv as [|h trows]; [discriminate|]. cbn [next_row bind] in LT.
    destruct (check_header h 0 "name") as [[]|] eqn:H0; [|discriminate]. cbn [bind] in LT. destruct (check_header h 1 "type") as [[]|] eqn:H1; [|discriminate]. cbn [bind] in LT.
    unfold load_values in LV. destruct values_csv as [|h' vrows]; [discriminate|]. cbn [next_row bind] in LV.
    destruct (check_header h' 0 "name") as [[]|] eqn:H2; [|discriminate]. cbn [bind] in LV. destruct (check_header h' 1 "value") as [[]|] eqn:H3; [|discriminate]. cbn [bind] in LV.
    apply check_header_iff in H0, H1, H2, H3. destruct (types_fold trows names types LT) as (_ & TT & _).
    split; [exact H0|]. split; [exact H1|]. split; [exact H2|]. split; [exact H3|]. split; [|split].
    + intros X. apply S2. rewrite S1, X. reflexivity.
    + exact TT.
    + intros n T. apply S3 in T. destruct (S7 n T) as (zs & lo & hi & A & _ & B & _). split.
      * intros X. rewrite X in A. destruct zs; [destruct B|discriminate].
      * intros v I. apply (in_map int_of_str) in I. rewrite A in I. apply in_map_iff in I. destruct I as (z & <- & _). discriminate.
  - intros (H0 & H1 & H2 & H3 & NE & TY & ORD). unfold headed in H0, H1, H2, H3. destruct types_csv as [|ht trows]; [destruct H0 as (? & ? & _); discriminate|].
    destruct values_csv as [|hv vrows]; [destruct H2 as (? & ? & _); discriminate|]. apply load_schema_accepts; auto; apply check_header_iff; assumption.
Qed.

Lemma from_first_split : forall n files, exists before, files = before ++ from_first n files /\ forall f, In f before -> ~ In n (header f).
Proof.
  intros n. induction files as [|f r IH]; [exists []; split; auto; intros ? []|]. destruct IH as (b & E & H). cbn. destruct (in_dec string_dec n (header f)) as [K|K].
  - exists []. split; [reflexivity|]. intros ? [].
  - exists (f :: b). split; [cbn; f_equal; exact E|]. intros g [<-|J]; auto.
Qed.
Lemma sources_from : forall n files, (forall f, In f (from_first n files) -> In n (header f)) -> from_first n files = sources n files.
Proof.
  induction files as [|f r IH]; intros H; auto. cbn in *. destruct (in_dec string_dec n (header f)) as [I|I]; auto. f_equal.
  assert (X : forall l, (forall f, In f l -> In n (header f)) -> sources n l = l).
  { induction l as [|g l IHl]; intros K; auto. cbn. destruct (in_dec string_dec n (header g)) as [_|X]; [f_equal; apply IHl; intros; apply K; now right|]. exfalso. apply X, K. now left. }
  symmetry. apply X. intros g J. apply H. now right.
Qed.
Lemma C46_full : forall files types values, guess_schema files = Ok (types, values) -> forall row, In row (tl types) -> let n := cell 0 row in
  cell 5 row = String.concat "," (map fst (from_first n files)) /\
  ((forall f, In f (from_first n files) -> In n (header f)) -> cell 5 row = String.concat "," (map fst (sources n files))).
Proof.
  intros files types values E row I n. assert (X := C46_partial_proof files types values E row I). split; auto. intros H. rewrite X. fold n. now rewrite (sources_from n files H).
Qed.
Lemma C46_refutation : exists files types values row,
  guess_schema files = Ok (types, values) /\ In row (tl types) /\
  (forall f, In f files -> snd f <> []) /\ NoDup (map fst files) /\
  cell 5 row <> String.concat "," (map fst (sources (cell 0 row) files)).
Proof.
  exists [("a.csv", [["x"]; ["1"]]); ("b.csv", [["y"]; ["2"]])]%string.
  eexists. eexists. exists ["x"; ""; "1"; "1"; "1"; "a.csv,b.csv"]%string. split; [vm_compute; reflexivity|].
  split; [cbn; tauto|]. split; [intros f [<-|[<-|[]]]; discriminate|]. split; [repeat constructor; cbn; intuition discriminate|]. vm_compute. discriminate.
Qed.
