(** Which exception a rejected schema raises. *)
From Coq Require Import String Ascii.
From Coq Require Import List Arith Lia Bool ZArith Reals.
From Verif Require Import Base M_Structure M_Util M_Config M_Strings M_Format Spec_Schema Spec_Guess Spec_Checks L_Dict L_Schema L_Config L_Guess L_Guess2.
Import ListNotations.
Open Scope list_scope.
Open Scope nat_scope.

Lemma foldM_raises A T (f : T -> A -> result T) e l : (forall s a x, In a l -> f s a = Raise x -> x = e) ->
  forall s x, foldM f l s = Raise x -> x = e.
Proof.
  induction l as [|a l IH]; intros H s x E; cbn [foldM] in E; [discriminate|].
  destruct (f s a) as [s'|y] eqn:F; cbn [bind] in E.
  - apply (IH (fun s a x I => H s a x (or_intror I)) s' x E).
  - inversion E; subst. apply (H s a x); [now left|exact F].
Qed.

Lemma header_case csv second rest o :
  (forall h rows, csv = h :: rows -> check_header h 0 "name" = Ok tt -> check_header h 1 second = Ok tt -> checked rest o) ->
  (csv = [] -> o = Some StopIteration) ->
  (forall h rows x, csv = h :: rows -> check_header h 0 "name" = Raise x -> o = Some x) ->
  (forall h rows x, csv = h :: rows -> check_header h 0 "name" = Ok tt -> check_header h 1 second = Raise x -> o = Some x) ->
  checked (header_checks csv second ++ rest) o.
Proof.
  intros HK H0 H1 H2. unfold header_checks. cbn [app]. destruct csv as [|h rows].
  - rewrite (H0 eq_refl). apply failed. congruence.
  - apply passed; [discriminate|]. cbn [hd].
    assert (ND : forall i (P : Prop) c, nth_error h i = Some c -> (i < length h)) by (intros i P c K; apply nth_error_Some; congruence).
    destruct (nth_error h 0) as [c|] eqn:N0.
    2: { rewrite (H1 h rows IndexError eq_refl); [apply failed; apply nth_error_None in N0; lia|]. unfold check_header, get. now rewrite N0. }
    apply passed; [specialize (ND 0 True c N0); lia|].
    destruct (String.eqb_spec (lower c) "name") as [L|L].
    2: { rewrite (H1 h rows AssertionError eq_refl).
         - apply failed. intros (c' & K & LK). cbn [hd] in K. rewrite N0 in K. injection K as <-. auto.
         - unfold check_header, get. rewrite N0. cbn [bind]. destruct (String.eqb_spec (lower c) "name"); [contradiction|reflexivity]. }
    assert (C0 : check_header h 0 "name" = Ok tt) by (apply check_header_iff; eauto).
    apply passed; [exists c; auto|].
    destruct (nth_error h 1) as [d|] eqn:N1.
    2: { rewrite (H2 h rows IndexError eq_refl C0); [apply failed; apply nth_error_None in N1; lia|]. unfold check_header, get. now rewrite N1. }
    apply passed; [specialize (ND 1 True d N1); lia|].
    destruct (String.eqb_spec (lower d) second) as [L1|L1].
    2: { rewrite (H2 h rows AssertionError eq_refl C0).
         - apply failed. intros (c' & K & LK). cbn [hd] in K. rewrite N1 in K. injection K as <-. auto.
         - unfold check_header, get. rewrite N1. cbn [bind]. destruct (String.eqb_spec (lower d) second); [contradiction|reflexivity]. }
    apply passed; [exists d; auto|]. apply (HK h rows); auto. apply check_header_iff; eauto.
Qed.

Lemma schema_raises float_ types_csv values_csv :
  checked (schema_checks types_csv values_csv) (raised (load_schema float_ types_csv values_csv None)).
Proof.
  unfold schema_checks. apply header_case.
  2: { intros ->. reflexivity. }
  2: { intros h rows x -> E. unfold load_schema, load_types. cbn [next_row bind]. rewrite E. reflexivity. }
  2: { intros h rows x -> E1 E. unfold load_schema, load_types. cbn [next_row bind]. rewrite E1. cbn [bind]. rewrite E. reflexivity. }
  intros ht trows -> H0 H1. cbn [app].
  destruct (load_types (ht :: trows)) as [(names, types)|e] eqn:LT.
  2: { unfold load_schema. rewrite LT. cbn [bind raised]. unfold load_types in LT. cbn [next_row bind] in LT. rewrite H0, H1 in LT. cbn [bind] in LT.
       change (foldM types_step trows ([], []) = Raise e) in LT. assert (EE : e = ValueError).
       { revert LT. apply foldM_raises. intros (nn, tt') row x I. unfold types_step. destruct (length row <? 2); [discriminate|]. cbv zeta.
         destruct (String.eqb (nth 1 row EmptyString) EmptyString); [discriminate|]. destruct (parse_type _); [discriminate|]. congruence. }
       subst e. apply failed. intros TY. destruct (foldM_total _ _ types_step trows ([], [])) as (p & E); [|congruence].
       intros (nn, tt') row I. unfold types_step. fold (cell 0 row) (cell 1 row). destruct (Nat.ltb_spec (length row) 2); [eauto|]. cbv zeta.
       destruct (String.eqb_spec (cell 1 row) EmptyString) as [|N]; [eauto|].
       destruct (TY row) as (t & T).
       { unfold listed. cbn [tl]. apply filter_In. split; auto. rewrite (proj2 (Nat.leb_le 2 _)) by auto. destruct (String.eqb_spec (cell 1 row) EmptyString); auto. }
       apply parse_type_name in T. rewrite T. eauto. }
  assert (LT' := LT). unfold load_types in LT'. cbn [next_row bind] in LT'. rewrite H0, H1 in LT'. cbn [bind] in LT'.
  destruct (types_fold trows names types LT') as (TN & TY & TD & TG). apply passed; [exact TY|].
  apply header_case.
  2: { intros ->. unfold load_schema. rewrite LT. reflexivity. }
  2: { intros h rows x -> E. unfold load_schema. rewrite LT. cbn [bind]. unfold load_values. cbn [next_row bind]. rewrite E. reflexivity. }
  2: { intros h rows x -> E1 E. unfold load_schema. rewrite LT. cbn [bind]. unfold load_values. cbn [next_row bind]. rewrite E1. cbn [bind]. rewrite E. reflexivity. }
  intros hv vrows -> H2 H3.
  assert (TO : forall n, listed_type (ht :: trows) n Ordinal <-> dget types n = Some Ordinal) by (intros n; symmetry; exact (TG n Ordinal)).
  destruct (load_values types (hv :: vrows)) as [(cats, ords)|e] eqn:LV.
  2: { unfold load_schema. rewrite LT. cbn [bind]. rewrite LV. cbn [bind raised]. unfold load_values in LV. cbn [next_row bind] in LV. rewrite H2, H3 in LV. cbn [bind] in LV.
       change (foldM (values_step types) vrows ([], []) = Raise e) in LV. assert (EE : e = ValueError).
       { revert LV. apply foldM_raises. intros (cc, oo) row x I. unfold values_step. destruct (length row <? 2); [discriminate|]. cbv zeta.
         destruct (dget types (nth 0 row EmptyString)) as [[]|]; try discriminate. destruct (int_of_str _); [discriminate|]. congruence. }
       subst e. apply failed. intros OK. destruct (foldM_total _ _ (values_step types) vrows ([], [])) as (p & E); [|congruence].
       intros (cc, oo) row I. unfold values_step. fold (cell 0 row) (cell 1 row). destruct (Nat.ltb_spec (length row) 2); [eauto|]. cbv zeta.
       destruct (dget types (cell 0 row)) as [[]|] eqn:T; eauto. destruct (int_of_str (cell 1 row)) eqn:Z; [eauto|]. exfalso. apply (OK (cell 0 row) (cell 1 row)); auto; [now apply TO|].
       unfold listed_values. cbn [tl]. apply in_map. apply filter_In. split; auto. rewrite (proj2 (Nat.leb_le 2 _)) by auto. now rewrite String.eqb_refl. }
  assert (LV' := LV). unfold load_values in LV'. cbn [next_row bind] in LV'. rewrite H2, H3 in LV'. cbn [bind] in LV'.
  destruct (values_fold types vrows cats ords LV') as (_ & VO).
  assert (INT : forall n v, listed_type (ht :: trows) n Ordinal -> In v (listed_values (hv :: vrows) n) -> int_of_str v <> None).
  { intros n v T I. apply TO in T. specialize (VO n T). change (listed_values (hv :: vrows) n) with (vals vrows n) in I.
    apply (in_map int_of_str) in I. rewrite <- VO in I. apply in_map_iff in I. destruct I as (z & <- & _). discriminate. }
  apply passed; [exact INT|].
  destruct names as [|n0 names0] eqn:EN.
  { unfold load_schema. rewrite LT. cbn [bind]. rewrite LV. cbn [bind raised]. apply failed. intros K. apply K.
    symmetry in TN. apply map_eq_nil in TN. exact TN. }
  assert (NE : listed (ht :: trows) <> []) by (intros K; change (listed (ht :: trows)) with (filter is_listed trows) in K; rewrite K in TN; discriminate).
  apply passed; [exact NE|].
  destruct (value_indices types cats ords) as [((cv, ci), ranges)|e] eqn:VI.
  2: { unfold load_schema. rewrite LT. cbn [bind]. rewrite LV. cbn [bind load_groups]. rewrite VI. cbn [bind raised]. unfold value_indices in VI.
       change (foldM (index_step ords) types (cats, [], []) = Raise e) in VI. assert (EE : e = IndexError).
       { revert VI. apply foldM_raises. intros ((a, b), r) (n, t) x I. destruct t; cbn [index_step]; [discriminate|].
         destruct (zrange (dget_default ords n [])) as [z|y] eqn:Z; cbn [bind]; [discriminate|]. destruct (dget_default ords n []); cbn in Z; congruence. }
       subst e. apply failed. intros OK. destruct (foldM_total _ _ (index_step ords) types (cats, [], [])) as (p & E); [|congruence].
       intros ((a, b), r) (n, t) I. destruct t; cbn [index_step]; [eauto|]. apply In_dget in I; auto. specialize (OK n (proj2 (TO n) I)). specialize (VO n I).
       destruct (dget_default ords n []) as [|z zs]; [exfalso; apply OK; change (listed_values (hv :: vrows) n) with (vals vrows n); destruct (vals vrows n) eqn:VV; [reflexivity|discriminate]|]. cbn. eauto. }
  assert (VI' := VI). unfold value_indices in VI'. change (foldM (index_step ords) types (cats, [], []) = Ok (cv, ci, ranges)) in VI'.
  destruct (index_fold _ _ _ _ _ _ VI') as (_ & _ & IR & _).
  assert (NV : forall n, listed_type (ht :: trows) n Ordinal -> listed_values (hv :: vrows) n <> []).
  { intros n T. apply TO in T. destruct (IR n) as (r & Z & _); [now apply dget_In|]. specialize (VO n T). intros K.
    change (listed_values (hv :: vrows) n) with (vals vrows n) in K. rewrite K in VO. destruct (dget_default ords n []); [discriminate Z|discriminate VO]. }
  apply passed; [exact NV|].
  destruct (load_schema_accepts float_ ht trows hv vrows) as (sc & ->); auto; [|constructor].
  intros n T. split; [auto|]. intros v. exact (INT n v T).
Qed.

Lemma checked_fun : forall l o o', checked l o -> checked l o' -> o = o'.
Proof.
  intros l o o' H. revert o'. induction H as [|P e l o HP H IH|P e l HP]; intros o' H'; inversion H'; subst; auto; contradiction.
Qed.
