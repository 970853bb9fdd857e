(** Proofs about M_Repaired5 (C42, C71). *)
From Coq Require Import String Ascii.
From Coq Require Import List Arith Lia Bool ZArith QArith Reals.
From Verif Require Import Base M_Structure M_Util M_Strings M_Format Spec_Ragged Spec_Schema L_Base L_Dict L_Ragged L_Schema L_Import L_Import2 M_Plot2 Spec_Svg L_Svg M_Repaired5.
Import ListNotations.
Open Scope list_scope.
Open Scope nat_scope.

(** ** import_rows *)
Section Import.
Variable sc : schema.
Hypothesis SO : schema_ok sc.

Definition quiet (entry : string * jval) : bool :=
  match entry_error sc (fst entry) (snd entry) with None => true | Some _ => false end.

Lemma cell_cases row n jv :
  repaired_import_cell sc row (n, jv) = if quiet (n, jv) then import_cell sc row (n, jv) else Ok row.
Proof.
  unfold quiet, entry_error, repaired_import_cell, import_cell. cbn [fst snd].
  destruct (dget (sc_index sc) n) as [v|] eqn:IX.
  2:{ destruct (dget (sc_types sc) n) as [[]|]; auto; [destruct jv; auto|]. destruct (py_int jv) as [|[]]; auto. }
  assert (NI : In n (sc_names sc)) by (apply (so_index _ SO); eauto). destruct (proj1 (so_typed _ SO n) NI) as (t & T). rewrite T.
  destruct (get IndexError (sc_ri sc) v) as [pos|] eqn:G.
  2:{ exfalso. destruct (index_pos sc SO n v IX) as (Hv & _). rewrite (so_ri _ SO), mri_get in G; [discriminate|].
      unfold widths. rewrite map_length. lia. }
  cbn [bind]. unfold dget_. rewrite T. cbn [bind].
  destruct t.
  - destruct (so_cat _ SO n T) as (vs & ix & CV & CI & _). rewrite CI. cbn [bind]. unfold repaired_categorical, write_categorical.
    destruct jv; cbn [py_index]; auto. unfold dget_. destruct (dget ix s); reflexivity.
  - destruct (so_ord _ SO n T) as (lo & hi & RG & _). rewrite RG. cbn [bind]. unfold repaired_ordinal, write_ordinal.
    destruct (py_int jv) as [z|e] eqn:P; [reflexivity|]. destruct jv; cbn [py_int] in P; try discriminate; try (injection P as <-; reflexivity).
    destruct (int_of_str s); [discriminate|]. injection P as <-. reflexivity.
Qed.
Lemma row_cases entries : forall row, foldM (repaired_import_cell sc) entries row = foldM (import_cell sc) (filter quiet entries) row.
Proof.
  induction entries as [|(n, jv) entries IH]; intros row; [reflexivity|]. cbn [foldM filter]. rewrite cell_cases.
  destruct (quiet (n, jv)); cbn [foldM bind]; [|apply IH]. destruct (import_cell sc row (n, jv)); cbn [bind]; auto.
Qed.
Definition is_legal (entry : string * jval) : bool := let '(n, v) := entry in match legal_value sc n v with Some _ => true | None => false end.

Lemma legal_quiet entry : is_legal entry = true -> quiet entry = true.
Proof.
  destruct entry as [n jv]. unfold is_legal, quiet, entry_error, legal_value. cbn [fst snd].
  destruct (dget (sc_types sc) n) as [[]|]; auto; [destruct jv; auto|]. destruct (py_int jv) as [|[]]; auto.
Qed.
Lemma filter_sub {A} (f g : A -> bool) : (forall x, g x = true -> f x = true) -> forall l, filter g (filter f l) = filter g l.
Proof.
  intros H l. induction l as [|x l IH]; [reflexivity|]. cbn. destruct (f x) eqn:F; cbn; [now rewrite IH|].
  destruct (g x) eqn:G; [apply H in G; congruence|exact IH].
Qed.
Lemma keys_filter {A} (f : string * A -> bool) (l : list (string * A)) : NoDup (map fst l) -> NoDup (map fst (filter f l)).
Proof.
  induction l as [|x l IH]; cbn; intros ND; [constructor|]. inversion ND; subst. destruct (f x); cbn; auto. constructor; auto.
  intros I. apply in_map_iff in I. destruct I as (y & E & I). apply filter_In in I. apply H1. rewrite <- E. apply in_map. tauto.
Qed.

Lemma C42_repaired : forall rows, (forall r, In r rows -> keys_once r) ->
  exists data, repaired_import_rows sc (Rows rows) = Ok data /\ length data = length rows /\
    import_rows sc (Rows (map (filter (fun '(n, v) => match legal_value sc n v with Some _ => true | None => false end)) rows)) = Ok data.
Proof.
  intros rows KO. unfold repaired_import_rows, import_rows. rewrite (last_ri sc SO). cbn [bind].
  set (R := list_sum (widths sc)).
  assert (X : forall rows, (forall r, In r rows -> keys_once r) -> exists data,
    mapM (fun external_row => foldM (repaired_import_cell sc) external_row (repeat 0%Z R)) rows = Ok data /\ length data = length rows /\
    mapM (fun external_row => foldM (import_cell sc) external_row (repeat 0%Z R)) (map (filter is_legal) rows) = Ok data).
  2:{ apply X; auto. }
  clear rows KO. induction rows as [|r rows IH]; intros KO; [exists []; auto|].
  destruct IH as (data & E1 & L & E2); [intros; apply KO; now right|].
  destruct (import_row_ok sc SO (filter quiet r)) as (row & E & LR & _).
  { apply keys_filter. apply KO. now left. }
  { intros n jv I. apply filter_In in I. destruct I as [_ Q]. unfold quiet in Q. cbn [fst snd] in Q. destruct (entry_error sc n jv); [discriminate|reflexivity]. }
  exists (row :: data). cbn [mapM map]. rewrite row_cases. fold R in E. rewrite E. cbn [bind]. rewrite E1. cbn [bind]. split; [reflexivity|]. split; [cbn; now rewrite L|].
  rewrite (import_row_filter sc SO) in E; [|apply repeat_length|].
  2:{ intros n jv I. apply filter_In in I. destruct I as [_ Q]. unfold quiet in Q. cbn [fst snd] in Q. destruct (entry_error sc n jv); [discriminate|reflexivity]. }
  change (foldM (import_cell sc) (filter is_legal (filter quiet r)) (repeat 0%Z R) = Ok row) in E. rewrite filter_sub in E by apply legal_quiet.
  rewrite E. cbn [bind]. rewrite E2. reflexivity.
Qed.
End Import.

(** ** add_panning_to_svg *)
Lemma last_app1 {A} (l : list A) x d : last (l ++ [x]) d = x.
Proof. apply last_last. Qed.
Lemma last_default {A} (x : A) l d d' : last (x :: l) d = last (x :: l) d'.
Proof. revert x. induction l as [|y l IH]; intros x; [reflexivity|]. exact (IH y). Qed.
Lemma last_in {A} (x : A) l d : In (last (x :: l) d) (x :: l).
Proof. revert x. induction l as [|y l IH]; intros x; [now left|]. right. exact (IH y). Qed.
Lemma not_longer p : p <> (p ++ ".tmp")%string.
Proof.
  intros H. apply (f_equal String.length) in H. assert (L : forall a b, String.length (a ++ b) = String.length a + String.length b) by (induction a; intros; cbn; auto).
  rewrite L in H. cbn in H. lia.
Qed.

Lemma C71_repaired : forall svgpan fs source destin outcome states outcome' states',
  add_panning_to_svg svgpan fs source destin = (outcome, states) -> repaired_add_panning svgpan fs source destin = (outcome', states') ->
  let target := match destin with None => source | Some d => d end in
  outcome' = outcome /\ hd_error states' = Some fs /\ finally states' target = finally states target /\
  (forall st, In st states' -> (st target = fs target \/ st target = finally states target) /\
     forall p, p <> target -> p <> (target ++ ".tmp")%string -> st p = fs p) /\
  (outcome' = Ok tt -> finally states' (target ++ ".tmp")%string = None) /\ (outcome' <> Ok tt -> states' = [fs]).
Proof.
  intros svgpan fs source destin outcome states outcome' states' H H' target.
  destruct (fs source) as [content|] eqn:E.
  2:{ unfold add_panning_to_svg in H. unfold repaired_add_panning in H'. rewrite E in *. injection H as <- <-. injection H' as <- <-.
      split; [reflexivity|]. split; [reflexivity|]. split; [reflexivity|]. split; [|split; [discriminate|reflexivity]]. intros st [<-|[]]. auto. }
  destruct (panned svgpan (file_lines content)) as [lines|e] eqn:P.
  2:{ unfold add_panning_to_svg in H. unfold repaired_add_panning in H'. rewrite E, P in *. injection H as <- <-. injection H' as <- <-.
      split; [reflexivity|]. split; [reflexivity|]. split; [reflexivity|]. split; [|split; [discriminate|reflexivity]]. intros st [<-|[]]. auto. }
  unfold add_panning_to_svg in H. unfold repaired_add_panning in H'. rewrite E, P in *. fold target in H, H'.
  set (tmp := (target ++ ".tmp")%string) in *.
  assert (NT : target <> tmp) by apply not_longer.
  injection H as <- <-. injection H' as <- <-.
  assert (FN : finally (fs :: set_file fs target EmptyString :: write_lines (set_file fs target EmptyString) target lines) target = Some (cat lines)).
  { unfold finally. change (last (fs :: ?x :: ?y) _) with (last (x :: y) (fun _ : string => @None string)).
    rewrite (write_final _ _ _ ""%string); [reflexivity|apply set_same]. }
  set (opened := set_file fs tmp EmptyString) in *.
  assert (LT : last (write_lines opened tmp lines) opened tmp = Some (cat lines)).
  { pose proof (write_final lines opened tmp ""%string (set_same _ _ _)) as W. cbn [append] in W. rewrite <- W.
    destruct (write_lines opened tmp lines) as [|x l] eqn:WL; [reflexivity|]. change (last (opened :: x :: l) (fun _ => None)) with (last (x :: l) (fun _ : string => @None string)).
    now rewrite (last_default x l opened (fun _ => None)). }
  assert (LO : forall p, p <> tmp -> last (write_lines opened tmp lines) opened p = fs p).
  { intros p N. assert (I : In (last (write_lines opened tmp lines) opened) (opened :: write_lines opened tmp lines)).
    { destruct (write_lines opened tmp lines) as [|x l] eqn:WL; [now left|]. right. apply last_in. }
    destruct I as [<-|I]; [now apply set_other|]. rewrite (write_other _ _ _ _ _ I N). now apply set_other. }
  assert (FN' : finally (fs :: opened :: write_lines opened tmp lines ++ [replace_file (last (write_lines opened tmp lines) opened) tmp target])
    = replace_file (last (write_lines opened tmp lines) opened) tmp target).
  { unfold finally. rewrite app_comm_cons, app_comm_cons. apply last_app1. }
  rewrite FN, FN'. split; [reflexivity|]. split; [reflexivity|].
  split; [unfold replace_file; rewrite String.eqb_refl; exact LT|]. split; [|split].
  - intros st [<-|[<-|I]]; [auto| |].
    + split; [left; now apply set_other|]. intros p _ N. now apply set_other.
    + apply in_app_or in I. destruct I as [I|[<-|[]]].
      * split; [left|intros p _ N]; (rewrite (write_other _ _ _ _ _ I); [now apply set_other|auto]).
      * unfold replace_file. rewrite String.eqb_refl. split; [now right|]. intros p N1 N2.
        rewrite (proj2 (String.eqb_neq _ _) N1), (proj2 (String.eqb_neq _ _) N2). now apply LO.
  - intros _. unfold replace_file. rewrite (proj2 (String.eqb_neq tmp target)) by auto. now rewrite String.eqb_refl.
  - intros N. now elim N.
Qed.
