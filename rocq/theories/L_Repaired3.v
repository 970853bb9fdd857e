(** Proofs about M_Repaired3 (C20, C46, C55). *)
From Coq Require Import String Ascii.
From Coq Require Import List Arith ZArith Reals Bool Lia Permutation.
From Verif Require Import Base L_Base Spec_Graph L_Graph Spec_Sum L_Sum M_Structure L_Pairing M_Rand M_Util M_Training Spec_Stats L_Stats L_Trainer Spec_Joint Spec_EdgeLogits L_EdgeLogits.
From Verif Require Import M_Strings M_Format Spec_Schema Spec_Guess L_Dict L_Guess L_Guess2 M_Config Spec_Ragged L_Ragged M_Validate Spec_Validate L_Config L_Validate L_Validate2 M_Repaired3.
Import ListNotations.
Open Scope list_scope.
Open Scope nat_scope.

Lemma C20_repaired : forall ws tb prior M, table_ok ws tb -> 1 <= M -> forall lg s, reachable tb prior M s ->
  exists logits, repaired_compute_edge_logits lg tb prior M s = Ok logits /\
    length logits = num_cols tb * (num_cols tb - 1) / 2 /\
    forall a b, a < b -> b < num_cols tb ->
      nth_error logits (find_complete_edge a b) =
      Some (edge_score lg M s a b + nth (find_complete_edge a b) prior 0)%R.
Proof.
  intros ws tb prior M TK HM lg s RE. pose proof (prior_length _ _ _ _ RE) as LP. pose proof (reachable_tinv ws tb M TK HM prior s RE) as TI.
  set (V := num_cols tb) in *. set (N := num_rows tb) in *.
  unfold repaired_compute_edge_logits. fold V N. rewrite make_complete_graph_Ok. cbn [bind].
  set (rr := if length (s_added s) =? N then seq 0 N else s_added s).
  assert (ER : (if length (s_added s) =? N then map (s_asg s) (seq 0 N) else map (s_asg s) (s_added s)) = map (s_asg s) rr).
  { unfold rr. destruct (length (s_added s) =? N); reflexivity. }
  assert (P : Permutation rr (s_added s)).
  { unfold rr. destruct (Nat.eqb_spec (length (s_added s)) N); [|reflexivity]. apply Permutation_sym. eapply all_added; eauto. }
  rewrite ER. rewrite seq_logits_Ok.
  - cbn [bind]. eexists. split; [reflexivity|]. split.
    { rewrite map_length, combine_length, map_length, complete_grid_length, LP. apply Nat.min_id. }
    intros a b Hab Hb. rewrite nth_error_map.
    assert (RNG : find_complete_edge a b < tri V) by (apply fce_range; lia).
    assert (EC : forall X Y (l : list X) (l' : list Y) i x y, nth_error l i = Some x -> nth_error l' i = Some y -> nth_error (combine l l') i = Some (x, y)).
    { induction l; destruct l', i; simpl; intros; try discriminate; auto. congruence. }
    erewrite EC.
    + cbn [option_map]. reflexivity.
    + rewrite nth_error_map, complete_grid_fce by auto. cbn [option_map]. f_equal. rewrite (rows_score_perm _ _ _ _ _ _ _ _ P). unfold rows_score, edge_score. f_equal.
      * f_equal. unfold logprob_dc. rewrite sumf_vec. apply sumf_ext. intros m Hm. apply in_seq in Hm.
        rewrite (fs_vert _ _ _ _ (ti_fs _ _ _ _ TI)) by (fold V; lia). reflexivity.
      * unfold logprob_dc. rewrite sumf_vec. apply sumf_ext. intros m Hm. apply in_seq in Hm.
        rewrite (fs_vert _ _ _ _ (ti_fs _ _ _ _ TI)) by (fold V; lia). reflexivity.
    + apply nth_error_nth'. fold V in LP. lia.
  - apply Permutation_length in P. rewrite P. eapply added_le; eauto.
  - intros n v _ Hv. apply (ti_all _ _ _ _ TI); auto.
Qed.

(** ** The source column *)
(** The same statistics, but for the sources. *)
Definition same_stats (a b : gstats) : Prop := gs_totals a = gs_totals b /\ gs_values a = gs_values b /\ gs_names a = gs_names b.

Lemma same_cells l a b : same_stats a b -> same_stats (fold_left guess_cell l a) (fold_left guess_cell l b).
Proof.
  revert a b. induction l as [|(n, x) l IH]; intros a b H; [exact H|]. cbn [fold_left]. apply IH. destruct H as (A & B & C). unfold guess_cell.
  destruct (String.eqb (normalize_string x) EmptyString); [split; auto|]. unfold same_stats. cbn [gs_totals gs_values gs_names]. rewrite A, B, C. auto.
Qed.
Lemma same_rows h rows a b : same_stats a b ->
  same_stats (fold_left (fun st row => fold_left guess_cell (combine h row) st) rows a) (fold_left (fun st row => fold_left guess_cell (combine h row) st) rows b).
Proof. revert a b. induction rows as [|r rows IH]; intros a b H; [exact H|]. cbn [fold_left]. apply IH. now apply same_cells. Qed.

Lemma sources_snoc n files f : sources n (files ++ [f]) = sources n files ++ (if in_dec string_dec n (header f) then [f] else []).
Proof. unfold sources. rewrite filter_app. cbn [filter]. destruct (in_dec string_dec n (header f)); reflexivity. Qed.

Lemma repaired_stats files st : foldM guess_file files (GStats [] [] [] []) = Ok st ->
  exists st', foldM repaired_guess_file files (GStats [] [] [] []) = Ok st' /\ same_stats st st' /\
    forall n, dget_default (gs_sources st') n [] = map fst (sources n files).
Proof.
  revert st. induction files as [|f files IH] using rev_ind; intros st E.
  - cbn in E. injection E as <-. eexists. split; [reflexivity|]. split; [split; auto|]. reflexivity.
  - rewrite foldM_app in E. destruct (foldM guess_file files (GStats [] [] [] [])) as [st0|]; [|discriminate]. cbn [bind foldM] in E.
    destruct (IH st0 eq_refl) as (st0' & E' & (A & B & C) & D). rewrite foldM_app, E'. cbn [bind foldM].
    unfold guess_file in E. unfold repaired_guess_file. destruct f as (fname, rows). cbn [snd fst] in *.
    destruct rows as [|h rows]; [discriminate|]. cbn [next_row bind] in *. injection E as <-. eexists. split; [reflexivity|]. split.
    + apply same_rows. unfold same_stats. cbn [gs_totals gs_values gs_names]. rewrite A, B, C. auto.
    + intros n. match goal with |- context [fold_left _ rows ?s0] => set (st1 := s0) end.
      destruct (guess_rows_same h rows st1) as (_ & GS). cbv zeta in GS. rewrite GS. cbn [st1 gs_sources].
      destruct (str_adds h [] ltac:(constructor)) as (N' & I'). rewrite sources_fold by auto. rewrite D, sources_snoc, map_app. f_equal. unfold header. cbn [snd].
      destruct (in_dec string_dec n (fold_left str_add h [])) as [J|J], (in_dec string_dec n h) as [K|K]; try reflexivity; exfalso.
      * apply I' in J. destruct J as [J|[]]. auto.
      * apply J, I'. auto.
Qed.

Lemma C46_repaired : forall files types values, guess_schema files = Ok (types, values) ->
  exists types', repaired_guess_schema files = Ok (types', values) /\ map (firstn 5) types' = map (firstn 5) types /\
    forall row, In row (tl types') -> cell 5 row = String.concat "," (map fst (sources (cell 0 row) files)).
Proof.
  intros files types values E. unfold guess_schema in E. destruct (foldM guess_file files (GStats [] [] [] [])) as [st|] eqn:F; [|discriminate].
  cbn [bind] in E. injection E as ET EV. destruct (repaired_stats files st F) as (st' & F' & (A & B & C) & D).
  unfold repaired_guess_schema. rewrite F'. cbn [bind]. rewrite <- A, <- B, <- C. rewrite EV. eexists. split; [reflexivity|]. split.
  - rewrite <- ET. cbn [map firstn]. f_equal. rewrite !map_map. reflexivity.
  - intros row I. cbn [tl] in I. apply in_map_iff in I. destruct I as (n & <- & _). cbn [cell nth]. now rewrite D.
Qed.

(** ** Folds *)
Lemma C55_repaired : forall randint ws N header rows options configs, rng_contract randint ->
  header <> [] -> NoDup (map fst options) -> lookup options "seed" = None -> ~ In "seed"%string header ->
  incl (map fst options) params -> incl header params -> ~ In "model_ensemble_size"%string header ->
  (forall row, In row rows -> used header row = true -> forall cell, In cell row -> int_of_str cell <> None) ->
  let k := match setting options "model_ensemble_size" with Some k => k | None => 4%Z end in (0 < k)%Z ->
  repaired_read_param_csv (header :: rows) options = Ok (header, configs) ->
  length configs = length (filter (used header) rows) * Z.to_nat k /\
  forall i n p, i < length (filter (used header) rows) -> n < N -> p < list_sum ws ->
  exists! part, part < Z.to_nat k /\
    exists c m, nth_error configs (i * Z.to_nat k + part) = Some c /\ fold_mask randint ws N c m /\ held_out m n p.
Proof.
  intros randint ws N header rows options configs RC HN ND NS HS PO PH HM PR k KP ER. unfold repaired_read_param_csv in ER.
  set (options' := match lookup options "model_ensemble_size" with Some _ => options | None => options ++ [("model_ensemble_size"%string, PInt 4)] end) in *.
  assert (LA : forall a b x, lookup (a ++ b) x = match lookup a x with Some v => Some v | None => lookup b x end).
  { intros a b x. induction a as [|(y, v) a IH]; [reflexivity|]. cbn. destruct (String.eqb x y); auto. }
  assert (F : NoDup (map fst options') /\ lookup options' "seed" = None /\ incl (map fst options') params /\ setting options' "model_ensemble_size" = Some k).
  { unfold options', k, setting in *. destruct (lookup options "model_ensemble_size") as [v|] eqn:L.
    - rewrite L. cbn [option_map]. repeat (split; [assumption|]). reflexivity.
    - split; [|split; [|split]].
      + rewrite map_app. cbn [map fst]. apply Permutation_NoDup with ("model_ensemble_size"%string :: map fst options); [apply Permutation_cons_append|].
        constructor; auto. intros I. apply (lookup_keys options) in I. congruence.
      + rewrite LA, NS. reflexivity.
      + rewrite map_app. apply incl_app; auto. intros x [<-|[]]. cbn. tauto.
      + rewrite LA, L. reflexivity. }
  destruct F as (ND' & NS' & PO' & EK).
  split.
  - destruct (read_Ok options' header ND' NS' HS HN PO' PH rows HM PR) as (configs' & E' & L & _). assert (XX : Ok (header, configs) = Ok (header, configs')) by (etransitivity; [symmetry; exact ER|exact E']). injection XX as ->. now rewrite (parts_some _ _ EK) in L.
  - exact (folds_complete randint ws N header rows options' configs k RC HN ND' NS' HS PO' PH HM PR EK KP ER).
Qed.
