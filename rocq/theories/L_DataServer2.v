From Coq Require Import String Ascii.
From Coq Require Import List Arith Lia Bool ZArith QArith Reals Lra.
From Verif Require Import Base Spec_MST M_Structure M_Rand M_Util M_Strings M_Format M_Training M_Serving M_EnsembleServer M_DataServer Spec_Ragged Spec_Schema Spec_Stats Spec_Conditional Spec_Sum Spec_Serving Spec_DataServer
  L_Base L_Dict L_Rand L_Ragged L_Schema L_Import L_Import2 L_Server L_Serve1 L_Serve2 L_EnsServe L_EnsServe2 L_Median L_DataServer.
Import ListNotations.
Open Scope list_scope.
Open Scope nat_scope.

Lemma load_data_good : forall sc csv data, schema_ok sc -> ranges_fit sc -> sc_names sc <> [] -> NoDup (hd [] csv) -> load_data sc csv = Ok data ->
  data <> [] /\ forall row, In row data -> good_row sc row.
Proof.
  intros sc csv data SO RF NN ND E. destruct csv as [|header rows].
  { unfold load_data in E. rewrite (last_ri sc SO) in E. discriminate. }
  cbn [hd] in ND. destruct rows as [|r rows].
  { exfalso. unfold load_data in E. rewrite (last_ri sc SO) in E. cbn [bind next_row] in E. destruct (mapM (header_meta sc) header); [|discriminate]. discriminate. }
  destruct (C43_proof sc SO header (r :: rows) NN ND) as (data' & E' & L & KO & IM); [discriminate|].
  assert (data' = data) by congruence. subst data'. split; [intros ->; discriminate|].
  unfold import_rows in IM. rewrite (last_ri sc SO) in IM. cbn [bind] in IM. apply mapM_two in IM.
  intros row I. apply In_nth with (d := []) in I. destruct I as (i & Hi & <-). assert (LL := Forall2_len2 _ _ _ _ _ IM). rewrite <- LL in Hi.
  assert (X := Forall2_nth2 _ _ _ _ _ i [] [] IM Hi). cbn beta in X. eapply import_good; [exact SO|exact RF| |exact X].
  assert (J := nth_In _ [] Hi). apply in_map_iff in J. destruct J as (x & <- & J). now apply KO.
Qed.

Lemma import_data_good : forall float_ csvs types values groups sc data,
  import_data float_ csvs types values groups = Ok (sc, data) -> (forall csv, In csv csvs -> NoDup (hd [] csv)) -> ranges_fit sc ->
  schema_ok sc /\ data <> [] /\ (forall row, In row data -> good_row sc row) /\ (forall w, In w (widths sc) -> 1 <= w).
Proof.
  intros float_ csvs types values groups sc data E ND RF. unfold import_data in E.
  destruct (load_schema float_ types values groups) as [sc'|] eqn:LS; [|discriminate]. cbn [bind] in E.
  destruct (mapM (load_data sc') csvs) as [parts|] eqn:LP; [|discriminate]. cbn [bind] in E.
  destruct parts as [|p0 parts0] eqn:EP; [discriminate|]. rewrite <- EP in *.
  match type of E with (bind ?x _) = _ => destruct x as [chk|] eqn:MX; [|discriminate] end. cbn [bind] in E. injection E as -> ED.
  destruct (load_schema_spec _ _ _ _ _ LS) as (_ & NN & _ & SO & _). apply mapM_two in LP.
  assert (G : forall part, In part parts -> part <> [] /\ forall row, In row part -> good_row sc row).
  { intros part I. apply In_nth with (d := []) in I. destruct I as (i & Hi & <-). assert (LL := Forall2_len2 _ _ _ _ _ LP). rewrite <- LL in Hi.
    assert (X := Forall2_nth2 _ _ _ _ _ i [] [] LP Hi). cbn beta in X. apply (load_data_good sc (nth i csvs [])); auto. apply ND. now apply nth_In. }
  assert (DN : data <> []).
  { destruct (G p0) as (P & _); [rewrite EP; now left|]. rewrite <- ED, EP. cbn. destruct p0; [congruence|discriminate]. }
  assert (DG : forall row, In row data -> good_row sc row).
  { intros row I. rewrite <- ED in I. apply in_concat in I. destruct I as (part & I & J). exact (proj2 (G part I) row J). }
  split; auto. split; auto. split; auto.
  intros w I. apply In_nth with (d := 0) in I. destruct I as (v & Hv & <-). apply mapM_two in MX.
  assert (HV : v < length (sc_names sc)) by (rewrite <- (ws_len sc); exact Hv).
  assert (X := Forall2_nth2 _ _ _ _ _ v 0 [] MX). rewrite seq_length in X. specialize (X HV). rewrite seq_nth in X by auto. cbn [Nat.add] in X.
  rewrite (so_ri _ SO), !mri_get in X by (unfold widths in *; lia). cbn [bind] in X. rewrite ED in X. apply mapM_two in X.
  destruct data as [|r data]; [congruence|]. inversion X as [|? y ? ys X1 X2]. subst. rewrite cellv_slice in X1; auto.
  - assert (LC := cellv_length (widths sc) r v). destruct (cellv (widths sc) r v) as [|z c]; [discriminate|]. cbn in LC. lia.
  - exact (proj1 (DG r (or_introl eq_refl))).
Qed.

Section Served.
Variables (sc : schema) (data : list (list Z)).
Hypothesis SO : schema_ok sc.
Hypothesis RF : ranges_fit sc.
Hypothesis DN : data <> [].
Hypothesis DG : forall row, In row data -> good_row sc row.
Hypothesis WP : forall w, In w (widths sc) -> 1 <= w.
Let ws := widths sc.
Let V := length (sc_names sc).
Let name v := nth v (sc_names sc) EmptyString.
Variables (M N : nat) (ms : list smodel) (mst : list (list R) -> list (nat * nat)).
Hypothesis MN : ms <> [].
Hypothesis MC : forall m, In m ms -> consistent ws V M N m.
Hypothesis MST : mst_contract mst.

Definition counts_good (counts : list Z) : Prop := length counts = V /\
    forall v, v < V -> (0 <= nth v counts 0 <= 127)%Z /\
      ((exists row, In row data /\ observes ws row v) -> nth v counts 0%Z = full_total sc (name v) /\ dget (sc_index sc) (name v) = Some v) /\
      ((forall row, In row data -> ~ observes ws row v) -> nth v counts 0%Z = 0%Z).

Definition server_good (srv : inner_server) : Prop :=
  (exists m s, ms = [m] /\ srv = Single s /\ tree_server mst m = Ok s) \/ (exists es, length ms <> 1 /\ srv = Many es /\ ensemble_server mst ms = Ok es).

Lemma build : exists counts srv, data_server mst (imported_dataset (sc, data)) ms = Ok (DSrv sc (imported_dataset (sc, data)) counts srv) /\ counts_good counts /\ server_good srv.
Proof.
  destruct (good_counts sc SO RF data DN DG) as (counts & GC & CL & CF). exists counts.
  unfold data_server. cbn [imported_dataset ds_ri ds_ncols ds_data ds_schema].
  assert (HL : length (hd [] data) = list_sum ws). { destruct data as [|r d]; [congruence|]. cbn. exact (proj1 (DG r (or_introl eq_refl))). }
  rewrite HL. unfold ws at 1. rewrite GC. cbn [bind]. destruct ms as [|m [|m2 ms']] eqn:EM; [congruence| |].
  - destruct (build_server ws V M N m (MC m (or_introl eq_refl)) mst MST) as (s & edges & E & _). rewrite E. cbn [bind]. exists (Single s). split; auto. split; [split; auto|]. left. exists m, s. auto.
  - destruct (ens_build ws V M N mst (m :: m2 :: ms')) as (es & E & _); [split; auto|auto|]. rewrite E. cbn [bind]. exists (Many es). split; auto. split; [split; auto|]. right. exists es. rewrite EM. split; [cbn; lia|auto].
Qed.

Lemma single_facts : forall m s, ms = [m] -> tree_server mst m = Ok s -> consistent ws V M N m /\ sv_R s = list_sum ws /\ sv_ri s = make_ragged_index ws.
Proof.
  intros m s E T. assert (C : consistent ws V M N m) by (apply MC; rewrite E; now left). split; auto.
  destruct (build_server ws V M N m C mst MST) as (s' & edges & E' & SF & _). assert (s' = s) by congruence. subst s'. split; [exact (sf_R _ _ _ _ _ SF)|exact (sf_ri _ _ _ _ _ SF)].
Qed.
Lemma many_ri : forall es, ensemble_server mst ms = Ok es -> es_ri es = make_ragged_index ws.
Proof.
  intros es E. unfold ensemble_server in E. destruct ms as [|m0 ms'] eqn:EM; [congruence|].
  destruct (mapM (tree_server mst) (m0 :: ms')) as [members|]; [|discriminate]. cbn [bind] in E.
  destruct (average (map sv_logits members)) as [lg|]; [|discriminate]. cbn [bind] in E.
  destruct (get IndexError members 0) as [s0|]; [|discriminate]. cbn [bind] in E.
  destruct (make_complete_graph (sv_V s0)) as [g|]; [|discriminate]. cbn [bind] in E.
  destruct (M_EstimateTree.estimate_tree mst g lg) as [t|]; [|discriminate]. cbn [bind] in E. injection E as <-. cbn.
  exact (cm_ri _ _ _ _ _ (MC m0 (or_introl eq_refl))).
Qed.

Lemma evidence_row : forall e, tame_row e -> exists row, import_rows sc (Rows [e]) = Ok [row] /\ length row = list_sum ws.
Proof.
  intros e (KO & T). unfold import_rows. rewrite (last_ri sc SO). cbn [bind mapM].
  destruct (import_row_ok sc SO e KO) as (row & E & L & _); [intros; eapply tame_ok; eauto|]. exists row. fold ws in E |- *. rewrite E. cbn [bind]. auto.
Qed.
Lemma many_rows : forall rows, (forall r, In r rows -> tame_row r) -> exists out, import_rows sc (Rows rows) = Ok out /\ length out = length rows /\ forall row, In row out -> length row = list_sum ws.
Proof.
  intros rows T. destruct (C42_partial sc SO rows) as (out & E & L & _).
  - intros r n v I J. eapply (proj2 (T r I)); eauto.
  - intros r I. exact (proj1 (T r I)).
  - exists out. split; auto. split; auto. unfold import_rows in E. rewrite (last_ri sc SO) in E. cbn [bind] in E. apply mapM_two in E.
    intros row I. apply In_nth with (d := []) in I. destruct I as (i & Hi & <-). rewrite L in Hi. assert (X := Forall2_nth2 _ _ _ _ _ i [] [] E Hi). cbn beta in X.
    eapply (import_good sc SO RF) in X; [exact (proj1 X)|]. apply T. now apply nth_In.
Qed.

Lemma export_legal : forall counts rows, counts_good counts -> (forall x, In x rows -> legal_row ws counts x) ->
  exists out, export_rows sc (list_sum ws) rows = Ok out /\ length out = length rows /\ forall r, In r out -> full_row sc data r.
Proof.
  intros counts rows (CL & CF) LR. unfold export_rows. rewrite (last_ri sc SO). cbn [bind]. fold ws. rewrite Nat.eqb_refl. cbn [assert_ bind].
  destruct (Forall2_build _ _ (fun row out => foldM (export_cell sc row) (combine (seq 0 V) (sc_names sc)) [] = Ok out /\ full_row sc data out) rows) as (out & F).
  { intros row I. destruct (LR row I) as (L & NN & S). apply (export_counts sc SO RF data counts row); auto.
    intros v H. rewrite <- total_cellv. apply S. unfold ws. rewrite ws_len. auto. }
  exists out. split; [|split].
  - apply mapM_two. clear LR. induction F; constructor; tauto.
  - symmetry. eapply Forall2_len2; eauto.
  - intros r I. clear LR. induction F as [|a b l m (_ & Q) F IH]; [destruct I|]. destruct I as [<- | I]; auto.
Qed.

Lemma counts_width : forall counts, counts_good counts -> forall v, v < V -> (0 < nth v counts 0)%Z -> 1 <= nth v ws 0.
Proof. intros counts _ v H _. apply WP. apply nth_In. unfold ws. now rewrite ws_len. Qed.

Lemma sample_full : forall counts srv n evidence, counts_good counts -> server_good srv -> (forall e, evidence = Some e -> tame_row e) ->
  always (fun rows => length rows = n /\ forall r, In r rows -> full_row sc data r)
    (data_sample (DSrv sc (imported_dataset (sc, data)) counts srv) n evidence).
Proof.
  intros counts srv n evidence CG SG EV. unfold data_sample. cbn [dv_schema dv_server dv_counts]. apply always_bind.
  assert (X : exists row, (match evidence with
                 | None => Ok None
                 | Some evidence =>
                   imported <- import_rows sc (Rows [evidence]) ;;
                   row <- get IndexError imported 0 ;; Ok (Some row)
                 end) = Ok row /\ forall r, row = Some r -> length r = list_sum ws).
  { destruct evidence as [e|]; [|exists None; split; [auto|discriminate]]. destruct (evidence_row e (EV e eq_refl)) as (row & E & L). exists (Some row). rewrite E. split; auto. intros r Q. injection Q as <-. auto. }
  destruct X as (row & -> & LR). cbn [lift always]. apply always_bind.
  assert (CB : forall v, v < V -> (0 <= nth v counts 0 <= 127)%Z) by (intros v H; apply (proj2 CG v H)).
  destruct SG as [(m & s & E1 & -> & TS)|(es & E1 & -> & ES)].
  - destruct (single_facts m s E1 TS) as (C & SR & _). eapply always_mono; [|apply (C28_proof ws V M N m mst s n counts row C MST TS (proj1 CG) CB (counts_width counts CG) LR)].
    intros rows (L & LEG). apply always_bind. cbn [lift always]. rewrite SR. destruct (export_legal counts rows CG LEG) as (out & EO & LO & F). rewrite EO. cbn [lift always]. split; [congruence|auto].
  - eapply always_mono; [|apply (C28_ens ws V M N mst ms es n counts row (conj MN MC) MST ES (proj1 CG) CB (counts_width counts CG) LR)].
    intros rows (L & LEG). apply always_bind. rewrite (many_ri es ES), mri_last. cbn [lift always]. destruct (export_legal counts rows CG LEG) as (out & EO & LO & F). rewrite EO. cbn [lift always]. split; [congruence|auto].
Qed.

Lemma median_full : forall counts m s junk rows, counts_good counts -> ms = [m] -> tree_server mst m = Ok s -> (forall e, In e rows -> tame_row e) ->
  exists out, data_median (DSrv sc (imported_dataset (sc, data)) counts (Single s)) junk (Rows rows) = Ok out /\ length out = length rows /\ forall r, In r out -> full_row sc data r.
Proof.
  intros counts m s junk rows CG E1 TS EV. unfold data_median. cbn [dv_schema dv_server dv_counts].
  destruct (many_rows rows EV) as (rr & -> & LR & LL). cbn [bind]. rewrite (last_ri sc SO). cbn [bind].
  assert (CB : forall v, v < V -> (0 <= nth v counts 0 <= 127)%Z) by (intros v H; apply (proj2 CG v H)).
  destruct (single_facts m s E1 TS) as (C & SR & _).
  destruct (C31_proof ws V M N m mst s junk counts rr C MST TS WP (proj1 CG) CB LL) as (margs & out & _ & E & LO & PT). rewrite E. cbn [bind].
  destruct (export_legal counts out CG) as (res & ER & LRR & F).
  { intros x I. apply In_nth with (d := []) in I. destruct I as (i & Hi & <-). rewrite LO in Hi. exact (proj1 (PT i Hi)). }
  exists res. split; [exact ER|]. split; [congruence|auto].
Qed.

Lemma logprob_plain : forall srv rr, server_good srv -> (forall row, In row rr -> length row = list_sum ws) ->
  exists lps, inner_logprob srv rr = Ok lps /\ length lps = length rr /\
    forall i, i < length rr -> (exp (nth i lps 0) = sumf ms (fun m => row_prob ws m (nth i rr [])) / INR (length ms))%R.
Proof.
  intros srv rr SG LL. destruct SG as [(m & s & E1 & -> & TS)|(es & E1 & -> & ES)].
  - destruct (single_facts m s E1 TS) as (C & _). destruct (C26_data ws V M N m mst s rr C MST TS LL) as (E & P). cbn [inner_logprob]. rewrite E. eexists. split; [reflexivity|].
    split; [apply map_length|]. intros i Hi. rewrite (nth_map_lt _ _ _ _ [] Hi). rewrite exp_ln by (apply P; now apply nth_In). rewrite E1. cbn. field.
  - destruct (C35_proof ws V M N mst ms es rr MN MC MST ES LL) as (servers & table & lps & _ & _ & E & L & P). exists lps. split; auto. split; auto. intros i Hi. exact (proj2 (P i Hi)).
Qed.

Lemma add_rows_len : forall rr row, (forall r, In r rr -> length r = list_sum ws) -> length row = list_sum ws -> forall r, In r (add_to_rows rr row) -> length r = list_sum ws.
Proof. intros rr row LL L r I. unfold add_to_rows in I. apply in_map_iff in I. destruct I as (x & <- & I). rewrite map_length, combine_length, (LL x I). lia. Qed.

End Served.
