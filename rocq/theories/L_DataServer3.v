From Coq Require Import String Ascii.
From Coq Require Import List Arith Lia Bool ZArith QArith Reals Lra.
From Verif Require Import Base Spec_MST M_Structure M_Rand M_Util M_Strings M_Format M_Training M_Serving M_EnsembleServer M_DataServer Spec_Ragged Spec_Schema Spec_Stats Spec_Conditional Spec_Sum Spec_Serving Spec_DataServer
  L_Base L_Dict L_Rand L_Ragged L_Schema L_Import L_Import2 L_Server L_Serve1 L_Serve2 L_EnsServe L_EnsServe2 L_Median L_DataServer L_DataServer2.
Import ListNotations.
Open Scope list_scope.
Open Scope nat_scope.

(** ** feature_density *)
Lemma row_max_zero : forall c, c <> [] -> (forall z, In z c -> (0 <= z)%Z) -> exists m, row_max c = Ok m /\ negb (Z.eqb m 0) = existsb (fun z => negb (Z.eqb z 0)) c.
Proof.
  intros c NE NN. destruct c as [|x c]; [congruence|]. cbn [row_max]. eexists. split; [reflexivity|].
  assert (X : (0 <= x)%Z) by (apply NN; now left). assert (NC : forall z, In z c -> (0 <= z)%Z) by (intros; apply NN; now right). clear NN NE.
  revert x X. induction c as [|y c IH]; intros x X; [cbn; now rewrite orb_false_r|]. cbn [fold_left].
  assert (Y : (0 <= y)%Z) by (apply NC; now left). rewrite IH; [|intros; apply NC; now right|lia]. cbn [existsb]. rewrite orb_assoc. f_equal.
  destruct (Z.eqb_spec x 0), (Z.eqb_spec y 0), (Z.eqb_spec (Z.max x y) 0); cbn; auto; lia.
Qed.
Lemma observed_cellv : forall ws row v, existsb (fun z => negb (Z.eqb z 0)) (cellv ws row v) = observed_cell ws row v.
Proof.
  intros ws row v. unfold cellv, observed_cell.
  assert (X : forall k b i, existsb (fun z => negb (Z.eqb z 0)) (map (fun j => nth (b + j) row 0%Z) (seq i k)) = existsb (fun q => negb (Z.eqb (nth q row 0%Z) 0%Z)) (seq (b + i) k)).
  { induction k as [|k IH]; intros b i; cbn; auto. rewrite IH. now rewrite Nat.add_succ_r. }
  rewrite X. now rewrite Nat.add_0_r.
Qed.

Lemma mapM_fun : forall A B (f : A -> result B) (g : A -> B) l, (forall a, In a l -> f a = Ok (g a)) -> mapM f l = Ok (map g l).
Proof. intros A B f g. induction l as [|a l IH]; intros H; cbn; auto. rewrite H by now left. cbn. rewrite IH; auto. intros; apply H; now right. Qed.

Lemma filter_map_len : forall A (g : A -> bool) l, length (filter (fun b => b) (map g l)) = length (filter g l).
Proof. intros A g. induction l as [|a l IH]; cbn; auto. destruct (g a); cbn; auto. Qed.

Lemma density : forall d ws, sc_ri (dv_schema d) = make_ragged_index ws -> (forall w, In w ws -> 1 <= w) ->
  ds_data (dv_table d) <> [] -> (forall row, In row (ds_data (dv_table d)) -> length row = list_sum ws /\ forall z, In z row -> (0 <= z)%Z) ->
  exists dens, feature_density d = Ok (map Some dens) /\ length dens = length ws /\
    forall v, v < length ws ->
      (nth v dens 0 = INR (length (filter (fun row => observed_cell ws row v) (ds_data (dv_table d)))) / INR (length (ds_data (dv_table d))) /\ 0 <= nth v dens 0 <= 1)%R.
Proof.
  intros d ws RI WP NE G. set (data := ds_data (dv_table d)) in *.
  exists (map (fun v => INR (length (filter (fun row => observed_cell ws row v) data)) / INR (length data))%R (seq 0 (length ws))).
  split; [|split].
  - unfold feature_density. rewrite RI, mri_length. replace (S (length ws) - 1) with (length ws) by lia. rewrite map_map. apply mapM_fun. fold data.
    intros v I. apply in_seq in I. rewrite !mri_get by lia. cbn [bind].
    rewrite (mapM_fun _ _ _ (fun row => observed_cell ws row v)).
    + cbn [bind]. rewrite filter_map_len. destruct data; [congruence|reflexivity].
    + intros row J. destruct (G row J) as (L & NN). rewrite cellv_slice by (auto; lia). destruct (row_max_zero (cellv ws row v)) as (m & -> & E).
      * intros E. assert (X := cellv_length ws row v). rewrite E in X. cbn in X. assert (1 <= nth v ws 0) by (apply WP, nth_In; lia). lia.
      * intros z K. unfold cellv in K. apply in_map_iff in K. destruct K as (i & <- & K).
        destruct (nth_in_or_default (list_sum (firstn v ws) + i) row 0%Z) as [Q|Q]; [auto|rewrite Q; lia].
      * cbn [bind]. rewrite E. f_equal. apply observed_cellv.
  - now rewrite map_length, seq_length.
  - intros v H. rewrite nth_map_seq by auto. split; [reflexivity|]. cbn [Nat.add].
    assert (P : (0 < INR (length data))%R) by (apply lt_0_INR; destruct data; [congruence|cbn; lia]).
    assert (LE : length (filter (fun row => observed_cell ws row v) data) <= length data) by (generalize data; intros l; induction l as [|a l IH]; cbn; auto; destruct (observed_cell ws a v); cbn; lia).
    apply le_INR in LE. assert (Q := pos_INR (length (filter (fun row => observed_cell ws row v) data))).
    split; [apply Rmult_le_pos; [auto|left; now apply Rinv_0_lt_compat]|]. apply Rmult_le_reg_r with (INR (length data)); auto. unfold Rdiv. rewrite Rmult_assoc, Rinv_l by lra. lra.
Qed.

(** ** A served dataset *)
Definition sc0 : schema := Schema [] [] [] [] [] [] [] [].
Record sfull (sc : schema) (data : list (list Z)) (ms : list smodel) (d : dserver) : Prop := {
  f_so : schema_ok sc;
  f_ne : sc_names sc <> [];
  f_dn : data <> [];
  f_dg : forall row, In row data -> good_row sc row;
  f_wp : forall w, In w (widths sc) -> 1 <= w;
  f_all : exists M N mst counts srv, (forall m, In m ms -> consistent (widths sc) (length (sc_names sc)) M N m) /\ mst_contract mst /\
    d = DSrv sc (imported_dataset (sc, data)) counts srv /\ counts_good sc data counts /\ server_good ms mst srv
}.

Lemma import_data_names : forall float_ csvs types values groups sc data, import_data float_ csvs types values groups = Ok (sc, data) -> sc_names sc <> [].
Proof.
  intros float_ csvs types values groups sc data E. unfold import_data in E.
  destruct (load_schema float_ types values groups) as [sc'|] eqn:LS; [|discriminate]. cbn [bind] in E.
  destruct (mapM (load_data sc') csvs) as [parts|] eqn:LP; [|discriminate]. cbn [bind] in E.
  destruct parts as [|p0 parts0] eqn:EP; [discriminate|]. rewrite <- EP in *.
  match type of E with (bind ?x _) = _ => destruct x as [chk|] eqn:MX; [|discriminate] end. cbn [bind] in E. injection E as -> ED.
  destruct (load_schema_spec _ _ _ _ _ LS) as (_ & NN & _). exact NN.
Qed.

Lemma served_full : forall sc data ms d, served sc data ms d -> sfull sc data ms d.
Proof.
  intros sc data ms d [(float_ & csvs & types & values & groups & E & ND) RF (MN & M & N & MC) (mst & MST & DS)].
  destruct (import_data_good _ _ _ _ _ _ _ E ND RF) as (SO & DN & DG & WP).
  destruct (build sc data SO RF DN DG M N ms mst MN MC MST) as (counts & srv & E' & CG & SG).
  constructor; auto; [eapply import_data_names; eauto|]. exists M, N, mst, counts, srv. split; auto. split; auto. split; [congruence|]. auto.
Qed.

Lemma served_exists : forall float_ csvs types values groups sc data M N ms mst,
  import_data float_ csvs types values groups = Ok (sc, data) -> (forall csv, In csv csvs -> NoDup (hd [] csv)) -> ranges_fit sc ->
  ms <> [] -> (forall m, In m ms -> consistent (widths sc) (length (sc_names sc)) M N m) -> mst_contract mst ->
  exists d, data_server mst (imported_dataset (sc, data)) ms = Ok d /\ served sc data ms d.
Proof.
  intros float_ csvs types values groups sc data M N ms mst E ND RF MN MC MST.
  destruct (import_data_good _ _ _ _ _ _ _ E ND RF) as (SO & DN & DG & WP).
  destruct (build sc data SO RF DN DG M N ms mst MN MC MST) as (counts & srv & E' & CG & SG).
  eexists. split; [exact E'|]. constructor; eauto 10.
Qed.

Lemma C39_proof : forall sc data ms d n evidence, served sc data ms d -> (forall e, evidence = Some e -> tame_row e) ->
  always (fun rows => length rows = n /\ forall row, In row rows -> full_row sc data row) (data_sample d n evidence).
Proof.
  intros sc data ms d n evidence SV EV. assert (RF := sd_fit _ _ _ _ SV). assert (MN := proj1 (sd_models _ _ _ _ SV)).
  destruct (served_full _ _ _ _ SV) as [SO NE DN DG WP (M & N & mst & counts & srv & MC & MST & -> & CG & SG)].
  eapply sample_full; eauto.
Qed.

Lemma C38_refutation : forall sc data ms d junk evidence rows, served sc data ms d ->
  data_median d junk (OneRow evidence) = Raise AssertionError /\
  (length ms <> 1 -> (forall e, In e rows -> tame_row e) -> data_median d junk (Rows rows) = Raise NotImplementedError).
Proof.
  intros sc data ms d junk evidence rows SV. assert (RF := sd_fit _ _ _ _ SV). assert (MN := proj1 (sd_models _ _ _ _ SV)).
  destruct (served_full _ _ _ _ SV) as [SO NE DN DG WP (M & N & mst & counts & srv & MC & MST & -> & CG & SG)].
  split; [reflexivity|]. intros LM T. unfold data_median. cbn [dv_schema dv_server dv_counts].
  destruct (many_rows sc SO RF rows T) as (rr & -> & LR & LL). cbn [bind]. rewrite (last_ri sc SO). cbn [bind].
  destruct SG as [(m & s & -> & _)|(es & _ & -> & ES)]; [exfalso; apply LM; reflexivity|].
  rewrite (C31_ens (widths sc) _ M N mst ms es counts rr MN MC MST ES LL). reflexivity.
Qed.

Lemma C38_works : forall sc data m d junk rows, served sc data [m] d -> (forall e, In e rows -> tame_row e) ->
  exists out, data_median d junk (Rows rows) = Ok out /\ length out = length rows /\ forall row, In row out -> full_row sc data row.
Proof.
  intros sc data m d junk rows SV T. assert (RF := sd_fit _ _ _ _ SV). assert (MN := proj1 (sd_models _ _ _ _ SV)).
  destruct (served_full _ _ _ _ SV) as [SO NE DN DG WP (M & N & mst & counts & srv & MC & MST & -> & CG & SG)].
  destruct SG as [(m' & s & E & -> & TS)|(es & L & _)]; [|exfalso; apply L; reflexivity]. injection E as <-.
  eapply median_full; eauto.
Qed.

Lemma C37_works : forall sc data ms d rows, served sc data ms d -> (forall e, In e rows -> tame_row e) ->
  exists table lps, import_rows sc (Rows rows) = Ok table /\ data_logprob d (Rows rows) None = Ok lps /\ length lps = length rows /\
    forall i, i < length rows -> (exp (nth i lps 0) = sumf ms (fun m => row_prob (widths sc) m (nth i table [])) / INR (length ms))%R.
Proof.
  intros sc data ms d rows SV T. assert (RF := sd_fit _ _ _ _ SV). assert (MN := proj1 (sd_models _ _ _ _ SV)).
  destruct (served_full _ _ _ _ SV) as [SO NE DN DG WP (M & N & mst & counts & srv & MC & MST & -> & CG & SG)].
  destruct (many_rows sc SO RF rows T) as (rr & E & LR & LL). unfold data_logprob. cbn [dv_schema dv_server]. rewrite E. cbn [bind].
  destruct (logprob_plain sc M N ms mst MN MC MST srv rr SG LL) as (lps & EL & LN & P). exists rr, lps. rewrite <- LR. auto.
Qed.

Lemma C37_refutation : forall sc data ms d rows evidence, served sc data ms d -> (forall e, In e rows -> tame_row e) -> tame_row evidence ->
  data_logprob d (Rows rows) (Some evidence) = Raise (match rows with [] => AssertionError | _ => TypeError end).
Proof.
  intros sc data ms d rows evidence SV T TE. assert (RF := sd_fit _ _ _ _ SV). assert (MN := proj1 (sd_models _ _ _ _ SV)).
  destruct (served_full _ _ _ _ SV) as [SO NE DN DG WP (M & N & mst & counts & srv & MC & MST & -> & CG & SG)].
  destruct (many_rows sc SO RF rows T) as (rr & E & LR & LL). unfold data_logprob. cbn [dv_schema dv_server]. rewrite E. cbn [bind].
  destruct (evidence_row sc SO evidence TE) as (row & -> & L). cbn [bind get nth_error].
  destruct (logprob_plain sc M N ms mst MN MC MST srv (add_to_rows rr row) SG) as (lps & -> & _); [now apply add_rows_len|]. cbn [bind].
  destruct rows as [|r rows], rr as [|x rr]; try discriminate; auto.
  assert (1 <= length x).
  { rewrite (LL x (or_introl eq_refl)). assert (LW := ws_len sc). destruct (widths sc) as [|w ws'] eqn:EW.
    - exfalso. apply NE. destruct (sc_names sc); [auto|discriminate].
    - assert (1 <= w) by (apply WP; now left). cbn. lia. }
  cbn [concat]. destruct x; [cbn in *; lia|reflexivity].
Qed.

Lemma good_nonneg : forall sc row z, good_row sc row -> In z row -> (0 <= z)%Z.
Proof.
  intros sc row z (L & G) I. apply In_nth with (d := 0%Z) in I. destruct I as (q & Hq & <-). rewrite L in Hq.
  assert (X : forall ws p, p < list_sum ws -> exists v i, v < length ws /\ i < nth v ws 0 /\ p = list_sum (firstn v ws) + i).
  { induction ws as [|w ws IH]; intros p P; [cbn in P; lia|]. destruct (Nat.lt_ge_cases p w) as [K|K].
    - exists 0, p. cbn. repeat split; lia.
    - destruct (IH (p - w)) as (v & i & A & B & C); [unfold list_sum in *; cbn [fold_right] in P; lia|]. exists (S v), i. unfold list_sum in *. cbn [length firstn nth fold_right]. repeat split; lia. }
  destruct (X _ _ Hq) as (v & i & A & B & ->). rewrite <- cellv_nth by auto. rewrite (ws_len sc) in A. destruct (G v A) as [E|(_ & C)].
  - rewrite E, nth_repeat. lia.
  - destruct C as (_ & NN & _). apply NN. apply nth_In. now rewrite cellv_length.
Qed.

Lemma C40_served : forall sc data ms d, served sc data ms d ->
  exists dens, feature_density d = Ok (map Some dens) /\ length dens = length (sc_names sc) /\
    forall v, v < length (sc_names sc) ->
      (nth v dens 0 = INR (length (filter (fun row => observed_cell (widths sc) row v) data)) / INR (length data) /\ 0 <= nth v dens 0 <= 1)%R.
Proof.
  intros sc data ms d SV. destruct (served_full _ _ _ _ SV) as [SO NE DN DG WP (M & N & mst & counts & srv & MC & MST & -> & CG & SG)].
  rewrite <- (ws_len sc). apply (density (DSrv sc (imported_dataset (sc, data)) counts srv) (widths sc)); auto.
  - exact (so_ri _ SO).
  - intros row I. split; [exact (proj1 (DG row I))|]. intros z Z1. apply (good_nonneg sc row); auto.
Qed.

(** ** An example: the features of [ex_model] *)
Definition ds_types : list (list string) := [["name"; "type"]; ["rating"; "ordinal"]; ["seen"; "categorical"]; ["genre"; "categorical"]]%string.
Definition ds_values : list (list string) := [["name"; "value"; "count"]; ["genre"; "drama"; "3"]; ["genre"; "family"; "2"]; ["genre"; "noir"; "2"]; ["rating"; "5"; "3"]; ["rating"; "2"; "2"]; ["seen"; "yes"; "2"]]%string.
Definition ds_csv : list (list string) := [["rating"; "seen"; "genre"]; ["2"; ""; "noir"]; ["4"; ""; "Drama"]]%string.
Definition ds_imported : schema * list (list Z) :=
  match import_data (fun _ => None) [ds_csv] ds_types ds_values None with Ok p => p | Raise _ => (sc0, []) end.
Lemma ds_imports : import_data (fun _ => None) [ds_csv] ds_types ds_values None = Ok (fst ds_imported, snd ds_imported).
Proof. vm_compute. reflexivity. Qed.

Lemma ds_served : forall mst, mst_contract mst -> exists d, data_server mst (imported_dataset ds_imported) [ex_model] = Ok d /\ served (fst ds_imported) (snd ds_imported) [ex_model] d.
Proof.
  intros mst MST. apply (served_exists (fun _ => None) [ds_csv] ds_types ds_values None _ _ 2 2 [ex_model] mst ds_imports); auto; try discriminate.
  - intros csv [<-|[]]. cbn. repeat constructor; cbn; intuition discriminate.
  - intros n lo hi. change (sc_ranges (fst ds_imported)) with [("rating"%string, (2, 5)%Z)]. cbn [dget]. destruct (String.eqb n "rating"); [|discriminate]. intros E. injection E as <- <-. lia.
  - intros m [<-|[]]. exact ex_consistent.
Qed.

Definition wide_csv : list (list string) := [["height"]; ["200"]]%string.
Definition wide_types : list (list string) := [["name"; "type"]; ["height"; "ordinal"]]%string.
Definition wide_values : list (list string) := [["name"; "value"; "count"]; ["height"; "0"; "1"]; ["height"; "200"; "1"]]%string.
Lemma C40_wide : exists sc data, import_data (fun _ => None) [wide_csv] wide_types wide_values None = Ok (sc, data) /\
  (exists row, data = [row] /\ observed_cell (widths sc) row 0 = true) /\
  forall counts srv, feature_density (DSrv sc (imported_dataset (sc, data)) counts srv) = Ok [Some 0%R].
Proof.
  destruct (import_data (fun _ => None) [wide_csv] wide_types wide_values None) as [(sc, data)|] eqn:E; [|vm_compute in E; discriminate].
  exists sc, data. split; [reflexivity|]. vm_compute in E. injection E as <- <-. split; [eexists; split; reflexivity|].
  intros counts srv. unfold feature_density. cbn. do 3 f_equal. unfold Rdiv. apply Rmult_0_l.
Qed.

Lemma mode_raises sc data ms d rows : served sc data ms d ->
  (exists e, data_mode d rows = Raise e) /\
  forall table, import_rows sc rows = Ok table -> data_mode d rows = Raise NotImplementedError.
Proof.
  intros SV. assert (E : dv_schema d = sc) by (destruct (served_full _ _ _ _ SV) as [_ _ _ _ _ (M & N & mst & counts & srv & _ & _ & -> & _)]; reflexivity). unfold data_mode. rewrite E. split; [|intros t ->; reflexivity].
  destruct (import_rows sc rows) as [t|e]; cbn [bind]; eauto.
Qed.
