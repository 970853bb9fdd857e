(** The distribution of the rows that DataServer.sample returns. *)
From Coq Require Import String Ascii.
From Coq Require Import List Arith Lia Bool ZArith QArith Reals Lra.
From Verif Require Import Base Spec_MST M_Structure M_Rand M_Util M_Strings M_Format M_Training M_Serving M_EnsembleServer M_DataServer Spec_Ragged Spec_Schema Spec_Stats Spec_Conditional Spec_Sum L_Sum Spec_Serving Spec_DataServer
  L_Base L_Dict L_Rand L_Stats L_Ragged L_Schema L_Import L_Import2 L_Server L_Serve1 L_Serve2 L_EnsServe L_EnsServe2 L_Median L_DataServer L_DataServer2 L_DataServer3.
Import ListNotations.
Open Scope list_scope.
Open Scope nat_scope.

(** Functions that agree on the possible outcomes have the same expectation. *)
Lemma expect_surely : forall A (p : rprog A) (P : A -> Prop) f g, surely P p -> (forall a, P a -> f (Ok a) = g (Ok a)) -> expect p f = expect p g.
Proof.
  induction p as [a|e|w k IH|n k IH]; cbn [surely expect]; intros P f g S E; auto; [tauto| |].
  - destruct S as (NE & S). destruct w as [|x w]; [congruence|]. destruct (Req_EM_T _ _).
    + apply (IH 0 P); auto. apply S. cbn. lia.
    + apply sumf_ext. intros i I. apply in_seq in I. f_equal. apply (IH i P); auto. apply S. lia.
  - f_equal. apply sumf_ext. intros s I. apply (IH s P); auto. apply S. now apply perms_Permutation.
Qed.

Lemma same_value_spec : forall a b, same_value a b = true -> a = b.
Proof.
  intros [[]|] [[]|] E; cbn in E; try discriminate; auto.
  all: try (apply String.eqb_eq in E; now subst); try (apply Z.eqb_eq in E; now subst).
Qed.

Section Law.
Variables (sc : schema) (data : list (list Z)).
Hypothesis SO : schema_ok sc.
Hypothesis RF : ranges_fit sc.
Hypothesis VO : values_once sc.
Let ws := widths sc.
Let V := length (sc_names sc).
Let name v := nth v (sc_names sc) EmptyString.
Variable counts : list Z.
Hypothesis CG : counts_good sc data counts.

Lemma encode_decode : forall n t c, dget (sc_types sc) n = Some t -> legal_cell sc n c ->
  exists x, decode sc n c = Ok (Some x) /\ legal_value sc n x = Some x /\ encode sc n x = c.
Proof.
  intros n t c T LC. destruct (decode_cell sc SO RF n t c T LC) as (x & D & LV). exists x. split; auto. split; auto.
  destruct LC as (L & NN & S). unfold encode, put_value. rewrite LV. unfold decode in D.
  destruct (forallb (Z.eqb 0) c) eqn:NZ; [discriminate|]. unfold dget_ in D. rewrite T in D. cbn [bind] in D. unfold full_total, feature_width in *. rewrite T in *. destruct t.
  - rewrite S in D. cbn [Z.eqb Pos.eqb assert_ bind] in D. destruct (so_cat _ SO n T) as (vs & ix & CV & CI & IXS & IXN). rewrite CV in *. cbn [bind] in D.
    destruct (zsum_one c NN S) as (i & LI & Q). rewrite L in LI, Q. destruct (onehot_facts sc (length vs) i LI) as (_ & _ & C). rewrite <- Q in C. rewrite C in D. cbn [bind] in D.
    unfold get in D. destruct (nth_error vs i) as [s|] eqn:E; [|discriminate]. cbn [bind] in D. injection D as <-.
    unfold cat_pos. rewrite CI. destruct (proj1 (IXS s) (nth_error_In _ _ E)) as (j & J). rewrite J. assert (JN := IXN _ _ J).
    assert (j = i). { apply (proj1 (NoDup_nth_error vs) (VO n vs CV)); [apply nth_error_Some; congruence|congruence]. } subst j. symmetry. exact Q.
  - destruct (so_ord _ SO n T) as (lo & hi & G & _). rewrite G in *. cbn [bind fst snd] in D. rewrite S, Z.eqb_refl in D. cbn [assert_ bind] in D.
    destruct c as [|a [|b [|]]]; try discriminate. cbn [get nth_error bind] in D. injection D as <-.
    assert (0 <= a)%Z by (apply NN; now left). assert (0 <= b)%Z by (apply NN; right; now left). unfold zsum in S. cbn [fold_right] in S.
    assert (RF2 := RF n lo hi G). rewrite (L_Import.int8_id sc (a + lo - lo)%Z), (L_Import.int8_id sc (hi - (a + lo))%Z) by lia. f_equal; [lia|]. f_equal. lia.
Qed.

Lemma obs_dec : forall v, v < V -> (exists r, In r data /\ observes ws r v) \/ (forall r, In r data -> ~ observes ws r v).
Proof.
  intros v H. clear CG. induction data as [|r d IH]; [right; intros ? []|]. destruct IH as [(r' & I & O)|N].
  - left. exists r'. split; [now right|auto].
  - destruct (list_eq_dec Z.eq_dec (cellv ws r v) (repeat 0%Z (nth v ws 0))) as [E|E].
    + right. intros r' [<- | I]; auto. intros O. exact (proj1 (observes_cellv sc _ v H) O E).
    + left. exists r. split; [now left|]. exact (proj2 (observes_cellv sc _ v H) E).
Qed.

(** Exporting a row with these counts and importing it again. *)
Lemma export_back : forall row, legal_row ws counts row -> exists out,
  foldM (export_cell sc row) (combine (seq 0 V) (sc_names sc)) [] = Ok out /\ keys_once out /\
  (forall v, v < V -> cellv ws row v = final_cell sc out v).
Proof.
  intros row (L & NN & S0). destruct CG as (CL & CO).
  assert (S : forall v, v < V -> zsum (cellv ws row v) = nth v counts 0%Z) by (intros v H; rewrite <- total_cellv; apply S0; unfold ws; now rewrite ws_len).
  assert (CN : forall v z, In z (cellv ws row v) -> (0 <= z)%Z).
  { intros v z I. unfold cellv in I. apply in_map_iff in I. destruct I as (i & <- & I). destruct (nth_in_or_default (list_sum (firstn v ws) + i) row 0%Z) as [J|J]; [auto|lia]. }
  assert (D : forall v, v < V -> ((exists r, In r data /\ observes ws r v) -> exists x, decode sc (name v) (cellv ws row v) = Ok (Some x) /\ encode sc (name v) x = cellv ws row v) /\
                              ((forall r, In r data -> ~ observes ws r v) -> cellv ws row v = repeat 0%Z (nth v ws 0))).
  { intros v H. destruct (CO v H) as (_ & C1 & C2). split.
    - intros O. destruct (C1 O) as (E & I). destruct (typed_of_index sc SO _ _ I) as (t & T). destruct (encode_decode (name v) t (cellv ws row v) T) as (x & X1 & _ & X2); [|eauto].
      split; [rewrite cellv_length; exact (ws_nth sc v H)|]. split; [apply CN|]. unfold name. now rewrite S.
    - intros N. assert (Z := C2 N). rewrite <- S in Z by auto. rewrite (zsum_zero _ (CN v) Z). f_equal. apply cellv_length. }
  set (d := fun v => match decode sc (name v) (cellv ws row v) with Ok o => o | _ => None end).
  destruct (export_fold sc SO row d L) as (out & E & KO & G).
  { intros v H. fold (name v) ws. unfold d. destruct (obs_dec v H) as [O|N]; [destruct (proj1 (D v H) O) as (x & -> & _); auto|]. rewrite (proj2 (D v H) N), decode_zero. auto. }
  { intros v x H DX. fold (name v). destruct (obs_dec v H) as [O|N]; [apply CO; auto|]. unfold d in DX. rewrite (proj2 (D v H) N), decode_zero in DX. discriminate. }
  exists out. split; [exact E|]. split; auto. intros v H. unfold final_cell. fold (name v) ws.
  destruct (obs_dec v H) as [O|N].
  - rewrite G. assert (IX : dget (sc_index sc) (name v) = Some v) by exact (proj2 (proj1 (proj2 (CO v H)) O)). rewrite IX. destruct (proj1 (D v H) O) as (x & X & EX). unfold d. rewrite X. rewrite Nat.eqb_refl. auto.
  - rewrite (proj2 (D v H) N). destruct (dget (sc_index sc) (name v)) as [u|] eqn:I; auto. destruct (dget out (name v)) as [jv|] eqn:J; auto.
    destruct (Nat.eqb_spec u v) as [->|]; auto. exfalso. rewrite G, I in J. unfold d in J. rewrite (proj2 (D v H) N), decode_zero in J. discriminate.
Qed.

(** A full row, imported. *)
Lemma full_import : forall row, full_row sc data row -> exists x, foldM (import_cell sc) row (repeat 0%Z (list_sum ws)) = Ok x /\
  legal_row ws counts x /\ (forall v, v < V -> cellv ws x v = final_cell sc row v) /\
  exists out, foldM (export_cell sc x) (combine (seq 0 V) (sc_names sc)) [] = Ok out /\ forall n, dget out n = dget row n.
Proof.
  intros row (KO & FR).
  assert (LG : forall n jv, dget row n = Some jv -> legal_value sc n jv = Some jv).
  { intros n jv D. destruct (FR n) as (A & B). destruct (dget (sc_index sc) n) as [v|] eqn:I.
    - destruct (index_pos sc SO n v I) as (H & Nn). destruct (obs_dec v H) as [(r & J & O)|N].
      + destruct A as (x & X1 & X2); [exists v, r; auto|congruence].
      + rewrite B in D; [discriminate|]. intros (u & r & I' & J & O). assert (u = v) by congruence. subst u. exact (N r J O).
    - rewrite B in D; [discriminate|]. intros (u & r & I' & _). congruence. }
  destruct (import_row_ok sc SO row KO) as (x & E & L & C).
  { intros n jv I. apply tame_ok. apply In_dget in I; auto. eapply legal_tame, LG; eauto. }
  exists x. split; [exact E|]. split; [|split; [exact C|]].
  - assert (GR := import_good sc SO RF row x KO E). split; [exact L|]. split; [intros z; now apply good_nonneg with sc|].
    intros v H. unfold ws in H. rewrite ws_len in H. rewrite total_cellv. fold ws. destruct CG as (_ & CO). destruct (CO v H) as (_ & C1 & C2). fold (name v) in C1.
    rewrite C by auto. unfold final_cell. fold (name v) ws. destruct (obs_dec v H) as [O|N].
    + destruct (C1 O) as (CE & I). rewrite I, Nat.eqb_refl. destruct O as (r & J & O). destruct (proj1 (FR (name v))) as (jv & D & LV); [exists v, r; auto|].
      rewrite D. assert (X := encode_cell sc SO RF (name v) jv). rewrite LV in X. rewrite CE. apply X.
    + rewrite (C2 N). destruct (dget (sc_index sc) (name v)) as [u|] eqn:I; [|apply zsum_repeat]. destruct (dget row (name v)) as [jv|] eqn:D; [|apply zsum_repeat].
      destruct (Nat.eqb_spec u v) as [->|]; [|apply zsum_repeat]. exfalso. rewrite (proj2 (FR (name v))) in D; [discriminate|].
      intros (u & r & I' & J & O). assert (u = v) by congruence. subst u. exact (N r J O).
  - destruct (round_trip_row sc SO row x RF KO E) as (out & O & _ & G & _). exists out. split; [exact O|]. intros n. rewrite G. destruct (dget row n) as [jv|] eqn:D; auto.
Qed.

Lemma agree_iff : forall X rows outs table, Forall2 (fun row x => foldM (import_cell sc) row (repeat 0%Z (list_sum ws)) = Ok x) rows table ->
  Forall2 (fun x out => foldM (export_cell sc x) (combine (seq 0 V) (sc_names sc)) [] = Ok out) X outs ->
  (forall row, In row rows -> full_row sc data row) -> (forall x, In x X -> legal_row ws counts x) ->
  (agree (sc_names sc) outs rows = true <-> X = table).
Proof.
  intros X rows outs table F1. revert X outs. induction F1 as [|row t rows table E1 F1 IH]; intros X outs F2 FR LX.
  - destruct F2; cbn; split; auto; discriminate.
  - destruct F2 as [|x out X outs E2 F2]; [cbn; split; discriminate|].
    assert (IH' := IH X outs F2 (fun r I => FR r (or_intror I)) (fun r I => LX r (or_intror I))). clear IH.
    destruct (full_import row (FR row (or_introl eq_refl))) as (t' & E1' & LT & CT & out' & EO & GO). assert (t' = t) by congruence. subst t'.
    destruct (export_back x (LX x (or_introl eq_refl))) as (o & EO2 & KO & CX). assert (o = out) by congruence. subst o.
    unfold agree in *. cbn [length combine forallb Nat.eqb]. rewrite andb_assoc, (andb_comm (length outs =? length rows)), <- andb_assoc, andb_true_iff, IH'.
    split.
    + intros (A & ->). f_equal. apply (row_ext ws); [exact (proj1 (LX x (or_introl eq_refl)))|exact (proj1 LT)|]. intros v H. unfold ws in H. rewrite ws_len in H.
      rewrite CX, CT by auto. unfold final_cell. rewrite forallb_forall in A. rewrite (same_value_spec _ _ (A (nth v (sc_names sc) EmptyString) (nth_In _ _ H))). reflexivity.
    + intros Q. injection Q as -> ->. split; auto. assert (out' = out) by congruence. subst out'. apply forallb_forall. intros n _. rewrite GO.
      destruct (dget row n) as [jv|] eqn:D; auto. assert (LV : exists y, legal_value sc n y = Some jv).
      { destruct (FR row (or_introl eq_refl)) as (_ & Fn). destruct (Fn n) as (A & B). destruct (dget (sc_index sc) n) as [v|] eqn:I.
        - destruct (index_pos sc SO n v I) as (H & Nn). destruct (obs_dec v H) as [(r & J & O)|N].
          + destruct A as (y & X1 & X2); [exists v, r; auto|]. exists y. congruence.
          + rewrite B in D; [discriminate|]. intros (u & r & I' & J & O). assert (u = v) by congruence. subst u. exact (N r J O).
        - rewrite B in D; [discriminate|]. intros (u & r & I' & _). congruence. }
      destruct LV as (y & LV). unfold legal_value in LV. destruct (dget (sc_types sc) n) as [[]|]; [| |discriminate].
      * destruct y; try discriminate. destruct (dget (sc_cat_values sc) n); [|discriminate]. destruct (in_dec string_dec s l); [|discriminate]. injection LV as <-. cbn. apply String.eqb_refl.
      * destruct (py_int y) as [z|]; [|discriminate]. destruct (dget (sc_ranges sc) n) as [(lo, hi)|]; [|discriminate]. destruct ((lo <=? z)%Z && (z <=? hi)%Z); [|discriminate]. injection LV as <-. cbn. apply Z.eqb_refl.
Qed.

Lemma orders_eq : forall x, legal_row ws counts x -> arrangements ws counts x = row_orders ws x.
Proof.
  intros x (L & NN & S). unfold row_orders, arrangements. apply prodf_ext. intros v I. apply in_seq in I. f_equal. f_equal. f_equal. f_equal.
  rewrite nth_map_seq by lia. cbn [Nat.add]. rewrite <- S by lia. rewrite total_cellv. reflexivity.
Qed.


Lemma sample_event : forall (p : rprog (list (list Z))) n rows table,
  Forall2 (fun row x => foldM (import_cell sc) row (repeat 0%Z (list_sum ws)) = Ok x) rows table ->
  (forall row, In row rows -> full_row sc data row) ->
  surely (fun X => length X = n /\ forall x, In x X -> legal_row ws counts x) p ->
  prob (rbind p (fun X => lift (export_rows sc (list_sum ws) X))) (fun out => agree (sc_names sc) out rows) = prob_of p table.
Proof.
  intros p n rows table F FR SP. unfold prob_of, prob. rewrite expect_bind. apply expect_surely with (1 := SP). intros X (_ & LX). cbn beta.
  rewrite expect_lift. unfold export_rows. rewrite (last_ri sc SO). cbn [bind]. fold ws. rewrite Nat.eqb_refl. cbn [assert_ bind]. fold V.
  destruct (Forall2_build _ _ (fun row out => foldM (export_cell sc row) (combine (seq 0 V) (sc_names sc)) [] = Ok out) X) as (outs & F2).
  { intros row I. destruct (export_back row (LX row I)) as (out & E & _). eauto. }
  rewrite (proj2 (mapM_two _ _ _ _ _) F2). assert (A := agree_iff X rows outs table F F2 FR LX).
  destruct (agree (sc_names sc) outs rows), (list_eq_dec (list_eq_dec Z.eq_dec) X table); auto; exfalso; intuition congruence.
Qed.
End Law.

Lemma C54_proof : forall sc data ms d evidence rows, served sc data ms d -> values_once sc ->
  (forall e, evidence = Some e -> tame_row e) -> (forall row, In row rows -> full_row sc data row) ->
  exists given table,
    import_rows sc (Rows [match evidence with None => [] | Some e => e end]) = Ok [given] /\ import_rows sc (Rows rows) = Ok table /\
    prob (data_sample d (length rows) evidence) (fun out => agree (sc_names sc) out rows) =
    prodf table (fun x => row_orders (widths sc) x *
      (sumf ms (fun m => row_prob (widths sc) m (merge given x) / row_prob (widths sc) m given) / INR (length ms)))%R.
Proof.
  intros sc data ms d evidence rows SV VO EV FR. assert (RF := sd_fit _ _ _ _ SV). assert (MN := proj1 (sd_models _ _ _ _ SV)).
  destruct (served_full _ _ _ _ SV) as [SO NE DN DG WP (M & N & mst & counts & srv & MC & MST & -> & CG & SG)].
  set (ws := widths sc) in *.
  destruct (Forall2_build _ _ (fun row x => foldM (import_cell sc) row (repeat 0%Z (list_sum ws)) = Ok x /\ legal_row ws counts x) rows) as (table & F).
  { intros row I. destruct (full_import sc data SO RF counts CG row (FR row I)) as (x & E & LR & _). eauto. }
  assert (F1 : Forall2 (fun row x => foldM (import_cell sc) row (repeat 0%Z (list_sum ws)) = Ok x) rows table) by (clear - F; induction F; constructor; tauto).
  assert (LT : forall x, In x table -> legal_row ws counts x).
  { clear - F. induction F as [|a b l m (_ & Q) F IH]; intros x I; [destruct I|]. destruct I as [<- | I]; auto. }
  assert (LEN : length table = length rows) by (symmetry; eapply Forall2_len2; eauto).
  assert (X : exists row, (match evidence with
                 | None => Ok None
                 | Some evidence =>
                   imported <- import_rows sc (Rows [evidence]) ;;
                   row <- get IndexError imported 0 ;; Ok (Some row)
                 end) = Ok row /\ (forall r, row = Some r -> length r = list_sum ws) /\
                 import_rows sc (Rows [match evidence with None => [] | Some e => e end]) = Ok [L_Serve2.evidence ws row]).
  { destruct evidence as [e|].
    - destruct (evidence_row sc SO e (EV e eq_refl)) as (row & E & L). exists (Some row). rewrite E. split; auto. split; auto. intros r Q. injection Q as <-. exact L.
    - exists None. split; auto. split; [discriminate|]. unfold import_rows. rewrite (last_ri sc SO). reflexivity. }
  destruct X as (row & XR & LR & IM). exists (L_Serve2.evidence ws row), table. split; [exact IM|]. split.
  { unfold import_rows. rewrite (last_ri sc SO). cbn [bind]. now apply mapM_two. }
  assert (CB : forall v, v < length (sc_names sc) -> (0 <= nth v counts 0 <= 127)%Z) by (intros v H; apply (proj2 CG v H)).
  assert (CW := counts_width sc data WP counts CG).
  unfold data_sample. cbn [dv_schema dv_server dv_counts]. rewrite XR. cbn [lift rbind].
  transitivity (prodf table (fun x => arrangements ws counts x *
      (sumf ms (fun m => row_prob ws m (merge (L_Serve2.evidence ws row) x) / row_prob ws m (L_Serve2.evidence ws row)) / INR (length ms)))%R).
  2: { apply prodf_ext. intros x I. f_equal. apply (orders_eq sc counts). now apply LT. }
  destruct SG as [(m & s & E1 & -> & TS)|(es & E1 & -> & ES)].
  - destruct (single_facts sc M N ms mst MC MST m s E1 TS) as (C & SR & _). rewrite SR. cbn [lift rbind].
    rewrite (sample_event sc data SO RF VO counts CG _ (length rows) rows table F1 FR).
    2: { apply (C28_surely ws _ M N m mst s (length rows) counts row C MST TS (proj1 CG) CB CW LR). }
    rewrite (law ws _ M N m mst s (length rows) counts row table C MST TS (proj1 CG) CB CW LR LEN LT).
    apply prodf_ext. intros x I. f_equal. rewrite E1. cbn. field. assert (P := proj2 (C26_row ws _ M N m mst s (L_Serve2.evidence ws row) C MST TS ltac:(destruct row; [apply LR; reflexivity|apply repeat_length]))). lra.
  - rewrite (many_ri sc M N ms mst MN MC es ES), mri_last. cbn [lift rbind].
    rewrite (sample_event sc data SO RF VO counts CG _ (length rows) rows table F1 FR).
    2: { apply (C28_ens_surely ws _ M N mst ms es (length rows) counts row (conj MN MC) MST ES (proj1 CG) CB CW LR). }
    rewrite <- LEN. apply (ens_law ws _ M N mst ms es counts row table (conj MN MC) MST ES (proj1 CG) CB CW LR LT).
Qed.

Lemma merge_none : forall ws x, length x = list_sum ws -> merge (repeat 0%Z (list_sum ws)) x = x.
Proof. intros. now apply merge_empty. Qed.

Lemma C54_free : forall sc data ms d rows, served sc data ms d -> values_once sc -> (forall row, In row rows -> full_row sc data row) ->
  exists table lps, import_rows sc (Rows rows) = Ok table /\ data_logprob d (Rows rows) None = Ok lps /\
    prob (data_sample d (length rows) None) (fun out => agree (sc_names sc) out rows) =
    prodf (combine table lps) (fun '(x, l) => row_orders (widths sc) x * exp l)%R.
Proof.
  intros sc data ms d rows SV VO FR. destruct (C54_proof sc data ms d None rows SV VO ltac:(discriminate) FR) as (given & table & EG & ET & P).
  assert (RF := sd_fit _ _ _ _ SV). assert (MN := proj1 (sd_models _ _ _ _ SV)).
  destruct (served_full _ _ _ _ SV) as [SO NE DN DG WP (M & N & mst & counts & srv & MC & MST & -> & CG & SG)].
  assert (GZ : given = repeat 0%Z (list_sum (widths sc))). { unfold import_rows in EG. rewrite (last_ri sc SO) in EG. cbn in EG. congruence. }
  assert (LL : forall x, In x table -> length x = list_sum (widths sc)).
  { unfold import_rows in ET. rewrite (last_ri sc SO) in ET. cbn [bind] in ET. apply mapM_two in ET. intros x I. apply In_nth with (d := []) in I. destruct I as (i & Hi & <-).
    assert (LQ := Forall2_len2 _ _ _ _ _ ET). rewrite <- LQ in Hi. assert (Y := Forall2_nth2 _ _ _ _ _ i [] [] ET Hi). cbn beta in Y.
    eapply (import_good sc SO RF) in Y; [exact (proj1 Y)|]. exact (proj1 (FR _ (nth_In _ _ Hi))). }
  destruct (logprob_plain sc M N ms mst MN MC MST srv table SG LL) as (lps & EL & LN & PL).
  exists table, lps. split; [exact ET|]. split; [unfold data_logprob; cbn [dv_schema dv_server]; rewrite ET; cbn [bind]; exact EL|].
  rewrite P. subst given. clear - MC MST LN PL LL MN. revert lps LN PL. induction table as [|x table IH]; intros [|l lps] LN PL; try discriminate; auto.
  cbn [combine]. rewrite !prodf_cons. rewrite (IH (fun y I => LL y (or_intror I)) lps); [|now injection LN|intros i Hi; apply (PL (S i)); cbn; lia]. f_equal. f_equal.
  assert (Q := PL 0 ltac:(cbn; lia)). cbn [nth] in Q. rewrite Q. f_equal. apply sumf_ext. intros m I. rewrite merge_none by (apply LL; now left).
  rewrite (empty_one (widths sc) _ M N m mst (MC m I) MST). field.
Qed.

Lemma arrangements_small : forall ws counts x, legal_row ws counts x -> (forall v, v < length ws -> (0 <= nth v counts 0 <= 1)%Z) -> arrangements ws counts x = 1%R.
Proof.
  intros ws counts x (LX & NN & T) CB. unfold arrangements. apply prodf_one. intros v Hv. apply in_seq in Hv. specialize (T v ltac:(lia)). specialize (CB v ltac:(lia)).
  assert (P : forall q', (0 <= nth q' x 0)%Z).
  { intros q'. destruct (Nat.lt_ge_cases q' (length x)); [apply NN, nth_In; auto|rewrite nth_overflow by auto; lia]. }
  assert (F1 : forall z, (0 <= z <= 1)%Z -> INR (fact (Z.to_nat z)) = 1%R).
  { intros z Hz. destruct (Z.eq_dec z 0) as [->|NZ]; [reflexivity|]. replace z with 1%Z by lia. reflexivity. }
  rewrite F1 by auto. rewrite prodf_one; [field|]. intros q Hq. apply F1. split; [apply P|].
  assert (nth q x 0 <= nth v counts 0)%Z; [|lia]. rewrite <- T. clear - P Hq. revert Hq. generalize (block ws v). induction l; intros I; [destruct I|]. rewrite total_cons.
  assert (0 <= total l (fun q0 => nth q0 x 0))%Z by (clear - P; induction l; [unfold total; cbn; lia|rewrite total_cons; specialize (P a); lia]).
  destruct I as [->|I]; [lia|]. specialize (IHl I). specialize (P a). lia.
Qed.

Lemma C54_categorical : forall sc data ms d rows, served sc data ms d -> values_once sc ->
  (forall n t, dget (sc_types sc) n = Some t -> t = Categorical) -> (forall row, In row rows -> full_row sc data row) ->
  exists lps, data_logprob d (Rows rows) None = Ok lps /\
    prob (data_sample d (length rows) None) (fun out => agree (sc_names sc) out rows) = prodf lps exp.
Proof.
  intros sc data ms d rows SV VO CT FR. destruct (C54_free sc data ms d rows SV VO FR) as (table & lps & ET & EL & P). exists lps. split; auto. rewrite P.
  assert (RF := sd_fit _ _ _ _ SV). assert (MN := proj1 (sd_models _ _ _ _ SV)).
  destruct (served_full _ _ _ _ SV) as [SO NE DN DG WP (M & N & mst & counts & srv & MC & MST & -> & CG & SG)].
  assert (LT : forall x, In x table -> legal_row (widths sc) counts x).
  { unfold import_rows in ET. rewrite (last_ri sc SO) in ET. cbn [bind] in ET. apply mapM_two in ET. intros x I. apply In_nth with (d := []) in I. destruct I as (i & Hi & <-).
    assert (LQ := Forall2_len2 _ _ _ _ _ ET). rewrite <- LQ in Hi. assert (Y := Forall2_nth2 _ _ _ _ _ i [] [] ET Hi). cbn beta in Y.
    destruct (full_import sc data SO RF counts CG _ (FR _ (nth_In _ [] Hi))) as (x & E & LR & _). congruence. }
  assert (CB : forall v, v < length (widths sc) -> (0 <= nth v counts 0 <= 1)%Z).
  { intros v H. rewrite ws_len in H. destruct CG as (_ & CO). destruct (CO v H) as (_ & C1 & C2). destruct (obs_dec sc data v H) as [O|O]; [|rewrite (C2 O); lia].
    destruct (C1 O) as (-> & I). unfold full_total. destruct (typed_of_index sc SO _ _ I) as (t & T). rewrite T. rewrite (CT _ _ T). lia. }
  assert (LN : length lps = length table).
  { unfold data_logprob in EL. cbn [dv_schema dv_server] in EL. rewrite ET in EL. cbn [bind] in EL.
    destruct (logprob_plain sc M N ms mst MN MC MST srv table SG (fun x I => proj1 (LT x I))) as (lps' & EL' & L' & _). congruence. }
  clear P EL ET. revert lps LN. induction table as [|x table IH]; intros [|l lps] LN; try discriminate; auto.
  cbn [combine]. rewrite !prodf_cons. rewrite (IH (fun y I => LT y (or_intror I)) lps) by (now injection LN). f_equal.
  rewrite <- (orders_eq sc counts x) by (apply LT; now left). rewrite arrangements_small by (auto; apply LT; now left). lra.
Qed.

(** ** Examples *)
Lemma not_obs : forall sc data, (forall v, v < length (sc_names sc) -> forall row, In row data -> observed_cell (widths sc) row v = true <-> observes (widths sc) row v).
Proof.
  intros sc data v H row _. unfold observed_cell. rewrite existsb_exists. split.
  - intros (q & I & N). apply in_seq in I. exists q. split; [|now destruct (Z.eqb_spec (nth q row 0%Z) 0)]. split; [rewrite ws_len; auto|lia].
  - intros (q & (_ & O) & N). exists q. split; [apply in_seq; lia|]. destruct (Z.eqb_spec (nth q row 0%Z) 0); [contradiction|auto].
Qed.

Definition ds_row : jrow := [("genre", JStr "family"); ("rating", JInt 3)]%string.
Lemma ds_full : full_row (fst ds_imported) (snd ds_imported) ds_row.
Proof.
  assert (E : ds_imported = (fst ds_imported, [[0; 3; 0; 0; 0; 1]; [2; 1; 0; 1; 0; 0]]%Z)) by (vm_compute; reflexivity). 
  split; [repeat constructor; cbn; intuition discriminate|]. intros n.
  assert (NM : forall v, dget (sc_index (fst ds_imported)) n = Some v -> n = "rating"%string /\ v = 0 \/ n = "seen"%string /\ v = 1 \/ n = "genre"%string /\ v = 2).
  { intros v I. change (sc_index (fst ds_imported)) with [("rating", 0); ("seen", 1); ("genre", 2)]%string in I. cbn [dget] in I.
    destruct (String.eqb_spec n "rating"); [injection I as <-; auto|]. destruct (String.eqb_spec n "seen"); [injection I as <-; auto|]. destruct (String.eqb_spec n "genre"); [injection I as <-; auto|discriminate]. }
  split.
  - intros (v & row & I & J & O). destruct (NM v I) as [(-> & ->)|[(-> & ->)|(-> & ->)]].
    + exists (JInt 3). split; reflexivity.
    + exfalso. change (snd ds_imported) with [[0; 3; 0; 0; 0; 1]; [2; 1; 0; 1; 0; 0]]%Z in J.
      apply (not_obs (fst ds_imported) [row]) in O; [|vm_compute; lia|now left]. destruct J as [<-|[<-|[]]]; vm_compute in O; discriminate.
    + exists (JStr "family"). split; reflexivity.
  - intros N. unfold ds_row. cbn [dget]. 
    assert (EO : forall v w, dget (sc_index (fst ds_imported)) n = Some v -> v < 3 -> observed_cell (widths (fst ds_imported)) w v = true -> In w (snd ds_imported) -> False).
    { intros v w I Hv O J. apply N. exists v, w. split; auto. split; auto. now apply (not_obs (fst ds_imported) (snd ds_imported)). }
    destruct (String.eqb_spec n "genre") as [->|]; [exfalso; apply (EO 2 [0; 3; 0; 0; 0; 1]%Z); try reflexivity; [lia|now left]|].
    destruct (String.eqb_spec n "rating") as [->|]; auto. exfalso; apply (EO 0 [0; 3; 0; 0; 0; 1]%Z); try reflexivity; [lia|now left].
Qed.
Lemma ds_values_once : values_once (fst ds_imported).
Proof.
  intros n vs. change (sc_cat_values (fst ds_imported)) with [("genre", ["drama"; "family"; "noir"]); ("seen", ["yes"])]%string. cbn [dget].
  destruct (String.eqb n "genre"); [intros E; injection E as <-; repeat constructor; cbn; intuition discriminate|].
  destruct (String.eqb n "seen"); [intros E; injection E as <-; repeat constructor; cbn; intuition discriminate|discriminate].
Qed.

Definition g_types : list (list string) := [["name"; "type"]; ["genre"; "categorical"]]%string.
Definition g_values : list (list string) := [["name"; "value"; "count"]; ["genre"; "drama"; "3"]; ["genre"; "noir"; "2"]]%string.
Definition g_csv : list (list string) := [["genre"]; ["noir"]; [""]]%string.
Definition g_imported : schema * list (list Z) :=
  match import_data (fun _ => None) [g_csv] g_types g_values None with Ok p => p | Raise _ => (sc0, []) end.
Lemma g_imports : import_data (fun _ => None) [g_csv] g_types g_values None = Ok (fst g_imported, snd g_imported).
Proof. vm_compute. reflexivity. Qed.
Lemma g_served : forall mst, mst_contract mst -> exists d, served (fst g_imported) (snd g_imported) [lumped; split_] d /\ values_once (fst g_imported) /\
  (forall n t, dget (sc_types (fst g_imported)) n = Some t -> t = Categorical) /\ full_row (fst g_imported) (snd g_imported) [("genre", JStr "drama")]%string.
Proof.
  intros mst MST. destruct (served_exists (fun _ => None) [g_csv] g_types g_values None _ _ 2 2 [lumped; split_] mst g_imports) as (d & E & S); auto; try discriminate.
  - intros csv [<-|[]]. cbn. repeat constructor; cbn; intuition discriminate.
  - intros m I. apply pair_consistent. exact I.
  - exists d. split; auto. split; [|split].
    + intros n vs. change (sc_cat_values (fst g_imported)) with [("genre", ["drama"; "noir"])]%string. cbn [dget].
      destruct (String.eqb n "genre"); [intros Q; injection Q as <-; repeat constructor; cbn; intuition discriminate|discriminate].
    + intros n t. change (sc_types (fst g_imported)) with [("genre"%string, Categorical)]. cbn [dget]. destruct (String.eqb n "genre"); [congruence|discriminate].
    + split; [repeat constructor; cbn; intuition discriminate|]. intros n. change (snd g_imported) with [[0; 1]; [0; 0]]%Z. split.
      * intros (v & row & I & _). change (sc_index (fst g_imported)) with [("genre"%string, 0)] in I. cbn [dget] in I. destruct (String.eqb_spec n "genre") as [->|]; [|discriminate].
        exists (JStr "drama"). split; reflexivity.
      * intros N. cbn [dget]. destruct (String.eqb_spec n "genre") as [->|]; auto. exfalso. apply N. exists 0, [0; 1]%Z. split; [reflexivity|]. split; [now left|].
        apply (not_obs (fst g_imported) [[0; 1]%Z]); [vm_compute; lia|now left|reflexivity].
Qed.

(** serve_model of a model or of a list of models. *)
Lemma C39_serve_model : forall float_ csvs types values groups sc data M N ms mst,
  import_data float_ csvs types values groups = Ok (sc, data) -> (forall csv, In csv csvs -> NoDup (hd [] csv)) -> ranges_fit sc ->
  ms <> [] -> (forall m, In m ms -> consistent (widths sc) (length (sc_names sc)) M N m) -> mst_contract mst ->
  exists d, serve_model mst (imported_dataset (sc, data)) (Ensemble ms) = Ok d /\ served sc data ms d /\
    dv_schema d = sc /\ ds_data (dv_table d) = data /\
    (forall m, ms = [m] -> serve_model mst (imported_dataset (sc, data)) (OneModel m) = Ok d /\ exists s, tree_server mst m = Ok s /\ dv_server d = Single s) /\
    (length ms <> 1 -> exists es, ensemble_server mst ms = Ok es /\ dv_server d = Many es).
Proof.
  intros float_ csvs types values groups sc data M N ms mst E ND RF MN MC MST.
  destruct (served_exists _ _ _ _ _ _ _ _ _ _ _ E ND RF MN MC MST) as (d & ED & SD). exists d. cbn [serve_model].
  split; [exact ED|]. split; [exact SD|].
  unfold data_server in ED. destruct (guess_counts _ _ _) as [counts|] eqn:EG; [|discriminate]. cbn [bind] in ED.
  destruct ms as [|m [|m2 ms]]; [congruence| |].
  - destruct (tree_server mst m) as [s|] eqn:ES; [|discriminate]. cbn [bind] in ED. injection ED as <-.
    split; [reflexivity|]. split; [reflexivity|]. split; [|intros X; exfalso; apply X; reflexivity].
    intros m' X. injection X as <-. split; [|eauto].
    unfold serve_model, data_server. rewrite EG, ES. reflexivity.
  - destruct (ensemble_server mst (m :: m2 :: ms)) as [es|] eqn:ES; [|discriminate]. cbn [bind] in ED. injection ED as <-.
    split; [reflexivity|]. split; [reflexivity|]. split; [intros m' X; discriminate|]. intros _. eauto.
Qed.
