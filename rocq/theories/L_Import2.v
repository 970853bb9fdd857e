From Coq Require Import String Ascii.
From Coq Require Import List Arith Lia Bool ZArith QArith Reals.
From Verif Require Import Base M_Structure M_Util M_Strings M_Format Spec_Ragged Spec_Schema L_Base L_Dict L_Ragged L_Schema L_Import.
Import ListNotations.
Open Scope list_scope.
Open Scope nat_scope.

Lemma mapM_two : forall A B (f : A -> result B) l out, mapM f l = Ok out <-> Forall2 (fun a b => f a = Ok b) l out.
Proof.
  induction l as [|a l IH]; intros out; cbn.
  - split; [intros E; injection E as <-; constructor|]. intros F. inversion F. reflexivity.
  - split.
    + destruct (f a) as [b|] eqn:E; [|discriminate]. cbn. destruct (mapM f l) as [bs|] eqn:M; [|discriminate]. cbn. intros Q. injection Q as <-.
      constructor; auto. now apply IH.
    + intros F. inversion F as [|? b ? bs E F']. subst. rewrite E. cbn. apply IH in F'. rewrite F'. reflexivity.
Qed.
Lemma Forall2_nth2 : forall A B (P : A -> B -> Prop) l m i d e, Forall2 P l m -> i < length l -> P (nth i l d) (nth i m e).
Proof. intros A B P l m i d e F. revert i. induction F; intros i H'; cbn in *; [lia|]. destruct i; auto. apply IHF. lia. Qed.
Lemma Forall2_len2 : forall A B (P : A -> B -> Prop) l m, Forall2 P l m -> length l = length m.
Proof. induction 1; cbn; auto. Qed.
Lemma Forall2_build : forall A B (P : A -> B -> Prop) l, (forall a, In a l -> exists b, P a b) -> exists m, Forall2 P l m.
Proof.
  induction l as [|a l IH]; intros H; [exists []; constructor|].
  destruct (H a (or_introl eq_refl)) as (b & E). destruct IH as (m & M); [intros; apply H; now right|]. exists (b :: m). now constructor.
Qed.

Section Schema.
Variable sc : schema.
Hypothesis SO : schema_ok sc.
Let R := list_sum (widths sc).
Let import_row entries := foldM (import_cell sc) entries (repeat 0%Z R).

Lemma last_ri : last_index (sc_ri sc) = Ok R.
Proof. rewrite (so_ri _ SO). apply mri_last. Qed.

Lemma import_row_inv : forall entries row, import_row entries = Ok row -> forall n jv, In (n, jv) entries -> entry_error sc n jv = None.
Proof.
  intros entries row E n jv I. destruct (entry_error sc n jv) as [e|] eqn:EE; auto. exfalso.
  destruct (import_row_error sc SO entries (repeat 0%Z R)) as (e' & X); [apply repeat_length|exists n, jv; split; [auto|congruence]|].
  unfold import_row in E. congruence.
Qed.

Lemma round_trip_row : forall entries row, ranges_fit sc -> keys_once entries -> import_row entries = Ok row ->
  exists out, foldM (export_cell sc row) (combine (seq 0 (length (sc_names sc))) (sc_names sc)) [] = Ok out /\
    keys_once out /\
    (forall n, dget out n = match dget entries n with Some v => legal_value sc n v | None => None end) /\
    import_row out = Ok row.
Proof.
  intros entries row RF KO E.
  destruct (import_row_ok sc SO entries KO) as (row' & E' & L & C); [eapply import_row_inv; eauto|].
  assert (row' = row) by (unfold import_row, R in E; congruence). subst row'. clear E'.
  set (name v := nth v (sc_names sc) EmptyString) in *.
  set (d v := match dget (sc_index sc) (name v), dget entries (name v) with
              | Some u, Some jv => if u =? v then legal_value sc (name v) jv else None
              | _, _ => None end).
  destruct (export_fold sc SO row d) as (out & EO & KO' & G); auto.
  { intros v H. fold (name v). rewrite C by auto. unfold final_cell, d. fold (name v). destruct (dget (sc_index sc) (name v)) as [u|]; [|apply decode_zero].
    destruct (dget entries (name v)) as [jv|]; [|apply decode_zero]. destruct (u =? v); [|apply decode_zero]. now apply decode_encode. }
  { intros v x H. unfold d. fold (name v). destruct (dget (sc_index sc) (name v)) as [u|]; [|discriminate]. destruct (dget entries (name v)); [|discriminate].
    destruct (Nat.eqb_spec u v) as [->|]; [auto|discriminate]. }
  exists out. split; auto. split; auto.
  assert (G' : forall n, dget out n = match dget entries n with Some v => legal_value sc n v | None => None end).
  { intros n. rewrite G. destruct (dget (sc_index sc) n) as [v|] eqn:I.
    - destruct (index_pos sc SO n v I) as (Hv & Nv). unfold d. fold (name v) in Nv. rewrite Nv, I, Nat.eqb_refl. destruct (dget entries n); auto.
    - destruct (dget entries n) as [v|]; auto. unfold legal_value. destruct (dget (sc_types sc) n) as [t|] eqn:T; auto. exfalso.
      assert (J : In n (sc_names sc)) by (apply (so_typed _ SO); eauto). apply (so_index _ SO) in J. destruct J as (p & J). congruence. }
  split; auto.
  destruct (import_row_ok sc SO out KO') as (row2 & E2 & L2 & C2).
  { intros n jv I. apply tame_ok. apply In_dget in I; auto. rewrite G' in I. destruct (dget entries n); [|discriminate]. eapply legal_tame; eauto. }
  unfold import_row, R. rewrite E2. f_equal. apply (row_ext (widths sc)); auto. intros v Hv.
  assert (Hv' : v < length (sc_names sc)) by (unfold widths in Hv; rewrite map_length in Hv; auto).
  rewrite C, C2 by auto. unfold final_cell. rewrite G'. fold (name v). destruct (dget (sc_index sc) (name v)) as [u|] eqn:I; auto.
  destruct (dget entries (name v)) as [jv|]; auto. destruct (Nat.eqb_spec u v) as [->|].
  - rewrite (encode_legal sc (name v) jv). assert (W := ws_nth sc v Hv'). cbv zeta in W. fold (name v) in W.
    destruct (legal_value sc (name v) jv) as [x|]; auto.
  - destruct (legal_value sc (name v) jv); auto.
Qed.

Lemma C41_proof : forall rows data, ranges_fit sc -> (forall r, In r rows -> keys_once r) -> import_rows sc (Rows rows) = Ok data ->
  exists out, export_rows sc R data = Ok out /\ length out = length rows /\
    (forall i n, i < length rows -> keys_once (nth i out []) /\
       dget (nth i out []) n = match dget (nth i rows []) n with Some v => legal_value sc n v | None => None end) /\
    import_rows sc (Rows out) = Ok data.
Proof.
  intros rows data RF KO E. unfold import_rows in *. rewrite last_ri in *. cbn [bind] in *. apply mapM_two in E.
  assert (B : forall row, In row data -> exists out, foldM (export_cell sc row) (combine (seq 0 (length (sc_names sc))) (sc_names sc)) [] = Ok out) .
  { intros row I. apply In_nth with (d := []) in I. destruct I as (i & Hi & <-). rewrite <- (Forall2_len2 _ _ _ _ _ E) in Hi.
    assert (X := Forall2_nth2 _ _ _ _ _ i [] [] E Hi). cbn beta in X. destruct (round_trip_row _ _ RF (KO _ (nth_In _ _ Hi)) X) as (out & O & _). eauto. }
  destruct (Forall2_build _ _ (fun row out => foldM (export_cell sc row) (combine (seq 0 (length (sc_names sc))) (sc_names sc)) [] = Ok out) data B) as (out & F).
  exists out. assert (L1 := Forall2_len2 _ _ _ _ _ E). assert (L2 := Forall2_len2 _ _ _ _ _ F).
  assert (PT : forall i, i < length rows -> keys_once (nth i out []) /\
     (forall n, dget (nth i out []) n = match dget (nth i rows []) n with Some v => legal_value sc n v | None => None end) /\
     foldM (import_cell sc) (nth i out []) (repeat 0%Z R) = Ok (nth i data [])).
  { intros i Hi. assert (X := Forall2_nth2 _ _ _ _ _ i [] [] E Hi). cbn beta in X.
    destruct (round_trip_row _ _ RF (KO _ (nth_In _ _ Hi)) X) as (o & O & K & G & I).
    assert (Y := Forall2_nth2 _ _ _ _ _ i [] [] F). cbn beta in Y. rewrite <- L1 in Y. specialize (Y Hi).
    assert (o = nth i out []) by (rewrite O in Y; now injection Y). subst o. auto. }
  split; [|split; [exact (eq_trans (eq_sym L2) (eq_sym L1))|split]].
  - unfold export_rows. rewrite last_ri. cbn [bind]. rewrite Nat.eqb_refl. cbn [assert_ bind]. now apply mapM_two.
  - intros i n Hi. destruct (PT i Hi) as (A & B' & _). auto.
  - apply mapM_two. assert (G : forall (l : list jrow) m, length l = length m -> (forall i, i < length l -> foldM (import_cell sc) (nth i l []) (repeat 0%Z R) = Ok (nth i m [])) ->
       Forall2 (fun a b => foldM (import_cell sc) a (repeat 0%Z R) = Ok b) l m).
    { clear. induction l as [|a l IH]; intros [|b m] L H; try discriminate; constructor.
      - exact (H 0 (Nat.lt_0_succ _)).
      - apply IH; [now injection L|]. intros i Hi. apply (H (S i)). cbn. lia. }
    apply G; [exact (eq_sym L2)|]. intros i Hi. apply PT. exact (eq_ind_r (fun k => i < k) Hi (eq_trans L1 L2)).
Qed.

Lemma C42_partial : forall rows, (forall r n v, In r rows -> In (n, v) r -> tame v) -> (forall r, In r rows -> keys_once r) ->
  exists data, import_rows sc (Rows rows) = Ok data /\ length data = length rows /\
    import_rows sc (Rows (map (filter (fun '(n, v) => match legal_value sc n v with Some _ => true | None => false end)) rows)) = Ok data.
Proof.
  intros rows T KO. unfold import_rows. rewrite last_ri. cbn [bind].
  destruct (Forall2_build _ _ (fun entries row => foldM (import_cell sc) entries (repeat 0%Z R) = Ok row) rows) as (data & F).
  { intros r I. destruct (import_row_ok sc SO r (KO r I)) as (row & E & _); [intros; apply tame_ok; eauto|]. exists row. exact E. }
  exists data. split; [now apply mapM_two|]. split; [symmetry; eapply Forall2_len2; eauto|]. apply mapM_two.
  assert (G : forall l m, Forall2 (fun entries row => foldM (import_cell sc) entries (repeat 0%Z R) = Ok row) l m -> (forall r, In r l -> In r rows) ->
    Forall2 (fun entries row => foldM (import_cell sc) entries (repeat 0%Z R) = Ok row)
      (map (filter (fun '(n, v) => match legal_value sc n v with Some _ => true | None => false end)) l) m).
  { induction 1 as [|e r l m E F' IH]; intros SUB; cbn; constructor.
    - rewrite <- import_row_filter; auto; [apply repeat_length|]. intros n jv I. apply tame_ok. eapply T; [apply SUB; now left|exact I].
    - apply IH. intros. apply SUB. now right. }
  apply G; auto.
Qed.

(** csv rows. *)
Lemma header_meta_ok : forall n, exists m, header_meta sc n = Ok m /\
  match m with
  | None => dget (sc_types sc) n = None /\ dget (sc_index sc) n = None
  | Some (n', t, pos, ci, rg) => dget (sc_types sc) n = Some t /\ (exists v, dget (sc_index sc) n = Some v /\ get IndexError (sc_ri sc) v = Ok pos) /\
      ci = dget (sc_cat_index sc) n /\ rg = dget (sc_ranges sc) n
  end.
Proof.
  intros n. unfold header_meta. destruct (dget (sc_types sc) n) as [t|] eqn:T.
  - assert (I : In n (sc_names sc)) by (apply (so_typed _ SO); eauto). apply (so_index _ SO) in I. destruct I as (v & I).
    unfold dget_. rewrite I. cbn [bind]. destruct (index_pos sc SO n v I) as (Hv & _).
    rewrite (so_ri _ SO), mri_get by (unfold widths; rewrite map_length; lia). cbn [bind]. eexists. split; [reflexivity|]. cbn. split; auto. split; auto.
    exists v. split; auto. apply mri_get. unfold widths. rewrite map_length. lia.
  - exists None. split; auto. split; auto. destruct (dget (sc_index sc) n) eqn:I; auto. exfalso.
    assert (J : In n (sc_names sc)) by (apply (so_index _ SO); eauto). apply (so_typed _ SO) in J. destruct J as (t & J). congruence.
Qed.

Lemma load_cell_import : forall row c n m value, header_meta sc n = Ok m -> normalize_string value <> EmptyString ->
  exists c', load_cell (row, c) (value, m) = (r <- import_cell sc row (n, JStr (normalize_string value)) ;; Ok (r, c' r)).
Proof.
  intros row c n m value HM NE. destruct (header_meta_ok n) as (m' & HM' & P). rewrite HM in HM'. injection HM' as <-.
  unfold load_cell. cbn [fst snd]. unfold import_cell. destruct m as [((((n', t), pos), ci), rg)|].
  - destruct P as (T & (v & I & G) & -> & ->). rewrite I, G. cbn [bind]. unfold dget_. rewrite T. cbn [bind].
    destruct (String.eqb_spec (normalize_string value) EmptyString) as [Q|_]; [contradiction|]. destruct t.
    + destruct (so_cat _ SO n T) as (vs & ix & CV & CI & _). rewrite CI. cbn [bind].
      destruct (write_categorical row pos ix (JStr (normalize_string value))) as [[r|]|e]; cbn [bind].
      * exists (fun _ => S c). reflexivity.
      * exists (fun _ => c). reflexivity.
      * exists (fun _ => c). reflexivity.
    + destruct (so_ord _ SO n T) as (lo & hi & RG & _). rewrite RG. cbn [bind].
      destruct (write_ordinal row pos (lo, hi) (JStr (normalize_string value))) as [[r|]|e]; cbn [bind].
      * exists (fun _ => S c). reflexivity.
      * exists (fun _ => c). reflexivity.
      * exists (fun _ => c). reflexivity.
  - destruct P as (T & I). rewrite I. exists (fun _ => c). reflexivity.
Qed.

Lemma load_row_import : forall header metas, Forall2 (fun n m => header_meta sc n = Ok m) header metas ->
  forall ext row c, (x <- foldM load_cell (combine ext metas) (row, c) ;; Ok (fst x)) = foldM (import_cell sc) (csv_entries header ext) row.
Proof.
  induction 1 as [|n m header metas HM F IH]; intros ext row c.
  - destruct ext; reflexivity.
  - destruct ext as [|value ext]; [reflexivity|]. unfold csv_entries. cbn [combine map filter foldM].
    destruct (string_dec (normalize_string value) EmptyString) as [E|E].
    + assert (LC : load_cell (row, c) (value, m) = Ok (row, c)).
      { unfold load_cell. cbn [fst snd]. destruct m as [((((n', t), pos), ci), rg)|]; auto. rewrite E. reflexivity. }
      rewrite LC. cbn [bind]. rewrite E. cbn [String.eqb negb]. apply IH.
    + destruct (load_cell_import row c n m value HM E) as (c' & LC). rewrite LC.
      assert (NB : negb (String.eqb (normalize_string value) EmptyString) = true) by (destruct (String.eqb_spec (normalize_string value) EmptyString); auto).
      rewrite NB. cbn [foldM]. destruct (import_cell sc row (n, JStr (normalize_string value))) as [r|e]; [|reflexivity]. cbn [bind]. apply IH.
Qed.

Lemma csv_entries_once : forall header row, NoDup header -> keys_once (csv_entries header row).
Proof.
  intros header row N. unfold keys_once, csv_entries.
  assert (A : forall (k : string) (l row : list string), In k (map fst (filter (fun '(_, v) => match v with JStr s => negb (String.eqb s EmptyString) | _ => true end)
     (map (fun '(name, value) => (name, JStr (normalize_string value))) (combine l row)))) -> In k l).
  { clear. intros k l. induction l as [|x l IH]; intros [|y row]; cbn; try tauto. destruct (negb (String.eqb (normalize_string y) EmptyString)); cbn; intros H.
    - destruct H as [H|H]; eauto.
    - right. eauto. }
  revert row. induction N as [|x l NI N IH]; intros [|y row]; cbn; try constructor.
  destruct (negb (String.eqb (normalize_string y) EmptyString)); cbn; [|apply IH]. constructor; [|apply IH]. intros I. apply NI. eauto.
Qed.
Lemma csv_entries_str : forall header row n v, In (n, v) (csv_entries header row) -> exists s, v = JStr s.
Proof.
  intros header row n v I. unfold csv_entries in I. apply filter_In in I. destruct I as [I _]. apply in_map_iff in I. destruct I as ((a, b) & E & _).
  injection E as <- <-. eauto.
Qed.

Lemma C43_proof : forall header rows, sc_names sc <> [] -> NoDup header -> rows <> [] ->
  exists data, load_data sc (header :: rows) = Ok data /\ length data = length rows /\
    (forall r, In r rows -> keys_once (csv_entries header r)) /\
    import_rows sc (Rows (map (csv_entries header) rows)) = Ok data.
Proof.
  intros header rows NN ND NE.
  destruct (C42_partial (map (csv_entries header) rows)) as (data & E & L & _).
  { intros r n v I J. apply in_map_iff in I. destruct I as (x & <- & _). apply csv_entries_str in J. destruct J as (s & ->). exact Logic.I. }
  { intros r I. apply in_map_iff in I. destruct I as (x & <- & _). now apply csv_entries_once. }
  exists data. rewrite map_length in L. split; [|split; [auto|split; [intros; now apply csv_entries_once|auto]]].
  destruct (Forall2_build _ _ (fun n m => header_meta sc n = Ok m) header) as (metas & FM).
  { intros n _. destruct (header_meta_ok n) as (m & M & _). eauto. }
  unfold load_data. rewrite last_ri. cbn [bind next_row]. rewrite (proj2 (mapM_two _ _ _ _ _) FM). cbn [bind].
  unfold import_rows in E. rewrite last_ri in E. cbn [bind] in E. apply mapM_two in E.
  assert (X : exists out, mapM (load_csv_row R metas) rows = Ok out /\ map fst out = data).
  { clear NE L. revert data E. induction rows as [|r rows IH]; intros data E; cbn [map] in E; inversion E as [|? d ? ds E1 E2]; subst.
    - exists []. auto.
    - destruct (IH ds E2) as (out & O & M). assert (Y := load_row_import header metas FM r (repeat 0%Z R) 0). rewrite E1 in Y.
      cbn [mapM]. unfold load_csv_row at 1. destruct (foldM load_cell (combine r metas) (repeat 0%Z R, 0)) as [(a, b)|]; [|discriminate]. cbn [bind] in *.
      injection Y as Y. cbn in Y. rewrite O. cbn [bind]. exists ((a, b) :: out). split; auto. cbn. now rewrite Y, M. }
  destruct X as (out & O & M). rewrite O. cbn [bind].
  destruct out as [|o out]; [destruct rows; [congruence|]; cbn in M; subst data; discriminate|].
  destruct (sc_types sc) as [|q types] eqn:TY.
  - exfalso. destruct (sc_names sc) as [|n names] eqn:N; [congruence|]. destruct (proj1 (so_typed _ SO n)) as (t & T); [rewrite N; now left|].
    rewrite TY in T. discriminate.
  - rewrite M. reflexivity.
Qed.
End Schema.

(** Groups. *)
Lemma groups_none : forall float_ types_csv values_csv sc, load_schema float_ types_csv values_csv None = Ok sc ->
  let V := length (sc_names sc) in sc_prior sc = repeat 0%R (V * (V - 1) / 2) /\
  forall header rows, 4 <= length header -> map lower (firstn 4 header) = ["group"; "logit"; "source"; "target"]%string ->
    ((forall row, In row rows -> length row < 4) -> load_schema float_ types_csv values_csv (Some (header :: rows)) = Ok sc) /\
    ((exists row, In row rows /\ 4 <= length row) -> load_schema float_ types_csv values_csv (Some (header :: rows)) = Raise ValueError).
Proof.
  intros float_ types_csv values_csv sc E V.
  unfold load_schema in E |- *. destruct (load_types types_csv) as [(names, types)|]; [|discriminate]. cbn [bind] in *.
  destruct (load_values types values_csv) as [(cats, ords)|]; [|discriminate]. cbn [bind] in *.
  destruct names as [|n0 names0]; [discriminate|]. set (names := n0 :: names0) in *. clearbody names. cbn [load_groups bind] in E.
  destruct (value_indices types cats ords) as [((cv, ci), ranges)|] eqn:VI; [|discriminate]. cbn [bind] in E.
  destruct (ragged_layout names types cv) as [(ri, index)|] eqn:RL; [|discriminate]. cbn [bind] in E.
  unfold load_prior in E. cbn [foldM bind] in E. injection E as <-. cbn [sc_names] in V. split; [reflexivity|].
  intros header rows HL HH. destruct header as [|h0 [|h1 [|h2 [|h3 hs]]]]; cbn in HL; try lia. cbn [firstn map] in HH. injection HH as H0 H1 H2 H3.
  set (step := fun '(logits, sources, targets) (row : list string) =>
      if length row <? 4 then Ok (logits, sources, targets)
      else
        match firstn 3 row with
        | [group; logit; source; target] =>
          logits <- (if String.eqb logit EmptyString then Ok logits
                     else match float_ logit with None => Raise ValueError | Some x => Ok (dset logits group x) end) ;;
          let sources := if String.eqb source EmptyString then sources
                         else dset sources group (str_add (dget_default sources group []) source) in
          let targets := if String.eqb target EmptyString then targets
                         else dset targets group (str_add (dget_default targets group []) target) in
          Ok (logits, sources, targets)
        | _ => Raise ValueError
        end : result groups).
  assert (LG : load_groups float_ (Some ((h0 :: h1 :: h2 :: h3 :: hs) :: rows)) = foldM step rows ([], [], [])).
  { unfold load_groups. cbn [next_row bind]. unfold check_header. cbn [get nth_error bind]. rewrite H0, H1, H2, H3. reflexivity. }
  assert (SH : forall s row, length row < 4 -> step s row = Ok s).
  { intros ((a, b), c) row L. unfold step. now rewrite (proj2 (Nat.ltb_lt _ _) L). }
  assert (LO : forall s row, 4 <= length row -> step s row = Raise ValueError).
  { intros ((a, b), c) row L. unfold step. rewrite (proj2 (Nat.ltb_ge _ _) L). destruct row as [|x [|y [|z t]]]; reflexivity. }
  rewrite LG. split.
  - intros S. assert (F : foldM step rows ([], [], []) = Ok ([], [], [])).
    { clear LG; generalize (([], [], []) : groups). induction rows as [|r rows IH]; intros g; auto. cbn [foldM]. rewrite SH by (apply S; now left). cbn [bind]. apply IH. intros; apply S; now right. }
    rewrite F. cbn [bind]. rewrite ?VI; cbn [bind]; rewrite ?RL; reflexivity.
  - intros (row & I & L). assert (F : forall g, foldM step rows g = Raise ValueError).
    { clear LG. induction rows as [|r rows IH]; intros g; [destruct I|]. cbn [foldM]. destruct (Nat.lt_ge_cases (length r) 4) as [Q|Q].
      - rewrite SH by auto. cbn [bind]. apply IH. destruct I as [->|I]; [lia|auto].
      - now rewrite LO. }
    now rewrite F.
Qed.

(** A small schema, loaded from files. *)
Definition ex_types : list (list string) := [["name"; "type"]; ["genre"; "categorical"]; ["title"; ""]; ["rating"; "ordinal"]]%string.
Definition ex_values : list (list string) := [["name"; "value"; "count"]; ["genre"; "drama"; "3"]; ["genre"; "family"; "2"]; ["genre"; "noir"; "2"]; ["rating"; "5"; "3"]; ["rating"; "2"; "2"]]%string.
Definition ex_schema : schema :=
  match load_schema (fun _ => None) ex_types ex_values None with Ok sc => sc | Raise _ => Schema [] [] [] [] [] [] [] [] end.
Lemma ex_schema_loads : load_schema (fun _ => None) ex_types ex_values None = Ok ex_schema.
Proof. reflexivity. Qed.
Lemma ex_schema_ok : schema_ok ex_schema /\ ranges_fit ex_schema.
Proof.
  destruct (load_schema_spec _ _ _ _ _ ex_schema_loads) as (_ & _ & _ & S & _). split; auto.
  intros n lo hi. change (sc_ranges ex_schema) with [("rating"%string, (2, 5)%Z)]. cbn [dget]. destruct (String.eqb n "rating"); [|discriminate]. intros E. injection E as <- <-. lia.
Qed.
Lemma C42_refutation : schema_ok ex_schema /\
  import_rows ex_schema (Rows [[("genre", JStr "noir"); ("rating", JNone)]]%string) = Raise TypeError /\
  import_rows ex_schema (Rows [[("rating", JInf false)]]%string) = Raise OverflowError /\
  import_rows ex_schema (Rows [[("genre", JList [])]]%string) = Raise TypeError.
Proof. split; [apply ex_schema_ok|]. repeat split. Qed.

(** Schemas whose ranges do not fit. *)
Definition one_ordinal (lo hi : string) : list (list string) * list (list string) :=
  ([["name"; "type"]; ["r"; "ordinal"]]%string, [["name"; "value"]; ["r"; lo]; ["r"; hi]]%string).
Definition schema_of (files : list (list string) * list (list string)) : schema :=
  match load_schema (fun _ => None) (fst files) (snd files) None with Ok sc => sc | Raise _ => Schema [] [] [] [] [] [] [] [] end.
Lemma C41_constant : exists types_csv values_csv sc data,
  load_schema (fun _ => None) types_csv values_csv None = Ok sc /\
  legal_value sc "r" (JInt 3) = Some (JInt 3) /\
  import_rows sc (Rows [[("r"%string, JInt 3)]]) = Ok data /\ export_rows sc 2 data = Ok [[]].
Proof. exists (fst (one_ordinal "3" "3")), (snd (one_ordinal "3" "3")), (schema_of (one_ordinal "3" "3")), [[0; 0]%Z]. repeat split. Qed.
Lemma C41_wide : exists types_csv values_csv sc data,
  load_schema (fun _ => None) types_csv values_csv None = Ok sc /\
  legal_value sc "r" (JInt 200) = Some (JInt 200) /\
  import_rows sc (Rows [[("r"%string, JInt 200)]]) = Ok data /\ export_rows sc 2 data = Raise AssertionError.
Proof. exists (fst (one_ordinal "0" "300")), (snd (one_ordinal "0" "300")), (schema_of (one_ordinal "0" "300")), [[-56; 100]%Z]. repeat split. Qed.
Lemma C41_repeated : exists sc header row data, schema_ok sc /\ ranges_fit sc /\
  load_data sc [header; row] = Ok data /\ export_rows sc (list_sum (widths sc)) data = Raise AssertionError.
Proof.
  exists ex_schema, ["genre"; "genre"]%string, ["drama"; "noir"]%string, [[1; 0; 1; 0; 0]%Z]. split; [apply ex_schema_ok|]. split; [apply ex_schema_ok|].
  split; reflexivity.
Qed.

Lemma C42_unknown : forall sc row n v, schema_ok sc -> ~ In n (sc_names sc) ->
  import_rows sc (Rows [(n, v) :: row]) = import_rows sc (Rows [row]).
Proof.
  intros sc row n v SO NI. unfold import_rows. rewrite (last_ri sc SO). cbn [bind mapM foldM import_cell].
  destruct (dget (sc_index sc) n) eqn:I; [|reflexivity]. exfalso. apply NI. apply (so_index _ SO). eauto.
Qed.

Lemma C47_flat : forall float_ types_csv values_csv sc, load_schema float_ types_csv values_csv None = Ok sc ->
  let V := length (sc_names sc) in sc_prior sc = repeat 0%R (V * (V - 1) / 2) /\
  forall header rows, 4 <= length header -> map lower (firstn 4 header) = ["group"; "logit"; "source"; "target"]%string ->
    (forall row, In row rows -> length row < 4) -> load_schema float_ types_csv values_csv (Some (header :: rows)) = Ok sc.
Proof.
  intros f t v sc E V. destruct (groups_none f t v sc E) as (A & B). split; auto. intros h rows L H. exact (proj1 (B h rows L H)).
Qed.

Lemma C48_ok : forall float_ types_csv values_csv groups_csv sc, load_schema float_ types_csv values_csv groups_csv = Ok sc -> schema_ok sc.
Proof. intros f t v g sc E. exact (proj1 (proj2 (proj2 (proj2 (load_schema_spec f t v g sc E))))). Qed.

Lemma C48_proof : forall float_ types_csv values_csv groups_csv sc,
  load_schema float_ types_csv values_csv groups_csv = Ok sc ->
  let names := sc_names sc in let V := length names in
  names = map (cell 0) (listed types_csv) /\ names <> [] /\
  (forall n t, dget (sc_types sc) n = Some t <-> listed_type types_csv n t) /\
  (forall n, In n names <-> exists t, dget (sc_types sc) n = Some t) /\
  length (sc_ri sc) = S V /\ nth 0 (sc_ri sc) 0 = 0 /\
  (forall v, v < V -> exists t, dget (sc_types sc) (nth v names EmptyString) = Some t /\
     nth (S v) (sc_ri sc) 0 = nth v (sc_ri sc) 0 +
       match t with Ordinal => 2 | Categorical => length (listed_values values_csv (nth v names EmptyString)) end) /\
  (forall n p, dget (sc_index sc) n = Some p <-> nth_error names p = Some n /\ forall q, nth_error names q = Some n -> q <= p) /\
  (forall n, dget (sc_types sc) n = Some Categorical -> dget (sc_cat_values sc) n = Some (listed_values values_csv n)) /\
  (forall n, dget (sc_types sc) n = Some Ordinal -> exists zs lo hi,
     map int_of_str (listed_values values_csv n) = map Some zs /\ dget (sc_ranges sc) n = Some (lo, hi) /\
     In lo zs /\ In hi zs /\ forall z, In z zs -> (lo <= z <= hi)%Z).
Proof.
  intros f t v g sc E names V. destruct (load_schema_spec f t v g sc E) as (A & B & C & SO & L & CV & OR & _).
  assert (LW : length (widths sc) = V) by (unfold widths; now rewrite map_length).
  assert (NR : forall k, k <= V -> nth k (sc_ri sc) 0 = list_sum (firstn k (widths sc))).
  { intros k K. apply nth_error_nth. rewrite (so_ri _ SO). apply mri_nth. lia. }
  split; [exact A|]. split; [exact B|]. split; [exact C|]. split; [exact (so_typed _ SO)|].
  split; [rewrite (so_ri _ SO), mri_length, LW; reflexivity|]. split; [rewrite NR by lia; reflexivity|]. split.
  { intros k K. destruct (proj1 (so_typed _ SO (nth k names EmptyString)) (nth_In _ _ K)) as (ty & T). exists ty. split; auto.
    rewrite !NR by lia. rewrite sum_firstn_S by lia. f_equal. rewrite (ws_nth sc k K). unfold feature_width. fold names. rewrite T.
    destruct ty; auto. now rewrite (CV _ T). }
  split; [|split; auto].
  intros n p. split.
  - intros D. split; [exact (so_pos _ SO _ _ D)|]. intros q Q. exact (L n p q D Q).
  - intros (P & M). assert (I : In n names) by (eapply nth_error_In; eauto). apply (so_index _ SO) in I. destruct I as (p' & D).
    assert (p' <= p) by (apply M; exact (so_pos _ SO _ _ D)). assert (p <= p') by (exact (L n p' p D P)). rewrite D. f_equal. lia.
Qed.

(** C42: numbers are read as the integers they stand for. *)
Lemma stands_py_int : forall v z, stands_for v z -> py_int v = Ok z.
Proof.
  intros [s|y|b|q| | | | |] z H; cbn [stands_for py_int] in *; try contradiction.
  - rewrite H. reflexivity.
  - now subst.
  - now subst.
  - f_equal. destruct q as [n d]. unfold Qle_bool, Qle, Qlt, inject_Z in H. cbn in H |- *.
    pose proof (Pos2Z.is_pos d) as D. rewrite ?Z.mul_1_r in H.
    destruct (0 <=? n)%Z eqn:E.
    + apply Z.leb_le in E. rewrite Z.quot_div_nonneg by lia. symmetry. apply (Z.div_unique_pos n (Zpos d) z (n - Zpos d * z)); lia.
    + apply Z.leb_gt in E. replace n with (- - n)%Z by lia. rewrite Z.quot_opp_l by lia. rewrite Z.quot_div_nonneg by lia.
      enough (- z = - n / Zpos d)%Z by lia. apply (Z.div_unique_pos (- n) (Zpos d) (- z) (- n + Zpos d * z)); lia.
Qed.
Lemma C42_numbers : forall sc n v z, dget (sc_types sc) n = Some Ordinal -> stands_for v z ->
  legal_value sc n v = legal_value sc n (JInt z) /\
  forall before after pre post, import_rows sc (Rows (before ++ (pre ++ (n, v) :: post) :: after)) =
    import_rows sc (Rows (before ++ (pre ++ (n, JInt z) :: post) :: after)).
Proof.
  intros sc n v z T Sf. apply stands_py_int in Sf. split.
  { unfold legal_value. rewrite T, Sf. reflexivity. }
  assert (C : forall row, import_cell sc row (n, v) = import_cell sc row (n, JInt z)).
  { intros row. unfold import_cell. destruct (dget (sc_index sc) n); [|reflexivity]. assert (D : dget_ (sc_types sc) n = Ok Ordinal) by (unfold dget_; now rewrite T). rewrite D.
    destruct (get IndexError (sc_ri sc) n0); [|reflexivity]. cbn [bind]. unfold write_ordinal. rewrite Sf. reflexivity. }
  intros before after pre post. unfold import_rows. destruct (last_index (sc_ri sc)) as [R|]; [|reflexivity]. cbn [bind].
  generalize (repeat 0%Z R). intros r0.
  assert (F : foldM (import_cell sc) (pre ++ (n, v) :: post) r0 = foldM (import_cell sc) (pre ++ (n, JInt z) :: post) r0).
  { revert r0. induction pre as [|e pre IH]; intros r0; cbn [app foldM].
    - rewrite C. reflexivity.
    - destruct (import_cell sc r0 e); [apply IH|reflexivity]. }
  induction before as [|b before IH]; cbn [app mapM].
  - rewrite F. reflexivity.
  - rewrite IH. reflexivity.
Qed.
