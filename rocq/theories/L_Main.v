From Coq Require Import String Ascii.
From Coq Require Import List Arith Lia Bool ZArith QArith Reals Lra Permutation Sorted.
From Verif Require Import Base Spec_MST M_Structure M_Rand M_Util M_Config M_Strings M_Format M_Training M_Ensemble M_Serving M_EnsembleServer M_DataServer M_Main
  Spec_Ragged Spec_Schema Spec_Guess Spec_Stats Spec_Conditional Spec_Model Spec_Ensemble Spec_Serving Spec_DataServer
  L_Base L_Dict L_Rand L_Ragged L_Schema L_Config L_Import L_Import2 L_Guess L_Guess2 L_Train L_Ensemble L_Serve1 L_DataServer L_DataServer2 L_DataServer3.
Import ListNotations.
Open Scope list_scope.
Open Scope nat_scope.

Section G.
Variables (g : generators) (lg : R -> R) (mst : list (list R) -> list (nat * nat)).
Hypothesis DL : draws_legally g.
Hypothesis MST : mst_contract mst.

Lemma train_model_consistent ws tb prior c st s :
  table_ok ws tb -> nonneg_data tb -> admissible c ->
  1 <= num_cols tb <= 2 ^ 15 -> length prior = num_cols tb * (num_cols tb - 1) / 2 ->
  key c "seed" = Ok s -> (exists x, np_seed g s = Ok x) -> (exists x, jit_seed g s = Ok x) ->
  exists m z sm, fst (train_model g lg mst tb prior c st) = Ok m /\ key c "model_num_clusters" = Ok z /\
    server_model tb m = Ok sm /\ consistent ws (num_cols tb) (Z.to_nat z) (num_rows tb) sm.
Proof.
  intros TK ND ((s' & Es) & (z & Ez & Hz) & ED & (ie & Ei & Hi) & (fe & Ef) & (ra & Er & Hr) & (es & Ee)) HV LP Es0 (x & Ex) (y & Ey).
  assert (HM : 1 <= Z.to_nat z <= 128) by lia.
  destruct (init_trainer tb prior (Z.to_nat z)) as [s0|e] eqn:E0.
  - set (cfg := Cfg (Z.to_nat z) (inject_Z ie) (Z.to_nat fe) (inject_Z ra) (negb (es =? 0)%Z)).
    assert (CO : config_ok cfg).
    { split; [exact HM|]. split; cbn [c_init_epochs c_tree_rate cfg]; change 1%Q with (inject_Z 1); rewrite <- Zle_Qle; auto. }
    pose proof (train_consistent ws tb prior lg mst cfg s0 TK ND CO MST E0) as AL.
    destruct (interp_always g _ _ DL AL (x, y)) as ([s1 logits] & st' & EI & CN).
    exists (Model c s1 logits), z, (model_of tb (Z.to_nat z) s1 logits). split; [|split; [exact Ez|split]].
    + unfold train_model, treecat_train. unfold cbind, from, ret. rewrite Ez, ED.
      replace (1 <=? z)%Z with true by (symmetry; apply Z.leb_le; lia). cbn [assert_ Z.leb Z.compare Z.eqb]. rewrite E0, Es0.
      destruct st as [a b]. cbn [set_random_seed]. rewrite Ex, Ey, Ei, Ef, Er, Ee. fold cfg. rewrite EI. reflexivity.
    + unfold server_model. cbn [m_config]. rewrite Ez. reflexivity.
    + exact CN.
  - exfalso. destruct (init_exists tb prior (Z.to_nat z) (proj2 HM) HV LP) as (s0 & E). congruence.
Qed.

Lemma seeded_key c i c' k : seeded c i c' -> k <> "seed"%string -> key c' k = key c k.
Proof. intros (_ & _ & H) N. unfold key. now rewrite H. Qed.
Lemma seeded_seed c i c' s : seeded c i c' -> key c "seed" = Ok s -> key c' "seed" = Ok (s + Z.of_nat i)%Z.
Proof. intros (_ & (v & A & B) & _). unfold key. rewrite A, B. intros E. injection E as <-. reflexivity. Qed.
Lemma seeded_admissible c i c' : seeded c i c' -> admissible c -> admissible c'.
Proof.
  intros SD ((s & Es) & A). split; [exists (s + Z.of_nat i)%Z; eapply seeded_seed; eauto|].
  rewrite !(seeded_key c i c') by (auto; discriminate). exact A.
Qed.

Lemma ensemble_consistent ws tb prior c s size threads workers events st :
  table_ok ws tb -> nonneg_data tb -> admissible c ->
  1 <= num_cols tb <= 2 ^ 15 -> length prior = num_cols tb * (num_cols tb - 1) / 2 ->
  key c "seed" = Ok s -> key c "model_ensemble_size" = Ok (Z.of_nat size) ->
  (forall i, i < size -> (exists x, np_seed g (s + Z.of_nat i)%Z = Ok x) /\ (exists x, jit_seed g (s + Z.of_nat i)%Z = Ok x)) ->
  Permutation (map snd events) (seq 0 size) ->
  exists ms sms z, fst (train_ensemble g lg mst threads workers events st tb prior [c] 0) = Ok ms /\ length sms = size /\
    mapM (server_model tb) ms = Ok sms /\ forall sm, In sm sms -> consistent ws (num_cols tb) (Z.to_nat z) (num_rows tb) sm.
Proof.
  intros TK ND AD HV LP Es En SEED PE.
  assert (exists v, lookup c "seed" = Some v) as (v & Hv).
  { unfold key in Es. destruct (lookup c "seed"); [eauto|discriminate]. }
  pose proof (ensemble_ok g lg mst threads workers events st tb prior [c] 0 c v size eq_refl Hv En PE) as EO.
  destruct (train_ensemble g lg mst threads workers events st tb prior [c] 0) as [out h']. destruct EO as (_ & EO). cbn [fst].
  assert (AD' := AD). destruct AD' as (_ & (z & Ez & _) & _).
  destruct out as [ms|e].
  - destruct EO as (L & H). exists ms.
    assert (P : forall l, (forall m, In m l -> exists i, i < size /\ nth_error ms i = Some m) ->
              exists sms, mapM (server_model tb) l = Ok sms /\ length sms = length l /\ forall sm, In sm sms -> consistent ws (num_cols tb) (Z.to_nat z) (num_rows tb) sm).
    { induction l as [|m l IH]; intros HI; [exists []; cbn; split; [reflexivity|]; split; [reflexivity|intros ? []]|].
      destruct (HI m (or_introl eq_refl)) as (i & Hi & Hm). destruct (H i m Hm) as (SD & TM).
      destruct (SEED i Hi) as (S1 & S2).
      destruct (train_model_consistent ws tb prior (m_config m) st _ TK ND (seeded_admissible _ _ _ SD AD) HV LP (seeded_seed _ _ _ _ SD Es) S1 S2)
        as (m' & z' & sm & E1 & E2 & E3 & CN). rewrite TM in E1. injection E1 as <-.
      rewrite (seeded_key _ _ _ "model_num_clusters"%string SD) in E2 by discriminate. assert (z' = z) by congruence. subst z'.
      destruct IH as (sms & F1 & F2 & F3); [intros; apply HI; now right|]. exists (sm :: sms). cbn [mapM]. rewrite E3, F1. cbn [bind].
      split; [reflexivity|]. split; [cbn [length]; now rewrite F2|]. intros x [<-|I]; auto. }
    destruct (P ms) as (sms & P1 & P2 & P3).
    { intros m I. apply In_nth_error in I. destruct I as (i & I). exists i. split; auto. rewrite <- L. apply nth_error_Some. congruence. }
    exists sms, z. split; [reflexivity|]. split; [congruence|]. split; auto.
  - exfalso. destruct EO as (i & c' & Hi & SD & TM). destruct (SEED i Hi) as (S1 & S2).
    destruct (train_model_consistent ws tb prior c' st _ TK ND (seeded_admissible _ _ _ SD AD) HV LP (seeded_seed _ _ _ _ SD Es) S1 S2)
        as (m' & z' & sm & E1 & _). rewrite TM in E1. discriminate.
Qed.
End G.

(** ** Imported datasets *)
Lemma import_data_prior : forall float_ csvs types values sc data, import_data float_ csvs types values None = Ok (sc, data) ->
  let V := length (sc_names sc) in length (sc_prior sc) = V * (V - 1) / 2.
Proof.
  intros float_ csvs types values sc data E. unfold import_data in E.
  destruct (load_schema float_ types values None) as [sc'|] eqn:LS; [|discriminate]. cbn [bind] in E.
  destruct (mapM (load_data sc') csvs) as [parts|] eqn:LP; [|discriminate]. cbn [bind] in E.
  destruct parts as [|p0 parts0] eqn:EP; [discriminate|].
  match type of E with (bind ?x _) = _ => destruct x as [chk|] eqn:MX; [|discriminate] end. cbn [bind] in E. injection E as -> _.
  destruct (C47_flat _ _ _ _ LS) as (-> & _). now rewrite repeat_length.
Qed.

Lemma imported_table_ok sc data : schema_ok sc -> (forall row, In row data -> good_row sc row) ->
  table_ok (widths sc) (imported_table (sc, data)) /\ nonneg_data (imported_table (sc, data)) /\ num_cols (imported_table (sc, data)) = length (sc_names sc).
Proof.
  intros SO DG. unfold imported_table, num_cols. cbn [tb_types]. rewrite repeat_length. split; [constructor; cbn [tb_types tb_ri tb_rows]|split; auto].
  - apply Forall_forall. intros t I. now apply repeat_spec in I.
  - unfold num_cols. cbn [tb_types]. rewrite repeat_length. apply ws_len.
  - apply SO.
  - apply Forall_forall. intros row I. exact (proj1 (DG row I)).
  - intros n r. unfold datum. cbn [tb_rows]. destruct (Nat.lt_ge_cases n (length data)) as [H|H].
    2:{ rewrite (nth_overflow data) by auto. destruct r; cbn; lia. }
    assert (I := nth_In data [] H). destruct (DG _ I) as (L & C). set (row := nth n data []) in *.
    destruct (Nat.lt_ge_cases r (length row)) as [Hr|Hr]; [|rewrite nth_overflow by auto; lia].
    rewrite L in Hr. destruct (proj1 (owns_exists (widths sc) r) Hr) as (v & Ow). pose proof Ow as (Hv & O1 & O2).
    assert (HV : v < length (sc_names sc)) by (rewrite <- (ws_len sc); exact Hv).
    assert (IC : In (nth r row 0%Z) (cellv (widths sc) row v)).
    { unfold cellv. apply in_map_iff. exists (r - list_sum (firstn v (widths sc))). split; [f_equal; lia|]. apply in_seq. lia. }
    destruct (C v HV) as [E|(_ & _ & P & _)]; [|now apply P]. rewrite E in IC. apply repeat_spec in IC. lia.
Qed.

Section Serve.
Variables (g : generators) (lg : R -> R) (mst : list (list R) -> list (nat * nat)).
Hypothesis DL : draws_legally g.
Hypothesis MST : mst_contract mst.

Lemma trained_and_served float_ csvs types values sc data threads workers events st options c s size :
  import_data float_ csvs types values None = Ok (sc, data) -> (forall csv, In csv csvs -> NoDup (hd [] csv)) -> ranges_fit sc ->
  length (sc_names sc) <= 2 ^ 15 -> make_config options = Ok c -> admissible c ->
  key c "seed" = Ok s -> key c "model_ensemble_size" = Ok (Z.of_nat size) -> 1 <= size ->
  (forall i, i < size -> (exists x, np_seed g (s + Z.of_nat i)%Z = Ok x) /\ (exists x, jit_seed g (s + Z.of_nat i)%Z = Ok x)) ->
  Permutation (map snd events) (seq 0 size) ->
  exists ensemble ms d, main_train g lg mst threads workers events st (sc, data) options = Ok ensemble /\
    mapM (server_model (imported_table (sc, data))) ensemble = Ok ms /\ length ms = size /\
    main_serve mst (sc, data) ensemble = Ok d /\ served sc data ms d.
Proof.
  intros E ND RF FIT MC AD Es En HS SEED PE. destruct (import_data_good _ _ _ _ _ _ _ E ND RF) as (SO & DN & DG & WP).
  destruct (imported_table_ok sc data SO DG) as (TK & NN & NC).
  assert (NE := import_data_names _ _ _ _ _ _ _ E). assert (LP := import_data_prior _ _ _ _ _ _ E). cbv zeta in LP.
  destruct (ensemble_consistent g lg mst DL MST (widths sc) (imported_table (sc, data)) (sc_prior sc) c s size threads workers events st)
    as (ms & sms & z & E1 & E2 & E3 & CN); auto.
  { rewrite NC. split; auto. destruct (sc_names sc); [congruence|cbn; lia]. }
  { now rewrite NC. }
  rewrite NC in CN. assert (SN : sms <> []) by (destruct sms; [cbn in E2; lia|discriminate]).
  destruct (served_exists _ _ _ _ _ _ _ _ _ sms mst E ND RF SN CN MST) as (d & ED & SV).
  exists ms, sms, d. split; [|split; [exact E3|split; [exact E2|split; [|exact SV]]]].
  - unfold main_train. rewrite MC. cbn [bind fst]. exact E1.
  - unfold main_serve. rewrite E3. cbn [bind serve_model]. exact ED.
Qed.
End Serve.

(** ** Guessed schemas *)
Lemma listed_row types row : In row (listed types) -> In row (tl types) /\ cell 1 row <> EmptyString.
Proof.
  unfold listed. rewrite filter_In, andb_true_iff, negb_true_iff. intros (I & _ & N). split; auto. intros X. rewrite X in N. discriminate.
Qed.

Lemma type_name_inj a b : type_name a = type_name b -> a = b.
Proof. destruct a, b; auto; discriminate. Qed.

Lemma distinct_ints (vs : list string) : NoDup vs -> (forall v, In v vs -> small_int v) ->
  (forall u v z, In u vs -> In v vs -> int_of_str u = Some z -> int_of_str v = Some z -> u = v) -> NoDup (map int_of_str vs).
Proof.
  induction vs as [|v vs IH]; intros ND SI SP; cbn [map]; [constructor|]. inversion ND as [|? ? NI NDt]. subst. constructor.
  - intros I. apply in_map_iff in I. destruct I as (u & E & I). apply NI.
    destruct (SI v (or_introl eq_refl)) as (z & Ez & _). rewrite Ez in E.
    replace v with u; auto. apply (SP u v z); auto; [now right|now left].
  - apply IH; auto; intros; [apply SI; now right|eapply SP; eauto; now right].
Qed.

Section Guessed.
Variables (files : list datafile) (types values : list (list string)) (sc : schema) (float_ : string -> option R).
Hypothesis GS : guess_schema files = Ok (types, values).
Hypothesis LS : load_schema float_ types values None = Ok sc.

Lemma guessed_typed : forall n t, dget (sc_types sc) n = Some t ->
  is_feature files n /\ 2 <= length (repeated files n) /\ (t = Ordinal -> forall v, In v (listed_values values n) -> small_int v).
Proof.
  intros n t T. destruct (load_schema_spec _ _ _ _ _ LS) as (_ & _ & TY & _). apply TY in T. destruct T as (b & row & a & EL & EN & ET & _).
  destruct (guess_main files types values GS) as ((_ & _ & NM) & TR & _).
  destruct (listed_row types row) as (I & N); [rewrite EL; apply in_or_app; right; now left|].
  destruct (TR row I) as (A1 & A2 & A3 & _). rewrite EN in *. split; [|split].
  - apply NM. rewrite <- EN. now apply in_map.
  - destruct (Nat.lt_ge_cases (length (repeated files n)) 2) as [H|H]; auto. exfalso. apply N. now apply A1.
  - intros ->. now apply A2.
Qed.

Lemma guessed_names : forall n, In n (sc_names sc) <-> is_feature files n /\ 2 <= length (repeated files n).
Proof.
  intros n. destruct (load_schema_spec _ _ _ _ _ LS) as (SN & _ & _ & SO & _). split.
  - intros I. apply (so_typed _ SO) in I. destruct I as (t & T). destruct (guessed_typed n t T) as (A & B & _). auto.
  - intros (A & B). destruct (guess_main files types values GS) as ((_ & _ & NM) & TR & _). apply NM in A. apply in_map_iff in A.
    destruct A as (row & EN & I). rewrite SN. apply in_map_iff. exists row. split; auto. destruct (TR row I) as (A1 & _). rewrite EN in A1.
    assert (N : cell 1 row <> EmptyString) by (intros X; apply A1 in X; lia).
    unfold listed. apply filter_In. split; auto. apply andb_true_iff. split.
    + apply Nat.leb_le. destruct row as [|x [|y row]]; cbn in N; try congruence. cbn. lia.
    + destruct (String.eqb_spec (cell 1 row) EmptyString); [congruence|reflexivity].
Qed.

Lemma guessed_width : forall n, In n (sc_names sc) -> 2 <= feature_width sc n.
Proof.
  intros n I. destruct (load_schema_spec _ _ _ _ _ LS) as (_ & _ & _ & SO & _ & CV & _). apply (so_typed _ SO) in I. destruct I as (t & T).
  destruct (guessed_typed n t T) as (A & B & _). unfold feature_width. rewrite T. destruct t; [|lia]. rewrite (CV n T).
  destruct (guess_main files types values GS) as (_ & _ & LV & _). destruct (LV n A) as (_ & L & _). rewrite L. apply Nat.min_glb; [lia|exact B].
Qed.

(** No two repeated values of a feature are spellings of one integer. *)
Hypothesis SPELL : forall n u v z, In u (repeated files n) -> In v (repeated files n) -> int_of_str u = Some z -> int_of_str v = Some z -> u = v.

Lemma guessed_fit : ranges_fit sc.
Proof.
  intros n lo hi R. destruct (load_schema_spec _ _ _ _ _ LS) as (_ & _ & _ & SO & _ & _ & OR & RO). assert (T := RO _ _ R).
  destruct (guessed_typed n Ordinal T) as (A & B & SI). specialize (SI eq_refl).
  destruct (OR n T) as (zs & lo' & hi' & EZ & R' & IL & IH & BD). rewrite R in R'. injection R' as <- <-.
  destruct (guess_main files types values GS) as (_ & _ & LV & _). destruct (LV n A) as (NDv & L & OC & _). set (vs := listed_values values n) in *.
  assert (REP : forall v, In v vs -> In v (repeated files n)).
  { intros v I. unfold repeated. apply filter_In. specialize (OC v I). split; [|now apply Nat.leb_le]. apply nodup_In. apply (count_occ_In string_dec). unfold occurrences in OC. lia. }
  assert (ND : NoDup zs).
  { assert (Q : NoDup (map int_of_str vs)).
    { apply distinct_ints; auto. intros u v z Iu Iv. apply (SPELL n); auto. }
    rewrite EZ in Q. clear - Q. induction zs as [|z zs IH]; [constructor|]. cbn [map] in Q. inversion Q as [|? ? NI NDt]. subst. constructor; auto.
    intros I. apply NI. now apply in_map. }
  assert (LZ : length zs = length vs) by (rewrite <- (map_length (@Some Z) zs), <- EZ, map_length; reflexivity).
  assert (SZ : forall z, In z zs -> (0 <= z <= 20)%Z).
  { intros z I. assert (J : In (Some z) (map int_of_str vs)) by (rewrite EZ; now apply in_map). apply in_map_iff in J. destruct J as (v & E & J).
    destruct (SI v J) as (z' & E' & BZ). assert (z' = z) by congruence. now subst. }
  assert (2 <= length zs) by (rewrite LZ, L; apply Nat.min_glb; [lia|exact B]).
  assert (lo <> hi).
  { intros X. subst hi. destruct zs as [|a [|b zs]]; cbn [length] in *; try lia. assert (a = lo) by (specialize (BD a (or_introl eq_refl)); lia).
    assert (b = lo) by (specialize (BD b (or_intror (or_introl eq_refl))); lia). inversion ND as [|? ? NI _]. apply NI. left. congruence. }
  specialize (BD lo IL) as B1. assert (B2 := SZ lo IL). assert (B3 := SZ hi IH). lia.
Qed.

Hypothesis NF : files <> [].
Hypothesis ROWS : forall f, In f files -> NoDup (header f) /\ tl (snd f) <> [].

Lemma guessed_import : exists data, import_data float_ (map snd files) types values None = Ok (sc, data) /\
  length data = list_sum (map (fun f => length (tl (snd f))) files).
Proof.
  destruct (load_schema_spec _ _ _ _ _ LS) as (_ & NN & _ & SO & _). unfold import_data. rewrite LS. cbn [bind].
  assert (P : forall l, (forall f, In f l -> In f files) -> exists parts, mapM (load_data sc) (map snd l) = Ok parts /\ length parts = length l /\
            length (concat parts) = list_sum (map (fun f => length (tl (snd f))) l) /\ forall part, In part parts -> forall row, In row part -> length row = list_sum (widths sc)).
  { induction l as [|f l IH]; intros HI; [exists []; cbn; split; [reflexivity|]; split; [reflexivity|]; split; [reflexivity|intros ? []]|].
    destruct IH as (parts & E & L1 & L2 & G); [intros; apply HI; now right|]. destruct (ROWS f (HI f (or_introl eq_refl))) as (ND & RN).
    destruct f as (nm, csv). cbn [snd header] in *. destruct csv as [|h rows]; [cbn in RN; congruence|]. cbn [tl] in RN.
    destruct (C43_proof sc SO h rows NN ND RN) as (data & E' & L' & KO & IM).
    exists (data :: parts). cbn [map snd mapM]. rewrite E'. cbn [bind]. rewrite E. cbn [bind]. split; [reflexivity|]. split; [cbn; now rewrite L1|]. split.
    { cbn [concat]. rewrite app_length, L2, L'. reflexivity. }
    intros part [<-|I]; [|now apply G]. intros row I.
    unfold import_rows in IM. rewrite (last_ri sc SO) in IM. cbn [bind] in IM. apply mapM_two in IM.
    apply In_nth with (d := []) in I. destruct I as (i & Hi & <-). assert (LL := Forall2_len2 _ _ _ _ _ IM). rewrite <- LL in Hi.
    assert (X := Forall2_nth2 _ _ _ _ _ i [] [] IM Hi). cbn beta in X.
    assert (J := nth_In _ [] Hi). apply in_map_iff in J. destruct J as (x & EX & J). rewrite <- EX in X.
    destruct (import_row_ok sc SO (csv_entries h x) (KO x J)) as (row' & E2 & L3 & _).
    { intros n jv I. eapply (import_row_inv sc SO); eauto. }
    assert (Q : Ok row' = Ok (nth i data [])) by (rewrite <- E2; exact X). injection Q as <-. exact L3. }
  destruct (P files (fun f I => I)) as (parts & E & L1 & L2 & G). rewrite E. cbn [bind].
  destruct parts as [|p ps] eqn:EP; [destruct files; [congruence|discriminate]|]. rewrite <- EP in *. clear p ps EP.
  exists (concat parts). split; auto.
  match goal with |- bind ?x _ = _ => assert (exists y, x = Ok y) as (y & ->) end; [|reflexivity].
  assert (T : forall A B (f : A -> result B) l, (forall a, In a l -> exists b, f a = Ok b) -> exists bs, mapM f l = Ok bs).
  { clear. intros A B f. induction l as [|a l IH]; intros H; cbn [mapM]; [eauto|]. destruct (H a (or_introl eq_refl)) as (b & ->). cbn [bind].
    destruct IH as (bs & ->); [intros; apply H; now right|]. cbn [bind]. eauto. }
  apply T. intros v I. apply in_seq in I. rewrite (so_ri _ SO), !mri_get by (rewrite ws_len; lia). cbn [bind]. apply T. intros row IR.
  apply in_concat in IR. destruct IR as (part & I1 & I2). rewrite cellv_slice.
  - assert (LC := cellv_length (widths sc) row v). assert (W := guessed_width (nth v (sc_names sc) EmptyString) ltac:(apply nth_In; lia)).
    rewrite <- (ws_nth sc v) in W by lia. destruct (cellv (widths sc) row v) as [|z cc]; [cbn in LC; lia|]. cbn. eauto.
  - exact (G part I1 row I2).
  - rewrite ws_len. lia.
Qed.
End Guessed.

Lemma guessed_bound files types values sc float_ : guess_schema files = Ok (types, values) -> load_schema float_ types values None = Ok sc ->
  length (sc_names sc) <= length (nodup string_dec (concat (map header files))).
Proof.
  intros GS LS. apply NoDup_incl_length.
  - destruct (load_schema_spec _ _ _ _ _ LS) as (-> & _). destruct (guess_main files types values GS) as ((ND & _) & _).
    unfold listed. clear - ND. induction (tl types) as [|r l IH]; cbn [filter map]; [constructor|]. cbn [map] in ND. inversion ND as [|? ? NI NDt]. subst.
    destruct (_ && _); auto. cbn [map]. constructor; auto. intros I. apply NI. apply in_map_iff in I. destruct I as (r' & <- & I). apply in_map. now apply filter_In in I.
  - intros n I. apply (guessed_names _ _ _ _ _ GS LS) in I. destruct I as ((f & I & J) & _). apply nodup_In. apply in_concat. exists (header f). split; auto. now apply in_map.
Qed.

Section Workflow.
Variables (g : generators) (lg : R -> R) (mst : list (list R) -> list (nat * nat)).

Lemma workflow_serves threads workers events st float_ files options c s size :
  draws_legally g -> mst_contract mst ->
  files <> [] -> (forall f, In f files -> NoDup (header f) /\ tl (snd f) <> []) ->
  length (nodup string_dec (concat (map header files))) <= 2 ^ 15 ->
  (exists n, is_feature files n /\ 2 <= length (repeated files n)) ->
  (forall n u v z, In u (repeated files n) -> In v (repeated files n) -> int_of_str u = Some z -> int_of_str v = Some z -> u = v) ->
  make_config options = Ok c -> admissible c ->
  key c "seed" = Ok s -> key c "model_ensemble_size" = Ok (Z.of_nat size) -> 1 <= size ->
  (forall i, i < size -> (exists x, np_seed g (s + Z.of_nat i)%Z = Ok x) /\ (exists x, jit_seed g (s + Z.of_nat i)%Z = Ok x)) ->
  Permutation (map snd events) (seq 0 size) ->
  exists sc data ms d, workflow g lg mst threads workers events st float_ files options = Ok d /\ served sc data ms d /\
    length ms = size /\ length data = list_sum (map (fun f => length (tl (snd f))) files) /\
    (forall n, In n (sc_names sc) <-> is_feature files n /\ 2 <= length (repeated files n)) /\
    forall n evidence, (forall e, evidence = Some e -> tame_row e) ->
      always (fun rows => length rows = n /\ forall row, In row rows -> full_row sc data row) (data_sample d n evidence).
Proof.
  intros DL MST NF ROWS FIT (n0 & F0 & R0) SPELL MC AD Es En HS SEED PE.
  destruct (guess_runs files) as (types & values & GS).
  { intros f I X. destruct (ROWS f I) as (_ & N). rewrite X in N. apply N. reflexivity. }
  destruct (guess_main files types values GS) as ((_ & _ & NM) & TR & _ & _ & LD).
  destruct (LD) with (float_ := float_) as (sc & LS).
  { apply NM in F0. apply in_map_iff in F0. destruct F0 as (row & EN & I). exists row. split; auto. intros X. destruct (TR row I) as (A1 & _).
    rewrite EN in A1. apply A1 in X. lia. }
  destruct (guessed_import files types values sc float_ GS LS SPELL NF ROWS) as (data & EI & LDt).
  assert (RF := guessed_fit files types values sc float_ GS LS SPELL).
  destruct (trained_and_served g lg mst DL MST float_ (map snd files) types values sc data threads workers events st options c s size)
    as (ens & ms & d & E1 & E2 & E3 & E4 & SV); auto.
  { intros csv I. apply in_map_iff in I. destruct I as (f & <- & I). destruct (ROWS f I) as (ND & _). unfold header in ND. destruct (snd f); auto; constructor. }
  { etransitivity; [eapply guessed_bound; eauto|exact FIT]. }
  exists sc, data, ms, d. split; [|split; [exact SV|split; [exact E3|split; [exact LDt|split]]]].
  - unfold workflow. rewrite GS. cbn [bind]. rewrite EI. cbn [bind]. rewrite E1. exact E4.
  - exact (guessed_names _ _ _ _ _ GS LS).
  - intros n evidence EV. exact (C39_proof sc data ms d n evidence SV EV).
Qed.

Lemma workflow_untyped threads workers events st float_ files options :
  (forall n, is_feature files n -> length (repeated files n) < 2) ->
  exists e, workflow g lg mst threads workers events st float_ files options = Raise e.
Proof.
  intros H. unfold workflow. destruct (guess_schema files) as [[types values]|e] eqn:GS; [|cbn [bind]; eauto]. cbn [bind]. unfold import_data.
  destruct (load_schema float_ types values None) as [sc|e] eqn:LS; [|cbn [bind]; eauto]. exfalso.
  destruct (load_schema_spec _ _ _ _ _ LS) as (_ & NN & _). destruct (sc_names sc) as [|n l] eqn:E; [congruence|].
  assert (I : In n (sc_names sc)) by (rewrite E; now left). apply (guessed_names _ _ _ _ _ GS LS) in I. destruct I as (F & R). specialize (H n F). lia.
Qed.
End Workflow.

(** ** A case *)
Definition main_files : list datafile :=
  [("a.csv", [["size"; "kind"; "id"]; ["3"; "cat"; "x"]; ["5"; "Dog"; "y"]; ["3"; "dog"; "z"]]);
   ("b.csv", [["kind"; "size"]; ["cat"; "5"]; ["dog"; ""]])]%string.

Lemma main_spell : forall n u v z, In u (repeated main_files n) -> In v (repeated main_files n) -> int_of_str u = Some z -> int_of_str v = Some z -> u = v.
Proof.
  intros n u v z Iu Iv Eu Ev.
  assert (N : n = "size"%string \/ n = "kind"%string \/ n = "id"%string).
  { unfold repeated in Iu. apply filter_In in Iu. destruct Iu as (Iu & _). apply nodup_In in Iu. unfold observations in Iu. apply filter_In in Iu.
    destruct Iu as (Iu & _). apply in_map_iff in Iu. destruct Iu as (c & _ & Iu). apply filter_In in Iu. destruct Iu as (I & E). apply String.eqb_eq in E. subst n.
    cbn in I. repeat (destruct I as [<-|I]; [cbn; auto|]). destruct I. }
  destruct N as [->|[->| ->]].
  - change (repeated main_files "size") with ["3"; "5"]%string in *. cbn in Iu, Iv. destruct Iu as [<-|[<-|[]]], Iv as [<-|[<-|[]]]; auto; vm_compute in Eu, Ev; congruence.
  - change (repeated main_files "kind") with ["cat"; "dog"]%string in *. cbn in Iu. destruct Iu as [<-|[<-|[]]]; vm_compute in Eu; discriminate.
  - change (repeated main_files "id") with (@nil string) in *. destruct Iu.
Qed.

Lemma main_case : exists c,
  make_config [("model_ensemble_size", PInt 3); ("model_num_clusters", PInt 4)]%string = Ok c /\ admissible c /\
  key c "seed" = Ok 0%Z /\ key c "model_ensemble_size" = Ok (Z.of_nat 3) /\
  draws_legally half_gen /\ mst_contract L_Estimate.naive_mst /\
  (forall f, In f main_files -> NoDup (header f) /\ tl (snd f) <> []) /\
  repeated main_files "size" = ["3"; "5"]%string /\ repeated main_files "kind" = ["cat"; "dog"]%string /\ repeated main_files "id" = [] /\
  exists sc data ms d, workflow half_gen (fun x => x) L_Estimate.naive_mst 2 (fun _ => (tt, tt)) [(0, 2); (1, 0); (0, 1)] (tt, tt) (fun _ => None) main_files
      [("model_ensemble_size", PInt 3); ("model_num_clusters", PInt 4)]%string = Ok d /\ served sc data ms d /\
    length ms = 3 /\ length data = 5 /\ In "size"%string (sc_names sc) /\ In "kind"%string (sc_names sc) /\ ~ In "id"%string (sc_names sc).
Proof.
  destruct (make_config [("model_ensemble_size", PInt 3); ("model_num_clusters", PInt 4)]%string) as [c|] eqn:MC; [|vm_compute in MC; discriminate].
  exists c. split; auto. assert (AD : admissible c /\ key c "seed" = Ok 0%Z /\ key c "model_ensemble_size" = Ok (Z.of_nat 3)).
  { vm_compute in MC. injection MC as <-. split; [|split; reflexivity].
    split; [eexists; reflexivity|]. split; [eexists; split; [reflexivity|cbn; lia]|]. split; [reflexivity|].
    split; [eexists; split; [reflexivity|cbn; lia]|]. split; [eexists; reflexivity|].
    split; [eexists; split; [reflexivity|cbn; lia]|]. eexists; reflexivity. }
  destruct AD as (AD & Es & En). do 3 (split; auto). split; [exact half_legal|]. split; [exact L_Estimate.naive_mst_contract|].
  assert (ROWS : forall f, In f main_files -> NoDup (header f) /\ tl (snd f) <> []).
  { intros f [<-|[<-|[]]]; (split; [cbn; repeat constructor; cbn; intuition discriminate|discriminate]). }
  split; [exact ROWS|]. split; [vm_compute; reflexivity|]. split; [vm_compute; reflexivity|]. split; [vm_compute; reflexivity|].
  destruct (workflow_serves half_gen (fun x => x) L_Estimate.naive_mst 2 (fun _ => (tt, tt)) [(0, 2); (1, 0); (0, 1)] (tt, tt) (fun _ => None) main_files
      [("model_ensemble_size", PInt 3); ("model_num_clusters", PInt 4)]%string c 0%Z 3 half_legal L_Estimate.naive_mst_contract)
    as (sc & data & ms & d & E & SV & LM & LD & NM & _); auto.
  - discriminate.
  - replace (length (nodup string_dec (concat (map header main_files)))) with 3 by (vm_compute; reflexivity). apply (Nat.le_trans _ (2 ^ 2)); [cbn; lia|]. apply Nat.pow_le_mono_r; lia.
  - exists "size"%string. split; [exists (hd ("", []) main_files)%string; split; [now left|now left]|]. vm_compute. lia.
  - exact main_spell.
  - intros i _. split; eexists; reflexivity.
  - cbn. apply (Permutation_trans (perm_skip 2 (Permutation_refl [0; 1]))). apply (Permutation_cons_append [0; 1] 2).
  - exists sc, data, ms, d. split; auto. split; auto. split; auto. split; [exact LD|]. rewrite !NM. split; [|split].
    + split; [exists (hd ("", []) main_files)%string; split; [now left|now left]|]. vm_compute. lia.
    + split; [exists (hd ("", []) main_files)%string; split; [now left|right; now left]|]. vm_compute. lia.
    + intros (_ & H). vm_compute in H. lia.
Qed.
