(** Lemmas about the commands of profile.py. *)
From Coq Require Import String.
From Coq Require Import List Arith ZArith QArith Reals Bool Permutation Lia.
From Verif Require Import Base L_Base Spec_MST M_Structure M_Rand L_Rand M_Util M_Config M_Strings M_Training M_Ensemble M_Serving M_Generate M_Validate M_Workflow M_Main M_Commands
  Spec_Ragged L_Ragged Spec_Stats Spec_Conditional Spec_Model Spec_Ensemble Spec_Serving Spec_Summary Spec_Generate Spec_Validate Spec_Workflow Spec_Commands
  L_Ensemble L_Serve1 L_Serve2 L_Median L_Summary L_Generate L_Generate2 L_Generate3 L_Validate L_Validate2 L_Validate3 L_Workflow L_Main.
From Verif Require M_Cache Spec_Cache L_Cache L_Config L_Estimate.
Import ListNotations.
Open Scope list_scope.
Open Scope nat_scope.

Lemma sum_bounds l : (forall x, In x l -> (0 <= x)%Z) -> forall x, In x l -> (x <= fold_right Z.add 0 l)%Z.
Proof.
  induction l as [|y l IH]; intros NN x I; [destruct I|]. cbn [fold_right].
  assert (0 <= fold_right Z.add 0 l)%Z.
  { clear IH x I. induction l as [|z l IH]; cbn [fold_right]; [lia|]. pose proof (NN z ltac:(right; now left)).
    assert (0 <= fold_right Z.add 0 l)%Z; [|lia]. apply IH. intros x [<-|I]; apply NN; [now left|right; now right]. }
  pose proof (NN y (or_introl eq_refl)). destruct I as [<-|I]; [lia|]. pose proof (IH (fun z Z => NN z (or_intror Z)) x I). lia.
Qed.

Lemma dataset_good draws a : counts_fit draws -> 1 <= Z.to_nat (M_Cache.a_cats a) ->
  let C := Z.to_nat (M_Cache.a_cats a) in let V := Z.to_nat (M_Cache.a_cols a) in
  exists tb, dataset_of draws a = Ok tb /\ table_ok (repeat C V) tb /\ nonneg_data tb /\ num_rows tb = Z.to_nat (M_Cache.a_rows a) /\ num_cols tb = V /\
    forall row v, In row (tb_rows tb) -> v < V -> (block_sum (repeat C V) row v <= 127)%Z.
Proof.
  intros CF HC C V. set (N := Z.to_nat (M_Cache.a_rows a)). fold C in HC.
  destruct (C60_proof (draws a) N V C HC) as (tb & E & TK & EN & EV & CL). { intros v n _ _. apply CF. }
  assert (CE : forall n v, n < N -> v < V -> cell C tb n v = draws a v n).
  { intros n v Hn Hv. apply (CL n v Hn Hv). intros x I. destruct (CF a v n) as (_ & NN & B). pose proof (sum_bounds _ NN x I). specialize (NN x I). lia. }
  exists tb. split; [exact E|]. split; [exact TK|]. split; [|split; [exact EN|split; [exact EV|]]].
  - intros n r. destruct (Nat.lt_ge_cases n N) as [Hn|Hn].
    2:{ unfold datum. rewrite (nth_overflow (tb_rows tb)) by (fold (num_rows tb); lia). destruct r; cbn; lia. }
    destruct (Nat.lt_ge_cases r (V * C)) as [Hr|Hr].
    2:{ unfold datum. rewrite nth_overflow; [lia|]. pose proof (tk_rows _ _ TK) as F. rewrite Forall_forall in F. rewrite F, sum_repeat; [lia|]. apply nth_In. fold (num_rows tb). lia. }
    pose proof (Nat.div_mod r C ltac:(lia)) as DM. pose proof (Nat.mod_upper_bound r C ltac:(lia)) as MB.
    assert (HQ : r / C < V) by (apply Nat.div_lt_upper_bound; lia).
    assert (I : In (datum tb n r) (cell C tb n (r / C))).
    { unfold cell. apply in_map_iff. exists (r mod C). split; [f_equal; lia|]. apply in_seq. lia. }
    rewrite CE in I by auto. now apply (proj1 (proj2 (CF a (r / C) n))).
  - intros row v I Hv. apply In_nth with (d := []) in I. destruct I as (n & Hn & <-). change (length (tb_rows tb)) with (num_rows tb) in Hn. rewrite EN in Hn.
    unfold block_sum. rewrite firstn_repeat by lia. rewrite (nth_indep _ 0 C) by now rewrite repeat_length. rewrite nth_repeat.
    change (fold_right Z.add 0%Z (cell C tb n v) <= 127)%Z. rewrite CE by auto. apply CF.
Qed.

Section G.
Variables (g : generators) (lg : R -> R) (mst : list (list R) -> list (nat * nat)).
Hypothesis DL : draws_legally g.
Hypothesis MST : mst_contract mst.
Variables (threads : nat) (workers : nat -> M_Ensemble.rng g) (events : list (nat * nat)) (st : M_Ensemble.rng g).
Variable draws : M_Cache.args -> nat -> nat -> list Z.
Hypothesis CF : counts_fit draws.
Variables (randint : M_Validate.rng) (junk : nat -> nat -> nat -> R) (junk4 : nat -> nat -> nat -> nat -> R).
Hypothesis SEED : forall i, (0 <= i < 4)%Z -> (exists x, np_seed g i = Ok x) /\ (exists x, jit_seed g i = Ok x).

Lemma tool_ok {A} (command : rprog A) tool : In tool tools -> run_with_tool command tool = command.
Proof.
  intros I. unfold run_with_tool. replace (existsb _ _) with true; [reflexivity|]. symmetry. apply existsb_exists. exists tool. split; [exact I|apply String.eqb_refl].
Qed.
Lemma tool_bad {A} (command : rprog A) tool : ~ In tool tools -> run_with_tool command tool = Fail ValueError.
Proof.
  intros N. unfold run_with_tool. destruct (existsb _ _) eqn:E; [|reflexivity]. exfalso. apply existsb_exists in E. destruct E as (x & I & E).
  apply String.eqb_eq in E. subst. auto.
Qed.

Lemma single_ensemble ws tb prior c z :
  table_ok ws tb -> nonneg_data tb -> admissible c ->
  1 <= num_cols tb <= 2 ^ 15 -> length prior = num_cols tb * (num_cols tb - 1) / 2 ->
  key c "seed" = Ok 0%Z -> key c "model_ensemble_size" = Ok 1%Z -> key c "model_num_clusters" = Ok z ->
  map snd events = [0] ->
  exists m sm, fst (train_ensemble g lg mst threads workers events st tb prior [c] 0) = Ok [m] /\
    server_model tb m = Ok sm /\ consistent ws (num_cols tb) (Z.to_nat z) (num_rows tb) sm.
Proof.
  intros TK ND AD HV LP Es En Ez PE.
  assert (exists v, lookup c "seed" = Some v) as (v & Hv).
  { unfold key in Es. destruct (lookup c "seed"); [eauto|discriminate]. }
  assert (PE' : Permutation (map snd events) (seq 0 1)) by (rewrite PE; reflexivity).
  pose proof (ensemble_ok g lg mst threads workers events st tb prior [c] 0 c v 1 eq_refl Hv En PE') as EO.
  destruct (train_ensemble g lg mst threads workers events st tb prior [c] 0) as [out h']. destruct EO as (_ & EO). cbn [fst].
  destruct (SEED 0%Z ltac:(lia)) as (S1 & S2).
  destruct out as [ms|e].
  - destruct EO as (L & H). destruct ms as [|m [|]]; try discriminate. destruct (H 0 m eq_refl) as (SD & TM).
    pose proof (seeded_seed _ _ _ _ SD Es) as Es'.
    destruct (train_model_consistent g lg mst DL MST ws tb prior (m_config m) st 0%Z TK ND (seeded_admissible _ _ _ SD AD) HV LP Es' S1 S2)
        as (m' & z' & sm & E1 & E2 & E3 & CN). rewrite TM in E1. injection E1 as <-.
    rewrite (seeded_key _ _ _ "model_num_clusters"%string SD) in E2 by discriminate. assert (z' = z) by congruence. subst z'.
    exists m, sm. auto.
  - exfalso. destruct EO as (i & c' & Hi & SD & TM). assert (i = 0) by lia. subst i. pose proof (seeded_seed _ _ _ _ SD Es) as Es'.
    destruct (train_model_consistent g lg mst DL MST ws tb prior c' st 0%Z TK ND (seeded_admissible _ _ _ SD AD) HV LP Es' S1 S2)
        as (m' & z' & sm & E1 & _). rewrite TM in E1. discriminate.
Qed.

Lemma flat_length V : length (flat_prior V) = V * (V - 1) / 2.
Proof. apply repeat_length. Qed.

Lemma train_runs h rows cols epochs clusters parallel tool :
  Spec_Cache.writes_finish h -> map snd events = [0] ->
  (1 <= cols <= 2 ^ 15)%Z -> (1 <= epochs)%Z -> (1 <= clusters <= 128)%Z -> In tool tools ->
  exists b tb m sm, Spec_Cache.near (M_Cache.Args rows cols 4 1) b /\ dataset_of draws b = Ok tb /\
    profile_train g lg mst threads workers events st draws (M_Cache.run h) rows cols epochs clusters parallel tool = Ret [m] /\
    server_model tb m = Ok sm /\ consistent (repeat 4 (Z.to_nat cols)) (Z.to_nat cols) (Z.to_nat clusters) (Z.to_nat rows) sm.
Proof.
  intros W PE HV HE HM IT. destruct (L_Cache.C51_data h (M_Cache.Args rows cols 4 1) W) as (s & b & E1 & E2 & NR & _).
  pose proof NR as (B1 & B2 & B3 & _). cbn [M_Cache.a_rows M_Cache.a_cols M_Cache.a_cats] in B1, B2, B3.
  destruct (dataset_good draws b CF) as (tb & ED & TK & ND & EN & EV & _). { rewrite B3. cbn. lia. }
  rewrite B1, B2, B3 in *. change (Z.to_nat 4) with 4 in *.
  unfold profile_train. cbn [make_config foldM lookup DEFAULT_CONFIG String.eqb Ascii.eqb Bool.eqb dict_set to_int bind].
  match goal with |- context [lift (Ok ?c)] => set (cfg := c) end.
  destruct (single_ensemble (repeat 4 (Z.to_nat cols)) tb (flat_prior (num_cols tb)) cfg clusters TK ND) as (m & sm & F1 & F2 & F3); auto.
  - unfold admissible. repeat split; try (eexists; split; [reflexivity|]; cbn; lia); eexists; reflexivity.
  - rewrite EV. change (2 ^ 15)%Z with (Z.of_nat (2 ^ 15)) in HV. lia.
  - apply flat_length.
  - exists b, tb, m, sm. split; [exact NR|]. split; [exact ED|]. split; [|split; [exact F2|now rewrite EN, EV in F3]].
    cbn [lift rbind]. rewrite E1. cbn [returned lift rbind]. rewrite tool_ok by auto. unfold train_files, M_Cache.load_dataset. rewrite E2. cbn [bind].
    rewrite ED. cbn [bind]. rewrite F1. reflexivity.
Qed.

Lemma serve_runs h rows cols cats tool :
  Spec_Cache.writes_finish h ->
  (1 <= cols <= 2 ^ 15)%Z -> (1 <= cats)%Z -> In tool tools ->
  let V := Z.to_nat cols in let ws := repeat (Z.to_nat cats) V in
  always (fun '(samples, lps, med, corr) =>
      length samples = Z.to_nat rows /\ (forall x, In x samples -> legal_row ws (repeat 1%Z V) x) /\
      length lps = Z.to_nat rows /\
      length med = Z.to_nat rows /\ (forall x, In x med -> legal_row ws (repeat 1%Z V) x) /\
      length corr = V /\ forall u v, u < V -> v < V -> (0 <= nth v (nth u corr []) 0 < 1)%R)
    (profile_serve g lg mst st draws junk junk4 (M_Cache.run h) rows cols cats tool).
Proof.
  intros W HV HC IT V ws. destruct (L_Cache.C51_model h (M_Cache.Args rows cols cats 1) W) as (s & b & E1 & E2 & NR & _).
  pose proof NR as (B1 & B2 & B3 & _). cbn [M_Cache.a_rows M_Cache.a_cols M_Cache.a_cats] in B1, B2, B3.
  destruct (dataset_good draws b CF) as (tb & ED & TK & ND & EN & EV & _). { rewrite B3. lia. }
  rewrite B1, B2, B3 in *. fold V in EV, TK. fold ws in TK.
  assert (LB : 1 <= num_cols tb <= 2 ^ 15). { rewrite EV. unfold V. change (2 ^ 15)%Z with (Z.of_nat (2 ^ 15)) in HV. lia. }
  destruct (SEED 0%Z ltac:(lia)) as (S1 & S2).
  destruct (make_config [("learning_init_epochs"%string, PInt 5)]) as [cfg|] eqn:EC; [|discriminate].
  assert (AD : admissible cfg /\ key cfg "seed" = Ok 0%Z /\ key cfg "model_num_clusters" = Ok 32%Z).
  { vm_compute in EC. injection EC as <-. split; [|split; reflexivity]. unfold admissible. repeat split; try (eexists; split; [reflexivity|]; cbn; lia); eexists; reflexivity. }
  destruct AD as (AD & Es & Ez).
  destruct (train_model_consistent g lg mst DL MST ws tb (flat_prior (num_cols tb)) cfg st 0%Z TK ND AD LB (flat_length _) Es S1 S2) as (m & z & sm & F1 & F2 & F3 & CN).
  assert (z = 32%Z) by congruence. subst z. rewrite EN, EV in CN. change (Z.to_nat 32) with 32 in CN.
  destruct (C25_proof ws V 32 (Z.to_nat rows) sm mst CN MST) as (sv & ES & _).
  assert (EM : trained_of g lg mst st draws b = Ok m).
  { unfold trained_of. rewrite ED. cbn [bind]. rewrite EC. cbn [bind]. rewrite B2. fold V. rewrite <- EV. exact F1. }
  destruct (make_config []) as [c0|] eqn:E0; [|discriminate].
  assert (K0 : key c0 "model_num_clusters" = Ok 32%Z) by (vm_compute in E0; injection E0 as <-; reflexivity).
  assert (SM : server_model tb (Model c0 (m_state m) (m_logits m)) = Ok sm).
  { rewrite <- F3. unfold server_model. cbn [m_config m_state m_logits]. rewrite K0. pose proof (train_config_kept g lg mst tb (flat_prior (num_cols tb)) cfg st m F1) as KC. rewrite KC, Ez. reflexivity. }
  destruct (cm_tree _ _ _ _ _ CN) as (es & T & ET).
  assert (W1 : forall w, In w ws -> 1 <= w) by (intros w I; apply repeat_spec in I; lia).
  assert (LW : length ws = V) by apply repeat_length.
  assert (CB : forall v, v < V -> (0 <= nth v (repeat 1%Z V) 0 <= 127)%Z).
  { intros v Hv. rewrite (nth_indep _ 0%Z 1%Z) by now rewrite repeat_length. rewrite nth_repeat. lia. }
  unfold profile_serve. rewrite E0. cbn [lift rbind]. rewrite E1. cbn [returned lift rbind]. rewrite tool_ok by auto.
  unfold serve_files, load_trained. rewrite E2. cbn [lift rbind]. rewrite ED. cbn [lift rbind]. rewrite EM. cbn [lift rbind]. rewrite SM. cbn [lift rbind]. rewrite ES. cbn [lift rbind].
  rewrite ET. cbn [ts_V]. apply always_bind.
  eapply always_mono; [|apply (C28_proof ws V 32 (Z.to_nat rows) sm mst sv (Z.to_nat rows) (repeat 1%Z V) None CN MST ES)].
  - intros samples (LS & LG).
    assert (SL : forall row, In row samples -> length row = list_sum ws) by (intros row I; apply (LG row I)).
    destruct (C26_data ws V 32 (Z.to_nat rows) sm mst sv samples CN MST ES SL) as (EL & _). rewrite EL. cbn [lift rbind].
    destruct (C31_proof ws V 32 (Z.to_nat rows) sm mst sv junk (repeat 1%Z V) samples CN MST ES W1 (repeat_length _ _) CB SL) as (margs & med & _ & EMd & LM & HM).
    rewrite EMd. cbn [lift rbind].
    destruct (C34_proof ws V 32 (Z.to_nat rows) sm mst sv junk4 CN MST ES) as (corr & ECo & LC & HC').
    rewrite ECo. cbn [lift rbind always]. split; [exact LS|]. split; [exact LG|]. split; [now rewrite map_length|]. split; [congruence|]. split; [|split; [exact LC|]].
    + intros x I. apply In_nth with (d := []) in I. destruct I as (n & Hn & <-). apply HM. congruence.
    + intros u v Hu Hv. apply (HC' u v Hu Hv).
  - apply repeat_length.
  - exact CB.
  - intros v Hv _. apply W1. apply nth_In. lia.
  - discriminate.
Qed.

(** ** eval *)
Definition csv_of_eval : list (list string) := [["learning_init_epochs"]; ["2"]]%string.
Definition options_of_eval : dict := [("learning_init_epochs"%string, PInt 2)].
Definition eval_configs : list dict :=
  Eval vm_compute in match read_param_csv csv_of_eval options_of_eval with Ok (_, cs) => cs | Raise _ => [] end.
Lemma eval_configs_read : read_param_csv csv_of_eval options_of_eval = Ok (["learning_init_epochs"%string], eval_configs).
Proof. vm_compute. reflexivity. Qed.

Lemma key_setting c k : key c k = match setting c k with Some z => Ok z | None => Raise KeyError end.
Proof. unfold key, setting. destruct (lookup c k); reflexivity. Qed.
Lemma same_settings c d : (forall k, setting d k = setting c k) -> forall k, key d k = key c k.
Proof. intros H k. now rewrite !key_setting, H. Qed.
Lemma same_admissible c d : (forall k, setting d k = setting c k) -> admissible c -> admissible d.
Proof. intros H. unfold admissible. now rewrite !(same_settings c d H). Qed.

Lemma eval_config_good c : In c eval_configs -> admissible c /\ key c "model_num_clusters" = Ok 32%Z /\
  setting c "model_ensemble_size" = Some 8%Z /\ (exists i, key c "seed" = Ok i /\ setting c "seed" = Some i /\ (0 <= i < 4)%Z) /\
  (exists s, serialize_config c = Ok s) /\ (forall k z, setting c k = Some z -> (0 <= z)%Z) /\
  exists cells, mapM (fun param => config_int c param) ["learning_init_epochs"%string] = Ok cells.
Proof.
  assert (NN : forall (d : dict), forallb (fun kv => (0 <=? to_int (snd kv))%Z) d = true -> forall k z, setting d k = Some z -> (0 <= z)%Z).
  { intros d H k z. unfold setting. induction d as [|[k' v] d IH]; [discriminate|]. cbn [forallb snd] in H. apply andb_true_iff in H. destruct H as (H1 & H2).
    cbn [lookup]. destruct (String.eqb k k'); [|now apply IH]. cbn [option_map]. intros E. injection E as <-. now apply Z.leb_le. }
  intros I. repeat (destruct I as [<-|I]; [split; [unfold admissible; repeat split; try (eexists; split; [reflexivity|]; cbn; lia); eexists; reflexivity|];
    split; [reflexivity|]; split; [reflexivity|]; split; [eexists; split; [reflexivity|]; split; [reflexivity|]; cbn; lia|];
    split; [eexists; vm_compute; reflexivity|]; split; [apply NN; reflexivity|eexists; reflexivity]|]). destruct I.
Qed.

Section Table.
Variables (tb : table) (C V N : nat).
Let ws := repeat C V.
Hypothesis TK : table_ok ws tb.
Hypothesis ND : nonneg_data tb.
Hypothesis NR : num_rows tb = N.
Hypothesis NC : num_cols tb = V.
Hypothesis HV : 1 <= V <= 2 ^ 15.
Hypothesis RC : rng_contract randint.
Let ds := Data (tb_ri tb) (tb_rows tb).

Lemma rows_shaped : shaped N (list_sum ws) (tb_rows tb).
Proof. split; [exact NR|]. pose proof (tk_rows _ _ TK) as F. rewrite Forall_forall in F. exact F. Qed.
Lemma rows_nonneg : forall row x, In row (tb_rows tb) -> In x row -> (0 <= x)%Z.
Proof.
  intros row x I J. apply In_nth with (d := []) in I. destruct I as (n & _ & <-). apply In_nth with (d := 0%Z) in J. destruct J as (r & _ & <-). apply ND.
Qed.

Lemma trainer_good c d mask training validation : In c eval_configs -> (forall k, setting d k = setting c k) ->
  eval_split randint (tb_ri tb) (tb_rows tb) c = Ok (mask, training, validation) ->
  exists sm, trainer_of g lg mst st (tb_ri tb) training d = Ok sm /\ consistent ws V 32 N sm.
Proof.
  intros I SS EE. destruct (eval_config_good c I) as (AD & Ez & EP & (i & Ei & Si & Hi) & (s & ES) & NN & _).
  destruct (C49_data randint ws N (tb_rows tb) c 8 i s RC rows_shaped EP Si ltac:(lia) ES NN) as (mk & tr & va & _ & _ & EE' & (LT & SH) & _ & CE).
  rewrite (tk_ri _ _ TK) in EE. rewrite EE in EE'. injection EE' as -> -> ->.
  unfold trainer_of. rewrite (tk_ri _ _ TK). replace (length (make_ragged_index ws) - 1) with V.
  2:{ rewrite mri_length. unfold ws. rewrite repeat_length. lia. }
  set (tb' := Tab (repeat TY_MULTINOMIAL V) (make_ragged_index ws) tr).
  assert (NC' : num_cols tb' = V) by (unfold num_cols; cbn; apply repeat_length).
  assert (TK' : table_ok ws tb').
  { constructor; cbn [tb_types tb_ri tb_rows tb'].
    - apply Forall_forall. intros t J. now apply repeat_spec in J.
    - rewrite NC'. apply repeat_length.
    - reflexivity.
    - apply Forall_forall. exact SH. }
  assert (ND' : nonneg_data tb').
  { intros n r. change (datum tb' n r) with (entry tr n r). destruct (Nat.lt_ge_cases n N) as [Hn|Hn].
    2:{ unfold entry. rewrite (nth_overflow tr) by lia. destruct r; cbn; lia. }
    destruct (Nat.lt_ge_cases r (list_sum ws)) as [Hr|Hr].
    2:{ unfold entry. rewrite nth_overflow; [lia|]. rewrite SH by (apply nth_In; lia). exact Hr. }
    destruct (CE n r Hn Hr) as (H1 & H2). unfold held_out in H1, H2.
    destruct (nth r (nth n mk []) None) as [[|]|]; [destruct (H1 eq_refl) as (-> & _); lia| |];
      (destruct H2 as (-> & _); [discriminate|apply ND]). }
  pose proof (same_settings c d SS) as KD. pose proof (SEED i Hi) as (S1 & S2).
  rewrite <- KD in Ei, Ez.
  destruct (train_model_consistent g lg mst DL MST ws tb' (flat_prior V) d st i TK' ND' (same_admissible c d SS AD)) as (m & z & sm & F1 & F2 & F3 & CN).
  { now rewrite NC'. } { rewrite NC'. apply flat_length. } { exact Ei. } { exact S1. } { exact S2. }
  assert (z = 32%Z) by congruence. subst z. rewrite NC' in CN. change (num_rows tb') with (length tr) in CN. rewrite LT in CN.
  fold tb'. rewrite F1. cbn [bind]. exists sm. auto.
Qed.

Lemma training_succeeds order fs : incl order (seq 0 4) ->
  exists fs', M_Workflow.train (trainer_of g lg mst st) randint ds csv_of_eval options_of_eval (map (fun i => (i, Completes)) order) fs = Ok (true, fs').
Proof.
  intros IO. unfold M_Workflow.train. rewrite (train_configs_ok _ _ _ _ eval_configs_read). cbn [bind].
  set (cs := sort_by init_epochs eval_configs).
  assert (IC : forall c, In c cs -> In c eval_configs) by (intros c I; exact (Permutation_in _ (sort_by_perm init_epochs eval_configs) I)).
  clearbody cs. unfold run_events. revert fs. induction order as [|i order IH]; intros fs; [exists fs; reflexivity|]. cbn [map fold_left].
  destruct (nth_error cs i) as [c|] eqn:EN; [|apply IH; intros x J; apply IO; now right].
  rewrite task_form. apply nth_error_In in EN. apply IC in EN. destruct (eval_config_good c EN) as (AD & Ez & EP & (j & Ej & Sj & Hj) & (s & ES) & NN & _).
  rewrite ES. destruct (L_Config.roundtrip c s ES NN) as (d & ED & _). pose proof (deserialize_settings c s d ES ED) as SS.
  destruct (C49_data randint ws N (tb_rows tb) c 8 j s RC rows_shaped EP Sj ltac:(lia) ES NN) as (mk & tr & va & _ & ET & EE & _).
  destruct (trainer_good c d mk tr va EN SS) as (sm & EM & _); [now rewrite (tk_ri _ _ TK)|].
  unfold produced. rewrite ED. cbn [bind ds ds_ri ds_rows]. rewrite <- (tk_ri _ _ TK) in ET. rewrite ET. cbn [bind]. rewrite EM. cbn [andb].
  apply IH. intros x J. apply IO. now right.
Qed.

Lemma eval_succeeds order fs' : 1 <= C -> 0 < N -> (forall row v, In row (tb_rows tb) -> v < V -> (block_sum ws row v <= 127)%Z) ->
  Permutation order (seq 0 4) ->
  M_Workflow.train (trainer_of g lg mst st) randint ds csv_of_eval options_of_eval (map (fun i => (i, Completes)) order) (fun _ => None) = Ok (true, fs') ->
  exists table result, M_Workflow.eval (tree_server mst) randint junk ds csv_of_eval options_of_eval fs' = Ok (table, result) /\
    length table = 4 /\ length result = 4 /\ forall c r, In (c, r) result -> exists scores, r = Some scores.
Proof.
  intros HC HN B127 PO ET.
  assert (PT : forall c, In c eval_configs -> exists scores, process_eval_task (tree_server mst) randint junk ds fs' c = Ok (c, Some scores)).
  { intros c I. assert (PE : Permutation (map fst (map (fun i => (i, Completes)) order)) (seq 0 (length eval_configs))) by (rewrite map_map; cbn [fst]; rewrite map_id; exact PO).
    destruct (C64_complete (trainer_of g lg mst st) (tree_server mst) randint junk ds _ _ _ _ _ _ _ eval_configs_read PE ET c I) as (m & MF & ->).
    destruct MF as (mask & training & validation & d & EE & SS & EM).
    destruct (trainer_good c d mask training validation I SS EE) as (sm & EM' & CN). cbn [ds ds_ri] in EM. rewrite EM in EM'. injection EM' as ->.
    destruct (C25_proof ws V 32 N sm mst CN MST) as (sv & ES & _). rewrite ES. cbn [bind ds ds_ri ds_rows].
    destruct (eval_config_good c I) as (AD & Ez & EP & (j & Ej & Sj & Hj) & _).
    destruct (C56_proof ws V 32 N sm mst sv CN MST ES) with (randint := randint) (junk := junk) (N := N) (data := tb_rows tb) (c := c) (parts := 8%Z) (part := j)
      as (mk & tr & va & mx & med & cmp & _ & _ & _ & _ & EV); auto.
    - intros w J. apply repeat_spec in J. lia.
    - exact rows_shaped.
    - exact rows_nonneg.
    - lia.
    - rewrite (tk_ri _ _ TK), EV. cbn [bind]. eexists. reflexivity. }
  assert (EM : exists result, mapM (process_eval_task (tree_server mst) randint junk ds fs') eval_configs = Ok result /\ map fst result = eval_configs /\
     forall c r, In (c, r) result -> exists scores, r = Some scores).
  { revert PT. generalize eval_configs as l. induction l as [|c l IH]; intros PT; [exists []; split; [reflexivity|]; split; [reflexivity|intros ? ? []]|].
    destruct (PT c (or_introl eq_refl)) as (scores & E). destruct IH as (res & E1 & E2 & E3); [intros; apply PT; now right|].
    exists ((c, Some scores) :: res). cbn [mapM]. rewrite E, E1. cbn [bind map fst]. rewrite E2. split; [reflexivity|]. split; [reflexivity|].
    intros c' r [Q|J]; [injection Q as <- <-; eauto|eauto]. }
  destruct EM as (res & EM & MF & SC).
  assert (EL : exists tab, mapM (eval_line ["learning_init_epochs"%string]) res = Ok tab /\ length (concat tab) = length res).
  { assert (IN : forall c r, In (c, r) res -> In c eval_configs) by (intros c r I; rewrite <- MF; apply (in_map fst) in I; exact I).
    clear EM MF. induction res as [|[c r] res IH]; [exists []; split; reflexivity|].
    destruct IH as (tab & E1 & E2); [intros; eapply SC; right; eauto|intros; eapply IN; right; eauto|].
    destruct (SC c r (or_introl eq_refl)) as ([lp l1] & ->). destruct (eval_config_good c (IN c _ (or_introl eq_refl))) as (_ & _ & _ & _ & _ & _ & cells & EC).
    exists ([map IZR cells ++ [lp; l1]] :: tab). cbn [mapM]. unfold eval_line at 1. cbn [fst snd]. rewrite EC. cbn [bind]. rewrite E1. cbn [bind]. split; [reflexivity|].
    cbn [concat List.app length]. now rewrite E2. }
  destruct EL as (tab & EL & LT). exists (sort_lines (concat tab)), res.
  assert (LR : length res = 4). { rewrite <- (map_length fst), MF. reflexivity. }
  split; [|split; [|split; [exact LR|exact SC]]].
  - unfold M_Workflow.eval. rewrite eval_configs_read. cbn [bind]. rewrite EM. cbn [bind]. rewrite EL. reflexivity.
  - rewrite (Permutation_length (sort_lines_perm _)). congruence.
Qed.
End Table.

Lemma eval_runs h order rows cols cats tool :
  Spec_Cache.writes_finish h -> rng_contract randint -> Permutation order (seq 0 4) ->
  (1 <= rows)%Z -> (1 <= cols <= 2 ^ 15)%Z -> In tool tools ->
  exists table result,
    profile_eval g lg mst st draws randint junk (M_Cache.run h) order rows cols cats tool = Ret (table, result) /\
    length table = 4 /\ length result = 4 /\ forall c r, In (c, r) result -> exists scores, r = Some scores.
Proof.
  intros W RC PO HR HV IT. destruct (L_Cache.C51_data h (M_Cache.Args rows cols 4 1) W) as (s & b & E1 & E2 & NR & _).
  pose proof NR as (B1 & B2 & B3 & _). cbn [M_Cache.a_rows M_Cache.a_cols M_Cache.a_cats] in B1, B2, B3.
  destruct (dataset_good draws b CF) as (tb & ED & TK & ND & EN & EV & B127). { rewrite B3. cbn. lia. }
  rewrite B1, B2, B3 in *. change (Z.to_nat 4) with 4 in *.
  assert (LB : 1 <= Z.to_nat cols <= 2 ^ 15). { change (2 ^ 15)%Z with (Z.of_nat (2 ^ 15)) in HV. lia. }
  destruct (training_succeeds tb 4 (Z.to_nat cols) (Z.to_nat rows) TK ND EN EV LB RC order (fun _ => None)) as (fs' & ET).
  { intros x I. exact (Permutation_in _ PO I). }
  destruct (eval_succeeds tb 4 (Z.to_nat cols) (Z.to_nat rows) TK ND EN EV LB RC order fs' ltac:(lia) ltac:(lia) B127 PO ET) as (table & result & EE & L1 & L2 & SC).
  exists table, result. split; [|auto]. unfold profile_eval. rewrite E1. cbn [returned lift rbind]. unfold M_Cache.load_dataset. rewrite E2. cbn [lift rbind].
  rewrite ED. cbn [lift rbind]. fold csv_of_eval. fold options_of_eval. rewrite ET. cbn [lift rbind]. rewrite tool_ok by auto. rewrite EE. reflexivity.
Qed.

(** ** What goes wrong *)
Lemma bad_tool h order rows cols cats epochs clusters parallel tool : Spec_Cache.writes_finish h -> ~ In tool tools ->
  profile_train g lg mst threads workers events st draws (M_Cache.run h) rows cols epochs clusters parallel tool = Fail ValueError /\
  profile_serve g lg mst st draws junk junk4 (M_Cache.run h) rows cols cats tool = Fail ValueError /\
  (rng_contract randint -> Permutation order (seq 0 4) -> (1 <= rows)%Z -> (1 <= cols <= 2 ^ 15)%Z ->
   profile_eval g lg mst st draws randint junk (M_Cache.run h) order rows cols cats tool = Fail ValueError).
Proof.
  intros W NT. split; [|split].
  - destruct (L_Cache.C51_data h (M_Cache.Args rows cols 4 1) W) as (s & b & E1 & E2 & _).
    unfold profile_train. cbn [make_config foldM lookup DEFAULT_CONFIG String.eqb Ascii.eqb Bool.eqb dict_set to_int bind]. cbn [lift rbind]. rewrite E1.
    cbn [returned lift rbind]. now apply tool_bad.
  - destruct (L_Cache.C51_model h (M_Cache.Args rows cols cats 1) W) as (s & b & E1 & E2 & _).
    unfold profile_serve. cbn [make_config foldM lift rbind]. rewrite E1. cbn [returned lift rbind]. now apply tool_bad.
  - intros RC PO HR HV. destruct (L_Cache.C51_data h (M_Cache.Args rows cols 4 1) W) as (s & b & E1 & E2 & NR & _).
    pose proof NR as (B1 & B2 & B3 & _). cbn [M_Cache.a_rows M_Cache.a_cols M_Cache.a_cats] in B1, B2, B3.
    destruct (dataset_good draws b CF) as (tb & ED & TK & ND & EN & EV & B127). { rewrite B3. cbn. lia. }
    rewrite B1, B2, B3 in *. change (Z.to_nat 4) with 4 in *.
    assert (LB : 1 <= Z.to_nat cols <= 2 ^ 15). { change (2 ^ 15)%Z with (Z.of_nat (2 ^ 15)) in HV. lia. }
    destruct (training_succeeds tb 4 (Z.to_nat cols) (Z.to_nat rows) TK ND EN EV LB RC order (fun _ => None)) as (fs' & ET).
    { intros x I. exact (Permutation_in _ PO I). }
    unfold profile_eval. rewrite E1. cbn [returned lift rbind]. unfold M_Cache.load_dataset. rewrite E2. cbn [lift rbind].
    rewrite ED. cbn [lift rbind]. fold csv_of_eval. fold options_of_eval. rewrite ET. cbn [lift rbind]. now apply tool_bad.
Qed.
End G.

Lemma cats_unused g lg mst st draws randint junk s order rows cols tool cats cats' :
  profile_eval g lg mst st draws randint junk s order rows cols cats tool = profile_eval g lg mst st draws randint junk s order rows cols cats' tool.
Proof. reflexivity. Qed.

Lemma torn_commands g lg mst threads workers events st draws randint junk h order rows cols cats epochs clusters parallel tool :
  Spec_Cache.never_cleaned h -> In tool tools ->
  let s := M_Cache.run (M_Cache.GenData (M_Cache.Args rows cols 4 1) M_Cache.Writing :: h) in
  profile_train g lg mst threads workers events st draws s rows cols epochs clusters parallel tool = Fail EOFError /\
  profile_eval g lg mst st draws randint junk s order rows cols cats tool = Fail EOFError.
Proof.
  intros NC IT s. destruct (L_Cache.torn_data h (M_Cache.Args rows cols 4 1) NC) as ((s' & E1 & E2) & _). fold s in E1. split.
  - unfold profile_train. cbn [make_config foldM lookup DEFAULT_CONFIG String.eqb Ascii.eqb Bool.eqb dict_set to_int bind]. cbn [lift rbind]. rewrite E1.
    cbn [returned lift rbind]. rewrite tool_ok by auto. unfold train_files, M_Cache.load_dataset. rewrite E2. reflexivity.
  - unfold profile_eval. rewrite E1. cbn [returned lift rbind]. unfold M_Cache.load_dataset. rewrite E2. reflexivity.
Qed.
(* with a torn dataset no model of that name is ever written *)
Lemma same_name_data a b : M_Cache.cache_name "model" a = M_Cache.cache_name "model" b -> M_Cache.cache_name "dataset" a = M_Cache.cache_name "dataset" b.
Proof.
  unfold M_Cache.cache_name. cbn [append]. intros H.
  apply L_Config.intlike_sep in H as [A H]; try apply L_Config.intlike_str. apply L_Config.intlike_sep in H as [B H]; try apply L_Config.intlike_str.
  apply L_Config.intlike_sep in H as [C H]; try apply L_Config.intlike_str. apply L_Cache.app_suffix_inv in H. now rewrite A, B, C, H.
Qed.

Lemma data_other s a k p : (forall b, M_Cache.cache_name "dataset" b <> p) -> M_Cache.fs_files (snd (M_Cache.generate_dataset_file s a k)) p = M_Cache.fs_files s p.
Proof.
  intros N. unfold M_Cache.generate_dataset_file. destruct (M_Cache.fs_files s (M_Cache.cache_name "dataset" a)); auto.
  destruct k; cbn; auto; destruct (String.eqb_spec p (M_Cache.cache_name "dataset" a)) as [->|]; auto; now elim (N a).
Qed.

Lemma torn_no_model a : forall h s, M_Cache.fs_files s (M_Cache.cache_name "dataset" a) = Some M_Cache.Truncated ->
  M_Cache.fs_files s (M_Cache.cache_name "model" a) = None -> Spec_Cache.never_cleaned h ->
  M_Cache.fs_files (fold_left M_Cache.step h s) (M_Cache.cache_name "model" a) = None.
Proof.
  induction h as [|e h IH]; intros s HD HM NC; cbn [fold_left]; [exact HM|].
  assert (NE : forall keep done, e <> M_Cache.Clean keep done) by (intros keep done ->; apply (NC keep done); now left).
  apply IH; [now apply L_Cache.step_keeps| |intros keep done Q; apply (NC keep done); now right].
  destruct e as [b k|b kd k|keep done]; cbn [M_Cache.step]; [| |now elim (NE keep done)].
  - rewrite data_other; auto. intros c. apply L_Cache.kinds_differ.
  - unfold M_Cache.generate_model_file. destruct (M_Cache.fs_files s (M_Cache.cache_name "model" b)) eqn:EM; [exact HM|].
    set (s1 := M_Cache.FS true (M_Cache.fs_files s)).
    pose proof (data_other s1 b kd (M_Cache.cache_name "model" a) (fun c => L_Cache.kinds_differ c a)) as H1. cbn [s1 M_Cache.fs_files] in H1. rewrite HM in H1. fold s1 in H1.
    destruct (string_dec (M_Cache.cache_name "model" a) (M_Cache.cache_name "model" b)) as [E|E].
    + apply same_name_data in E. assert (G : M_Cache.generate_dataset_file s1 b kd = (M_Cache.Returned (M_Cache.cache_name "dataset" b), s1)).
      { unfold M_Cache.generate_dataset_file. unfold s1. cbn [M_Cache.fs_files]. now rewrite <- E, HD. }
      rewrite G. unfold M_Cache.load_dataset. unfold s1. cbn [M_Cache.fs_files]. rewrite <- E, HD. destruct k; exact HM.
    + destruct (M_Cache.generate_dataset_file s1 b kd) as [o s'] eqn:ED. cbn [snd] in H1.
      destruct o as [q|e|]; destruct k; cbn [snd]; auto; destruct (M_Cache.load_dataset s' q); cbn [snd]; auto;
        cbn; destruct (String.eqb_spec (M_Cache.cache_name "model" a) (M_Cache.cache_name "model" b)); auto; easy.
Qed.

Lemma torn_serve g lg mst st draws junk junk4 h rows cols cats tool e :
  In e [M_Cache.GenData (M_Cache.Args rows cols cats 1) M_Cache.Writing; M_Cache.GenModel (M_Cache.Args rows cols cats 1) M_Cache.Writing M_Cache.NoCrash; M_Cache.GenModel (M_Cache.Args rows cols cats 1) M_Cache.NoCrash M_Cache.Writing] ->
  Spec_Cache.never_cleaned h -> In tool tools ->
  profile_serve g lg mst st draws junk junk4 (M_Cache.run (e :: h)) rows cols cats tool = Fail EOFError.
Proof.
  intros IE NC IT. set (a := M_Cache.Args rows cols cats 1) in *. set (s := M_Cache.run (e :: h)). unfold profile_serve.
  cbn [make_config foldM lift rbind]. fold a.
  assert (CS : (M_Cache.fs_files s (M_Cache.cache_name "dataset" a) = Some M_Cache.Truncated /\ M_Cache.fs_files s (M_Cache.cache_name "model" a) = None)
    \/ M_Cache.fs_files s (M_Cache.cache_name "model" a) = Some M_Cache.Truncated).
  { unfold s, M_Cache.run. cbn [fold_left]. set (s0 := M_Cache.FS false (fun _ => None)).
    assert (KD : forall b c, String.eqb (M_Cache.cache_name "model" b) (M_Cache.cache_name "dataset" c) = false).
    { intros b c. apply String.eqb_neq. intros Q. symmetry in Q. revert Q. apply L_Cache.kinds_differ. }
    assert (T : forall s1, M_Cache.fs_files s1 (M_Cache.cache_name "dataset" a) = Some M_Cache.Truncated -> M_Cache.fs_files s1 (M_Cache.cache_name "model" a) = None ->
      M_Cache.fs_files (fold_left M_Cache.step h s1) (M_Cache.cache_name "dataset" a) = Some M_Cache.Truncated /\ M_Cache.fs_files (fold_left M_Cache.step h s1) (M_Cache.cache_name "model" a) = None).
    { intros s1 H1 H2. split; [now apply L_Cache.keeps|now apply torn_no_model]. }
    destruct IE as [<-|[<-|[<-|[]]]].
    - left. apply T.
      + unfold M_Cache.step, M_Cache.generate_dataset_file, s0. cbn [M_Cache.fs_files snd M_Cache.set_file]. now rewrite String.eqb_refl.
      + unfold M_Cache.step, M_Cache.generate_dataset_file, s0. cbn [M_Cache.fs_files snd M_Cache.set_file]. now rewrite KD.
    - left. apply T.
      + unfold M_Cache.step, M_Cache.generate_model_file, M_Cache.generate_dataset_file, s0. cbn [M_Cache.fs_files snd M_Cache.set_file]. now rewrite String.eqb_refl.
      + unfold M_Cache.step, M_Cache.generate_model_file, M_Cache.generate_dataset_file, s0. cbn [M_Cache.fs_files snd M_Cache.set_file]. now rewrite KD.
    - right. apply L_Cache.keeps; [|exact NC].
      unfold M_Cache.step, M_Cache.generate_model_file, M_Cache.generate_dataset_file, M_Cache.load_dataset, s0. cbn [M_Cache.fs_files snd M_Cache.set_file]. rewrite String.eqb_refl.
      cbn [M_Cache.fs_files snd M_Cache.set_file]. now rewrite String.eqb_refl. }
  destruct CS as [(HD & HM)|HM].
  - unfold M_Cache.generate_model_file. rewrite HM. unfold M_Cache.generate_dataset_file. cbn [M_Cache.fs_files]. rewrite HD.
    unfold M_Cache.load_dataset. cbn [M_Cache.fs_files]. rewrite HD. reflexivity.
  - unfold M_Cache.generate_model_file. rewrite HM. cbn [returned lift rbind]. rewrite tool_ok by auto. unfold serve_files, load_trained. rewrite HM. reflexivity.
Qed.


(** ** Example *)
(** One observation in every cell, of category v mod cats. *)
Definition one_each (a : M_Cache.args) (v n : nat) : list Z :=
  let C := Z.to_nat (M_Cache.a_cats a) in map (fun c => if (c =? v mod C)%nat then 1%Z else 0%Z) (seq 0 C).

Lemma one_each_fits : counts_fit one_each.
Proof.
  intros a v n. unfold one_each. set (C := Z.to_nat (M_Cache.a_cats a)). split; [now rewrite map_length, seq_length|]. split.
  - intros x I. apply in_map_iff in I as (c & <- & _). destruct (c =? v mod C); lia.
  - assert (G : forall k s j, (fold_right Z.add 0 (map (fun c => if (c =? j)%nat then 1 else 0) (seq s k)) <= if (s <=? j)%nat then 1 else 0)%Z).
    { induction k as [|k IH]; intros s j; cbn [seq map fold_right]; [destruct (s <=? j)%nat; lia|]. specialize (IH (S s) j).
      destruct (Nat.eqb_spec s j) as [->|N].
      - replace (S j <=? j)%nat with false in IH by (symmetry; apply Nat.leb_gt; lia). rewrite Nat.leb_refl. lia.
      - destruct (Nat.leb_spec (S s) j); destruct (Nat.leb_spec s j); try lia. }
    specialize (G C 0 (v mod C)). cbn [Nat.leb] in G. lia.
Qed.

Lemma commands_case :
  draws_legally L_Ensemble.half_gen /\ mst_contract L_Estimate.naive_mst /\ rng_contract L_Validate2.ex_rng /\
  counts_fit one_each /\
  (forall i, (0 <= i < 4)%Z -> (exists x, np_seed L_Ensemble.half_gen i = Ok x) /\ (exists x, jit_seed L_Ensemble.half_gen i = Ok x)) /\
  Spec_Cache.writes_finish [M_Cache.GenData (M_Cache.Args 100 100 4 1) M_Cache.NoCrash; M_Cache.GenModel (M_Cache.Args 20 30 2 1) M_Cache.Generating M_Cache.NoCrash] /\
  In "timers"%string tools /\ ~ In "gprof"%string tools.
Proof.
  split; [exact half_legal|]. split; [exact L_Estimate.naive_mst_contract|]. split; [exact L_Validate2.ex_rng_ok|]. split; [exact one_each_fits|].
  split; [intros i _; split; exists tt; reflexivity|]. split.
  - split; [intros a [E|[E|[]]]; discriminate|]. intros a kd k [E|[E|[]]]; [discriminate|]. injection E as <- <- <-. split; discriminate.
  - split; [now left|]. intros I. repeat (destruct I as [I|I]; [discriminate|]). destruct I.
Qed.
