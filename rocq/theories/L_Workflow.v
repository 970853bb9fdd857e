(** Lemmas about training and evaluating the models of a parameter file. *)
From Coq Require Import String.
From Coq Require Import List Arith ZArith Bool Reals Sorted Permutation Lia Lra.
From Verif Require Import Base L_Base M_Structure M_Util M_Config L_Config M_Strings M_Serving M_Validate Spec_Validate L_Validate L_Validate2 M_Workflow Spec_Workflow.
Import ListNotations.
Open Scope list_scope.
Open Scope nat_scope.

(** ** Sorting *)
Section SortBy.
Context {A : Type} (key : A -> Z).

Lemma insert_by_perm x l : Permutation (insert_by key x l) (x :: l).
Proof.
  induction l as [|y l IH]; [reflexivity|]. cbn [insert_by]. destruct (key x <=? key y)%Z; [reflexivity|].
  rewrite IH. apply perm_swap.
Qed.

Lemma sort_by_perm l : Permutation (sort_by key l) l.
Proof. induction l as [|x l IH]; [reflexivity|]. cbn [sort_by]. now rewrite insert_by_perm, IH. Qed.

Lemma insert_by_sorted x l : StronglySorted (fun a b => (key a <= key b)%Z) l -> StronglySorted (fun a b => (key a <= key b)%Z) (insert_by key x l).
Proof.
  induction l as [|y l IH]; intros H; [repeat constructor|]. cbn [insert_by]. inversion H as [|? ? H1 H2]; subst. destruct (Z.leb_spec (key x) (key y)).
  - constructor; [exact H|]. constructor; [exact H0|]. eapply Forall_impl; [|exact H2]. cbn. intros; lia.
  - constructor; [now apply IH|]. apply Forall_forall. intros z I. apply (Permutation_in _ (insert_by_perm x l)) in I. destruct I as [<-|I]; [lia|].
    rewrite Forall_forall in H2. now apply H2.
Qed.

Lemma sort_by_sorted l : StronglySorted (fun a b => (key a <= key b)%Z) (sort_by key l).
Proof. induction l as [|x l IH]; [constructor|]. cbn [sort_by]. now apply insert_by_sorted. Qed.

Lemma insert_by_filter x l z : filter (fun c => (key c =? z)%Z) (insert_by key x l) = filter (fun c => (key c =? z)%Z) (x :: l).
Proof.
  induction l as [|y l IH]; [reflexivity|]. cbn [insert_by]. destruct (Z.leb_spec (key x) (key y)); [reflexivity|].
  cbn [filter]. rewrite IH. cbn [filter]. destruct (Z.eqb_spec (key x) z), (Z.eqb_spec (key y) z); try reflexivity. lia.
Qed.

Lemma sort_by_filter l z : filter (fun c => (key c =? z)%Z) (sort_by key l) = filter (fun c => (key c =? z)%Z) l.
Proof. induction l as [|x l IH]; [reflexivity|]. cbn [sort_by]. rewrite insert_by_filter. cbn [filter]. now rewrite IH. Qed.
End SortBy.

(** ** Configs *)
Lemma dict_set_keys d k v : (exists w, lookup d k = Some w) -> map fst (dict_set d k v) = map fst d.
Proof.
  induction d as [|[k' w'] d IH]; intros (w & E); [discriminate|]. cbn [lookup] in E. cbn [dict_set].
  destruct (String.eqb k k') eqn:Q; [reflexivity|]. cbn [map]. f_equal. apply IH. eauto.
Qed.

Lemma make_config_keys o c : make_config o = Ok c -> map fst c = params.
Proof.
  unfold make_config, params. generalize DEFAULT_CONFIG as d.
  induction o as [|[k v] o IH]; intros d E; [now inversion E|]. cbn [foldM] in E. destruct (lookup d k) eqn:L; [|discriminate].
  cbn [bind] in E. rewrite (IH _ E). apply dict_set_keys. eauto.
Qed.

Lemma mapM_In {A B} (f : A -> result B) l r : mapM f l = Ok r -> forall y, In y r -> exists x, In x l /\ f x = Ok y.
Proof.
  revert r. induction l as [|x l IH]; intros r E y I; cbn [mapM] in E; [inversion E; subst; destruct I|].
  destruct (f x) as [b|] eqn:Fx; [|discriminate]. cbn [bind] in E. destruct (mapM f l) as [bs|]; [|discriminate]. cbn [bind] in E. inversion E; subst.
  destruct I as [<-|I]; [exists x; split; [now left|auto]|]. destruct (IH bs eq_refl y I) as (x' & I' & E'). exists x'. split; [now right|auto].
Qed.

Lemma read_keys lines options header configs : read_param_csv lines options = Ok (header, configs) -> forall c, In c configs -> map fst c = params.
Proof.
  unfold read_param_csv. destruct (lookup options "seed"); [discriminate|]. cbn [assert_ bind]. destruct lines as [|h rows]; [discriminate|].
  destruct (negb (existsb (String.eqb "seed") h)); [|discriminate]. cbn [assert_ bind].
  destruct (negb (existsb (String.eqb "model_ensemble_size") h)); [|discriminate]. cbn [assert_ bind].
  set (P := match lookup options "model_ensemble_size" with Some v => to_int v | None => 4%Z end).
  destruct (foldM (read_param_row P h) rows (options, [])) as [[o cs]|] eqn:E; [|discriminate]. cbn [bind]. intros Q. inversion Q; subst.
  assert (G : forall rows st st', foldM (read_param_row P header) rows st = Ok st' -> (forall c, In c (snd st) -> map fst c = params) ->
     forall c, In c (snd st') -> map fst c = params).
  { clear. induction rows as [|row rows IH]; intros st st' E H; [inversion E; subst; exact H|]. cbn [foldM] in E.
    destruct (read_param_row P header st row) as [st1|] eqn:E1; [|discriminate]. cbn [bind] in E. apply (IH st1 st' E). clear IH E.
    unfold read_param_row in E1. destruct st as [o cs]. destruct (negb _); [inversion E1; subst; exact H|].
    destruct (get IndexError row 0); [|discriminate]. cbn [bind] in E1. destruct (starts_hash a); [inversion E1; subst; exact H|].
    destruct (foldM _ _ o) as [o'|]; [|discriminate]. cbn [bind] in E1. destruct (mapM _ _) as [new|] eqn:EM; [|discriminate]. cbn [bind] in E1. inversion E1; subst.
    cbn [snd]. intros c I. apply in_app_or in I. destruct I as [I|I]; [now apply H|].
    destruct (mapM_In _ _ _ EM c I) as (p & _ & E). now apply make_config_keys in E. }
  intros c I. apply (G rows (options, []) (o, configs) E); [intros ? []|exact I].
Qed.

Lemma lookup_params c k : map fst c = params -> In k params -> exists v, lookup c k = Some v.
Proof.
  intros E. rewrite <- E. clear E. induction c as [|[k' v] c IH]; intros I; [destruct I|]. cbn [lookup]. destruct (String.eqb_spec k k') as [->|NE]; [eauto|].
  destruct I as [I|I]; [cbn in I; congruence|auto].
Qed.

Lemma config_int_setting c k z : config_int c k = Ok z <-> setting c k = Some z.
Proof. unfold config_int, setting. destruct (lookup c k); cbn; split; intros E; try discriminate; congruence. Qed.

Lemma mapM_total {A B} (f : A -> result B) l : (forall x, In x l -> exists y, f x = Ok y) -> exists r, mapM f l = Ok r.
Proof.
  induction l as [|x l IH]; intros H; [now exists []|]. destruct (H x) as (y & E); [now left|]. destruct IH as (r & Er); [intros; apply H; now right|].
  exists (y :: r). cbn [mapM]. rewrite E. cbn [bind]. rewrite Er. reflexivity.
Qed.

Lemma train_configs_ok lines options header configs : read_param_csv lines options = Ok (header, configs) ->
  train_configs lines options = Ok (sort_by init_epochs configs).
Proof.
  intros E. unfold train_configs. rewrite E. cbn [bind]. destruct (mapM_total (fun c => config_int c "learning_init_epochs") configs) as (r & Er).
  - intros c I. pose proof (read_keys _ _ _ _ E c I) as K. destruct (lookup_params c "learning_init_epochs" K) as (v & L); [cbn; tauto|].
    exists (to_int v). unfold config_int. now rewrite L.
  - rewrite Er. cbn [bind]. f_equal. unfold init_epochs, setting. clear. induction configs as [|c cs IH]; [reflexivity|]. cbn [sort_by]. rewrite <- IH.
    assert (G : forall l, insert_by (fun c : dict => match lookup c "learning_init_epochs" with Some v => to_int v | None => 0%Z end) c l =
       insert_by (fun c : dict => match option_map to_int (lookup c "learning_init_epochs") with Some z => z | None => 0%Z end) c l).
    { induction l as [|y l IHl]; [reflexivity|]. cbn [insert_by]. rewrite IHl. destruct (lookup c "learning_init_epochs"), (lookup y "learning_init_epochs"); reflexivity. }
    apply G.
Qed.

Lemma C64_order : forall lines options,
  (forall header configs, read_param_csv lines options = Ok (header, configs) ->
     exists trained, train_configs lines options = Ok trained /\ Permutation trained configs /\
       StronglySorted (fun a b => (init_epochs a <= init_epochs b)%Z) trained /\
       forall z, filter (fun c => (init_epochs c =? z)%Z) trained = filter (fun c => (init_epochs c =? z)%Z) configs) /\
  (forall e, read_param_csv lines options = Raise e -> train_configs lines options = Raise e).
Proof.
  intros lines options. split.
  - intros header configs E. exists (sort_by init_epochs configs). split; [now apply (train_configs_ok _ _ header)|].
    split; [apply sort_by_perm|]. split; [apply sort_by_sorted|]. apply sort_by_filter.
  - intros e E. unfold train_configs. now rewrite E.
Qed.

(** ** Tasks *)
Section Tasks.
Context {Mdl : Type}.
Variable trainer : list nat -> list (list Z) -> dict -> result Mdl.
Variable serve : Mdl -> result server.
Variable randint : rng.
Variable junk : nat -> nat -> nat -> R.

Definition produced (ds : dataset) (s : string) : result Mdl :=
  config <- deserialize_config s ;;
  training_data <- train_task_data randint (ds_ri ds) (ds_rows ds) s ;;
  trainer (ds_ri ds) training_data config.

Lemma task_form ds c k fs : process_train_task trainer randint ds c k fs =
  match serialize_config c with
  | Raise _ => (false, fs)
  | Ok s => match produced ds s with
            | Raise _ => (false, fs)
            | Ok m => match k with
                      | Completes => (true, put fs ("model." ++ s ++ ".pkz")%string (Full m))
                      | DiesTraining => (false, fs)
                      | DiesWriting => (false, put fs ("model." ++ s ++ ".pkz")%string Cut)
                      end
            end
  end.
Proof. reflexivity. Qed.

Lemma model_file_form c : model_file c = match serialize_config c with Ok s => Ok ("model." ++ s ++ ".pkz")%string | Raise e => Raise e end.
Proof. unfold model_file. destruct (serialize_config c); reflexivity. Qed.

Lemma model_name_inj s t : ("model." ++ s ++ ".pkz")%string = ("model." ++ t ++ ".pkz")%string -> s = t.
Proof. intros E. apply concat_prefix_inj. exact E. Qed.

Lemma deserialize_settings c s d : serialize_config c = Ok s -> deserialize_config s = Ok d -> forall k, setting d k = setting c k.
Proof.
  intros ES ED k. destruct (existsb (fun k => match setting c k with Some z => (z <? 0)%Z | None => false end) (map fst c)) eqn:B.
  - apply existsb_exists in B. destruct B as (k' & _ & B). destruct (setting c k') as [z|] eqn:E; [|discriminate]. apply Z.ltb_lt in B.
    rewrite (roundtrip_negative c s ES) in ED; [discriminate|]. exists k', z. split; [exact E|exact B].
  - destruct (roundtrip c s ES) as (d' & E & H); [|rewrite ED in E; inversion E; subst; apply H].
    intros k' z E. destruct (Z.ltb_spec z 0) as [L|L]; [|exact L]. exfalso.
    assert (I : In k' (map fst c)).
    { clear - E. unfold int_at in E. induction c as [|[k v] c IH]; [discriminate|]. cbn [lookup] in E. destruct (String.eqb_spec k' k) as [->|]; [now left|right; auto]. }
    assert (X : existsb (fun k => match setting c k with Some z => (z <? 0)%Z | None => false end) (map fst c) = true).
    { apply existsb_exists. exists k'. split; [exact I|]. change (setting c k') with (int_at c k'). rewrite E. now apply Z.ltb_lt. }
    congruence.
Qed.

Lemma zero_where_not data m r : zero_where data m = Ok r -> exists r', zero_where data (mask_not m) = Ok r'.
Proof.
  unfold zero_where. destruct ((length data =? length m) && forallb _ (combine data m)) eqn:B; [|discriminate]. intros _.
  apply andb_true_iff in B. destruct B as (B1 & B2).
  replace ((length data =? length (mask_not m)) && _) with true; [eauto|]. symmetry. apply andb_true_iff. split.
  - unfold mask_not. now rewrite map_length.
  - clear B1. revert m B2. induction data as [|x data IH]; intros [|y m] B; try reflexivity. cbn [combine forallb mask_not map] in *.
    apply andb_true_iff in B. destruct B as (B1 & B2). apply andb_true_iff. split; [now rewrite map_length|now apply IH].
Qed.

Lemma settings_split ds c d : (forall k, setting d k = setting c k) -> eval_split randint (ds_ri ds) (ds_rows ds) d = eval_split randint (ds_ri ds) (ds_rows ds) c.
Proof.
  intros H. unfold eval_split. assert (E : forall k, config_int d k = config_int c k).
  { intros k. specialize (H k). unfold setting in H. unfold config_int. destruct (lookup d k), (lookup c k); try discriminate; [|reflexivity]. cbn in H. congruence. }
  now rewrite !E.
Qed.

Lemma produced_for ds c s m : serialize_config c = Ok s -> produced ds s = Ok m -> model_for trainer randint ds c m.
Proof.
  intros ES E. unfold produced, train_task_data in E. destruct (deserialize_config s) as [d|] eqn:ED; [|discriminate]. cbn [bind] in E.
  pose proof (deserialize_settings c s d ES ED) as H. pose proof (settings_split ds c d H) as SP.
  unfold eval_split in SP at 1.
  destruct (config_int d "model_ensemble_size") as [parts|]; [|discriminate]. cbn [bind] in E, SP.
  destruct (config_int d "seed") as [part|]; [|discriminate]. cbn [bind] in E, SP.
  destruct (assert_ _) as [[]|]; [|discriminate]. cbn [bind] in E, SP.
  destruct (split_data _ _ _ _ _) as [mk|]; [|discriminate]. cbn [bind] in E, SP.
  destruct (zero_where (ds_rows ds) mk) as [tr|] eqn:EZ; [|discriminate]. cbn [bind] in E, SP.
  destruct (zero_where_not _ _ _ EZ) as (va & EV). rewrite EV in SP. cbn [bind] in SP.
  exists mk, tr, va, d. auto.
Qed.

Lemma put_same {X} (fs : files X) p c : put fs p c p = Some c.
Proof. unfold put. now rewrite String.eqb_refl. Qed.
Lemma put_other {X} (fs : files X) p q c : q <> p -> put fs p c q = fs q.
Proof. unfold put. intros N. apply String.eqb_neq in N. now rewrite N. Qed.

Notation name s := ("model." ++ s ++ ".pkz")%string.
Notation step ds configs := (fun '(ok, fs) '(i, k) =>
    match nth_error configs i with
    | None => (ok, fs)
    | Some c => let '(done, fs) := process_train_task trainer randint ds c k fs in (ok && done, fs)
    end).

(** What one task leaves in a file. *)
Lemma task_file ds c k fs p m : snd (process_train_task trainer randint ds c k fs) p = Some (Full m) ->
  fs p = Some (Full m) \/ exists s, serialize_config c = Ok s /\ p = name s /\ produced ds s = Ok m.
Proof.
  rewrite task_form. destruct (serialize_config c) as [s|] eqn:ES; [|now left]. destruct (produced ds s) as [m'|] eqn:EP; [|now left].
  destruct k; cbn [snd]; [|now left|].
  - destruct (String.string_dec p (name s)) as [->|N]; [rewrite put_same|rewrite put_other by auto; now left].
    intros Q. inversion Q; subst. right. eauto.
  - destruct (String.string_dec p (name s)) as [->|N]; [rewrite put_same; discriminate|rewrite put_other by auto; now left].
Qed.

Lemma events_file ds configs events : forall ok fs p m, snd (fold_left (step ds configs) events (ok, fs)) p = Some (Full m) ->
  fs p = Some (Full m) \/ exists c s, In c configs /\ serialize_config c = Ok s /\ p = name s /\ produced ds s = Ok m.
Proof.
  induction events as [|[i k] events IH]; intros ok fs p m E; [now left|]. cbn [fold_left] in E.
  destruct (nth_error configs i) as [c|] eqn:N; [|now apply IH in E].
  destruct (process_train_task trainer randint ds c k fs) as [done fs1] eqn:ET. apply IH in E. destruct E as [E|E]; [|now right].
  pose proof (task_file ds c k fs p m) as Q. rewrite ET in Q. apply Q in E. destruct E as [E|(s & E1 & E2 & E3)]; [now left|].
  right. exists c, s. apply nth_error_In in N. auto.
Qed.

Lemma calls_file h : forall fs p m, after_calls trainer randint h fs p = Some (Full m) ->
  fs p = Some (Full m) \/ exists cl c s, In cl h /\ serialize_config c = Ok s /\ p = name s /\ produced (cl_ds cl) s = Ok m.
Proof.
  induction h as [|cl h IH]; intros fs p m E; [now left|]. cbn [after_calls fold_left] in E. apply IH in E.
  destruct E as [E|(cl' & c & s & I & E)]; [|right; exists cl', c, s; split; [now right|auto]].
  unfold train in E. destruct (train_configs _ _) as [cs|]; [|now left]. cbn [bind] in E.
  destruct (run_events _ _ _ _ _ _) as [ok fs1] eqn:ER. pose proof (events_file (cl_ds cl) cs (cl_events cl) true fs p m) as Q.
  unfold run_events in ER. rewrite ER in Q. apply Q in E. destruct E as [E|(c & s & _ & E)]; [now left|].
  right. exists cl, c, s. split; [now left|auto].
Qed.

Lemma C64_history h c path m : model_file c = Ok path -> after_calls trainer randint h (fun _ => None) path = Some (Full m) ->
  exists cl, In cl h /\ model_for trainer randint (cl_ds cl) c m.
Proof.
  intros EF E. apply calls_file in E. destruct E as [E|(cl & c' & s & I & ES & EP & EM)]; [discriminate|]. exists cl. split; [exact I|].
  rewrite model_file_form in EF. destruct (serialize_config c) as [t|] eqn:ET; [|discriminate]. assert (Q : name t = path) by congruence.
  rewrite EP in Q. apply concat_prefix_inj in Q. subst t. now apply (produced_for _ c s).
Qed.

Lemma C64_scores h ds c r : (forall cl, In cl h -> cl_ds cl = ds) ->
  process_eval_task serve randint junk ds (after_calls trainer randint h (fun _ => None)) c = Ok r ->
  fst r = c /\ (snd r = None \/ exists m s sc, snd r = Some sc /\ model_for trainer randint ds c m /\ serve m = Ok s /\
     eval_scores randint junk s (ds_ri ds) (ds_rows ds) c = Ok sc).
Proof.
  intros HD E. unfold process_eval_task in E. destruct (model_file c) as [path|] eqn:EF; [|discriminate]. cbn [bind] in E. unfold load_model in E.
  destruct (after_calls trainer randint h (fun _ => None) path) as [[m|]|] eqn:EA.
  - destruct (serve m) as [s|] eqn:ES; [|discriminate]. cbn [bind] in E. destruct (eval_scores _ _ _ _ _ _) as [sc|] eqn:EV; [|discriminate]. cbn [bind] in E.
    inversion E; subst. split; [reflexivity|]. right. destruct (C64_history h c path m EF EA) as (cl & I & MF). rewrite (HD cl I) in MF.
    exists m, s, sc. auto.
  - inversion E; subst. split; [reflexivity|now left].
  - inversion E; subst. split; [reflexivity|now left].
Qed.

(** ** A run without failures *)
Lemma events_failed ds configs es : forall b f f', fold_left (step ds configs) es (false, f) = (b, f') -> b = false.
Proof.
  induction es as [|[a q] es IH]; intros b f f' E; [now inversion E|]. cbn [fold_left] in E. destruct (nth_error configs a); [|eapply IH; eauto].
  destruct (process_train_task _ _ _ _ _ _). cbn [andb] in E. eapply IH; eauto.
Qed.

Lemma events_keep ds configs events s m : produced ds s = Ok m -> forall b f f', f (name s) = Some (Full m) ->
  fold_left (step ds configs) events (b, f) = (true, f') -> f' (name s) = Some (Full m).
Proof.
  intros EP. induction events as [|[j kj] events IH]; intros b f f' F0 E; [inversion E; subst; exact F0|]. cbn [fold_left] in E.
  destruct (nth_error configs j) as [cj|]; [|eapply IH; eauto]. rewrite task_form in E. destruct (serialize_config cj) as [sj|] eqn:Ej.
  2: { eapply IH; eauto. }
  destruct (produced ds sj) as [mj|] eqn:Pj; [|eapply IH; eauto].
  destruct kj.
  - eapply IH; [|exact E]. destruct (String.string_dec (name s) (name sj)) as [Q|NE]; [|now rewrite put_other].
    apply concat_prefix_inj in Q. subst sj. rewrite put_same. congruence.
  - eapply IH; eauto.
  - rewrite andb_false_r in E. apply events_failed in E. discriminate.
Qed.

Lemma events_ok ds configs events : forall ok fs fs', fold_left (step ds configs) events (ok, fs) = (true, fs') ->
  ok = true /\ forall i k c, In (i, k) events -> nth_error configs i = Some c ->
    exists s m, serialize_config c = Ok s /\ produced ds s = Ok m /\ fs' (name s) = Some (Full m).
Proof.
  induction events as [|[i k] events IH]; intros ok fs fs' E; [inversion E; subst; split; [auto|intros ? ? ? []]|]. cbn [fold_left] in E.
  destruct (nth_error configs i) as [c|] eqn:N.
  2: { destruct (IH _ _ _ E) as (O & H). split; [exact O|]. intros i' k' c' [Q|I] N'; [inversion Q; subst; congruence|eauto]. }
  destruct (process_train_task trainer randint ds c k fs) as [done fs1] eqn:ET. destruct (IH _ _ _ E) as (O & H).
  apply andb_true_iff in O. destruct O as (-> & ->). split; [reflexivity|]. intros i' k' c' [Q|I] N'; [|eauto]. inversion Q; subst i' k'.
  rewrite N in N'. inversion N'; subst c'. rewrite task_form in ET. destruct (serialize_config c) as [s|] eqn:ES; [|discriminate].
  destruct (produced ds s) as [m|] eqn:EP; [|discriminate]. destruct k; inversion ET; subst. exists s, m. split; [reflexivity|]. split; [exact EP|].
  apply (events_keep ds configs events s m EP true (put fs (name s) (Full m)) fs'); [apply put_same|exact E].
Qed.

Lemma C64_complete ds lines options events fs fs' header configs :
  read_param_csv lines options = Ok (header, configs) -> Permutation (map fst events) (seq 0 (length configs)) ->
  train trainer randint ds lines options events fs = Ok (true, fs') ->
  forall c, In c configs -> exists m, model_for trainer randint ds c m /\
    process_eval_task serve randint junk ds fs' c =
      (s <- serve m ;; scores <- eval_scores randint junk s (ds_ri ds) (ds_rows ds) c ;; Ok (c, Some scores)).
Proof.
  intros ER PE ET c I. unfold train in ET. rewrite (train_configs_ok _ _ _ _ ER) in ET. cbn [bind] in ET. inversion ET as [EE]. clear ET.
  pose proof (Permutation_in _ (Permutation_sym (sort_by_perm init_epochs configs)) I) as I'. apply In_nth_error in I'. destruct I' as (i & N).
  assert (Ii : In i (map fst events)).
  { apply (Permutation_in _ (Permutation_sym PE)). apply in_seq. split; [lia|]. cbn. rewrite <- (Permutation_length (sort_by_perm init_epochs configs)).
    apply nth_error_Some. congruence. }
  apply in_map_iff in Ii. destruct Ii as ([i' k] & Q & Ii). cbn in Q. subst i'.
  unfold run_events in EE. destruct (events_ok ds _ events true fs fs' EE) as (_ & H). destruct (H i k c Ii N) as (s & m & ES & EP & EF).
  exists m. split; [now apply (produced_for ds c s)|]. unfold process_eval_task. rewrite model_file_form, ES. cbn [bind]. unfold load_model. rewrite EF. reflexivity.
Qed.
End Tasks.

(** ** The table *)
Lemma lines_leb_le a : forall b, lines_leb a b = true -> line_le a b.
Proof.
  induction a as [|x a IH]; intros b H; [apply line_nil|]. destruct b as [|y b]; [discriminate|]. cbn [lines_leb] in H.
  destruct (Rlt_dec x y); [now apply line_lt|]. destruct (Rlt_dec y x); [discriminate|].
  replace y with x by lra. apply line_eq. auto.
Qed.
Lemma lines_leb_total a : forall b, lines_leb a b = false -> line_le b a.
Proof.
  induction a as [|x a IH]; intros b H; [discriminate|]. destruct b as [|y b]; [apply line_nil|]. cbn [lines_leb] in H.
  destruct (Rlt_dec x y); [discriminate|]. destruct (Rlt_dec y x); [now apply line_lt|].
  replace y with x by lra. apply line_eq. auto.
Qed.
Lemma line_le_trans a b : line_le a b -> forall c, line_le b c -> line_le a c.
Proof.
  induction 1 as [b|x y a b L|x a b L IH]; intros c H; [constructor| |].
  - inversion H; subst; apply line_lt; lra.
  - inversion H; subst; [apply line_lt; lra|]. apply line_eq. auto.
Qed.

Lemma insert_line_perm x l : Permutation (insert_line x l) (x :: l).
Proof.
  induction l as [|y l IH]; [reflexivity|]. cbn [insert_line]. destruct (lines_leb x y); [reflexivity|]. rewrite IH. apply perm_swap.
Qed.
Lemma sort_lines_perm l : Permutation (sort_lines l) l.
Proof. induction l as [|x l IH]; [reflexivity|]. cbn [sort_lines fold_right]. rewrite insert_line_perm. fold (sort_lines l). now rewrite IH. Qed.
Lemma insert_line_sorted x l : StronglySorted line_le l -> StronglySorted line_le (insert_line x l).
Proof.
  induction l as [|y l IH]; intros H; [repeat constructor|]. cbn [insert_line]. inversion H as [|? ? H1 H2]; subst. destruct (lines_leb x y) eqn:E.
  - apply lines_leb_le in E. constructor; [exact H|]. constructor; [exact E|]. eapply Forall_impl; [|exact H2]. intros z. now apply line_le_trans.
  - apply lines_leb_total in E. constructor; [now apply IH|]. apply Forall_forall. intros z I. apply (Permutation_in _ (insert_line_perm x l)) in I.
    destruct I as [<-|I]; [exact E|]. rewrite Forall_forall in H2. now apply H2.
Qed.
Lemma sort_lines_sorted l : StronglySorted line_le (sort_lines l).
Proof. induction l as [|x l IH]; [constructor|]. cbn [sort_lines fold_right]. apply insert_line_sorted. exact IH. Qed.

Lemma mapM_map {A B} (f : A -> result B) l r : mapM f l = Ok r -> Forall2 (fun x y => f x = Ok y) l r.
Proof.
  revert r. induction l as [|x l IH]; intros r E; cbn [mapM] in E; [inversion E; constructor|].
  destruct (f x) as [b|] eqn:Fx; [|discriminate]. cbn [bind] in E. destruct (mapM f l) as [bs|]; [|discriminate]. cbn [bind] in E. inversion E; subst.
  constructor; auto.
Qed.

Lemma cells_line header c cells : mapM (fun param => config_int c param) header = Ok cells ->
  map IZR cells = map (fun k => match setting c k with Some z => IZR z | None => 0%R end) header.
Proof.
  intros E. apply mapM_map in E. induction E as [|k z ks zs E _ IH]; [reflexivity|]. cbn [map]. apply config_int_setting in E. now rewrite E, IH.
Qed.

Lemma C64_table {Mdl} (serve : Mdl -> result server) randint junk ds lines options fs table result :
  eval serve randint junk ds lines options fs = Ok (table, result) ->
  exists header configs, read_param_csv lines options = Ok (header, configs) /\ map fst result = configs /\
    (forall c r, In (c, r) result -> exists path, model_file c = Ok path /\ (r = None <-> forall m, fs path <> Some (Full m))) /\
    StronglySorted line_le table /\
    Permutation table (flat_map (fun '(c, r) => match r with Some scores => [line_of header c scores] | None => [] end) result).
Proof.
  unfold eval. destruct (read_param_csv lines options) as [[header configs]|]; [|discriminate]. cbn [bind].
  destruct (mapM (process_eval_task serve randint junk ds fs) configs) as [res|] eqn:EM; [|discriminate]. cbn [bind].
  destruct (mapM (eval_line header) res) as [tab|] eqn:ET; [|discriminate]. cbn [bind]. intros Q. inversion Q; subst. clear Q.
  assert (PT : forall c r, process_eval_task serve randint junk ds fs c = Ok r -> fst r = c /\
     exists path, model_file c = Ok path /\ (snd r = None <-> forall m, fs path <> Some (Full m))).
  { intros c r E. unfold process_eval_task in E. destruct (model_file c) as [path|]; [|discriminate]. cbn [bind] in E. unfold load_model in E.
    destruct (fs path) as [[m|]|] eqn:EF.
    - destruct (serve m); [|discriminate]. cbn [bind] in E. destruct (eval_scores _ _ _ _ _ _); [|discriminate]. cbn [bind] in E. inversion E; subst.
      split; [reflexivity|]. exists path. split; [reflexivity|]. split; [discriminate|]. intros H. now apply (H m) in EF.
    - inversion E; subst. split; [reflexivity|]. exists path. split; [reflexivity|]. split; [intros _ m; congruence|reflexivity].
    - inversion E; subst. split; [reflexivity|]. exists path. split; [reflexivity|]. split; [intros _ m; congruence|reflexivity]. }
  exists header, configs. split; [reflexivity|]. split; [|split; [|split]].
  - apply mapM_map in EM. clear ET. induction EM as [|c r cs rs E _ IH]; [reflexivity|]. cbn [map]. rewrite IH. f_equal. now apply PT.
  - intros c r I. destruct (mapM_In _ _ _ EM (c, r) I) as (c' & _ & E). destruct (PT c' _ E) as (E1 & path & E2 & E3). cbn in E1. subst c'. eauto.
  - apply sort_lines_sorted.
  - rewrite sort_lines_perm. apply mapM_map in ET. clear - ET. induction ET as [|[c r] l rs ls E _ IH]; [reflexivity|].
    cbn [concat flat_map]. rewrite IH. apply Permutation_app_tail. unfold eval_line in E. cbn [fst snd] in E. destruct r as [[lp l1]|]; [|now inversion E].
    destruct (mapM _ header) as [cells|] eqn:EC; [|discriminate]. cbn [bind] in E. inversion E; subst. unfold line_of. rewrite (cells_line _ _ _ EC). reflexivity.
Qed.
