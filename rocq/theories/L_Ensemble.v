(** train_model and train_ensemble. *)
From Coq Require Import String.
From Coq Require Import List Arith Bool ZArith Reals QArith Lia Lra Permutation.
From Verif Require Import Base L_Base M_Structure M_Config M_Rand L_Rand M_Training M_Ensemble Spec_Stats Spec_Model Spec_Ensemble L_Train.
From Verif Require Spec_MST L_Sampler L_EdgeLogits L_Estimate.
Import ListNotations.
Open Scope string_scope.
Open Scope nat_scope.

Section G.
Variables (g : generators) (lg : R -> R) (mst : list (list R) -> list (nat * nat)).

(** Two computations with the same outcome whatever the generators' states. *)
Definition indep {A} (c : comp g A) : Prop := forall st1 st2, fst (c st1) = fst (c st2).

Lemma indep_from {A} (r : result A) : indep (from g r).
Proof. intros st1 st2. reflexivity. Qed.

Lemma indep_bind_from {A B} (r : result A) (f : A -> comp g B) : (forall a, indep (f a)) -> indep (cbind g (from g r) f).
Proof. intros H st1 st2. unfold cbind, from. destruct r; [apply H|reflexivity]. Qed.

Lemma indep_seed {B} s (f : unit -> comp g B) : indep (cbind g (set_random_seed g s) f).
Proof.
  intros [a1 b1] [a2 b2]. unfold cbind, set_random_seed.
  destruct (np_seed g s); [|reflexivity]. destruct (jit_seed g s); reflexivity.
Qed.

Lemma train_model_indep tb prior config : indep (train_model g lg mst tb prior config).
Proof.
  unfold train_model. apply indep_bind_from. intros M. apply indep_bind_from. intros D.
  apply indep_bind_from. intros _. apply indep_bind_from. intros _.
  destruct (D =? 0)%Z; [|destruct (M =? 1)%Z; apply indep_from].
  unfold treecat_train. apply indep_bind_from. intros M'. apply indep_bind_from. intros s. apply indep_bind_from. intros seed.
  apply indep_seed.
Qed.

Lemma run_task_indep tb prior h t : indep (run_task g lg mst tb prior h t).
Proof. apply indep_bind_from. intros. apply train_model_indep. Qed.

(** The outcome of task [t]. *)
Definition outcome tb prior h t (st : rng g) := fst (run_task g lg mst tb prior h t st).

Lemma seq_map_ok tb prior h ts : forall st st0,
  match fst (seq_map g lg mst tb prior h ts st) with
  | Ok ms => length ms = length ts /\
      forall i t, nth_error ts i = Some t -> exists m, nth_error ms i = Some m /\ outcome tb prior h t st0 = Ok m
  | Raise e => exists i t, nth_error ts i = Some t /\ outcome tb prior h t st0 = Raise e
  end.
Proof.
  induction ts as [|t ts IH]; intros st st0; cbn [seq_map].
  - cbn. split; [reflexivity|]. intros [|i] t H; discriminate.
  - unfold cbind at 1. pose proof (run_task_indep tb prior h t st st0) as ER.
    destruct (run_task g lg mst tb prior h t st) as [[m|e] st1] eqn:E1; cbn [fst] in ER.
    + unfold cbind. specialize (IH st1 st0). destruct (seq_map g lg mst tb prior h ts st1) as [[ms|e] st2]; cbn [fst ret] in *.
      * destruct IH as (L & H). split; [cbn; now rewrite L|]. intros [|i] t' Ht; cbn [nth_error] in *.
        -- inversion Ht; subst. exists m. split; [reflexivity|]. symmetry. exact ER.
        -- apply H, Ht.
      * destruct IH as (i & t' & Ht & H). exists (S i), t'. auto.
    + cbn [fst]. exists 0, t. split; [reflexivity|]. symmetry. exact ER.
Qed.

Lemma pool_ok tb prior h ts st0 events : forall p,
  (forall i m, In (i, m) (p_done g p) -> exists t, nth_error ts i = Some t /\ outcome tb prior h t st0 = Ok m) ->
  (forall e, p_raised g p = Some e -> exists i t, nth_error ts i = Some t /\ outcome tb prior h t st0 = Raise e) ->
  let p' := fold_left (pool_step g lg mst tb prior h ts) events p in
  (forall i m, In (i, m) (p_done g p') -> exists t, nth_error ts i = Some t /\ outcome tb prior h t st0 = Ok m) /\
  (forall e, p_raised g p' = Some e -> exists i t, nth_error ts i = Some t /\ outcome tb prior h t st0 = Raise e) /\
  (p_raised g p' = None -> p_raised g p = None /\ forall i, i < length ts ->
     (exists m, In (i, m) (p_done g p)) \/ In i (map snd events) -> exists m, In (i, m) (p_done g p')).
Proof.
  induction events as [|[w i] events IH]; intros p HD HR; cbn [fold_left].
  { split; [exact HD|]. split; [exact HR|]. intros E. split; [exact E|]. intros j _ [H|[]]. exact H. }
  cbv zeta. cbn [pool_step]. destruct (nth_error ts i) as [t|] eqn:Et.
  - pose proof (run_task_indep tb prior h t (p_rng g p w) st0) as ER. fold (outcome tb prior h t st0) in ER.
    destruct (run_task g lg mst tb prior h t (p_rng g p w)) as [[m|e] st]; cbn [fst] in ER.
    + set (p1 := Pool g _ _ _). destruct (IH p1) as (A & B & C).
      * unfold p1. cbn [p_done]. intros j m' Hin. apply in_app_or in Hin. destruct Hin as [Hin|[X|[]]]; [now apply HD|].
        inversion X; subst. exists t. split; [exact Et|]. now symmetry.
      * exact HR.
      * split; [exact A|]. split; [exact B|]. intros N. destruct (C N) as (N1 & C1). split; [exact N1|].
        intros j Hj [[m' Hin]|[X|Hin]].
        -- apply C1; auto. left. exists m'. unfold p1. cbn [p_done]. apply in_or_app. now left.
        -- cbn [snd] in X. subst j. apply C1; auto. left. exists m. unfold p1. cbn [p_done]. apply in_or_app. right. now left.
        -- apply C1; auto.
    + set (p1 := Pool g _ _ _). destruct (IH p1) as (A & B & C).
      * exact HD.
      * unfold p1. cbn [p_raised]. intros e' He. destruct (p_raised g p) as [e0|] eqn:E0.
        -- apply HR. congruence.
        -- inversion He; subst. exists i, t. split; [exact Et|]. now symmetry.
      * split; [exact A|]. split; [exact B|]. intros N. destruct (C N) as (N1 & _). unfold p1 in N1. cbn [p_raised] in N1.
        destruct (p_raised g p); discriminate.
  - destruct (IH p HD HR) as (A & B & C). split; [exact A|]. split; [exact B|]. intros N. destruct (C N) as (N1 & C1).
    split; [exact N1|]. intros j Hj [X|[X|X]]; [apply C1; auto| |apply C1; auto].
    cbn [snd] in X. subst j. apply nth_error_None in Et. lia.
Qed.

Lemma mapM_get {A B} (f : A -> result B) l : (forall a, In a l -> exists b, f a = Ok b) ->
  exists bs, mapM f l = Ok bs /\ length bs = length l /\ forall i a, nth_error l i = Some a -> exists b, nth_error bs i = Some b /\ f a = Ok b.
Proof.
  induction l as [|a l IH]; intros H; cbn [mapM].
  - exists []. split; [reflexivity|]. split; [reflexivity|]. intros [|i] a E; discriminate.
  - destruct (H a) as (b & E); [now left|]. rewrite E. cbn [bind].
    destruct IH as (bs & EB & L & HB); [intros; apply H; now right|]. rewrite EB. cbn [bind].
    exists (b :: bs). split; [reflexivity|]. split; [cbn; now rewrite L|].
    intros [|i] a' E'; cbn [nth_error] in *; [inversion E'; subst; eauto|auto].
Qed.

Lemma parallel_ok threads workers events st st0 tb prior h ts :
  Permutation (map snd events) (seq 0 (length ts)) ->
  match parallel_map g lg mst threads workers events st tb prior h ts with
  | Ok ms => length ms = length ts /\
      forall i t, nth_error ts i = Some t -> exists m, nth_error ms i = Some m /\ outcome tb prior h t st0 = Ok m
  | Raise e => exists i t, nth_error ts i = Some t /\ outcome tb prior h t st0 = Raise e
  end.
Proof.
  intros PE. unfold parallel_map. destruct ((length ts <? 2) || (threads =? 1)); [apply seq_map_ok|].
  unfold pool_map. cbv zeta.
  destruct (pool_ok tb prior h ts st0 events (Pool g workers [] None)) as (A & B & C).
  { intros i m []. } { intros e X. discriminate X. }
  set (p := fold_left _ _ _) in *. destruct (p_raised g p) as [e|] eqn:ER; [now apply B|].
  destruct (C eq_refl) as (_ & C1).
  destruct (mapM_get (fun i => match find (fun '(j, _) => j =? i) (p_done g p) with Some (_, m) => Ok m | None => Raise OutOfBounds end)
              (seq 0 (length ts))) as (ms & E & L & H).
  { intros i Hi. destruct (C1 i) as (m & Hm).
    - apply in_seq in Hi. lia.
    - right. apply (Permutation_in _ (Permutation_sym PE)). exact Hi.
    - destruct (find _ (p_done g p)) as [[j m']|] eqn:F; [eauto|].
      apply (find_none _ _ F) in Hm. cbn in Hm. rewrite Nat.eqb_refl in Hm. discriminate. }
  rewrite E. split; [now rewrite L, seq_length|]. intros i t Ht.
  assert (Hi : i < length ts) by (apply nth_error_Some; congruence).
  destruct (H i i) as (m & Hm & F).
  { rewrite nth_error_nth' with (d := 0) by (now rewrite seq_length). now rewrite seq_nth. }
  exists m. split; [exact Hm|].
  destruct (find _ (p_done g p)) as [[j m']|] eqn:FF; [|discriminate]. inversion F; subst m'.
  apply find_some in FF. destruct FF as (Hin & Hj). cbn in Hj. apply Nat.eqb_eq in Hj. subst j.
  destruct (A i m Hin) as (t' & Ht' & O). congruence.
Qed.

(** ** The tasks *)
Lemma lookup_set d k v k' : lookup (dict_set d k v) k' = if String.eqb k' k then Some v else lookup d k'.
Proof.
  induction d as [|[k0 v0] d IH]; cbn [dict_set lookup].
  - destruct (String.eqb_spec k' k); reflexivity.
  - destruct (String.eqb_spec k k0); cbn [lookup]; [subst k0|].
    + destruct (String.eqb_spec k' k); reflexivity.
    + rewrite IH. destruct (String.eqb_spec k' k0); [|reflexivity]. subst. destruct (String.eqb_spec k0 k); congruence.
Qed.

Lemma keys_set d k v v0 : lookup d k = Some v0 -> keys (dict_set d k v) = keys d.
Proof.
  induction d as [|[k0 v1] d IH]; cbn [dict_set lookup]; [discriminate|]. unfold keys in *.
  destruct (String.eqb_spec k k0); cbn [map fst]; [reflexivity|]. intros H. now rewrite IH.
Qed.

Lemma tasks_ok h a c v n : nth_error h a = Some c -> lookup c "seed" = Some v -> forall b h0 ts0,
  (exists ext, h0 = (h ++ ext)%list) ->
  exists h' ts, foldM (fun '(h, tasks) sub_seed =>
           ' (sub_config, h) <- dict_copy h a ;;
           h <- dict_incr h sub_config "seed" (Z.of_nat sub_seed) ;;
           Ok (h, (tasks ++ [sub_config])%list)) (seq b n) (h0, ts0) = Ok (h', (ts0 ++ ts)%list) /\
    (exists ext, h' = (h0 ++ ext)%list) /\ length ts = n /\
    forall i, i < n -> exists t c', nth_error ts i = Some t /\ nth_error h' t = Some c' /\ seeded c (b + i) c'.
Proof.
  intros HA HS. induction n as [|n IH]; intros b h0 ts0 (ext & ->); cbn [seq foldM].
  - exists (h ++ ext)%list, []. split; [now rewrite app_nil_r|]. split; [exists []; now rewrite app_nil_r|].
    split; [reflexivity|]. intros i Hi. lia.
  - assert (Ha : nth_error (h ++ ext) a = Some c).
    { rewrite nth_error_app1; auto. apply nth_error_Some. congruence. }
    unfold dict_copy at 1. unfold get at 1. rewrite Ha. cbn [bind].
    unfold dict_incr at 1. unfold get at 1. rewrite nth_error_app2, Nat.sub_diag by lia. cbn [nth_error bind].
    unfold key at 1. rewrite HS. cbn [bind].
    set (c1 := dict_set c "seed" (PInt (to_int v + Z.of_nat b))).
    assert (EU : upd ((h ++ ext) ++ [c]) (length (h ++ ext)) c1 = ((h ++ ext) ++ [c1])%list).
    { clear. induction (h ++ ext)%list; cbn; [reflexivity|]. now f_equal. }
    rewrite EU. destruct (IH (S b) ((h ++ ext) ++ [c1])%list (ts0 ++ [length (h ++ ext)])%list) as (h' & ts & E & (ext' & EX) & L & H).
    { exists (ext ++ [c1])%list. now rewrite app_assoc. }
    exists h', (length (h ++ ext) :: ts). rewrite <- (app_assoc ts0) in E. cbn [List.app] in E. split; [exact E|].
    split; [exists ([c1] ++ ext')%list; now rewrite EX, <- app_assoc|]. split; [cbn; now rewrite L|].
    intros [|i] Hi.
    + exists (length (h ++ ext)), c1. split; [reflexivity|]. split.
      * rewrite EX, <- app_assoc, nth_error_app2, Nat.sub_diag by lia. reflexivity.
      * unfold c1. split; [eapply keys_set; eauto|]. split.
        -- exists v. split; [exact HS|]. rewrite lookup_set, String.eqb_refl, Nat.add_0_r. reflexivity.
        -- intros k Hk. rewrite lookup_set. destruct (String.eqb_spec k "seed"); congruence.
    + destruct (H i) as (t & c' & Ht & Hc & SD); [lia|]. exists t, c'. cbn [nth_error]. split; [exact Ht|]. split; [exact Hc|].
      replace (b + S i) with (S b + i) by lia. exact SD.
Qed.

Lemma train_config_kept tb prior c st m : fst (train_model g lg mst tb prior c st) = Ok m -> m_config m = c.
Proof.
  unfold train_model, treecat_train, cbind, from, ret. 
  repeat match goal with
         | |- context[match ?x with _ => _ end] => destruct x; cbn [fst]; try discriminate
         end; intros X; inversion X; reflexivity.
Qed.

Lemma ensemble_ok threads workers events st tb prior h a c v size :
  nth_error h a = Some c -> lookup c "seed" = Some v -> key c "model_ensemble_size" = Ok (Z.of_nat size) ->
  Permutation (map snd events) (seq 0 size) ->
  let '(out, h') := train_ensemble g lg mst threads workers events st tb prior h a in
  (forall b, b < length h -> nth_error h' b = nth_error h b) /\
  match out with
  | Ok ms => length ms = size /\ forall i m, nth_error ms i = Some m ->
      seeded c i (m_config m) /\ forall st', fst (train_model g lg mst tb prior (m_config m) st') = Ok m
  | Raise e => exists i c', i < size /\ seeded c i c' /\ forall st', fst (train_model g lg mst tb prior c' st') = Raise e
  end.
Proof.
  intros HA HS HN PE. unfold train_ensemble, ensemble_tasks. unfold get at 1. rewrite HA. cbn [bind]. rewrite HN. cbn [bind].
  rewrite Nat2Z.id. destruct (tasks_ok h a c v size HA HS 0 h []) as (h' & ts & E & (ext & EX) & L & H).
  { exists []. now rewrite app_nil_r. }
  cbn [List.app] in E.
  match goal with |- context[foldM ?f ?l ?i] => replace (foldM f l i) with (Ok (h', ts)) by (symmetry; exact E) end. split.
  { intros b Hb. rewrite EX. now apply nth_error_app1. }
  assert (RT : forall i t, nth_error ts i = Some t -> exists c', seeded c i c' /\ forall st0, outcome tb prior h' t st0 = fst (train_model g lg mst tb prior c' st0)).
  { intros i t Ht. destruct (H i) as (t' & c' & Ht' & Hc & SD); [rewrite <- L; apply nth_error_Some; congruence|].
    assert (t' = t) by congruence. subst t'. exists c'. split; [exact SD|]. intros st0. unfold outcome, run_task, cbind, from, get. now rewrite Hc. }
  rewrite <- L in PE. pose proof (parallel_ok threads workers events st st tb prior h' ts PE) as PO.
  destruct (parallel_map g lg mst threads workers events st tb prior h' ts) as [ms|e].
  - destruct PO as (LM & HMs). split; [congruence|]. intros i m Hm.
    assert (Hi : i < length ts) by (rewrite <- LM; apply nth_error_Some; congruence).
    destruct (nth_error ts i) as [t|] eqn:Ht; [|apply nth_error_None in Ht; lia].
    destruct (HMs i t Ht) as (m' & Hm' & O). assert (m' = m) by congruence. subst m'.
    destruct (RT i t Ht) as (c' & SD & OC). rewrite OC in O. pose proof (train_config_kept _ _ _ _ _ O) as EC. rewrite EC.
    split; [exact SD|]. intros st'. rewrite <- O. apply train_model_indep.
  - destruct PO as (i & t & Ht & O). destruct (RT i t Ht) as (c' & SD & OC). exists i, c'.
    split; [rewrite <- L; apply nth_error_Some; congruence|]. split; [exact SD|]. intros st'. rewrite <- O, OC. apply train_model_indep.
Qed.

(** ** Legal generators *)
Lemma interp_always {A} (P : A -> Prop) p : draws_legally g -> always P p -> forall st, exists a st', interp g p st = (Ok a, st') /\ P a.
Proof.
  intros (HC & HP). induction p as [a|e|w k IH|n k IH]; cbn [always interp]; intros AL st.
  - eauto.
  - contradiction.
  - destruct AL as (NE & AL). specialize (HC w st NE). destruct w as [|x w]; [congruence|].
    destruct (draw_cat g (x :: w) st) as [i st1]. apply IH. now apply AL.
  - specialize (HP n st). destruct (draw_perm g n st) as [l st1]. apply IH. now apply AL.
Qed.

Lemma train_model_valid ws tb prior c st s :
  draws_legally g -> table_ok ws tb -> Spec_MST.mst_contract mst -> admissible c ->
  1 <= num_cols tb <= 2 ^ 15 -> length prior = num_cols tb * (num_cols tb - 1) / 2 ->
  key c "seed" = Ok s -> (exists x, np_seed g s = Ok x) -> (exists x, jit_seed g s = Ok x) ->
  exists m z, fst (train_model g lg mst tb prior c st) = Ok m /\ key c "model_num_clusters" = Ok z /\
    valid_model ws tb (Z.to_nat z) (m_state m).
Proof.
  intros DL TK MC ((s' & Es) & (z & Ez & Hz) & ED & (ie & Ei & Hi) & (fe & Ef) & (ra & Er & Hr) & (es & Ee)) HV LP Es0 (x & Ex) (y & Ey).
  assert (HM : 1 <= Z.to_nat z <= 128) by lia.
  destruct (init_trainer tb prior (Z.to_nat z)) as [s0|e] eqn:E0.
  - set (cfg := Cfg (Z.to_nat z) (inject_Z ie) (Z.to_nat fe) (inject_Z ra) (negb (es =? 0)%Z)).
    assert (CO : config_ok cfg).
    { split; [exact HM|]. split; cbn [c_init_epochs c_tree_rate cfg]; change 1%Q with (inject_Z 1); rewrite <- Zle_Qle; auto. }
    pose proof (C19_proof ws tb prior lg mst cfg s0 TK CO MC E0) as AL.
    destruct (interp_always _ _ DL AL (x, y)) as ([s1 logits] & st' & EI & _ & VM & _).
    exists (Model c s1 logits), z. split; [|split; [exact Ez|exact VM]].
    unfold train_model, treecat_train. unfold cbind, from, ret. rewrite Ez, ED.
    replace (1 <=? z)%Z with true by (symmetry; apply Z.leb_le; lia). cbn [assert_ Z.leb Z.compare Z.eqb]. rewrite E0, Es0.
    destruct st as [a b]. cbn [set_random_seed]. rewrite Ex, Ey, Ei, Ef, Er, Ee. fold cfg. rewrite EI. reflexivity.
  - exfalso. destruct (init_exists tb prior (Z.to_nat z) (proj2 HM) HV LP) as (s0 & E). congruence.
Qed.
End G.

(** ** Examples *)
(** Generators that always draw with u = 1/2 and never permute. *)
Definition half_gen : generators :=
  Gen unit unit (fun _ => Ok tt) (fun _ => Ok tt)
    (fun w st => (match sample_from_probs (1 / 2)%R w with Ok i => i | Raise _ => 0 end, st)) (fun n st => (seq 0 n, st)).

Lemma half_legal : draws_legally half_gen.
Proof.
  split.
  - intros w st NE. destruct (L_Sampler.sample_outcome w (1 / 2)%R NE) as (i & E & C); [lra|]. cbn. rewrite E. exact C.
  - intros n st. apply Permutation_refl.
Qed.

Lemma C19_case_proof : table_ok [2; 2] L_EdgeLogits.cx_tb /\ config_ok (Cfg 4 (3 # 2) 2 3 true) /\
  Spec_MST.mst_contract L_Estimate.naive_mst /\ (exists s0, init_trainer L_EdgeLogits.cx_tb [0%R] 4 = Ok s0) /\
  draws_legally half_gen /\ admissible DEFAULT_CONFIG.
Proof.
  split; [exact L_EdgeLogits.cx_ok|]. split.
  { split; [cbn [c_clusters]; lia|]. split; unfold Qle; cbn; lia. }
  split; [exact L_Estimate.naive_mst_contract|]. split.
  { apply init_exists; [lia| |reflexivity]. change (num_cols L_EdgeLogits.cx_tb) with 2. split; [lia|].
    apply (Nat.pow_le_mono_r 2 1 15); lia. }
  split; [exact half_legal|].
  split; [eexists; reflexivity|]. split; [eexists; split; [reflexivity|cbn; lia]|]. split; [reflexivity|].
  split; [eexists; split; [reflexivity|cbn; lia]|]. split; [eexists; reflexivity|].
  split; [eexists; split; [reflexivity|cbn; lia]|]. eexists; reflexivity.
Qed.

Lemma C24_case_proof : lookup DEFAULT_CONFIG "seed" = Some (PInt 0) /\
  key DEFAULT_CONFIG "model_ensemble_size" = Ok (Z.of_nat 8) /\
  Permutation (map snd [(2, 4); (0, 0); (2, 5); (1, 2); (1, 3); (0, 1); (0, 6); (1, 7)]) (seq 0 8).
Proof.
  split; [reflexivity|]. split; [reflexivity|]. apply NoDup_Permutation.
  - cbn. repeat (apply NoDup_cons; [cbn; intuition discriminate|]). constructor.
  - apply seq_NoDup.
  - intros x. cbn. intuition.
Qed.
