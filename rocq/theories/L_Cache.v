From Coq Require Import String Ascii.
From Coq Require Import List Arith ZArith QArith Qabs Bool Lia Lqa Decimal DecimalString.
From Verif Require Import Base M_Config M_Cache Spec_Cache L_Base L_Config.
Import ListNotations.
Open Scope string_scope.

(** ** Names *)
Fixpoint nodot (s : string) : Prop :=
  match s with EmptyString => True | String c s => c <> "."%char /\ nodot s end.
Lemma nodot_uint : forall d, nodot (NilEmpty.string_of_uint d).
Proof. induction d; simpl; auto; split; auto; discriminate. Qed.
Lemma nodot_uint0 : forall d, nodot (NilZero.string_of_uint d).
Proof. intros d. destruct d; simpl; split; try discriminate; auto using nodot_uint. Qed.
Lemma nodot_str : forall z, nodot (str_int z).
Proof.
  intros z. unfold str_int. destruct z as [|p|p]; cbn.
  - split; [discriminate|exact I].
  - apply nodot_uint0.
  - split; [discriminate|]. apply nodot_uint0.
Qed.
Lemma app_dot_inv : forall a b r s, nodot a -> nodot b -> (a ++ String "." r = b ++ String "." s)%string -> a = b /\ r = s.
Proof.
  induction a; destruct b; simpl; intros r s A B E; inversion E; subst; auto.
  - destruct B; congruence.
  - destruct A; congruence.
  - destruct A, B. destruct (IHa b r s) as [-> ->]; auto.
Qed.
Lemma length_app : forall s t, String.length (s ++ t) = (String.length s + String.length t)%nat.
Proof. induction s; intros; cbn; auto. Qed.
Lemma app_suffix_inv : forall a b s, (a ++ s = b ++ s)%string -> a = b.
Proof.
  induction a as [|c a IH]; intros b s H; destruct b as [|c' b]; auto.
  - apply (f_equal String.length) in H. cbn in H. rewrite length_app in H. lia.
  - apply (f_equal String.length) in H. cbn in H. rewrite length_app in H. lia.
  - cbn in H. injection H as -> H. f_equal. eauto.
Qed.

Lemma tenths_str_inj : forall t u, tenths_str t = tenths_str u -> t = u.
Proof.
  intros t u H. unfold tenths_str in H. cbn [append] in H. apply app_dot_inv in H as [A B]; try apply nodot_str.
  apply str_int_inj in A. apply str_int_inj in B. rewrite (Z.div_mod t 10), (Z.div_mod u 10) by lia. congruence.
Qed.
Lemma tenths_nonneg : forall x, (0 <= Qnum x)%Z -> (0 <= tenths x)%Z.
Proof.
  intros x H. unfold tenths. assert (0 <= 10 * Qnum x / Zpos (Qden x))%Z by (apply Z.div_pos; lia).
  destruct (_ <? _)%Z; [lia|]. destruct (_ <? _)%Z; [lia|]. destruct (Z.even _); lia.
Qed.
Lemma tenths_close : forall x, (Qabs (x - (tenths x # 10)) <= 1 # 20)%Q.
Proof.
  intros [n d]. unfold tenths. cbn [Qnum Qden]. set (q := (10 * n / Zpos d)%Z). set (r := (10 * n mod Zpos d)%Z).
  assert (E : (10 * n = Zpos d * q + r)%Z) by (apply Z.div_mod; lia).
  assert (B : (0 <= r < Zpos d)%Z) by (apply Z.mod_pos_bound; lia).
  assert (G : forall t, (-Zpos d <= 2 * (10 * n - Zpos d * t) <= Zpos d)%Z -> (Qabs ((n # d) - (t # 10)) <= 1 # 20)%Q).
  { intros t Ht. apply Qabs_Qle_condition. unfold Qle, Qminus, Qplus, Qopp. cbn [Qnum Qden]. rewrite !Pos2Z.inj_mul. split; nia. }
  apply G. destruct (Z.ltb_spec (2 * r) (Zpos d)); [nia|]. destruct (Z.ltb_spec (Zpos d) (2 * r)); [nia|]. destruct (Z.even q); nia.
Qed.

Lemma fmt1_close : forall x y, fmt1 x = fmt1 y -> (Qabs (x - y) <= 1 # 10)%Q.
Proof.
  assert (ND : forall t, (0 <= t)%Z -> exists c s, tenths_str t = String c s /\ c <> "-"%char).
  { intros t Ht. unfold tenths_str. destruct (str_int_shape (t / 10)) as (d & NE & N & [[_ ->]|[Q _]]).
    - destruct d as [|c d]; [now elim NE|]. exists c, (d ++ "." ++ str_int (t mod 10))%string. split; [reflexivity|apply N].
    - pose proof (Z.div_pos t 10 Ht ltac:(lia)). lia. }
  assert (T : forall x y t, tenths x = t -> tenths y = t -> (Qabs (x - y) <= 1 # 10)%Q).
  { intros x y t E1 E2. pose proof (tenths_close x) as A. pose proof (tenths_close y) as B. rewrite E1 in A. rewrite E2 in B.
    apply Qabs_Qle_condition in A. apply Qabs_Qle_condition in B. apply Qabs_Qle_condition. split; lra. }
  assert (POS : forall x, Qle_bool 0 x = true -> (0 <= Qnum x)%Z).
  { intros [n d] H. apply Qle_bool_iff in H. unfold Qle in H. cbn in *. lia. }
  assert (NEG : forall x, Qle_bool 0 x = false -> (0 <= Qnum (- x))%Z).
  { intros [n d] H. unfold Qle_bool in H. cbn in *. apply Z.leb_gt in H. lia. }
  intros x y H. unfold fmt1 in H. destruct (Qle_bool 0 x) eqn:EX, (Qle_bool 0 y) eqn:EY.
  - apply tenths_str_inj in H. eauto.
  - destruct (ND _ (tenths_nonneg x (POS x EX))) as (c & s & E & N). rewrite E in H. cbn in H. injection H as -> _. now elim N.
  - destruct (ND _ (tenths_nonneg y (POS y EY))) as (c & s & E & N). rewrite E in H. cbn in H. injection H as <- _. now elim N.
  - cbn in H. injection H as H. apply tenths_str_inj in H. pose proof (T (- x) (- y) _ H eq_refl)%Q as Q.
    rewrite <- Qabs_opp. setoid_replace (- (x - y))%Q with (- x - - y)%Q by ring. exact Q.
Qed.

Lemma cache_name_inj : forall kind a b, cache_name kind a = cache_name kind b ->
  a_rows a = a_rows b /\ a_cols a = a_cols b /\ a_cats a = a_cats b /\ (Qabs (a_rate a - a_rate b) <= 1 # 10)%Q.
Proof.
  intros kind a b H. unfold cache_name in H. cbn [append] in H.
  apply intlike_sep in H as [A H]; try apply intlike_str. apply intlike_sep in H as [B H]; try apply intlike_str.
  apply intlike_sep in H as [C H]; try apply intlike_str. apply str_int_inj in A. apply str_int_inj in B. apply str_int_inj in C.
  repeat (split; auto). apply fmt1_close. now apply app_suffix_inv in H.
Qed.

(** ** Histories *)
Definition sound (h : list event) (p : string) (c : content) : Prop :=
  exists a, asked h a /\ ((c = Dataset a /\ p = cache_name "dataset" a) \/ (c = Model a /\ p = cache_name "model" a)).
Definition good (h : list event) (s : fs) : Prop := forall p c, fs_files s p = Some c -> sound h p c.

Lemma kinds_differ : forall a b, cache_name "dataset" a <> cache_name "model" b.
Proof.
  intros a b H. unfold cache_name in H. cbn [append] in H.
  apply intlike_sep in H as [_ H]; try apply intlike_str. apply intlike_sep in H as [_ H]; try apply intlike_str.
  apply intlike_sep in H as [_ H]; try apply intlike_str.
  assert (F : forall x, exists m n, fmt1 x = (m ++ "." ++ n)%string /\ nodot m /\ nodot n).
  { intros x. unfold fmt1, tenths_str. destruct (Qle_bool 0 x).
    - do 2 eexists; repeat split; apply nodot_str.
    - exists (String "-" (str_int (tenths (- x) / 10))), (str_int (tenths (- x) mod 10)). split; [reflexivity|].
      split; [split; [discriminate|apply nodot_str]|apply nodot_str]. }
  destruct (F (a_rate a)) as (m & n & E & A & B), (F (a_rate b)) as (m' & n' & E' & A' & B'). rewrite E, E' in H.
  assert (AP : forall x y z : string, ((x ++ y) ++ z = x ++ (y ++ z))%string) by (induction x; intros; cbn; congruence).
  rewrite !AP in H. cbn [append] in H. apply app_dot_inv in H as [_ H]; auto. rewrite ?AP in H. cbn [append] in H. apply app_dot_inv in H as [_ H]; auto. discriminate.
Qed.

Lemma asked_mono h e c : asked h c -> asked (h ++ [e]) c.
Proof. intros [[k H]|(kd & k & H)]; [left; exists k|right; exists kd, k]; apply in_or_app; auto. Qed.
Lemma good_mono h e s : good h s -> good (h ++ [e]) s.
Proof. intros G p c H. destruct (G p c H) as (a & A & B). exists a. split; auto using asked_mono. Qed.

Lemma data_good : forall h s a k, good h s -> k <> Writing -> asked h a -> good h (snd (generate_dataset_file s a k)).
Proof.
  intros h s a k G K A. unfold generate_dataset_file. destruct (fs_files s (cache_name "dataset" a)) eqn:E; [exact G|].
  destruct k; cbn [snd]; try exact G; [|easy].
  intros p c H. cbn in H. destruct (String.eqb_spec p (cache_name "dataset" a)) as [->|]; [|now apply G].
  injection H as <-. exists a. auto.
Qed.
Lemma same_name_model a b : cache_name "dataset" a = cache_name "dataset" b -> cache_name "model" a = cache_name "model" b.
Proof.
  unfold cache_name. cbn [append]. intros H.
  apply intlike_sep in H as [A H]; try apply intlike_str. apply intlike_sep in H as [B H]; try apply intlike_str.
  apply intlike_sep in H as [C H]; try apply intlike_str. apply app_suffix_inv in H. now rewrite A, B, C, H.
Qed.

(** After a call that was not killed, the dataset's file is sound. *)
Lemma data_returns : forall h s a k, good h s -> k <> Writing -> asked h a ->
  let '(o, s') := generate_dataset_file s a k in
  match o with
  | Returned p => p = cache_name "dataset" a /\ exists b, fs_files s' p = Some (Dataset b) /\ asked h b /\ cache_name "dataset" b = cache_name "dataset" a
  | Raised _ => False
  | Killed => True
  end.
Proof.
  intros h s a k G K A. unfold generate_dataset_file. destruct (fs_files s (cache_name "dataset" a)) as [c|] eqn:E.
  - split; auto. destruct (G _ _ E) as (b & B & [[-> N]|[-> N]]).
    + exists b. repeat split; auto. 
    + now apply kinds_differ in N.
  - destruct k; cbn; auto; try easy. rewrite String.eqb_refl. split; auto. exists a. auto.
Qed.

Lemma model_step : forall h s a kd k, good h s -> kd <> Writing -> k <> Writing -> asked h a ->
  let '(o, s') := generate_model_file s a kd k in good h s' /\
  match o with
  | Returned p => p = cache_name "model" a /\ exists b, fs_files s' p = Some (Model b) /\ asked h b /\ cache_name "model" b = cache_name "model" a
  | Raised _ => False
  | Killed => kd <> NoCrash \/ k <> NoCrash
  end.
Proof.
  intros h s a kd k G KD K A. unfold generate_model_file. destruct (fs_files s (cache_name "model" a)) as [c|] eqn:E.
  - split; auto. split; auto. destruct (G _ _ E) as (b & B & [[-> N]|[-> N]]).
    + symmetry in N. now apply kinds_differ in N.
    + exists b. repeat split; auto.
  - assert (G' : good h (FS true (fs_files s))) by exact G.
    pose proof (data_good _ _ _ kd G' KD A) as GD. pose proof (data_returns _ _ _ kd G' KD A) as RD.
    destruct (generate_dataset_file (FS true (fs_files s)) a kd) as [o s'] eqn:ED. cbn [snd] in GD.
    assert (KK : o = Killed -> kd <> NoCrash).
    { intros -> ->. unfold generate_dataset_file in ED. cbn in ED. destruct (fs_files s (cache_name "dataset" a)); discriminate. }
    destruct o as [p|e|]; [|easy|].
    + destruct RD as (-> & b & Eb & Ab & Nb). unfold load_dataset. rewrite Eb.
      destruct k; try easy.
      * split.
        -- intros p c H. cbn in H. destruct (String.eqb_spec p (cache_name "model" a)) as [->|]; [|now apply GD].
           injection H as <-. exists b. split; auto. right. split; auto. symmetry. now apply same_name_model.
        -- split; auto. exists b. cbn. rewrite String.eqb_refl. split; auto. split; auto. now apply same_name_model.
      * split; [exact G|]. right; discriminate.
      * split; [exact GD|]. right; discriminate.
    + destruct k; try easy; (split; [try exact G; exact GD|auto]).
Qed.

Lemma good_run : forall h, writes_finish h -> good h (run h).
Proof.
  intros h. unfold run. induction h as [|e h IH] using rev_ind; intros [W1 W2].
  - intros p c H. discriminate.
  - rewrite fold_left_app. cbn [fold_left].
    assert (G : good (h ++ [e]) (fold_left step h (FS false (fun _ => None)))).
    { apply good_mono, IH. split; intros; [intros Q; eapply W1|eapply W2]; apply in_or_app; left; eassumption. }
    assert (L : In e (h ++ [e])) by (apply in_or_app; right; now left).
    set (s := fold_left step h (FS false (fun _ => None))) in *. destruct e as [a k|a kd k|keep done]; cbn [step].
    + apply data_good; auto. intros ->. eapply W1; eauto. left. eauto.
    + destruct (W2 _ _ _ L) as [KD K]. pose proof (model_step _ _ a kd k G KD K ltac:(right; eauto)) as Q.
      destruct (generate_model_file s a kd k). apply Q.
    + unfold clean. destruct done. intros p c H; discriminate. intros p c H. cbn in H. destruct (keep p); [now apply G|discriminate].
Qed.

Lemma near_apart h kind a b : asked (h ++ [GenData a NoCrash]) b \/ asked (h ++ [GenModel a NoCrash NoCrash]) b ->
  cache_name kind b = cache_name kind a -> near a b /\ (rates_apart h a -> b = a).
Proof.
  intros AB N. apply cache_name_inj in N as (A & B & C & D). split; [split; auto|]. intros Q.
  assert (AA : asked h b \/ b = a).
  { destruct AB as [[[k H]|(kd & k & H)]|[[k H]|(kd & k & H)]]; apply in_app_or in H as [H|[H|[]]]; try discriminate; try (injection H as <- _; now right);
      left; [left|right|left|right]; eauto. }
  destruct AA as [AA| ->]; auto. destruct (Q b AA) as [R|R].
  - destruct a, b; cbn in *; congruence.
  - exfalso. apply Qlt_not_le in R. auto.
Qed.

Lemma C51_data : forall h a, writes_finish h ->
  exists s b, generate_dataset_file (run h) a NoCrash = (Returned (cache_name "dataset" a), s) /\
    fs_files s (cache_name "dataset" a) = Some (Dataset b) /\ near a b /\ (rates_apart h a -> b = a).
Proof.
  intros h a W. pose proof (good_mono _ (GenData a NoCrash) _ (good_run h W)) as G.
  pose proof (data_returns _ _ a NoCrash G ltac:(discriminate) ltac:(left; exists NoCrash; apply in_or_app; right; now left)) as R.
  assert (K : fst (generate_dataset_file (run h) a NoCrash) <> Killed).
  { unfold generate_dataset_file. destruct (fs_files (run h) (cache_name "dataset" a)); discriminate. }
  destruct (generate_dataset_file (run h) a NoCrash) as [o s]. destruct o as [p|e|]; [|easy|easy].
  destruct R as (-> & b & E & A & N). exists s, b. split; auto. split; auto. eapply near_apart; eauto.
Qed.
Lemma C51_model : forall h a, writes_finish h ->
  exists s b, generate_model_file (run h) a NoCrash NoCrash = (Returned (cache_name "model" a), s) /\
    fs_files s (cache_name "model" a) = Some (Model b) /\ near a b /\ (rates_apart h a -> b = a).
Proof.
  intros h a W. pose proof (good_mono _ (GenModel a NoCrash NoCrash) _ (good_run h W)) as G.
  pose proof (model_step _ _ a NoCrash NoCrash G ltac:(discriminate) ltac:(discriminate) ltac:(right; exists NoCrash, NoCrash; apply in_or_app; right; now left)) as R.
  destruct (generate_model_file (run h) a NoCrash NoCrash) as [o s]. destruct R as [_ R]. destruct o as [p|e|]; [|easy|destruct R; easy].
  destruct R as (-> & b & E & A & N). exists s, b. split; auto. split; auto. eapply near_apart; eauto.
Qed.

Lemma step_keeps : forall s e p c, fs_files s p = Some c -> (forall keep done, e <> Clean keep done) -> fs_files (step s e) p = Some c.
Proof.
  assert (D : forall s a k p c, fs_files s p = Some c -> fs_files (snd (generate_dataset_file s a k)) p = Some c).
  { intros s a k p c H. unfold generate_dataset_file. destruct (fs_files s (cache_name "dataset" a)) eqn:E; auto.
    assert (p <> cache_name "dataset" a) by congruence. destruct k; cbn; auto; destruct (String.eqb_spec p (cache_name "dataset" a)); auto; easy. }
  intros s e p c H NC. destruct e as [a k|a kd k|keep done]; cbn [step]; [now apply D| |now elim (NC keep done)].
  unfold generate_model_file. destruct (fs_files s (cache_name "model" a)) eqn:E; auto.
  pose proof (D (FS true (fs_files s)) a kd p c H) as D1. destruct (generate_dataset_file (FS true (fs_files s)) a kd) as [o s'] eqn:ED. cbn [snd] in D1.
  assert (p <> cache_name "model" a) by congruence. 
  destruct o as [q|e|]; destruct k; cbn [snd]; auto; destruct (load_dataset s' q); cbn [snd]; auto;
    cbn; destruct (String.eqb_spec p (cache_name "model" a)); auto; easy.
Qed.
Lemma keeps : forall h s p c, fs_files s p = Some c -> never_cleaned h -> fs_files (fold_left step h s) p = Some c.
Proof.
  induction h as [|e h IH]; intros s p c H NC; cbn [fold_left]; auto. apply IH.
  - apply step_keeps; auto. intros keep done ->. apply (NC keep done). now left.
  - intros keep done Q. apply (NC keep done). now right.
Qed.

Lemma torn_data : forall h a, never_cleaned h ->
  let s := run (GenData a Writing :: h) in
  (exists s', generate_dataset_file s a NoCrash = (Returned (cache_name "dataset" a), s') /\ fs_files s' (cache_name "dataset" a) = Some Truncated) /\
  (fs_files s (cache_name "model" a) = None -> exists s', generate_model_file s a NoCrash NoCrash = (Raised EOFError, s')).
Proof.
  intros h a NC s. assert (Q : fs_files s (cache_name "dataset" a) = Some Truncated).
  { unfold s, run. cbn [fold_left]. apply keeps; auto. cbn. now rewrite String.eqb_refl. }
  split.
  - exists s. unfold generate_dataset_file. now rewrite Q.
  - intros E. unfold generate_model_file. rewrite E. unfold generate_dataset_file. cbn [fs_files]. rewrite Q. unfold load_dataset. cbn [fs_files]. rewrite Q. eauto.
Qed.

Lemma collide : exists a b s, a <> b /\ ~ (a_rate a == a_rate b)%Q /\
  generate_dataset_file (run [GenData b NoCrash]) a NoCrash = (Returned (cache_name "dataset" a), s) /\
  fs_files s (cache_name "dataset" a) = Some (Dataset b).
Proof.
  exists (Args 100 10 4 1), (Args 100 10 4 (104 # 100)). eexists.
  split; [discriminate|]. split; [intros H; discriminate H|]. split; reflexivity.
Qed.

Lemma ends_app : forall a s, ends_with s (a ++ s) = true.
Proof.
  induction a as [|c a IH]; intros s; cbn.
  - destruct s; cbn; auto. now rewrite Ascii.eqb_refl, String.eqb_refl.
  - rewrite IH. now rewrite orb_true_r.
Qed.
Lemma cache_is_pickle : forall kind a, format_of (cache_name kind a) = Ok Pickle.
Proof.
  intros kind a. unfold format_of, cache_name.
  assert (AP : forall x y z : string, (x ++ (y ++ z) = (x ++ y) ++ z)%string) by (induction x; intros; cbn; congruence).
  rewrite !AP. now rewrite ends_app.
Qed.

Lemma ends_iff : forall suffix s, ends_with suffix s = true <-> exists a, s = (a ++ suffix)%string.
Proof.
  intros suffix. induction s as [|c s IH]; cbn [ends_with].
  - rewrite orb_false_r. rewrite String.eqb_eq. split; [intros <-; now exists ""%string|]. intros ([|c a] & E); [exact E|discriminate].
  - rewrite orb_true_iff, String.eqb_eq, IH. split.
    + intros [<-|(a & ->)]; [now exists ""%string|now exists (String c a)].
    + intros ([|c' a] & E); [now left|]. right. exists a. cbn in E. congruence.
Qed.

Lemma format_iff : forall name,
  (format_of name = Ok Pickle <-> exists a, name = (a ++ ".pkz")%string) /\
  (format_of name = Ok Json <-> exists a, name = (a ++ ".jz")%string) /\
  (format_of name = Raise ValueError <-> ~ (exists a, name = (a ++ ".pkz")%string) /\ ~ (exists a, name = (a ++ ".jz")%string)).
Proof.
  intros name. rewrite <- !ends_iff. unfold format_of.
  assert (X : ~ (ends_with ".pkz" name = true /\ ends_with ".jz" name = true)).
  { rewrite !ends_iff. intros ((a & ->) & b & E). revert b E. induction a as [|c a IH]; intros b E.
    - destruct b as [|? [|? [|? [|? [|? b]]]]]; discriminate E.
    - destruct b as [|c' b]; [|injection E as _ E; exact (IH b E)]. cbn in E. injection E as _ E.
      destruct a as [|? [|? [|? a]]]; discriminate E. }
  destruct (ends_with ".pkz" name), (ends_with ".jz" name); (split; [|split]); (split; [intros E; try discriminate E; auto|]); auto; try discriminate; try (intros E; discriminate E).
  - intros _. exfalso. apply X. auto.
  - intros (E & _). exfalso. now apply E.
  - intros (E & _). exfalso. now apply E.
  - intros (_ & E). exfalso. now apply E.
Qed.
