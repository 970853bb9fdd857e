(** Config serialisation. *)
From Coq Require Import String Ascii.
From Coq Require Import ZArith Lia Bool Permutation Decimal DecimalString DecimalZ DecimalFacts.
From Coq Require Import List Sorted.
From Verif Require Import Base L_Base M_Config.
Import ListNotations.
Open Scope string_scope.

(** ** Decimal strings *)

Fixpoint nodash (s : string) : Prop :=
  match s with EmptyString => True | String c s => c <> "-"%char /\ nodash s end.

Lemma nodash_uint : forall d, nodash (NilEmpty.string_of_uint d).
Proof. induction d; simpl; auto; split; auto; discriminate. Qed.

Lemma uint_nonempty : forall d, NilZero.string_of_uint d <> "" /\ nodash (NilZero.string_of_uint d).
Proof.
  intros d. destruct d; simpl; (split; [discriminate|]); (split; [discriminate|]); auto using nodash_uint.
Qed.

(** shape of [str(int)] *)
Definition intlike (s : string) : Prop := exists d, d <> "" /\ nodash d /\ (s = d \/ s = String "-" d).

Lemma str_int_shape : forall z, exists d, d <> "" /\ nodash d /\
  ((0 <= z)%Z /\ str_int z = d \/ (z < 0)%Z /\ str_int z = String "-" d).
Proof.
  intros z. unfold str_int. destruct z as [|p|p].
  - exists "0". split; [discriminate|]. split; [split; [discriminate|exact I]|]. left. split; [lia|reflexivity].
  - exists (NilZero.string_of_uint (Pos.to_uint p)). destruct (uint_nonempty (Pos.to_uint p)). split; auto. split; auto.
    left. split; [lia|reflexivity].
  - exists (NilZero.string_of_uint (Pos.to_uint p)). destruct (uint_nonempty (Pos.to_uint p)). split; auto. split; auto.
    right. split; [lia|reflexivity].
Qed.

Lemma to_int_nonnil : forall z, Z.to_int z <> Pos Nil /\ Z.to_int z <> Neg Nil.
Proof.
  intros z. destruct z as [|p|p]; simpl; split; try discriminate; intros X; inversion X as [Y];
    pose proof (DecimalPos.Unsigned.to_uint_nonnil p); congruence.
Qed.

Lemma parse_str_int : forall z, parse_int (str_int z) = Ok z.
Proof.
  intros z. unfold parse_int, str_int. destruct (to_int_nonnil z). rewrite NilZero.isi by auto. now rewrite DecimalZ.of_to.
Qed.

(** ** Joining and splitting *)

Lemma app_dash_inv : forall a b r s, nodash a -> nodash b -> (a ++ String "-" r = b ++ String "-" s)%string -> a = b /\ r = s.
Proof.
  induction a; destruct b; simpl; intros r s A B E; inversion E; subst.
  - auto.
  - destruct B; congruence.
  - destruct A; congruence.
  - destruct A, B. destruct (IHa b r s) as [-> ->]; auto.
Qed.

Lemma intlike_sep : forall a b r s, intlike a -> intlike b -> (a ++ String "-" r = b ++ String "-" s)%string -> a = b /\ r = s.
Proof.
  intros a b r s (d & NE & ND & D) (e & NE' & NE2 & F) E.
  destruct D as [->| ->], F as [->| ->]; simpl in E.
  - now apply app_dash_inv.
  - exfalso. destruct d as [|c d]; [congruence|]. simpl in E. inversion E. destruct ND; congruence.
  - exfalso. destruct e as [|c e]; [congruence|]. simpl in E. inversion E. destruct NE2; congruence.
  - inversion E. destruct (app_dash_inv d e r s) as [-> ->]; auto.
Qed.

Lemma concat_inj : forall l m, length l = length m -> Forall intlike l -> Forall intlike m ->
  String.concat "-" l = String.concat "-" m -> l = m.
Proof.
  induction l as [|a l IH]; destruct m as [|b m]; simpl length; intros L F G E; try discriminate; auto.
  inversion F; inversion G; subst. destruct l as [|a2 l], m as [|b2 m]; try discriminate.
  - simpl in E. congruence.
  - change (a ++ String "-" (String.concat "-" (a2 :: l)) = b ++ String "-" (String.concat "-" (b2 :: m)))%string in E.
    apply intlike_sep in E; auto. destruct E as [-> E]. f_equal. apply IH; auto.
Qed.

Lemma split_app : forall a s, nodash a -> split_dash (a ++ String "-" s) = a :: split_dash s.
Proof.
  induction a; intros s A; simpl; auto. destruct A as [A1 A2]. apply Ascii.eqb_neq in A1. rewrite A1, IHa by auto. reflexivity.
Qed.
Lemma split_one : forall a, nodash a -> split_dash a = [a].
Proof. induction a; intros A; simpl; auto. destruct A as [A1 A2]. apply Ascii.eqb_neq in A1. rewrite A1, IHa by auto. reflexivity. Qed.

Definition pieces (z : Z) : list string := if (z <? 0)%Z then [""; str_int (- z)] else [str_int z].

Lemma str_int_neg : forall z, (z < 0)%Z -> str_int z = String "-" (str_int (- z)).
Proof. intros [|p|p] H; try lia. reflexivity. Qed.

Lemma nodash_pos : forall z, (0 <= z)%Z -> nodash (str_int z).
Proof. intros z H. destruct (str_int_shape z) as (d & _ & N & [[_ ->]|[L _]]); auto. lia. Qed.

Lemma split_concat : forall zs, zs <> [] -> split_dash (String.concat "-" (map str_int zs)) = flat_map pieces zs.
Proof.
  induction zs as [|z zs IH]; intros NE; [congruence|]. destruct zs as [|y zs].
  - simpl. rewrite app_nil_r. unfold pieces. destruct (Z.ltb_spec z 0).
    + rewrite str_int_neg by auto. simpl. rewrite split_one; auto. apply nodash_pos. lia.
    + apply split_one. now apply nodash_pos.
  - change (String.concat "-" (map str_int (z :: y :: zs))) with (str_int z ++ String "-" (String.concat "-" (map str_int (y :: zs))))%string.
    change (flat_map pieces (z :: y :: zs)) with (pieces z ++ flat_map pieces (y :: zs))%list.
    rewrite <- IH by discriminate. unfold pieces. destruct (Z.ltb_spec z 0).
    + rewrite str_int_neg by auto. simpl (split_dash (String "-" _ ++ _)).
      change ("" :: split_dash (str_int (- z) ++ String "-" (String.concat "-" (map str_int (y :: zs)))) =
              "" :: str_int (- z) :: split_dash (String.concat "-" (map str_int (y :: zs)))).
      rewrite split_app; auto. apply nodash_pos. lia.
    + rewrite split_app; auto. now apply nodash_pos.
Qed.

(** ** Dicts *)

Lemma lookup_set : forall d k v k', lookup (dict_set d k v) k' = if String.eqb k' k then Some v else lookup d k'.
Proof.
  induction d as [|[k0 v0] d IH]; intros; simpl; auto.
  destruct (String.eqb_spec k k0).
  - subst. simpl. destruct (String.eqb_spec k' k0); auto.
  - simpl. rewrite IH. destruct (String.eqb_spec k' k0); auto. subst. destruct (String.eqb_spec k0 k); auto. congruence.
Qed.

Lemma keys_set : forall d k v, lookup d k <> None -> keys (dict_set d k v) = keys d.
Proof.
  induction d as [|[k0 v0] d IH]; intros k v H; simpl in *; [congruence|].
  destruct (String.eqb_spec k k0); simpl; auto. f_equal. now apply IH.
Qed.

Lemma lookup_keys : forall d k, In k (keys d) <-> lookup d k <> None.
Proof.
  induction d as [|[k0 v0] d IH]; intros; simpl. tauto. destruct (String.eqb_spec k k0).
  - subst. split; [discriminate|auto].
  - rewrite <- IH. intuition congruence.
Qed.

Lemma str_insert_perm : forall s l, Permutation (str_insert s l) (s :: l).
Proof. induction l; simpl; auto. destruct (String.leb s a); auto. rewrite IHl. apply perm_swap. Qed.
Lemma str_sort_perm : forall l, Permutation (str_sort l) l.
Proof. induction l; simpl; auto. rewrite str_insert_perm. auto. Qed.

Lemma keys_eqb_eq : forall a b, keys_eqb a b = true <-> a = b.
Proof.
  induction a; destruct b; simpl; split; intros; try discriminate; auto.
  - apply andb_true_iff in H. destruct H as [A B]. apply String.eqb_eq in A. apply IHa in B. congruence.
  - inversion H; subst. rewrite String.eqb_refl. simpl. now apply IHa.
Qed.

Definition DK : list string := str_sort (keys DEFAULT_CONFIG).

Lemma make_config_nil : make_config [] = Ok DEFAULT_CONFIG.
Proof. reflexivity. Qed.

(** the integer stored under [k] *)
Definition int_at (d : dict) (k : string) : option Z := option_map to_int (lookup d k).

Definition is_config (d : dict) : Prop := Permutation (keys d) (keys DEFAULT_CONFIG).

Lemma str_sort_of_perm : forall d, is_config d -> Permutation (str_sort (keys d)) DK.
Proof. intros. unfold DK. rewrite !str_sort_perm. exact H. Qed.

(** sorting is canonical *)
Definition sle (a b : string) : Prop := String.leb a b = true.
Lemma sle_total : forall a b, sle a b \/ sle b a.
Proof. intros. unfold sle. apply String.leb_total. Qed.
Lemma sle_antisym : forall a b, sle a b -> sle b a -> a = b.
Proof. intros. apply String.leb_antisym; auto. Qed.

Lemma compare_trans_lt : forall a b c, String.compare a b <> Gt -> String.compare b c <> Gt -> String.compare a c <> Gt.
Proof.
  induction a; destruct b, c; simpl; intros; try congruence.
  destruct (Ascii.compare a a1) eqn:E1; destruct (Ascii.compare a1 a2) eqn:E2; try congruence.
  - apply Ascii.compare_eq_iff in E1, E2. subst. unfold Ascii.compare. rewrite N.compare_refl. eauto.
  - apply Ascii.compare_eq_iff in E1. subst. rewrite E2. auto.
  - apply Ascii.compare_eq_iff in E2. subst. rewrite E1. auto.
  - unfold Ascii.compare in *. rewrite N.compare_lt_iff in E1, E2.
    assert (L : (N_of_ascii a < N_of_ascii a2)%N) by lia. apply N.compare_lt_iff in L. rewrite L. congruence.
Qed.

Lemma sle_trans : forall a b c, sle a b -> sle b c -> sle a c.
Proof.
  unfold sle, String.leb. intros a b c. pose proof (compare_trans_lt a b c).
  destruct (String.compare a b), (String.compare b c), (String.compare a c); auto; intros; exfalso; apply H; congruence.
Qed.

Lemma str_insert_sorted : forall s l, StronglySorted sle l -> StronglySorted sle (str_insert s l).
Proof.
  induction l as [|x l IH]; intros S; simpl. repeat constructor.
  inversion S; subst. destruct (String.leb s x) eqn:E.
  - constructor; auto. constructor; auto. rewrite Forall_forall in *. intros y I. eapply sle_trans; [exact E|]. auto.
  - constructor; auto. rewrite Forall_forall in *. intros y I. apply (Permutation_in _ (str_insert_perm s l)) in I.
    destruct I as [<-|I]; auto. destruct (sle_total s x); auto. unfold sle in H. congruence.
Qed.
Lemma str_sort_sorted : forall l, StronglySorted sle (str_sort l).
Proof. induction l; simpl. constructor. now apply str_insert_sorted. Qed.

Lemma sorted_unique : forall l m, StronglySorted sle l -> StronglySorted sle m -> Permutation l m -> l = m.
Proof.
  induction l as [|a l IH]; intros m S1 S2 P.
  - apply Permutation_nil in P. auto.
  - destruct m as [|b m]; [symmetry in P; apply Permutation_nil in P; discriminate|].
    inversion S1; inversion S2; subst. rewrite Forall_forall in *.
    assert (E : a = b).
    { assert (A : In a (b :: m)) by (apply (Permutation_in _ P); now left).
      assert (B : In b (a :: l)) by (apply (Permutation_in _ (Permutation_sym P)); now left).
      destruct A as [A|A]; auto. destruct B as [B|B]; auto. apply sle_antisym; auto. }
    subst. f_equal. apply IH; auto. now apply Permutation_cons_inv in P.
Qed.

Lemma sort_is_DK : forall d, is_config d -> str_sort (keys d) = DK.
Proof. intros. apply sorted_unique; try apply str_sort_sorted. now apply str_sort_of_perm. Qed.

Lemma DK_in : forall k, In k DK <-> In k (keys DEFAULT_CONFIG).
Proof. intros. split; apply Permutation_in; [|symmetry]; apply str_sort_perm. Qed.

Definition zat (d : dict) (k : string) : Z := match lookup d k with Some v => to_int v | None => 0%Z end.

Lemma serialize_Ok : forall d, is_config d -> serialize_config d = Ok (String.concat "-" (map str_int (map (zat d) DK))).
Proof.
  intros d C. unfold serialize_config. rewrite make_config_nil. cbn [bind]. rewrite sort_is_DK by auto. fold DK.
  replace (keys_eqb DK DK) with true by (symmetry; now apply keys_eqb_eq). cbn [assert_ bind].
  assert (G : forall l, incl l DK -> mapM (fun k => match lookup d k with Some v => Ok (str_int (to_int v)) | None => Raise KeyError end) l =
     Ok (map str_int (map (zat d) l))).
  { induction l as [|k l IH]; intros I; simpl; auto.
    assert (K : lookup d k <> None).
    { apply lookup_keys. apply (Permutation_in _ (Permutation_sym C)). apply (proj1 (DK_in k)). apply I. now left. }
    unfold zat at 1. destruct (lookup d k); [|congruence]. cbn [bind]. rewrite IH. reflexivity. intros x J. apply I. now right. }
  rewrite G by apply incl_refl. reflexivity.
Qed.

Lemma serialize_not : forall d, ~ is_config d -> serialize_config d = Raise AssertionError.
Proof.
  intros d C. unfold serialize_config. rewrite make_config_nil. cbn [bind].
  destruct (keys_eqb _ _) eqn:E; auto. exfalso. apply C. apply keys_eqb_eq in E. unfold is_config.
  rewrite <- (str_sort_perm (keys d)), E. apply str_sort_perm.
Qed.

Lemma intlike_str : forall z, intlike (str_int z).
Proof. intros z. destruct (str_int_shape z) as (d & A & B & [[_ ->]|[_ ->]]); exists d; auto. Qed.

Lemma str_int_inj : forall x y, str_int x = str_int y -> x = y.
Proof. intros x y E. pose proof (parse_str_int x) as A. rewrite E, parse_str_int in A. congruence. Qed.

Lemma is_config_int_at : forall d k, is_config d -> int_at d k = if existsb (String.eqb k) DK then Some (zat d k) else None.
Proof.
  intros d k C. unfold int_at, zat. destruct (existsb (String.eqb k) DK) eqn:E.
  - apply existsb_exists in E. destruct E as (x & I & X). apply String.eqb_eq in X. subst x.
    assert (K : lookup d k <> None). { apply lookup_keys. apply (Permutation_in _ (Permutation_sym C)). exact (proj1 (DK_in k) I). }
    destruct (lookup d k); auto. congruence.
  - destruct (lookup d k) eqn:L; auto. exfalso. assert (I : In k (keys d)) by (apply lookup_keys; congruence).
    apply (Permutation_in _ C), DK_in in I. assert (X : existsb (String.eqb k) DK = true).
    { apply existsb_exists. exists k. split; auto. apply String.eqb_refl. } congruence.
Qed.

Lemma serialize_injective : forall c d s, serialize_config c = Ok s -> serialize_config d = Ok s ->
  forall k, int_at c k = int_at d k.
Proof.
  intros c d s EC ED k.
  assert (DECP : forall d s, serialize_config d = Ok s -> is_config d).
  { clear. intros d s E. unfold serialize_config in E. rewrite make_config_nil in E. cbn [bind] in E.
    destruct (keys_eqb _ _) eqn:X; [|discriminate]. apply keys_eqb_eq in X. unfold is_config.
    rewrite <- (str_sort_perm (keys d)), X. apply str_sort_perm. }
  pose proof (DECP _ _ EC) as C. pose proof (DECP _ _ ED) as D.
  rewrite serialize_Ok in EC, ED by auto. assert (E : String.concat "-" (map str_int (map (zat c) DK)) = String.concat "-" (map str_int (map (zat d) DK))) by congruence.
  assert (FI : forall l, Forall intlike (map str_int l)).
  { intros l. apply Forall_map, Forall_forall. intros z _. apply intlike_str. }
  apply concat_inj in E; auto. rewrite !map_map in E.
  rewrite !is_config_int_at by auto. destruct (existsb (String.eqb k) DK) eqn:X; auto. f_equal.
  apply existsb_exists in X. destruct X as (x & I & Y). apply String.eqb_eq in Y. subst x.
  clear - E I. induction DK; [destruct I|]. simpl in E. inversion E. destruct I as [->|I]; auto. now apply str_int_inj.
Qed.

Lemma DK_NoDup : NoDup DK.
Proof. repeat constructor; simpl; intuition discriminate. Qed.

Lemma lookup_fold : forall ks zs d, length ks = length zs -> NoDup ks ->
  exists d', foldM (fun config '(key, value_str) => bind (parse_int value_str) (fun z => Ok (dict_set config key (PInt z))))
      (combine ks (map str_int zs)) d = Ok d' /\
    (forall k, ~ In k ks -> lookup d' k = lookup d k) /\
    (forall i k z, nth_error ks i = Some k -> nth_error zs i = Some z -> lookup d' k = Some (PInt z)).
Proof.
  induction ks as [|k ks IH]; intros [|z zs] d L N; try discriminate.
  - exists d. simpl. repeat split; auto. intros [|i]; discriminate.
  - inversion N; subst. cbn [map combine foldM]. rewrite parse_str_int. cbn [bind].
    destruct (IH zs (dict_set d k (PInt z))) as (d' & E & A & B); auto. exists d'. split; auto. split.
    + intros k' I. simpl in I. rewrite A by tauto. rewrite lookup_set. destruct (String.eqb_spec k' k) as [->|]; auto. exfalso; auto.
    + intros [|i] k' z' E1 E2; simpl in E1, E2.
      * inversion E1; inversion E2; subst. rewrite A by auto. rewrite lookup_set, String.eqb_refl. auto.
      * eapply B; eauto.
Qed.

Lemma roundtrip : forall c s, serialize_config c = Ok s -> (forall k z, int_at c k = Some z -> (0 <= z)%Z) ->
  exists d, deserialize_config s = Ok d /\ forall k, int_at d k = int_at c k.
Proof.
  intros c s E NN.
  assert (C : is_config c).
  { unfold serialize_config in E. rewrite make_config_nil in E. cbn [bind] in E.
    destruct (keys_eqb _ _) eqn:X; [|discriminate]. apply keys_eqb_eq in X. unfold is_config.
    rewrite <- (str_sort_perm (keys c)), X. apply str_sort_perm. }
  rewrite serialize_Ok in E by auto. assert (ES : s = String.concat "-" (map str_int (map (zat c) DK))) by congruence. subst s. clear E.
  unfold deserialize_config. rewrite make_config_nil. cbn [bind]. fold DK.
  assert (P : flat_map pieces (map (zat c) DK) = map str_int (map (zat c) DK)).
  { assert (G : forall l, incl l DK -> flat_map pieces (map (zat c) l) = map str_int (map (zat c) l)).
    { induction l as [|k l IH]; intros I; simpl; auto. rewrite IH by (intros x J; apply I; now right).
      unfold pieces. destruct (Z.ltb_spec (zat c k) 0); auto. exfalso.
      assert (X : int_at c k = Some (zat c k)).
      { rewrite is_config_int_at by auto. replace (existsb (String.eqb k) DK) with true; auto. symmetry. apply existsb_exists.
        exists k. split. apply I; now left. apply String.eqb_refl. }
      apply NN in X. lia. }
    apply G, incl_refl. }
  rewrite (split_concat (map (zat c) DK)) by discriminate. rewrite P. rewrite !map_length, Nat.eqb_refl. cbn [assert_ bind].
  destruct (lookup_fold DK (map (zat c) DK) DEFAULT_CONFIG) as (d & E & A & B).
  { now rewrite map_length. } { apply DK_NoDup. }
  exists d. split; [exact E|]. intros k. rewrite (is_config_int_at c) by auto. unfold int_at.
  destruct (existsb (String.eqb k) DK) eqn:X.
  - apply existsb_exists in X. destruct X as (x & I & Y). apply String.eqb_eq in Y. subst x.
    apply In_nth_error in I. destruct I as [i I]. rewrite (B i k (zat c k)); auto. now rewrite nth_error_map, I.
  - assert (NI : ~ In k DK). { intros I. assert (Z : existsb (String.eqb k) DK = true).
      { apply existsb_exists. exists k. split; auto. apply String.eqb_refl. } congruence. }
    rewrite A by auto. destruct (lookup DEFAULT_CONFIG k) eqn:L; auto. exfalso. apply NI. apply DK_in. apply lookup_keys. congruence.
Qed.

Lemma roundtrip_negative : forall c s, serialize_config c = Ok s -> (exists k z, int_at c k = Some z /\ (z < 0)%Z) ->
  deserialize_config s = Raise AssertionError.
Proof.
  intros c s E (k & z & KZ & NZ).
  assert (C : is_config c).
  { unfold serialize_config in E. rewrite make_config_nil in E. cbn [bind] in E.
    destruct (keys_eqb _ _) eqn:X; [|discriminate]. apply keys_eqb_eq in X. unfold is_config.
    rewrite <- (str_sort_perm (keys c)), X. apply str_sort_perm. }
  rewrite serialize_Ok in E by auto. assert (ES : s = String.concat "-" (map str_int (map (zat c) DK))) by congruence. subst s. clear E.
  unfold deserialize_config. rewrite make_config_nil. cbn [bind]. fold DK. rewrite (split_concat (map (zat c) DK)) by discriminate.
  assert (G1 : forall l, length l <= length (flat_map pieces l)).
  { induction l as [|x l IH]; simpl; auto. rewrite app_length. unfold pieces at 1. destruct (x <? 0)%Z; simpl; lia. }
  assert (G : forall l, (exists x, In x l /\ (x < 0)%Z) -> length l < length (flat_map pieces l)).
  { induction l as [|x l IH]; intros (y & I & Y); [destruct I|]. simpl. rewrite app_length. pose proof (G1 l).
    unfold pieces at 1. destruct (Z.ltb_spec x 0); simpl; [lia|]. destruct I as [->|I]; [lia|]. assert (length l < length (flat_map pieces l)) by eauto. lia. }
  rewrite is_config_int_at in KZ by auto. destruct (existsb (String.eqb k) DK) eqn:X; [|discriminate]. inversion KZ; subst z. clear KZ.
  apply existsb_exists in X. destruct X as (x & I & Y). apply String.eqb_eq in Y. subst x.
  assert (L : length (map (zat c) DK) < length (flat_map pieces (map (zat c) DK))).
  { apply G. exists (zat c k). split; auto. now apply in_map. }
  rewrite map_length in L. replace (length DK =? length _)%nat with false; auto. symmetry. apply Nat.eqb_neq. lia.
Qed.

Lemma make_config_spec : forall options, NoDup (keys options) ->
  ((exists k, In k (keys options) /\ ~ In k (keys DEFAULT_CONFIG)) -> make_config options = Raise ValueError) /\
  (incl (keys options) (keys DEFAULT_CONFIG) -> exists c, make_config options = Ok c /\ keys c = keys DEFAULT_CONFIG /\
     forall k, int_at c k = match int_at options k with Some z => Some z | None => int_at DEFAULT_CONFIG k end).
Proof.
  intros options ND. unfold make_config.
  assert (G : forall os d, NoDup (keys os) -> 
     ((exists k, In k (keys os) /\ ~ In k (keys d)) ->
       foldM (fun config '(key, value) => match lookup config key with None => Raise ValueError | Some _ => Ok (dict_set config key (PInt (to_int value))) end) os d = Raise ValueError) /\
     (incl (keys os) (keys d) -> exists c,
       foldM (fun config '(key, value) => match lookup config key with None => Raise ValueError | Some _ => Ok (dict_set config key (PInt (to_int value))) end) os d = Ok c /\
       keys c = keys d /\ forall k, int_at c k = match int_at os k with Some z => Some z | None => int_at d k end)).
  { induction os as [|[k v] os IH]; intros d N.
    - split. intros (k & [] & _). intros _. exists d. simpl. auto.
    - inversion N; subst. cbn [foldM]. destruct (lookup d k) eqn:L.
      + assert (KS : keys (dict_set d k (PInt (to_int v))) = keys d) by (apply keys_set; congruence).
        destruct (IH (dict_set d k (PInt (to_int v)))) as [I1 I2]; auto. rewrite KS in *. cbn [bind]. split.
        * intros (k' & I & NI). apply I1. exists k'. split; auto. destruct I as [<-|I]; auto. exfalso. apply NI. apply lookup_keys. simpl. congruence.
        * intros I. destruct I2 as (c & E & KC & P). { intros x J. apply I. now right. }
          exists c. split; auto. split; auto. intros k'. rewrite P. unfold int_at. simpl lookup. rewrite lookup_set.
          destruct (String.eqb_spec k' k) as [->|]; simpl.
          -- destruct (lookup os k) eqn:LO; simpl; auto. exfalso. apply H1. change (In k (keys os)). apply lookup_keys. congruence.
          -- destruct (lookup os k'); simpl; auto.
      + split; auto. intros I. exfalso. assert (X : In k (keys d)) by (apply I; now left). apply lookup_keys in X. congruence. }
  apply G; auto.
Qed.
