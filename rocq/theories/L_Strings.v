From Coq Require Import String Ascii.
From Coq Require Import List Arith Lia Bool ZArith.
From Verif Require Import Base M_Strings Spec_Strings.
Import ListNotations.

Lemma white_iff : forall c, is_space c = true <-> white c.
Proof.
  intros c. unfold is_space, white. set (n := nat_of_ascii c). cbn [In].
  rewrite !orb_true_iff, !andb_true_iff, !Nat.leb_le, !Nat.eqb_eq. lia.
Qed.
Lemma capital_iff : forall c, is_upper c = true <-> capital c.
Proof.
  intros c. unfold is_upper, capital. set (n := nat_of_ascii c).
  rewrite !orb_true_iff, !andb_true_iff, !Nat.leb_le, negb_true_iff, Nat.eqb_neq. lia.
Qed.
Lemma lower_space : forall c, is_space (lower_char c) = is_space c.
Proof. intros [[] [] [] [] [] [] [] []]; vm_compute; reflexivity. Qed.
Lemma lower_upper : forall c, is_upper (lower_char c) = false.
Proof. intros [[] [] [] [] [] [] [] []]; vm_compute; reflexivity. Qed.
Lemma lower_id : forall c, is_upper c = false -> lower_char c = c.
Proof. intros c H. unfold lower_char. now rewrite H. Qed.
Lemma blank_space : is_space " "%char = true. Proof. reflexivity. Qed.
Lemma blank_upper : is_upper " "%char = false. Proof. reflexivity. Qed.

(** Boolean reading of [tidy] for the tail of a string; [sp]: a non-blank is required now. *)
Fixpoint tidyb (sp : bool) (s : string) : bool :=
  match s with
  | EmptyString => negb sp
  | String c t => negb (is_upper c) && (if is_space c then negb sp && Ascii.eqb c " "%char && tidyb true t else tidyb false t)
  end.
(* the whole string: no leading space, but may be empty *)
Definition tidys (s : string) : bool := match s with EmptyString => true | _ => tidyb true s end.

Lemma tidyb_spec : forall s sp, tidyb sp s = true <->
  (sp = true -> exists c, String.get 0 s = Some c /\ is_space c = false) /\
  forall i c, String.get i s = Some c -> is_upper c = false /\
    (is_space c = true -> c = " "%char /\ exists d, String.get (S i) s = Some d /\ is_space d = false).
Proof.
  induction s as [|c t IH]; intros sp; cbn [tidyb].
  - split.
    + intros H. split; [intros ->; discriminate|]. intros i c; destruct i; discriminate.
    + intros [H _]. destruct sp; auto. destruct (H eq_refl) as (c & E & _). discriminate.
  - rewrite andb_true_iff, negb_true_iff. destruct (is_space c) eqn:S.
    + rewrite !andb_true_iff, negb_true_iff, Ascii.eqb_eq, IH. split.
      * intros (U & ((P & C) & (N & T))). subst sp c. split; [discriminate|]. intros [|i] c G; cbn [String.get] in G.
        -- injection G as <-. split; auto.
        -- apply T in G. exact G.
      * intros (N & T). specialize (T 0 c eq_refl) as T0. destruct T0 as (U & T0). destruct (T0 S) as (C & d & D & DS).
        split; auto. split; [split; [|exact C]|].
        -- destruct sp; auto. destruct (N eq_refl) as (x & X & XS). cbn in X. injection X as <-. congruence.
        -- split; [intros _; eauto|]. intros i x G. exact (T (Datatypes.S i) x G).
    + rewrite IH. split.
      * intros (U & (_ & T)). split; [intros _; exists c; auto|]. intros [|i] x G; cbn [String.get] in G.
        -- injection G as <-. split; auto. congruence.
        -- exact (T _ _ G).
      * intros (N & T). split; [exact (proj1 (T 0 c eq_refl))|]. split; [discriminate|]. intros i x G. exact (T (Datatypes.S i) x G).
Qed.

Lemma tidys_spec : forall s, tidys s = true <-> tidy s.
Proof.
  intros s. destruct s as [|c t]; [split; auto; intros _ i c; destruct i; discriminate|].
  unfold tidys. rewrite tidyb_spec. unfold tidy. split.
  - intros (N & T) i x G. destruct (T i x G) as (U & W). rewrite <- capital_iff, <- white_iff. split; [congruence|].
    intros SP. destruct (W SP) as (C & d & D & DS). split; auto. split.
    + intros ->. destruct (N eq_refl) as (y & Y & YS). congruence.
    + exists d. split; auto. rewrite <- white_iff. congruence.
  - intros T. split.
    + intros _. exists c. split; auto. destruct (T 0 c eq_refl) as (_ & W). rewrite <- white_iff in W.
      destruct (is_space c); auto. destruct (W eq_refl) as (_ & Z & _). congruence.
    + intros i x G. destruct (T i x G) as (U & W). rewrite <- capital_iff in U. rewrite <- white_iff in W.
      split; [now apply not_true_is_false|]. intros SP. destruct (W SP) as (C & _ & d & D & DS).
      split; auto. exists d. split; auto. rewrite <- white_iff in DS. now apply not_true_is_false.
Qed.

(** What each stage establishes. *)
Fixpoint last_ok (s : string) : bool :=
  match s with EmptyString => true | String c EmptyString => negb (is_space c) | String _ t => last_ok t end.
Definition first_ok (s : string) : bool := match s with EmptyString => true | String c _ => negb (is_space c) end.

Lemma lstrip_first : forall s, first_ok (lstrip s) = true.
Proof. induction s; cbn; auto. destruct (is_space a) eqn:E; auto. cbn. now rewrite E. Qed.
Lemma rstrip_last : forall s, last_ok (rstrip s) = true.
Proof.
  induction s; cbn; auto. destruct (rstrip s) eqn:E; [destruct (is_space a) eqn:F; cbn; auto; now rewrite F|]. exact IHs.
Qed.
Lemma rstrip_first : forall s, first_ok s = true -> first_ok (rstrip s) = true.
Proof.
  destruct s; cbn; auto. intros H. destruct (rstrip s); [apply negb_true_iff in H; rewrite H; cbn; now rewrite H|]. exact H.
Qed.
Lemma lower_first : forall s, first_ok (lower s) = first_ok s.
Proof. destruct s; cbn; auto. now rewrite lower_space. Qed.
Lemma lower_last : forall s, last_ok (lower s) = last_ok s.
Proof. induction s; cbn; auto. destruct s; cbn in *; [now rewrite lower_space|exact IHs]. Qed.
Fixpoint no_upper (s : string) : bool := match s with EmptyString => true | String c t => negb (is_upper c) && no_upper t end.
Lemma lower_no_upper : forall s, no_upper (lower s) = true.
Proof. induction s; cbn; auto. now rewrite lower_upper. Qed.

Lemma collapse_tidy : forall s sp, no_upper s = true -> last_ok s = true -> (s = EmptyString -> sp = false) ->
  tidyb sp (collapse_from sp s) = true.
Proof.
  induction s as [|c t IH]; intros sp NU LO E; cbn [collapse_from].
  - rewrite (E eq_refl). reflexivity.
  - cbn [no_upper] in NU. apply andb_true_iff in NU. destruct NU as [U NU]. apply negb_true_iff in U.
    assert (LT : last_ok t = true) by (destruct t; auto).
    destruct (is_space c) eqn:S.
    + assert (TN : t <> EmptyString) by (intros ->; cbn in LO; rewrite S in LO; discriminate).
      destruct sp.
      * apply IH; auto. intros; tauto.
      * cbn [tidyb]. rewrite blank_upper, blank_space. cbn [negb andb]. rewrite Ascii.eqb_refl. cbn [andb]. apply IH; auto. intros; tauto.
    + cbn [tidyb]. rewrite U, S. cbn [negb andb]. apply IH; auto.
Qed.

Lemma collapse_tidys : forall s, no_upper s = true -> last_ok s = true -> first_ok s = true -> tidys (collapse s) = true.
Proof.
  intros s NU LO FO. destruct s as [|c t]; [reflexivity|]. cbn in FO. apply negb_true_iff in FO.
  assert (T := collapse_tidy (String c t) true NU LO). unfold collapse.
  assert (EQ : collapse_from false (String c t) = collapse_from true (String c t)) by (cbn; now rewrite FO).
  rewrite EQ. unfold tidys. cbn [collapse_from] in *. rewrite FO in *. apply T. discriminate.
Qed.

Lemma stages_tidy : forall s, tidys (collapse (lower (strip s))) = true.
Proof.
  intros s. apply collapse_tidys.
  - apply lower_no_upper.
  - rewrite lower_last. apply rstrip_last.
  - rewrite lower_first. apply rstrip_first, lstrip_first.
Qed.

Lemma rstrip_id : forall s, last_ok s = true -> rstrip s = s.
Proof.
  induction s as [|c t IH]; cbn; auto. intros H. destruct t as [|d u].
  - cbn. apply negb_true_iff in H. now rewrite H.
  - rewrite IH by exact H. reflexivity.
Qed.
Lemma tidyb_last : forall s sp, tidyb sp s = true -> last_ok s = true.
Proof.
  induction s as [|c t IH]; intros sp H; auto. cbn [tidyb] in H. apply andb_true_iff in H. destruct H as [_ H].
  destruct (is_space c) eqn:S.
  - apply andb_true_iff in H. destruct H as [_ H]. destruct t as [|d u]; [discriminate|]. change (last_ok (String d u) = true). eapply IH; eauto.
  - destruct t as [|d u]; [cbn; now rewrite S|]. change (last_ok (String d u) = true). eapply IH; eauto.
Qed.
Lemma tidyb_lower : forall s sp, tidyb sp s = true -> lower s = s.
Proof.
  induction s as [|c t IH]; intros sp H; auto. cbn [tidyb] in H. apply andb_true_iff in H. destruct H as [U H]. apply negb_true_iff in U.
  cbn. rewrite lower_id by auto. f_equal. destruct (is_space c).
  - apply andb_true_iff in H. destruct H as [_ H]. eapply IH; eauto.
  - eapply IH; eauto.
Qed.
Lemma tidyb_collapse : forall s sp, tidyb sp s = true -> collapse_from sp s = s.
Proof.
  induction s as [|c t IH]; intros sp H; auto. cbn [tidyb] in H. apply andb_true_iff in H. destruct H as [U H]. apply negb_true_iff in U.
  cbn [collapse_from]. destruct (is_space c) eqn:S.
  - rewrite !andb_true_iff in H. destruct H as ((N & E) & H). apply negb_true_iff in N. apply Ascii.eqb_eq in E. subst sp c. f_equal. now apply IH.
  - f_equal. now apply IH.
Qed.

Lemma tidys_fixed : forall s, tidys s = true -> collapse (lower (strip s)) = s.
Proof.
  intros [|c t] H; [reflexivity|]. unfold tidys in H.
  assert (FO : is_space c = false).
  { cbn [tidyb] in H. apply andb_true_iff in H. destruct H as [_ H]. destruct (is_space c); auto. }
  unfold strip. assert (L : lstrip (String c t) = String c t) by (cbn; now rewrite FO). rewrite L.
  rewrite rstrip_id by (eapply tidyb_last; eauto). rewrite (tidyb_lower _ _ H). unfold collapse.
  assert (EQ : collapse_from false (String c t) = collapse_from true (String c t)) by (cbn; now rewrite FO).
  rewrite EQ. now apply tidyb_collapse.
Qed.

Lemma normalize_cases : forall s, let r := collapse (lower (strip s)) in
  (normalize_string s = EmptyString /\ (r = "null" \/ r = "none")%string) \/
  (normalize_string s = r /\ r <> "null" /\ r <> "none")%string.
Proof.
  intros s r. unfold normalize_string. fold r. destruct (String.eqb_spec r "null"); auto.
  destruct (String.eqb_spec r "none"); auto.
Qed.

Lemma C44_proof : forall s, normalize_string (normalize_string s) = normalize_string s /\
  tidy (normalize_string s) /\ normalize_string s <> "null"%string /\ normalize_string s <> "none"%string.
Proof.
  intros s. destruct (normalize_cases s) as [[E _]|(E & N1 & N2)]; rewrite E.
  - repeat split; try discriminate; destruct i; discriminate.
  - split; [|split; [apply tidys_spec, stages_tidy|auto]].
    unfold normalize_string at 1. rewrite tidys_fixed by apply stages_tidy.
    destruct (String.eqb_spec (collapse (lower (strip s))) "null"); [tauto|].
    destruct (String.eqb_spec (collapse (lower (strip s))) "none"); tauto.
Qed.

(** A tidy string other than the two names is unchanged. *)
Lemma C44_fixed : forall s, tidy s -> s <> "null"%string -> s <> "none"%string -> normalize_string s = s.
Proof.
  intros s T N1 N2. unfold normalize_string. rewrite tidys_fixed by now apply tidys_spec.
  destruct (String.eqb_spec s "null"); [tauto|]. destruct (String.eqb_spec s "none"); tauto.
Qed.

Lemma wd_true : forall A c (a b : A), is_space c = true -> (if white_dec c then a else b) = a.
Proof. intros. destruct (white_dec c); auto. apply white_iff in H. tauto. Qed.
Lemma wd_false : forall A c (a b : A), is_space c = false -> (if white_dec c then a else b) = b.
Proof. intros. destruct (white_dec c); auto. apply white_iff in w. congruence. Qed.

Lemma words_ne : forall s w, In w (words s) -> w <> EmptyString.
Proof.
  induction s as [|c t IH]; intros w H; [destruct H|]. cbn [words] in H. destruct (white_dec c); [auto|].
  destruct t as [|d u]; [destruct H as [<-|[]]; discriminate|]. destruct (white_dec d).
  - destruct H as [<-|H]; [discriminate|]. now apply IH.
  - destruct (words (String d u)) as [|x l]; [destruct H as [<-|[]]; discriminate|].
    destruct H as [<-|H]; [discriminate|]. apply IH. now right.
Qed.
Lemma concat_ne : forall l, (forall w, In w l -> w <> EmptyString) -> String.concat " " l = EmptyString -> l = [].
Proof.
  intros [|x l] N E; auto. exfalso. assert (X := N x (or_introl eq_refl)). cbn in E. destruct l; [auto|].
  destruct x; [auto|discriminate].
Qed.
Lemma concat_cons : forall c w ws, String.concat " " (String c w :: ws) = String c (String.concat " " (w :: ws)).
Proof. intros. destruct ws; reflexivity. Qed.

Lemma collapse_words : forall s, collapse_from true (rstrip s) = String.concat " " (words s).
Proof.
  induction s as [|c t IH]; [reflexivity|]. cbn [rstrip words].
  destruct (is_space c) eqn:S.
  - rewrite wd_true by auto. rewrite <- IH. destruct (rstrip t) eqn:E; [reflexivity|]. cbn [collapse_from]. now rewrite S.
  - rewrite wd_false by auto.
    assert (R : match rstrip t with EmptyString => String c EmptyString | String a s => String c (String a s) end = String c (rstrip t))
      by (destruct (rstrip t); reflexivity).
    rewrite R. cbn [collapse_from]. rewrite S. clear R. destruct t as [|d u]; [reflexivity|].
    destruct (is_space d) eqn:D.
    + rewrite wd_true by auto. assert (W : words (String d u) = words u) by (cbn [words]; now rewrite wd_true).
      cbn [rstrip] in *. rewrite D in *. destruct (rstrip u) eqn:E.
      * rewrite W in *. assert (N : words u = []).
        { apply concat_ne; [apply words_ne|]. rewrite <- IH. reflexivity. }
        rewrite N. reflexivity.
      * rewrite W in *. cbn [collapse_from] in IH |- *. rewrite D in *. cbn [collapse_from].
        change (String c (String " " (collapse_from true (String a s))) = String.concat " " (String c EmptyString :: words u)).
        rewrite concat_cons. cbn [collapse_from]. rewrite IH. destruct (words u) eqn:N; [|reflexivity].
        exfalso. assert (X := rstrip_last u). rewrite E in X. cbn in IH.
        destruct (is_space a) eqn:A; [|discriminate]. destruct s as [|b s]; [cbn in X; rewrite A in X; discriminate|].
        clear -IH X. revert IH. assert (Y : last_ok (String b s) = true) by exact X. clear X.
        revert b Y. induction s as [|x s IHs]; intros b Y; cbn.
        -- cbn in Y. apply negb_true_iff in Y. rewrite Y. discriminate.
        -- destruct (is_space b); [|discriminate]. apply (IHs x). exact Y.
    + rewrite wd_false by auto.
      assert (F : collapse_from false (rstrip (String d u)) = collapse_from true (rstrip (String d u))).
      { cbn [rstrip]. rewrite D. destruct (rstrip u); cbn [collapse_from]; now rewrite D. }
      rewrite F, IH. destruct (words (String d u)) as [|w ws] eqn:N.
      * reflexivity.
      * now rewrite concat_cons.
Qed.

Lemma words_lstrip : forall s, words (lstrip s) = words s.
Proof.
  induction s as [|c t IH]; auto. cbn [lstrip]. destruct (is_space c) eqn:S; auto. cbn [words]. now rewrite wd_true.
Qed.
Lemma lowercase_lower : forall s, lowercase s = lower s.
Proof. induction s; cbn; auto. Qed.
Lemma lower_lstrip : forall s, lower (lstrip s) = lstrip (lower s).
Proof. induction s; cbn; auto. rewrite lower_space. destruct (is_space a); auto. Qed.
Lemma lower_rstrip : forall s, lower (rstrip s) = rstrip (lower s).
Proof.
  induction s; cbn; auto. rewrite <- IHs, lower_space. destruct (rstrip s); cbn; auto. destruct (is_space a); auto.
Qed.
Lemma words_lower : forall s, words (lower s) = map lower (words s).
Proof.
  induction s as [|c t IH]; auto. cbn [lower words]. destruct (is_space c) eqn:S.
  - rewrite !wd_true; auto. now rewrite lower_space.
  - rewrite (wd_false _ c), (wd_false _ (lower_char c)) by (try rewrite lower_space; auto).
    destruct t as [|d u]; [reflexivity|]. cbn [lower]. destruct (is_space d) eqn:D.
    + rewrite !wd_true by (try rewrite lower_space; auto). change (String (lower_char d) (lower u)) with (lower (String d u)). rewrite IH. reflexivity.
    + rewrite !wd_false by (try rewrite lower_space; auto). change (String (lower_char d) (lower u)) with (lower (String d u)). rewrite IH.
      destruct (words (String d u)); reflexivity.
Qed.

Lemma stages_words : forall s, collapse (lower (strip s)) = String.concat " " (map lowercase (words s)).
Proof.
  intros s. unfold strip. rewrite lower_rstrip, lower_lstrip.
  assert (FO := lstrip_first (lower s)).
  assert (E : collapse (rstrip (lstrip (lower s))) = collapse_from true (rstrip (lstrip (lower s)))).
  { apply rstrip_first in FO. unfold collapse. destruct (rstrip (lstrip (lower s))); auto. cbn in *. apply negb_true_iff in FO. now rewrite FO. }
  rewrite E, collapse_words, words_lstrip, words_lower. reflexivity.
Qed.

Lemma C44_words : forall s, let r := String.concat " " (map lowercase (words s)) in
  normalize_string s = if in_dec string_dec r ["null"; "none"]%string then EmptyString else r.
Proof.
  intros s r. unfold normalize_string. rewrite stages_words. fold r.
  destruct (in_dec string_dec r ["null"; "none"]%string) as [I|I]; destruct (String.eqb_spec r "null") as [E|E]; auto;
    destruct (String.eqb_spec r "none") as [F|F]; auto; exfalso; cbn [In] in I; intuition congruence.
Qed.
