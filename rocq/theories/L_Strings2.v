(** What int() reads. *)
From Coq Require Import String Ascii.
From Coq Require Import List Arith ZArith Lia Bool.
From Verif Require Import Base M_Strings Spec_Strings L_Strings.
Import ListNotations.
Open Scope string_scope.
Open Scope nat_scope.

Lemma app_nil : forall s, s ++ "" = s.
Proof. induction s; cbn; congruence. Qed.
Lemma app_ass : forall a b c, (a ++ b) ++ c = a ++ (b ++ c).
Proof. induction a; intros; cbn; [auto|]. now rewrite IHa. Qed.

Lemma digit_Some : forall c z, digit c = Some z -> exists d, d < 10 /\ String c "" = digit_char d /\ z = Z.of_nat d.
Proof.
  intros c z H. unfold digit in H. destruct ((48 <=? nat_of_ascii c) && (nat_of_ascii c <=? 57)) eqn:E; [|discriminate].
  apply andb_true_iff in E as [A B]. apply Nat.leb_le in A, B. injection H as <-. exists (nat_of_ascii c - 48). split; [lia|]. split; [|lia].
  unfold digit_char. replace (48 + (nat_of_ascii c - 48)) with (nat_of_ascii c) by lia. now rewrite ascii_nat_embedding.
Qed.
Lemma digit_of : forall d, d < 10 -> digit (ascii_of_nat (48 + d)) = Some (Z.of_nat d).
Proof. intros d H. do 10 (destruct d; [reflexivity|]). lia. Qed.

Lemma digits_sound : forall s p acc z, digits p acc ->
  (digits_from true acc s = Some z -> digits (p ++ s) z) /\ (digits_from false acc s = Some z -> digits (p ++ "_" ++ s) z).
Proof.
  induction s as [|c t IH]; intros p acc z D; cbn [digits_from].
  - split; [|discriminate]. intros [= <-]. now rewrite app_nil.
  - destruct (digit c) as [d|] eqn:E.
    + destruct (digit_Some _ _ E) as (k & K & Ec & ->). split; intros H.
      * replace (p ++ String c t) with ((p ++ digit_char k) ++ t) by (rewrite <- Ec, app_ass; reflexivity).
        apply (proj1 (IH (p ++ digit_char k) _ z (digits_more _ _ _ D K))). exact H.
      * replace (p ++ "_" ++ String c t) with ((p ++ "_" ++ digit_char k) ++ t) by (rewrite <- Ec, !app_ass; reflexivity).
        apply (proj1 (IH (p ++ "_" ++ digit_char k) _ z (digits_under _ _ _ D K))). exact H.
    + split; cbn [andb]; [|discriminate]. destruct (Ascii.eqb_spec c "_"%char) as [->|]; [|discriminate]. intros H. exact (proj2 (IH p acc z D) H).
Qed.
Lemma digits_start : forall s z, digits_from false 0 s = Some z -> digits s z.
Proof.
  intros [|c t] z; cbn [digits_from andb]; [discriminate|]. destruct (digit c) as [d|] eqn:E; [|discriminate].
  destruct (digit_Some _ _ E) as (k & K & Ec & ->). intros H. replace (String c t) with (digit_char k ++ t) by (rewrite <- Ec; reflexivity).
  apply (proj1 (digits_sound t (digit_char k) (Z.of_nat k) z (digits_one k K))). exact H.
Qed.
Lemma digits_read : forall s z, digits s z -> forall rest, digits_from false 0 (s ++ rest) = digits_from true z rest.
Proof.
  intros s z D. induction D as [d H|s z d D IH H|s z d D IH H]; intros rest.
  - unfold digit_char. cbn [append digits_from]. rewrite digit_of by auto. f_equal.
  - rewrite app_ass, IH. unfold digit_char. cbn [append digits_from]. now rewrite digit_of by auto.
  - rewrite app_ass, IH. unfold digit_char. cbn [append digits_from]. change (digit "_") with (@None Z). cbn [Ascii.eqb Bool.eqb andb]. now rewrite digit_of by auto.
Qed.
Lemma digits_all : forall s z, digits s z -> digits_from false 0 s = Some z.
Proof. intros s z D. rewrite <- (app_nil s), (digits_read s z D). reflexivity. Qed.

Lemma digits_first : forall s z, digits s z -> exists d t, d < 10 /\ s = String (ascii_of_nat (48 + d)) t.
Proof. intros s z D. induction D as [d H|s z d D (e & t & E & ->) H|s z d D (e & t & E & ->) H]; [exists d, ""; auto|exists e, (t ++ digit_char d); auto|exists e, (t ++ "_" ++ digit_char d); auto]. Qed.

(** white space around *)
Lemma all_white_cons : forall c s, all_white (String c s) <-> is_space c = true /\ all_white s.
Proof.
  intros c s. split.
  - intros H. split; [apply white_iff, (H 0); reflexivity|]. intros i d E. apply (H (S i)). exact E.
  - intros [A B] [|i] d E; [injection E as <-; now apply white_iff|]. now apply (B i).
Qed.
Lemma lstrip_split : forall s, exists a, s = a ++ lstrip s /\ all_white a.
Proof.
  induction s as [|c t (a & E & W)]; [exists ""; split; [reflexivity|intros [|i] c E; discriminate]|]. cbn [lstrip]. destruct (is_space c) eqn:X.
  - exists (String c a). cbn. split; [congruence|]. apply all_white_cons. auto.
  - exists "". split; [reflexivity|]. intros [|i] d Y; discriminate.
Qed.
Lemma rstrip_split : forall s, exists b, s = rstrip s ++ b /\ all_white b.
Proof.
  induction s as [|c t (b & E & W)]; [exists ""; split; [reflexivity|intros [|i] c E; discriminate]|]. cbn [rstrip]. destruct (rstrip t) as [|d u] eqn:R.
  - cbn in E. subst b. destruct (is_space c) eqn:X; [exists (String c t)|exists t]; (split; [reflexivity|]); auto. apply all_white_cons. auto.
  - exists b. cbn. cbn in E. split; [congruence|exact W].
Qed.
Lemma lstrip_white : forall a s, all_white a -> lstrip (a ++ s) = lstrip s.
Proof. induction a as [|c a IH]; intros s W; [reflexivity|]. apply all_white_cons in W as [X W]. cbn. rewrite X. auto. Qed.
Lemma lstrip_id : forall s, first_ok s = true -> lstrip s = s.
Proof. intros [|c s]; cbn; [auto|]. intros H. apply negb_true_iff in H. now rewrite H. Qed.
Lemma rstrip_white : forall b, all_white b -> rstrip b = "".
Proof. induction b as [|c b IH]; intros W; [reflexivity|]. apply all_white_cons in W as [X W]. cbn. rewrite IH by auto. now rewrite X. Qed.
Lemma rstrip_app : forall s b, all_white b -> rstrip (s ++ b) = rstrip s.
Proof. induction s as [|c s IH]; intros b W; [now apply rstrip_white|]. cbn. now rewrite IH. Qed.

Lemma last_app : forall s c, is_space c = false -> last_ok (s ++ String c "") = true.
Proof. induction s as [|d s IH]; intros c H; cbn; [now rewrite H|]. specialize (IH c H). destruct s; cbn in *; auto. Qed.
Lemma digit_not_space : forall d, d < 10 -> is_space (ascii_of_nat (48 + d)) = false.
Proof. intros d H. do 10 (destruct d; [reflexivity|]). lia. Qed.
Lemma digits_last : forall s z, digits s z -> forall p, last_ok (p ++ s) = true.
Proof. intros s z D p. destruct D as [d H|s z d D H|s z d D H]; unfold digit_char; [|rewrite <- app_ass|rewrite <- !app_ass]; apply last_app, digit_not_space; auto. Qed.
Lemma signed_ok : forall w z, signed w z -> first_ok w = true /\ last_ok w = true.
Proof.
  intros w z S. destruct S as [s z D|s z D|s z D]; (split; [|first [apply (digits_last s z D "")|apply (digits_last s z D "+")|apply (digits_last s z D "-")]]); try reflexivity.
  destruct (digits_first s z D) as (d & t & H & ->). unfold first_ok. now rewrite digit_not_space.
Qed.

Lemma read_signed : forall s z, int_of_str s = Some z <-> signed (strip s) z.
Proof.
  intros s0 z. unfold int_of_str. generalize (strip s0) as w. intros w. split.
  - assert (P : digits_from false 0 w = Some z -> signed w z) by (intros H; apply signed_plain, digits_start, H).
    destruct w as [|c t]; [exact P|]. destruct c as [[] [] [] [] [] [] [] []]; try exact P; intros H.
    + apply (signed_plus t), digits_start, H.
    + destruct (digits_from false 0 t) as [y|] eqn:E; [|discriminate]. cbn in H. injection H as <-. apply (signed_minus t), digits_start, E.
  - intros S. destruct S as [s z D|s z D|s z D].
    + destruct (digits_first s z D) as (d & t & H & E). rewrite <- (digits_all s z D). subst s. do 10 (destruct d; [reflexivity|]). lia.
    + exact (digits_all s z D).
    + cbn [append]. now rewrite (digits_all s z D).
Qed.

Lemma int_reads : forall s z, int_of_str s = Some z <-> written_integer s z.
Proof.
  intros s z. rewrite read_signed. split.
  - intros HS. destruct (lstrip_split s) as (a & E1 & W1). destruct (rstrip_split (lstrip s)) as (b & E2 & W2).  exists a, (strip s), b. split; [|auto]. unfold strip. now rewrite <- E2.
  - intros (a & w & b & -> & Wa & Wb & S). destruct (signed_ok w z S) as [F L]. unfold strip. rewrite lstrip_white by auto.
    assert (NE : w <> "") by (intros ->; inversion S; subst; match goal with D : digits _ _ |- _ => destruct (digits_first _ _ D) as (? & ? & _ & ?); discriminate end).
    rewrite (lstrip_id (w ++ b)) by (destruct w; [congruence|exact F]). rewrite rstrip_app by auto. now rewrite rstrip_id.
Qed.
