(** Strings that are not serialised configs. *)
From Coq Require Import String Ascii.
From Coq Require Import ZArith Lia Bool Permutation Decimal DecimalString.
From Coq Require Import List.
From Verif Require Import Base L_Base M_Config L_Config.
Import ListNotations.
Open Scope string_scope.

Lemma char_None a : uint_of_char a None = None.
Proof. unfold uint_of_char. destruct a as [[] [] [] [] [] [] [] []]; reflexivity. Qed.
Definition letter (c : ascii) : Prop := (65 <= nat_of_ascii c <= 90 \/ 97 <= nat_of_ascii c <= 122)%nat.
Lemma char_letter a u : letter a -> uint_of_char a u = None.
Proof. intros L. destruct u as [u|]; [|apply char_None]. unfold letter in L. destruct a as [[] [] [] [] [] [] [] []]; cbn in *; try reflexivity; lia. Qed.
Lemma uint_letter p c : In c (list_ascii_of_string p) -> letter c -> NilEmpty.uint_of_string p = None.
Proof.
  induction p as [|a p IH]; intros I L; [destruct I|]. cbn [list_ascii_of_string] in I. cbn [NilEmpty.uint_of_string].
  destruct I as [->|I]; [now apply char_letter|]. rewrite IH by auto. apply char_None.
Qed.
Lemma parse_malformed p : p = "" \/ (exists c, In c (list_ascii_of_string p) /\ letter c) -> parse_int p = Raise ValueError.
Proof.
  intros [->|(c & I & L)]; [reflexivity|]. unfold parse_int, NilZero.int_of_string. destruct p as [|a p]; [destruct I|].
  destruct (Ascii.eqb a "-") eqn:E.
  - apply Ascii.eqb_eq in E. subst a. destruct I as [<-|I]; [exfalso; unfold letter in L; cbn in L; lia|].
    unfold NilZero.uint_of_string. destruct p as [|a p]; [destruct I|]. rewrite (uint_letter _ c) by auto. reflexivity.
  - unfold NilZero.uint_of_string. rewrite (uint_letter _ c) by auto. reflexivity.
Qed.
Lemma parse_error p e : parse_int p = Raise e -> e = ValueError.
Proof. unfold parse_int. destruct (NilZero.int_of_string p); intros E; congruence. Qed.

Lemma in_nodash p : ~ In "-"%char (list_ascii_of_string p) -> nodash p.
Proof. induction p as [|a p IH]; cbn; auto. intros H. split; [intros ->; auto|]. apply IH. auto. Qed.
Lemma split_parts parts : parts <> [] -> (forall p, In p parts -> nodash p) -> split_dash (String.concat "-" parts) = parts.
Proof.
  induction parts as [|a l IH]; intros NE ND; [congruence|]. destruct l as [|b l].
  - cbn. apply split_one. apply ND. now left.
  - change (String.concat "-" (a :: b :: l)) with (a ++ String "-" (String.concat "-" (b :: l))). rewrite split_app by (apply ND; now left).
    f_equal. apply IH; [discriminate|]. intros; apply ND; now right.
Qed.

Definition step (config : dict) '((key, value_str) : string * string) : result dict := bind (parse_int value_str) (fun z => Ok (dict_set config key (PInt z))).
Lemma fold_malformed l d : (exists k p, In (k, p) l /\ parse_int p = Raise ValueError) -> foldM step l d = Raise ValueError.
Proof.
  revert d. induction l as [|[k p] l IH]; intros d (k' & p' & I & E); [destruct I|]. cbn [foldM step].
  destruct (parse_int p) as [z|e] eqn:EP; cbn [bind].
  - apply IH. destruct I as [I|I]; [inversion I; subst; congruence|]. eauto.
  - apply parse_error in EP. now subst e.
Qed.

Lemma combine_second {A B} (l : list A) (m : list B) y : length l = length m -> In y m -> exists x, In (x, y) (combine l m).
Proof.
  revert m. induction l as [|a l IH]; intros [|b m] L I; try discriminate; [destruct I|]. destruct I as [->|I]; [exists a; now left|].
  destruct (IH m) as (x & Ix); auto. exists x. now right.
Qed.

Lemma malformed parts : parts <> [] -> (forall p, In p parts -> ~ In "-"%char (list_ascii_of_string p)) ->
  (length parts <> 9 -> deserialize_config (String.concat "-" parts) = Raise AssertionError) /\
  (length parts = 9 -> (exists p, In p parts /\ (p = "" \/ exists c, In c (list_ascii_of_string p) /\ letter c)) ->
   deserialize_config (String.concat "-" parts) = Raise ValueError).
Proof.
  intros NE ND. unfold deserialize_config. cbn [make_config foldM bind]. rewrite split_parts by (auto using in_nodash).
  change (length (str_sort (keys DEFAULT_CONFIG))) with 9. split.
  - intros L. destruct (Nat.eqb_spec 9 (length parts)); [congruence|reflexivity].
  - intros L (p & I & M). rewrite L. cbn [Nat.eqb assert_ bind].
    apply (fold_malformed _ DEFAULT_CONFIG). destruct (combine_second (str_sort (keys DEFAULT_CONFIG)) parts p) as (k & Ik); auto.
    exists k, p. split; [exact Ik|]. now apply parse_malformed.
Qed.
