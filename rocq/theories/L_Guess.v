From Coq Require Import String Ascii.
From Coq Require Import List Arith Lia Bool ZArith Reals Permutation Sorted.
From Verif Require Import Base M_Structure M_Util M_Config M_Strings M_Format Spec_Schema Spec_Guess L_Dict L_Schema L_Config.
Import ListNotations.
Open Scope list_scope.
Open Scope nat_scope.

(** Sorting. *)
Section Sorting.
Context {A : Type} (lt : A -> A -> bool).
Lemma ins_perm : forall x l, Permutation (ins lt x l) (x :: l).
Proof.
  induction l as [|y l IH]; cbn; auto. destruct (lt y x); auto. rewrite IH. apply perm_swap.
Qed.
Lemma isort_perm : forall l, Permutation (isort lt l) l.
Proof. induction l; cbn; auto. rewrite ins_perm. now constructor. Qed.

Hypothesis trans : forall a b c, lt b a = false -> lt c b = false -> lt c a = false.
Hypothesis asym : forall a b, lt a b = true -> lt b a = false.
Lemma ins_sorted : forall x l, StronglySorted (fun a b => lt b a = false) l -> StronglySorted (fun a b => lt b a = false) (ins lt x l).
Proof.
  induction l as [|y l IH]; intros S; cbn; [repeat constructor|]. inversion S as [|? ? S' F]. subst.
  destruct (lt y x) eqn:E.
  - constructor; auto. rewrite Forall_forall in *. intros z I. apply (Permutation_in _ (ins_perm x l)) in I. destruct I as [<-|I]; auto.
  - constructor; auto. constructor; auto. rewrite Forall_forall in *. intros z I. eapply trans; eauto.
Qed.
Lemma isort_sorted : forall l, StronglySorted (fun a b => lt b a = false) (isort lt l).
Proof. induction l; cbn; [constructor|]. now apply ins_sorted. Qed.
End Sorting.

Lemma sorted_firstn : forall A (R : A -> A -> Prop) k l a b, StronglySorted R l -> In a (firstn k l) -> In b (skipn k l) -> R a b.
Proof.
  induction k; intros l a b S I J; cbn in *; [tauto|]. destruct l as [|x l]; cbn in *; [tauto|]. inversion S as [|? ? S' F]. subst.
  destruct I as [<-|I]; [|eauto]. rewrite Forall_forall in F. apply F. rewrite <- (firstn_skipn k l). apply in_or_app. auto.
Qed.

(** Counters. *)
Definition counts_ok (d : sdict nat) (obs : list string) : Prop :=
  NoDup (map fst d) /\ forall v, (count_occ string_dec obs v = 0 <-> dget d v = None) /\ dget_default d v 0 = count_occ string_dec obs v.

Lemma incr_ok : forall d obs v, counts_ok d obs -> counts_ok (incr d v) (obs ++ [v]).
Proof.
  intros d obs v (N & C). split; [apply dset_NoDup; auto|]. intros u. unfold incr. rewrite dget_default_dset, dget_dset, count_occ_app. cbn.
  destruct (String.eqb_spec u v) as [->|Q].
  - destruct (string_dec v v); [|congruence]. destruct (C v) as (_ & E). rewrite E. split; [split; [lia|discriminate]|lia].
  - destruct (string_dec v u); [congruence|]. rewrite Nat.add_0_r. apply C.
Qed.

Definition stats_ok (st : gstats) (cs : list (string * string)) : Prop :=
  forall n, let obs := filter (fun v => negb (String.eqb v EmptyString)) (map (fun c => normalize_string (snd c)) (filter (fun c => String.eqb (fst c) n) cs)) in
    dget_default (gs_totals st) n 0 = length obs /\ counts_ok (dget_default (gs_values st) n []) obs.

Lemma guess_cell_ok : forall st cs c, stats_ok st cs -> stats_ok (guess_cell st c) (cs ++ [c]).
Proof.
  intros st cs (name, value) H n. specialize (H n). cbv zeta in *. destruct H as (T & C). unfold guess_cell.
  rewrite filter_app. cbn [filter fst]. rewrite (String.eqb_sym name n). rewrite map_app, filter_app.
  destruct (String.eqb_spec (normalize_string value) EmptyString) as [E|E].
  - destruct (String.eqb_spec n name) as [->|Q]; cbn [map filter snd]; [rewrite E; cbn [String.eqb negb]|]; rewrite app_nil_r; auto.
  - cbn [gs_totals gs_values]. unfold incr at 1. rewrite !dget_default_dset. destruct (String.eqb_spec n name) as [->|Q]; cbn [map filter snd].
    + destruct (String.eqb_spec (normalize_string value) EmptyString); [congruence|]. cbn [negb]. rewrite app_length, T. cbn [length]. split; [lia|].
      now apply incr_ok.
    + rewrite app_nil_r. auto.
Qed.
Lemma guess_cells_ok : forall l st cs, stats_ok st cs -> stats_ok (fold_left guess_cell l st) (cs ++ l).
Proof.
  induction l as [|c l IH]; intros st cs H; cbn; [now rewrite app_nil_r|]. replace (cs ++ c :: l) with ((cs ++ [c]) ++ l) by now rewrite <- app_assoc.
  apply IH. now apply guess_cell_ok.
Qed.
Lemma guess_rows_ok : forall h rows st cs, stats_ok st cs ->
  stats_ok (fold_left (fun st row => fold_left guess_cell (combine h row) st) rows st) (cs ++ concat (map (combine h) rows)).
Proof.
  induction rows as [|r rows IH]; intros st cs H; cbn; [now rewrite app_nil_r|]. rewrite app_assoc. apply IH. now apply guess_cells_ok.
Qed.
Lemma guess_cells_same : forall l st, gs_names (fold_left guess_cell l st) = gs_names st /\ gs_sources (fold_left guess_cell l st) = gs_sources st.
Proof.
  induction l as [|(a, b) l IH]; intros st; cbn [fold_left]; auto. destruct (IH (guess_cell st (a, b))) as (-> & ->). unfold guess_cell.
  destruct (String.eqb (normalize_string b) EmptyString); auto.
Qed.
Lemma guess_rows_same : forall h rows st, let st' := fold_left (fun st row => fold_left guess_cell (combine h row) st) rows st in
  gs_names st' = gs_names st /\ gs_sources st' = gs_sources st.
Proof.
  induction rows as [|r rows IH]; intros st; cbn; auto. destruct (IH (fold_left guess_cell (combine h r) st)) as (A & B). cbv zeta in A, B. rewrite A, B. apply guess_cells_same.
Qed.

Lemma str_add_in : forall l k x, In x (str_add l k) <-> x = k \/ In x l.
Proof.
  intros. unfold str_add. destruct (str_in k l) eqn:E.
  - apply str_in_iff in E. split; auto. intros [->|H]; auto.
  - rewrite in_app_iff. cbn. intuition auto.
Qed.
Lemma str_add_nodup : forall l k, NoDup l -> NoDup (str_add l k).
Proof.
  intros. unfold str_add. destruct (str_in k l) eqn:E; auto.
  assert (~ In k l) by (rewrite <- str_in_iff; congruence). apply Permutation_NoDup with (k :: l); [apply Permutation_cons_append|now constructor].
Qed.
Lemma str_adds : forall h l, NoDup l -> NoDup (fold_left str_add h l) /\ forall x, In x (fold_left str_add h l) <-> In x h \/ In x l.
Proof.
  induction h as [|k h IH]; intros l N; cbn [fold_left]; [split; auto; cbn; tauto|].
  destruct (IH (str_add l k)) as (A & B); [now apply str_add_nodup|]. split; auto. intros x. rewrite B, str_add_in. cbn. intuition auto.
Qed.

(** The statistics of all files. *)
Lemma guess_files : forall files st, foldM guess_file files (GStats [] [] [] []) = Ok st ->
  stats_ok st (concat (map cells files)) /\ NoDup (gs_names st) /\ (forall n, In n (gs_names st) <-> is_feature files n) /\
  (forall f, In f files -> snd f <> []).
Proof.
  induction files as [|f files IH] using rev_ind; intros st E.
  - cbn in E. injection E as <-. split; [|split; [constructor|split; [|intros ? []]]].
    + intros n. cbn. split; auto. split; [constructor|]. intros v. cbn. tauto.
    + intros n. cbn. split; [tauto|]. intros (f & [] & _).
  - rewrite foldM_app in E. destruct (foldM guess_file files (GStats [] [] [] [])) as [st0|] eqn:F; [|discriminate]. cbn [bind foldM] in E.
    destruct (IH st0 eq_refl) as (S & N & M & NE). clear IH. unfold guess_file in E. destruct f as (fname, rows). cbn [snd fst] in E.
    destruct rows as [|h rows]; [discriminate|]. cbn [next_row bind] in E. injection E as <-.
    rewrite map_app, concat_app. cbn [map concat]. rewrite app_nil_r.
    destruct (str_adds h (gs_names st0) N) as (N' & I').
    match goal with |- context [fold_left _ rows ?s0] => set (st1 := s0) end.
    destruct (guess_rows_same h rows st1) as (GN & _). cbv zeta in GN. split; [|split; [|split]].
    + apply guess_rows_ok. exact S.
    + rewrite GN. exact N'.
    + intros n. rewrite GN. cbn [st1 gs_names]. rewrite I', M. unfold is_feature. setoid_rewrite in_app_iff. cbn [In]. split.
      * intros [H|(f & A & B)]; [exists (fname, h :: rows); split; auto|exists f; split; auto].
      * intros (f & [A|[<-|[]]] & B); [right; eauto|left; exact B].
    + intros f I. apply in_app_or in I. destruct I as [I|[<-|[]]]; auto. discriminate.
Qed.

Lemma guess_files_ok : forall files, (forall f, In f files -> snd f <> []) -> forall st, exists st', foldM guess_file files st = Ok st'.
Proof.
  induction files as [|f files IH]; intros NE st; cbn [foldM]; [eauto|]. unfold guess_file at 1. destruct f as (fname, rows).
  assert (rows <> []) by (apply (NE (fname, rows)); now left). cbn [snd]. destruct rows as [|h rows]; [congruence|]. cbn [next_row bind]. apply IH. intros. apply NE. now right.
Qed.

(** Frequent values. *)
Lemma perm_filter : forall A (f : A -> bool) l l', Permutation l l' -> Permutation (filter f l) (filter f l').
Proof. induction 1; cbn; auto; [destruct (f x); auto|destruct (f x), (f y); auto; apply perm_swap|etransitivity; eauto]. Qed.

Lemma counts_perm : forall d obs, counts_ok d obs -> Permutation (map fst d) (nodup string_dec obs) /\ forall v c, In (v, c) d -> c = count_occ string_dec obs v.
Proof.
  intros d obs (N & C). split.
  - apply NoDup_Permutation; auto; [apply NoDup_nodup|]. intros v. rewrite nodup_In, dget_keys, (count_occ_In string_dec). destruct (C v) as (Z & _).
    destruct (dget d v) as [c|]; split; intros H.
    + destruct (count_occ string_dec obs v) eqn:E; [|lia]. discriminate (proj1 Z eq_refl).
    + eauto.
    + destruct H as (x & H). discriminate.
    + rewrite (proj2 Z eq_refl) in H. lia.
  - intros v c I. apply In_dget in I; auto. destruct (C v) as (_ & E). unfold dget_default in E. now rewrite I in E.
Qed.

Lemma filter_map_fst : forall (d : sdict nat) (g : string -> nat), (forall v c, In (v, c) d -> c = g v) -> forall P : nat -> bool,
  map fst (filter (fun '(_, c) => P c) d) = filter (fun v => P (g v)) (map fst d).
Proof.
  induction d as [|(v, c) d IH]; intros g H P; auto. cbn [filter map fst]. rewrite <- (H v c (or_introl eq_refl)).
  destruct (P c); cbn [map fst]; rewrite (IH g) by (intros; apply H; now right); auto.
Qed.

Lemma mc_trans : forall a b c : string * nat, (snd a <? snd b) = false -> (snd b <? snd c) = false -> (snd a <? snd c) = false.
Proof. intros. rewrite !Nat.ltb_ge in *. lia. Qed.

Definition vc_le (a b : string * nat) : Prop := snd b < snd a \/ (snd a = snd b /\ String.leb (fst a) (fst b) = true).
Lemma vc_lt_false : forall a b, vc_lt b a = false <-> vc_le a b.
Proof.
  intros a b. unfold vc_lt, vc_le. rewrite orb_false_iff, andb_false_iff, Nat.ltb_ge, Nat.eqb_neq, negb_false_iff. split.
  - intros (A & [B|B]); [left; lia|]. destruct (Nat.eq_dec (snd a) (snd b)); [auto|left; lia].
  - intros [A|(A & B)]; split; auto; lia.
Qed.
Lemma leb_trans : forall a b c, String.leb a b = true -> String.leb b c = true -> String.leb a c = true.
Proof. exact sle_trans. Qed.
Lemma vc_trans : forall a b c, vc_lt b a = false -> vc_lt c b = false -> vc_lt c a = false.
Proof.
  intros a b c. rewrite !vc_lt_false. unfold vc_le. intros [A|(A & A')] [B|(B & B')]; try (left; lia).
  right. split; [lia|]. eapply leb_trans; eauto.
Qed.

Lemma vc_asym : forall a b, vc_lt a b = true -> vc_lt b a = false.
Proof.
  intros a b H. apply vc_lt_false. unfold vc_lt in H. apply orb_true_iff in H. destruct H as [H|H].
  - apply Nat.ltb_lt in H. left. lia.
  - apply andb_true_iff in H. destruct H as [H1 H2]. apply Nat.eqb_eq in H1. right. split; auto. apply negb_true_iff in H2.
    destruct (String.leb (fst a) (fst b)) eqn:E; auto. destruct (String.leb_total (fst a) (fst b)); congruence.
Qed.
Lemma mc_asym : forall a b : string * nat, (snd b <? snd a) = true -> (snd a <? snd b) = false.
Proof. intros. rewrite Nat.ltb_ge, Nat.ltb_lt in *. lia. Qed.

Lemma NoDup_firstn : forall A k (l : list A), NoDup l -> NoDup (firstn k l).
Proof. intros A k l H. revert l H. induction k; intros [|x l] H; cbn; try constructor; inversion H; subst; auto. intros I. apply H2. rewrite <- (firstn_skipn k l). apply in_or_app. auto. Qed.

Lemma frequent_spec : forall d obs, counts_ok d obs ->
  let fv := frequent_values d in let cnt := count_occ string_dec obs in
  StronglySorted vc_le fv /\ (forall v c, In (v, c) fv -> c = cnt v /\ 2 <= c) /\ NoDup (map fst fv) /\
  length fv = Nat.min 20 (length (filter (fun v => 2 <=? cnt v) (nodup string_dec obs))) /\
  (forall v u c, 2 <= cnt v -> ~ In v (map fst fv) -> In (u, c) fv -> cnt v <= c).
Proof.
  intros d obs C. destruct (counts_perm d obs C) as (P & K). cbv zeta. set (cnt := count_occ string_dec obs).
  unfold frequent_values, most_common. set (d2 := filter (fun '(_, c) => negb (c =? 1)) d).
  assert (POS : forall v c, In (v, c) d -> c = cnt v /\ 1 <= c).
  { intros v c I. split; [now apply K|]. rewrite (K v c I). apply (count_occ_In string_dec). rewrite <- (nodup_In string_dec). apply (Permutation_in _ P).
    apply in_map_iff. exists (v, c). auto. }
  assert (D2 : forall v c, In (v, c) d2 <-> In (v, c) d /\ 2 <= c).
  { intros v c. unfold d2. rewrite filter_In, negb_true_iff, Nat.eqb_neq. split; intros (A & B); split; auto; [destruct (POS v c A); lia|lia]. }
  assert (KEYS : Permutation (map fst d2) (filter (fun v => 2 <=? cnt v) (nodup string_dec obs))).
  { unfold d2. rewrite (filter_map_fst d cnt K (fun c => negb (c =? 1))). rewrite (perm_filter _ _ _ _ P).
    apply Permutation_refl'. apply filter_ext_in. intros v I. apply nodup_In in I. apply (count_occ_In string_dec) in I. fold cnt in I.
    destruct (Nat.eqb_spec (cnt v) 1), (Nat.leb_spec 2 (cnt v)); cbn; auto; lia. }
  set (s := isort (fun a b : string * nat => snd b <? snd a) d2).
  assert (PS : Permutation s d2) by apply isort_perm.
  assert (SS := isort_sorted (fun a b : string * nat => snd b <? snd a) (fun a b c => fun H1 H2 => mc_trans a b c H1 H2) mc_asym d2). fold s in SS.
  assert (PF : Permutation (isort vc_lt (firstn MAX_CATEGORIES s)) (firstn MAX_CATEGORIES s)) by apply isort_perm.
  assert (SUB : forall p, In p (isort vc_lt (firstn MAX_CATEGORIES s)) -> In p d2).
  { intros p I. apply (Permutation_in _ PF) in I. apply (Permutation_in _ PS). rewrite <- (firstn_skipn MAX_CATEGORIES s). apply in_or_app. auto. }
  split; [|split; [|split; [|split]]].
  - assert (X := isort_sorted vc_lt vc_trans vc_asym (firstn MAX_CATEGORIES s)). revert X. generalize (isort vc_lt (firstn MAX_CATEGORIES s)).
    induction l as [|x l IH]; intros X; constructor; inversion X as [|? ? X1 X2]; subst; auto. rewrite Forall_forall in *. intros y I. apply vc_lt_false. auto.
  - intros v c I. apply SUB, D2 in I. destruct I as (I & L). destruct (POS v c I). auto.
  - eapply Permutation_NoDup; [symmetry; apply Permutation_map; exact PF|]. rewrite <- firstn_map. apply NoDup_firstn.
    eapply Permutation_NoDup; [symmetry; apply Permutation_map; exact PS|]. eapply Permutation_NoDup; [symmetry; exact KEYS|]. apply NoDup_filter, NoDup_nodup.
  - rewrite (Permutation_length PF), firstn_length, (Permutation_length PS). unfold MAX_CATEGORIES. f_equal. rewrite <- (Permutation_length KEYS). now rewrite map_length.
  - intros v u c L N I. apply (Permutation_in _ PF) in I.
    assert (IV : In v (map fst d2)).
    { apply (Permutation_in _ (Permutation_sym KEYS)). apply filter_In. split; [|now apply Nat.leb_le]. apply nodup_In. apply (count_occ_In string_dec). fold cnt. lia. }
    apply in_map_iff in IV. destruct IV as ((v', cv) & E & IV). cbn in E. subst v'. assert (QV := IV). apply D2 in QV. destruct (POS v cv (proj1 QV)) as (QE & _).
    apply (Permutation_in _ (Permutation_sym PS)) in IV. rewrite <- (firstn_skipn MAX_CATEGORIES s) in IV. apply in_app_or in IV. destruct IV as [IV|IV].
    + exfalso. apply N. apply in_map_iff. exists (v, cv). split; auto. apply (Permutation_in _ (Permutation_sym PF)). auto.
    + assert (R := sorted_firstn _ _ MAX_CATEGORIES s _ _ SS I IV). cbn in R. apply Nat.ltb_ge in R. lia.
Qed.
