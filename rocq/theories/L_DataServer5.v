(** DataServer.logprob given evidence, once repaired. *)
From Coq Require Import String Ascii.
From Coq Require Import List Arith Lia Bool ZArith QArith Reals Lra.
From Verif Require Import Base Spec_MST M_Structure M_Rand M_Util M_Strings M_Format M_Training M_Serving M_EnsembleServer M_DataServer Spec_Ragged Spec_Schema Spec_Stats Spec_Conditional Spec_Sum L_Sum Spec_Serving Spec_DataServer
  L_Base L_Dict L_Rand L_Stats L_Ragged L_Schema L_Import L_Import2 L_Server L_Serve1 L_Serve2 L_EnsServe L_EnsServe2 L_Median L_DataServer L_DataServer2 L_DataServer3.
Import ListNotations.
Open Scope list_scope.
Open Scope nat_scope.

Lemma dget_app_or : forall A (a b : sdict A) k, dget (a ++ b) k = match dget a k with Some x => Some x | None => dget b k end.
Proof. induction a as [|(n, x) a IH]; intros b k; cbn [dget app]; auto. destruct (String.eqb k n); auto. Qed.

Lemma zsum_bound : forall l z, (forall x, In x l -> (0 <= x)%Z) -> In z l -> (z <= zsum l)%Z.
Proof.
  unfold zsum. induction l as [|a l IH]; intros z P I; [destruct I|]. cbn [fold_right].
  assert (0 <= fold_right Z.add 0 l)%Z by (apply (zsum_nonneg l); intros; apply P; now right).
  assert (0 <= a)%Z by (apply P; now left). destruct I as [->|I]; [lia|]. assert (z <= fold_right Z.add 0 l)%Z; [|lia]. apply IH; auto. intros; apply P; now right.
Qed.

Section Add.
Variable sc : schema.
Hypothesis SO : schema_ok sc.
Hypothesis RF : ranges_fit sc.
Let ws := widths sc.
Let V := length (sc_names sc).
Let name v := nth v (sc_names sc) EmptyString.

Definition apart (e ev : jrow) : Prop := forall n, In n (map fst e) -> ~ In n (map fst ev).

Lemma apart_tame : forall e ev, tame_row e -> tame_row ev -> apart e ev -> tame_row (e ++ ev).
Proof.
  intros e ev (K1 & T1) (K2 & T2) A. split.
  - unfold keys_once in *. rewrite map_app. revert K1 A. clear - K2. unfold apart. induction (map fst e) as [|x l IH]; intros K A; cbn [app]; auto.
    inversion K; subst. constructor.
    + rewrite in_app_iff. intros [I|I]; [auto|]. apply (A x); [now left|auto].
    + apply IH; auto. intros n I. apply A. now right.
  - intros n v I. apply in_app_or in I. destruct I; eauto.
Qed.

Lemma good_range : forall row v i, good_row sc row -> v < V -> i < nth v ws 0 -> (0 <= nth i (cellv ws row v) 0 <= 127)%Z.
Proof.
  intros row v i (L & G) HV HI. destruct (G v HV) as [E|(I & LC)].
  - fold ws in E. rewrite E. rewrite nth_repeat. lia.
  - destruct LC as (LL & P & Z). fold (name v) in I, LL, Z. fold ws in LL, P, Z.
    assert (IN : In (nth i (cellv ws row v) 0%Z) (cellv ws row v)) by (apply nth_In; rewrite cellv_length; auto).
    split; [apply P; auto|]. assert (T : exists t, dget (sc_types sc) (name v) = Some t) by (eapply typed_of_index; eauto).
    assert (F := full_total_pos sc SO RF (name v) T). assert (B := zsum_bound _ _ P IN). lia.
Qed.

Lemma import_apart : forall e ev a b c, tame_row e -> tame_row ev -> apart e ev ->
  foldM (import_cell sc) e (repeat 0%Z (list_sum ws)) = Ok a ->
  foldM (import_cell sc) ev (repeat 0%Z (list_sum ws)) = Ok b ->
  foldM (import_cell sc) (e ++ ev) (repeat 0%Z (list_sum ws)) = Ok c ->
  map (fun '(x, y) => int8 (x + y)) (combine a b) = c.
Proof.
  intros e ev a b c T1 T2 A E1 E2 E3. pose proof (apart_tame e ev T1 T2 A) as T3.
  pose proof (import_good sc SO RF e a (proj1 T1) E1) as G1. pose proof (import_good sc SO RF ev b (proj1 T2) E2) as G2.
  destruct (import_row_ok sc SO e (proj1 T1)) as (a' & F1 & L1 & C1); [intros; eapply tame_ok; eauto; eapply (proj2 T1); eauto|].
  destruct (import_row_ok sc SO ev (proj1 T2)) as (b' & F2 & L2 & C2); [intros; eapply tame_ok; eauto; eapply (proj2 T2); eauto|].
  destruct (import_row_ok sc SO (e ++ ev) (proj1 T3)) as (c' & F3 & L3 & C3); [intros; eapply tame_ok; eauto; eapply (proj2 T3); eauto|].
  fold ws in F1, F2, F3. rewrite E1 in F1. rewrite E2 in F2. rewrite E3 in F3. injection F1 as <-. injection F2 as <-. injection F3 as <-. fold ws in L1, L2, L3, C1, C2, C3.
  assert (LS : length (map (fun '(x, y) => int8 (x + y)) (combine a b)) = list_sum ws) by (rewrite map_length, combine_length; lia).
  apply row_ext with (ws := ws); auto. intros v HV. assert (HV' : v < V) by (unfold V; rewrite <- (ws_len sc); auto).
  apply nth_ext with (d := 0%Z) (d' := 0%Z); [now rewrite !cellv_length|]. intros i HI. rewrite cellv_length in HI.
  assert (Q : nth i (cellv ws (map (fun '(x, y) => int8 (x + y)) (combine a b)) v) 0%Z = int8 (nth i (cellv ws a v) 0 + nth i (cellv ws b v) 0)%Z).
  { rewrite !cellv_nth by auto. set (q := list_sum (firstn v ws) + i).
    assert (HQ : q < list_sum ws).
    { unfold q. apply Nat.lt_le_trans with (list_sum (firstn (S v) ws)); [rewrite sum_firstn_S by auto; lia|apply sum_firstn_all]. }
    change 0%Z with ((fun '(x, y) => int8 (x + y)) (0, 0)%Z) at 1. rewrite map_nth. rewrite combine_nth by congruence. reflexivity. }
  rewrite Q. pose proof (good_range a v i G1 HV' HI) as R1. pose proof (good_range b v i G2 HV' HI) as R2.
  assert (W : nth i (repeat 0%Z (nth v ws 0)) 0%Z = 0%Z) by apply nth_repeat.
  rewrite (C1 v HV') in R1 |- *. rewrite (C2 v HV') in R2 |- *. rewrite (C3 v HV'). unfold final_cell in R1, R2 |- *. fold (name v) in R1, R2 |- *. fold ws in R1, R2 |- *. rewrite dget_app_or.
  destruct (dget (sc_index sc) (name v)) as [u|] eqn:I.
  2:{ rewrite W. reflexivity. }
  destruct (dget e (name v)) as [x|] eqn:D1.
  - assert (D2 : dget ev (name v) = None).
    { apply dget_None. apply A. apply in_map_iff. exists (name v, x). split; auto. now apply dget_In. }
    rewrite D2. rewrite W, Z.add_0_r. destruct (u =? v); [apply (int8_id sc); lia|rewrite W; reflexivity].
  - rewrite W, Z.add_0_l. apply (int8_id sc). exact R2.
Qed.

Lemma import_apart_rows : forall rows ev data b c, (forall e, In e rows -> tame_row e) -> tame_row ev -> (forall e, In e rows -> apart e ev) ->
  import_rows sc (Rows rows) = Ok data -> import_rows sc (Rows [ev]) = Ok [b] -> import_rows sc (Rows (map (fun e => e ++ ev) rows)) = Ok c ->
  add_to_rows data b = c.
Proof.
  intros rows ev data b c T TE A E1 E2 E3. unfold import_rows in *. rewrite (last_ri sc SO) in *. cbn [bind] in *.
  apply mapM_two in E1, E2, E3. inversion E2 as [|? ? ? ? E2' _]; subst. clear E2. revert data c E1 E3. induction rows as [|e rows IH]; intros data c E1 E3.
  - inversion E1; inversion E3; subst. reflexivity.
  - cbn [map] in E3. inversion E1 as [|? a ? data' F1 G1]; subst. inversion E3 as [|? c1 ? c' F3 G3]; subst. cbn [add_to_rows map]. f_equal.
    + eapply import_apart with (e := e) (ev := ev); eauto; [apply T|apply A]; now left.
    + apply IH; auto; intros; [apply T|apply A]; now right.
Qed.
End Add.

Lemma C37_repaired : forall sc data ms d rows evidence, served sc data ms d -> (forall e, In e rows -> tame_row e) -> tame_row evidence ->
  (forall e n, In e rows -> In n (map fst e) -> ~ In n (map fst evidence)) ->
  exists given table lps, import_rows sc (Rows [evidence]) = Ok [given] /\ import_rows sc (Rows (map (fun e => e ++ evidence) rows)) = Ok table /\
    repaired_data_logprob d (Rows rows) evidence = Ok lps /\ length lps = length rows /\
    forall i, i < length rows ->
      (exp (nth i lps 0) = sumf ms (fun m => row_prob (widths sc) m (nth i table [])) / sumf ms (fun m => row_prob (widths sc) m given))%R.
Proof.
  intros sc data ms d rows evidence SV T TE A. assert (RF := sd_fit _ _ _ _ SV). assert (MN := proj1 (sd_models _ _ _ _ SV)).
  destruct (served_full _ _ _ _ SV) as [SO NE DN DG WP (M & N & mst & counts & srv & MC & MST & -> & CG & SG)].
  destruct (many_rows sc SO RF rows T) as (rr & E & LR & LL). unfold repaired_data_logprob. cbn [dv_schema dv_server]. rewrite E. cbn [bind].
  destruct (evidence_row sc SO evidence TE) as (row & EV & L). rewrite EV. cbn [bind get nth_error].
  destruct (many_rows sc SO RF (map (fun e => e ++ evidence) rows)) as (tt' & ET & LT & LLT).
  { intros r I. apply in_map_iff in I. destruct I as (e & <- & I). apply apart_tame; auto. intros n. apply A; auto. }
  rewrite map_length in LT. assert (LT' : length tt' = length rows) by exact LT. exists row, tt'.
  rewrite (import_apart_rows sc SO RF rows evidence rr row tt' T TE (fun e I n => A e n I) E EV ET).
  destruct (logprob_plain sc M N ms mst MN MC MST srv tt' SG LLT) as (lps & EL & LN & P). rewrite EL. cbn [bind].
  destruct (logprob_plain sc M N ms mst MN MC MST srv [row] SG) as (gs & EG & LG & PG); [intros r [<-|[]]; auto|]. rewrite EG. cbn [bind].
  destruct gs as [|g [|]]; cbn in LG; try lia. cbn [get nth_error bind]. eexists. split; [reflexivity|]. split; [exact ET|]. split; [reflexivity|].
  split; [rewrite map_length; lia|]. intros i Hi. specialize (PG 0 (Nat.lt_0_succ 0)). cbn [nth] in PG. specialize (P i ltac:(lia)).
  transitivity (exp (nth i lps 0 - g))%R; [f_equal; rewrite (nth_indep _ 0%R (0 - g)%R) by (rewrite map_length; lia); rewrite (map_nth (fun x => (x - g)%R)); reflexivity|].
  unfold Rminus. rewrite exp_plus, exp_Ropp, P, PG. assert (0 < INR (length ms))%R by (apply lt_0_INR; destruct ms; [congruence|cbn; lia]).
  assert (0 < sumf ms (fun m => row_prob (widths sc) m row))%R.
  { apply Rmult_lt_reg_r with (/ INR (length ms))%R; [apply Rinv_0_lt_compat; auto|]. rewrite Rmult_0_l. fold (Rdiv (sumf ms (fun m => row_prob (widths sc) m row)) (INR (length ms))). rewrite <- PG. apply exp_pos. }
  field. split; lra.
Qed.
