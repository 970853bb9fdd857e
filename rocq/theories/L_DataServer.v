From Coq Require Import String Ascii.
From Coq Require Import List Arith Lia Bool ZArith QArith Reals.
From Verif Require Import Base M_Structure M_Rand M_Util M_Strings M_Format Spec_Ragged Spec_Schema Spec_Stats Spec_Conditional Spec_DataServer
  L_Base L_Dict L_Ragged L_Schema L_Import L_Import2.
Import ListNotations.
Open Scope list_scope.
Open Scope nat_scope.

Lemma total_cellv : forall ws row v, total (block ws v) (fun q => nth q row 0%Z) = zsum (cellv ws row v).
Proof.
  intros. unfold block, cellv. generalize (list_sum (firstn v ws)). intros s. induction (nth v ws 0) as [|n IH]; auto.
  rewrite !seq_S. unfold total, zsum. rewrite map_app, !fold_right_app. cbn [map fold_right Nat.add].
  assert (X : forall l (f : nat -> Z) a, fold_right (fun n acc => (f n + acc)%Z) a l = (fold_right (fun n acc => (f n + acc)%Z) 0%Z l + a)%Z) by (induction l; intros; cbn; [lia|rewrite IHl; lia]).
  assert (Y : forall l a, fold_right Z.add a l = (fold_right Z.add 0%Z l + a)%Z) by (induction l; intros; cbn; [lia|rewrite IHl; lia]).
  rewrite X, Y. unfold total, zsum in IH. rewrite IH. lia.
Qed.

Lemma zsum_nonneg : forall l, (forall z, In z l -> (0 <= z)%Z) -> (0 <= zsum l)%Z.
Proof. induction l as [|x l IH]; intros H; cbn; [lia|]. assert (0 <= x)%Z by (apply H; now left). assert (0 <= zsum l)%Z by (apply IH; intros; apply H; now right). unfold zsum in *. lia. Qed.
Lemma zsum_zero : forall l, (forall z, In z l -> (0 <= z)%Z) -> zsum l = 0%Z -> l = repeat 0%Z (length l).
Proof.
  induction l as [|x l IH]; intros H E; auto. assert (P := zsum_nonneg l (fun z I => H z (or_intror I))). assert (0 <= x)%Z by (apply H; now left).
  unfold zsum in *. cbn [fold_right] in E. cbn [length repeat]. f_equal; [lia|]. apply IH; [intros; apply H; now right|lia].
Qed.
Lemma zsum_one : forall l, (forall z, In z l -> (0 <= z)%Z) -> zsum l = 1%Z -> exists i, i < length l /\ l = upd (repeat 0%Z (length l)) i 1%Z.
Proof.
  induction l as [|x l IH]; intros H E; [discriminate|]. assert (P := zsum_nonneg l (fun z I => H z (or_intror I))). assert (0 <= x)%Z by (apply H; now left).
  unfold zsum in *. cbn [fold_right] in E. destruct (Z.eq_dec x 0) as [->|N].
  - destruct IH as (i & L & Q); [intros; apply H; now right|lia|]. exists (S i). cbn. split; [lia|]. f_equal. exact Q.
  - exists 0. cbn. split; [lia|]. f_equal; [lia|]. apply zsum_zero; [intros; apply H; now right|unfold zsum; lia].
Qed.
Lemma zsum_repeat : forall k, zsum (repeat 0%Z k) = 0%Z.
Proof. induction k; auto. Qed.

Section Schema.
Variable sc : schema.
Hypothesis SO : schema_ok sc.
Hypothesis RF : ranges_fit sc.
Let ws := widths sc.
Let V := length (sc_names sc).
Let name v := nth v (sc_names sc) EmptyString.

(** How much a legal value adds to its block. *)
Definition full_total (n : string) : Z :=
  match dget (sc_types sc) n with
  | Some Categorical => 1
  | Some Ordinal => match dget (sc_ranges sc) n with Some (lo, hi) => hi - lo | None => 0 end
  | None => 0
  end%Z.
Definition legal_cell (n : string) (c : list Z) : Prop :=
  length c = feature_width sc n /\ (forall z, In z c -> (0 <= z)%Z) /\ zsum c = full_total n.

Lemma full_total_pos : forall n, (exists t, dget (sc_types sc) n = Some t) -> (1 <= full_total n <= 127)%Z.
Proof.
  intros n (t & T). unfold full_total. rewrite T. destruct t; [lia|]. destruct (so_ord _ SO n T) as (lo & hi & G & _). rewrite G. assert (RF2 := RF n lo hi G). lia.
Qed.

Lemma upd_nonneg : forall k i z, In z (upd (repeat 0%Z k) i 1%Z) -> (0 <= z)%Z.
Proof.
  induction k as [|k IH]; intros i z I; cbn in I; [destruct I|]. destruct i; cbn in I; destruct I as [<-|I]; try lia.
  - apply repeat_spec in I. lia.
  - eauto.
Qed.

Lemma encode_cell : forall n jv, match legal_value sc n jv with Some _ => legal_cell n (encode sc n jv) | None => encode sc n jv = repeat 0%Z (feature_width sc n) end.
Proof.
  intros n jv. unfold encode, put_value. destruct (legal_value sc n jv) as [x|] eqn:LV; auto.
  unfold legal_cell, full_total, feature_width. unfold legal_value in LV. destruct (dget (sc_types sc) n) as [[]|] eqn:T; [| |discriminate].
  - destruct jv; try discriminate. destruct (so_cat _ SO n T) as (vs & ix & CV & CI & IXS & IXN). rewrite CV in LV |- *.
    destruct (in_dec string_dec s vs) as [I|I]; [|discriminate]. injection LV as <-. destruct (proj1 (IXS s) I) as (i & D).
    unfold cat_pos. rewrite CI, D. assert (NE := IXN _ _ D). assert (LI : i < length vs) by (apply nth_error_Some; congruence).
    destruct (onehot_facts sc (length vs) i LI) as (_ & B & _). split; [rewrite upd_len; apply repeat_length|]. split; auto. intros z. apply upd_nonneg.
  - destruct (py_int jv) as [z|]; [|discriminate]. destruct (dget (sc_ranges sc) n) as [(lo, hi)|] eqn:RG; [|discriminate].
    destruct ((lo <=? z)%Z && (z <=? hi)%Z) eqn:B; [|discriminate]. injection LV as <-. apply andb_true_iff in B. destruct B as [B1 B2]. apply Z.leb_le in B1, B2.
    assert (RF2 := RF n lo hi RG). rewrite (L_Import.int8_id sc (z - lo)%Z), (L_Import.int8_id sc (hi - z)%Z) by lia. split; [reflexivity|]. split; [intros y [<-|[<-|[]]]; lia|]. unfold zsum. cbn [fold_right]. lia.
Qed.

Lemma decode_cell : forall n t c, dget (sc_types sc) n = Some t -> legal_cell n c -> exists x, decode sc n c = Ok (Some x) /\ legal_value sc n x = Some x.
Proof.
  intros n t c T (L & NN & S). assert (FP := full_total_pos n (ex_intro _ t T)). unfold decode.
  assert (NZ : forallb (Z.eqb 0) c = false).
  { destruct (forallb (Z.eqb 0) c) eqn:F; auto. exfalso. rewrite forallb_forall in F. assert (zsum c = 0)%Z; [|lia]. clear - F. induction c as [|x c IH]; auto.
    unfold zsum in *. cbn [fold_right]. rewrite IH by (intros; apply F; now right). specialize (F x (or_introl eq_refl)). apply Z.eqb_eq in F. lia. }
  rewrite NZ. unfold dget_. rewrite T. cbn [bind]. unfold full_total, feature_width in *. rewrite T in *. destruct t.
  - rewrite S. cbn [Z.eqb Pos.eqb assert_ bind]. destruct (so_cat _ SO n T) as (vs & ix & CV & CI & IXS & IXN). rewrite CV in *. cbn [bind].
    destruct (zsum_one c NN S) as (i & LI & Q). rewrite L in LI, Q. destruct (onehot_facts sc (length vs) i LI) as (_ & _ & C). rewrite <- Q in C. rewrite C. cbn [bind].
    unfold get. destruct (nth_error vs i) as [s|] eqn:E; [|exfalso; apply nth_error_None in E; lia]. cbn [bind]. exists (JStr s). split; auto.
    unfold legal_value. rewrite T, CV. destruct (in_dec string_dec s vs) as [I|I]; auto. exfalso. apply I. eapply nth_error_In; eauto.
  - destruct (so_ord _ SO n T) as (lo & hi & G & _). rewrite G in *. cbn [bind fst snd]. rewrite S, Z.eqb_refl. cbn [assert_ bind].
    destruct c as [|a [|b [|]]]; try discriminate. cbn [get nth_error bind]. exists (JInt (a + lo)). split; auto.
    unfold legal_value. rewrite T, G. cbn [py_int]. assert (0 <= a)%Z by (apply NN; now left). assert (0 <= b)%Z by (apply NN; right; now left). unfold zsum in S. cbn [fold_right] in S.
    replace ((lo <=? a + lo)%Z && (a + lo <=? hi)%Z) with true; auto. symmetry. apply andb_true_iff. split; apply Z.leb_le; lia.
Qed.

(** Rows of a good table. *)
Definition good_row (row : list Z) : Prop := length row = list_sum ws /\ forall v, v < V ->
  cellv ws row v = repeat 0%Z (nth v ws 0) \/ (dget (sc_index sc) (name v) = Some v /\ legal_cell (name v) (cellv ws row v)).

Lemma import_good : forall entries row, keys_once entries -> foldM (import_cell sc) entries (repeat 0%Z (list_sum ws)) = Ok row -> good_row row.
Proof.
  intros entries row KO E. destruct (import_row_ok sc SO entries KO) as (row' & E' & L & C).
  { intros n jv I. eapply (import_row_inv sc SO); eauto. }
  assert (row' = row) by (unfold ws in E; congruence). subst row'. split; auto. intros v H. fold ws in C. rewrite (C v H). unfold final_cell. fold (name v).
  destruct (dget (sc_index sc) (name v)) as [u|] eqn:I; auto. destruct (dget entries (name v)) as [jv|]; auto. destruct (Nat.eqb_spec u v) as [->|]; auto.
  assert (X := encode_cell (name v) jv). destruct (legal_value sc (name v) jv); auto. left. rewrite X. f_equal. symmetry. exact (ws_nth sc v H).
Qed.

Lemma observes_cellv : forall row v, v < V -> (observes ws row v <-> cellv ws row v <> repeat 0%Z (nth v ws 0)).
Proof.
  intros row v H. split.
  - intros (q & (_ & O) & N) E. apply N. replace q with (list_sum (firstn v ws) + (q - list_sum (firstn v ws))) by lia. rewrite <- cellv_nth by lia. rewrite E.
    destruct (Nat.lt_ge_cases (q - list_sum (firstn v ws)) (nth v ws 0)) as [K|K].
    + apply nth_repeat.
    + rewrite nth_overflow; auto. now rewrite repeat_length.
  - intros N. destruct (Exists_dec (fun i => nth (list_sum (firstn v ws) + i) row 0%Z <> 0%Z) (seq 0 (nth v ws 0))) as [X|X].
    { intros i. destruct (Z.eq_dec (nth (list_sum (firstn v ws) + i) row 0%Z) 0); [right; congruence|left; auto]. }
    + apply Exists_exists in X. destruct X as (i & I & X). apply in_seq in I. exists (list_sum (firstn v ws) + i). split; auto. split; [unfold ws; rewrite ws_len; auto|]. lia.
    + exfalso. apply N. apply nth_ext with (d := 0%Z) (d' := 0%Z); [now rewrite cellv_length, repeat_length|]. intros i I. rewrite cellv_length in I. rewrite cellv_nth by auto.
      rewrite nth_repeat. destruct (Z.eq_dec (nth (list_sum (firstn v ws) + i) row 0%Z) 0) as [Z|Z]; auto. exfalso. apply X. apply Exists_exists. exists i. split; auto. apply in_seq. lia.
Qed.

Lemma typed_of_index : forall n v, dget (sc_index sc) n = Some v -> exists t, dget (sc_types sc) n = Some t.
Proof. intros n v I. apply (so_typed _ SO). apply (so_index _ SO). eauto. Qed.

(** The counts of a good table. *)
Lemma good_sum : forall row v, good_row row -> v < V ->
  (~ observes ws row v /\ block_sum ws row v = 0%Z) \/
  (observes ws row v /\ dget (sc_index sc) (name v) = Some v /\ block_sum ws row v = full_total (name v) /\ (1 <= full_total (name v) <= 127)%Z).
Proof.
  intros row v (L & G) H. change (block_sum ws row v) with (zsum (cellv ws row v)). rewrite (observes_cellv row v H). destruct (G v H) as [E|(I & C)].
  - left. rewrite E. split; [tauto|]. apply zsum_repeat.
  - right. assert (P := full_total_pos (name v) (typed_of_index _ _ I)). destruct C as (_ & _ & S). split; [|split; [auto|split; auto]]. intros E. rewrite E, zsum_repeat in S. lia.
Qed.

Lemma good_counts : forall data, data <> [] -> (forall row, In row data -> good_row row) ->
  exists counts, guess_counts (sc_ri sc) (list_sum ws) data = Ok counts /\ length counts = V /\
    forall v, v < V -> (0 <= nth v counts 0 <= 127)%Z /\
      ((exists row, In row data /\ observes ws row v) -> nth v counts 0%Z = full_total (name v) /\ dget (sc_index sc) (name v) = Some v) /\
      ((forall row, In row data -> ~ observes ws row v) -> nth v counts 0%Z = 0%Z).
Proof.
  intros data NE G. destruct data as [|r data]; [congruence|].
  destruct (guess_counts_Ok ws r data) as (m & E & L & M).
  { intros row I. exact (proj1 (G row I)). }
  { intros row v I H. assert (HV : v < V) by (unfold V; rewrite <- (ws_len sc); exact H). destruct (good_sum row v (G row I) HV) as [(_ & ->)|(_ & _ & -> & B)]; lia. }
  exists m. rewrite (so_ri _ SO). fold ws. split; [exact E|]. split; [rewrite L; apply ws_len|]. intros v H.
  destruct (M v) as (UP & row & I & EQ); [unfold ws; rewrite ws_len; auto|]. split; [|split].
  - rewrite EQ. destruct (good_sum row v (G row I) H) as [(_ & ->)|(_ & _ & -> & B)]; lia.
  - intros (row' & I' & O). destruct (good_sum row' v (G row' I') H) as [(N & _)|(_ & J & S & B)]; [tauto|]. split; auto.
    specialize (UP row' I'). rewrite S in UP. rewrite EQ in *. destruct (good_sum row v (G row I) H) as [(_ & Z)|(_ & _ & Z & _)]; lia.
  - intros N. rewrite EQ. destruct (good_sum row v (G row I) H) as [(_ & Z)|(O & _)]; auto. exfalso. eapply N; eauto.
Qed.

(** Exporting a row with these counts. *)
Lemma export_counts : forall data counts row, (forall v, v < V -> (0 <= nth v counts 0 <= 127)%Z /\
      ((exists r, In r data /\ observes ws r v) -> nth v counts 0%Z = full_total (name v) /\ dget (sc_index sc) (name v) = Some v) /\
      ((forall r, In r data -> ~ observes ws r v) -> nth v counts 0%Z = 0%Z)) ->
  length row = list_sum ws -> (forall z, In z row -> (0 <= z)%Z) -> (forall v, v < V -> zsum (cellv ws row v) = nth v counts 0%Z) ->
  exists out, foldM (export_cell sc row) (combine (seq 0 V) (sc_names sc)) [] = Ok out /\ full_row sc data out.
Proof.
  intros data counts row CO L NN S.
  assert (CN : forall v z, In z (cellv ws row v) -> (0 <= z)%Z).
  { intros v z I. unfold cellv in I. apply in_map_iff in I. destruct I as (i & <- & I). destruct (nth_in_or_default (list_sum (firstn v ws) + i) row 0%Z) as [J|J]; [auto|lia]. }
  assert (OD : forall v, v < V -> (exists r, In r data /\ observes ws r v) \/ (forall r, In r data -> ~ observes ws r v)).
  { intros v H. clear CO. induction data as [|r data IH]; [right; intros ? []|]. destruct IH as [(r' & I & O)|N].
    - left. exists r'. split; [now right|auto].
    - destruct (list_eq_dec Z.eq_dec (cellv ws r v) (repeat 0%Z (nth v ws 0))) as [E|E].
      + right. intros r' [<-|I]; auto. rewrite (observes_cellv _ v H). tauto.
      + left. exists r. split; [now left|]. now rewrite (observes_cellv _ v H). }
  assert (D : forall v, v < V -> ((exists r, In r data /\ observes ws r v) -> exists x, decode sc (name v) (cellv ws row v) = Ok (Some x) /\ legal_value sc (name v) x = Some x) /\
                              ((forall r, In r data -> ~ observes ws r v) -> decode sc (name v) (cellv ws row v) = Ok None)).
  { intros v H. destruct (CO v H) as (_ & C1 & C2). split.
    - intros O. destruct (C1 O) as (E & I). destruct (typed_of_index _ _ I) as (t & T). apply (decode_cell (name v) t _ T). split; [rewrite cellv_length; exact (ws_nth sc v H)|].
      split; [apply CN|]. now rewrite S.
    - intros N. assert (Z := C2 N). rewrite <- S in Z by auto. rewrite (zsum_zero _ (CN v) Z). apply decode_zero. }
  set (d := fun v => match decode sc (name v) (cellv ws row v) with Ok o => o | _ => None end).
  destruct (export_fold sc SO row d L) as (out & E & KO & G).
  { intros v H. fold (name v) ws. unfold d. destruct (OD v H) as [O|N]; [destruct (proj1 (D v H) O) as (x & -> & _); auto|rewrite (proj2 (D v H) N); auto]. }
  { intros v x H DX. fold (name v). destruct (OD v H) as [O|N]; [apply CO; auto|]. unfold d in DX. rewrite (proj2 (D v H) N) in DX. discriminate. }
  exists out. split; [exact E|]. split; auto. intros n. rewrite G. split.
  - intros (v & r & I & J & O). rewrite I. destruct (index_pos sc SO n v I) as (H & Nn). destruct (proj1 (D v H)) as (x & X & LV); [eauto|].
    exists x. unfold d. rewrite X. fold (name v) in Nn. rewrite Nn in LV. auto.
  - intros N. destruct (dget (sc_index sc) n) as [v|] eqn:I; auto. destruct (index_pos sc SO n v I) as (H & Nn). unfold d. rewrite (proj2 (D v H)); auto.
    intros r J O. apply N. exists v, r. auto.
Qed.
End Schema.
