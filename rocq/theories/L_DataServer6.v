(** What DataServer.median guesses. *)
From Coq Require Import String Ascii.
From Coq Require Import List Arith Lia Bool ZArith QArith Reals Lra.
From Verif Require Import Base Spec_MST M_Structure M_Rand M_Util M_Strings M_Format M_Training M_Serving M_EnsembleServer M_DataServer Spec_Ragged Spec_Schema Spec_Stats Spec_Conditional Spec_Sum L_Sum Spec_Serving Spec_DataServer
  L_Base L_Dict L_Rand L_Stats L_Ragged L_Schema L_Import L_Import2 L_Server L_Logprob L_Serve1 L_Serve2 L_Serve3 L_EnsServe L_EnsServe2 L_Median L_DataServer L_DataServer2 L_DataServer3 M_Repaired L_Repaired L_Repaired2 M_Repaired2 Spec_Median.
Import ListNotations.
Open Scope list_scope.
Open Scope R_scope.

(** ** L1 distances *)
Lemma nearest x : exists n : Z, Rabs (IZR n - x) <= 1 / 2.
Proof. exists (up (x - 1 / 2)). destruct (archimed (x - 1 / 2)) as (A & B). unfold Rabs. destruct (Rcase_abs _); lra. Qed.

Lemma sumf_at (l : list nat) (k : nat) (c : R) : NoDup l -> In k l -> sumf l (fun q => if (q =? k)%nat then c else 0) = c.
Proof.
  induction 1 as [|x l N ND IH]; intros I; [destruct I|]. rewrite sumf_cons. destruct I as [-> | I].
  - rewrite Nat.eqb_refl, sumf_zero; [ring|]. intros y J. destruct (Nat.eqb_spec y k) as [->|]; [contradiction|reflexivity].
  - rewrite IH by auto. destruct (Nat.eqb_spec x k) as [->|]; [contradiction|ring].
Qed.

Lemma l1_onehot (l : list nat) (p : nat -> R) (y : nat -> Z) k : NoDup l -> In k l -> (forall q, In q l -> 0 <= p q) -> sumf l p = 1 ->
  (forall q, In q l -> y q = if (q =? k)%nat then 1%Z else 0%Z) ->
  sumf l (fun q => Rabs (IZR (y q) - IZR 1 * p q)) = 2 - 2 * p k.
Proof.
  intros ND I P S Y. assert (P1 : p k <= 1) by (rewrite <- S; now apply sumf_member_le).
  rewrite (sumf_ext _ _ (fun q => p q + if (q =? k)%nat then 1 - 2 * p k else 0)).
  - rewrite sumf_plus, S, sumf_at by auto. ring.
  - intros q J. rewrite (Y q J). specialize (P q J). destruct (Nat.eqb_spec q k) as [->|].
    + rewrite Rabs_right; lra.
    + rewrite Rabs_left1; lra.
Qed.

Lemma total_at (l : list nat) (k : nat) : NoDup l -> In k l -> total l (fun q => if (q =? k)%nat then 1%Z else 0%Z) = 1%Z.
Proof.
  induction 1 as [|x l N ND IH]; intros I; [destruct I|]. change (total (x :: l) (fun q => if (q =? k)%nat then 1%Z else 0%Z)) with ((if (x =? k)%nat then 1 else 0) + total l (fun q => if (q =? k)%nat then 1%Z else 0%Z))%Z.
  destruct I as [-> | I].
  - rewrite Nat.eqb_refl. replace (total l _) with 0%Z; [reflexivity|]. clear IH ND. induction l as [|y l IHl]; [reflexivity|].
    change (0 = (if (y =? k)%nat then 1 else 0) + total l (fun q => if (q =? k)%nat then 1%Z else 0%Z))%Z.
    rewrite <- IHl by (intros J; apply N; now right). destruct (Nat.eqb_spec y k) as [->|]; [exfalso; apply N; now left|reflexivity].
  - rewrite IH by auto. destruct (Nat.eqb_spec x k) as [->|]; [contradiction|reflexivity].
Qed.

Section Best.
Variables (sc : schema) (data : list (list Z)).
Hypothesis SO : schema_ok sc.
Hypothesis RF : ranges_fit sc.
Let ws := widths sc.
Let V := length (sc_names sc).
Let name v := nth v (sc_names sc) EmptyString.
Variable counts : list Z.
Hypothesis CG : counts_good sc data counts.
Variable P : nat -> nat -> R.
Hypothesis P0 : forall v q, (v < V)%nat -> In q (block ws v) -> 0 <= P v q.
Hypothesis P1 : forall v, (v < V)%nat -> sumf (block ws v) (P v) = 1.

Lemma best_export x marg : (forall v q, (v < V)%nat -> In q (block ws v) -> nth q marg 0 = P v q) ->
  length x = list_sum ws -> (forall v, (v < length ws)%nat -> good_cells ws counts marg x v) ->
  exists out, foldM (export_cell sc x) (combine (seq 0 V) (sc_names sc)) [] = Ok out /\ best_row sc data P out.
Proof.
  intros MP L GC. pose proof CG as CG'. destruct CG' as (CL & CO). assert (LW : length ws = V) by apply ws_len.
  assert (NN : forall z, In z x -> (0 <= z)%Z).
  { intros z I. apply (In_nth _ _ 0%Z) in I. destruct I as (q & Hq & <-). rewrite L in Hq. destruct (proj1 (owns_exists ws q) Hq) as (v & O).
    apply (GC v); [apply O|]. unfold block. apply in_seq. destruct O. lia. }
  assert (CN : forall v z, In z (cellv ws x v) -> (0 <= z)%Z).
  { intros v z I. unfold cellv in I. apply in_map_iff in I. destruct I as (i & <- & I). destruct (nth_in_or_default (list_sum (firstn v ws) + i) x 0%Z) as [J|J]; [auto|lia]. }
  assert (ZS : forall v, (v < V)%nat -> zsum (cellv ws x v) = nth v counts 0%Z) by (intros v H; rewrite <- total_cellv; apply GC; lia).
  destruct (export_counts sc SO RF data counts x CO L NN ZS) as (out & E & FR). exists out. split; [exact E|]. split; [exact FR|].
  (* the values *)
  assert (OD : forall v, (v < V)%nat -> (exists r, In r data /\ observes ws r v) \/ (forall r, In r data -> ~ observes ws r v)).
  { intros v H. clear CO. clear - H. induction data as [|r d IH]; [right; intros ? []|]. destruct IH as [(r' & I & O)|N].
    - left. exists r'. split; [now right|auto].
    - destruct (list_eq_dec Z.eq_dec (cellv ws r v) (repeat 0%Z (nth v ws 0%nat))) as [E|E].
      + right. intros r' [<- | I]; auto. intros O. exact (proj1 (observes_cellv sc _ v H) O E).
      + left. exists r. split; [now left|]. exact (proj2 (observes_cellv sc _ v H) E). }
  assert (D : forall v, (v < V)%nat -> ((exists r, In r data /\ observes ws r v) -> exists t y, dget (sc_types sc) (name v) = Some t /\ legal_cell sc (name v) (cellv ws x v) /\ decode sc (name v) (cellv ws x v) = Ok (Some y)) /\
                              ((forall r, In r data -> ~ observes ws r v) -> decode sc (name v) (cellv ws x v) = Ok None)).
  { intros v H. destruct (CO v H) as (_ & C1 & C2). split.
    - intros O. destruct (C1 O) as (EQ & I). destruct (typed_of_index sc SO _ _ I) as (t & T).
      assert (LC : legal_cell sc (name v) (cellv ws x v)) by (split; [rewrite cellv_length; exact (ws_nth sc v H)|]; split; [apply CN|]; unfold name; now rewrite ZS).
      destruct (decode_cell sc SO RF (name v) t _ T LC) as (y & Y & _). eauto 10.
    - intros N. assert (Z := C2 N). rewrite <- ZS in Z by auto. rewrite (zsum_zero _ (CN v) Z). apply decode_zero. }
  set (d := fun v => match decode sc (name v) (cellv ws x v) with Ok o => o | _ => None end).
  assert (G : forall n, dget out n = match dget (sc_index sc) n with Some v => d v | None => None end).
  { destruct (export_fold sc SO x d L) as (out' & E' & _ & G').
    - intros v H. fold (name v) ws. unfold d. destruct (OD v H) as [O|N]; [destruct (proj1 (D v H) O) as (t & y & _ & _ & ->); auto|rewrite (proj2 (D v H) N); auto].
    - intros v y H DX. fold (name v). destruct (OD v H) as [O|N]; [apply CO; auto|]. unfold d in DX. rewrite (proj2 (D v H) N) in DX. discriminate.
    - assert (XX : Ok out = Ok out') by (etransitivity; [symmetry; exact E|exact E']). injection XX as <-. exact G'. }
  intros n v IX EO. cbv zeta. fold ws. set (off := list_sum (firstn v ws)).
  destruct (index_pos sc SO n v IX) as (Hv & Nn). fold V in Hv. fold (name v) in Nn.
  destruct EO as (v' & r & IX' & Ir & Or). rewrite IX in IX'. injection IX' as <-.
  destruct (proj1 (D v Hv)) as (t & y & T & LC & DY); [exists r; split; auto|]. destruct (proj1 (proj2 (CO v Hv))) as (CQ & _); [exists r; split; auto|]. fold (name v) in CQ.
  assert (DG : dget out n = Some y) by (rewrite G, IX; unfold d; now rewrite DY).
  assert (LTW : (v < length ws)%nat) by lia. destruct (GC v LTW) as (_ & TC & OPT).
  assert (BL : block ws v = map (fun i => off + i)%nat (seq 0 (nth v ws 0%nat))) by apply block_shift.
  assert (ND : NoDup (block ws v)) by (unfold block; apply seq_NoDup).
  assert (NC : forall i, (i < nth v ws 0)%nat -> nth (off + i) x 0%Z = nth i (cellv ws x v) 0%Z) by (intros; symmetry; apply cellv_nth; auto).
  assert (WF : nth v ws 0%nat = feature_width sc n) by (rewrite <- Nn; exact (ws_nth sc v Hv)).
  rewrite Nn in T, LC, DY, CQ. destruct LC as (LC1 & LC2 & LC3). unfold decode in DY. split.
  - intros vs TY CV. rewrite T in TY. injection TY as ->. unfold full_total in LC3, CQ. rewrite T in LC3, CQ.
    unfold feature_width in WF, LC1. rewrite T, CV in WF, LC1.
    destruct (zsum_one _ LC2 LC3) as (k & LI & Q). rewrite LC1 in LI, Q. destruct (onehot_facts sc (length vs) k LI) as (A & B & C). rewrite <- Q in A, B, C.
    rewrite A in DY. unfold dget_ in DY. rewrite T in DY. cbn [bind] in DY. rewrite B in DY. cbn [Z.eqb Pos.eqb assert_ bind] in DY. rewrite CV in DY. cbn [bind] in DY.
    rewrite C in DY. cbn [bind] in DY. unfold get in DY. destruct (nth_error vs k) as [s|] eqn:NE; [|discriminate]. cbn [bind] in DY. injection DY as <-.
    exists k, s. split; [auto|]. split; [auto|]. intros q Hq.
    assert (Ik : In (off + k)%nat (block ws v)) by (unfold block; apply in_seq; fold off; lia).
    specialize (OPT (fun p => if (p =? q)%nat then 1%Z else 0%Z)). rewrite CQ in OPT. specialize (OPT (total_at _ q ND Hq)).
    rewrite (sumf_ext _ (fun q0 => Rabs (IZR (nth q0 x 0%Z) - IZR 1 * nth q0 marg 0)) (fun q0 => Rabs (IZR (nth q0 x 0%Z) - IZR 1 * P v q0))) in OPT by (intros; now rewrite (MP v)).
    rewrite (sumf_ext _ (fun q0 => Rabs (IZR (if (q0 =? q)%nat then 1%Z else 0%Z) - IZR 1 * nth q0 marg 0)) (fun q0 => Rabs (IZR (if (q0 =? q)%nat then 1%Z else 0%Z) - IZR 1 * P v q0))) in OPT by (intros; now rewrite (MP v)).
    rewrite (l1_onehot (block ws v) (P v) (fun q0 => nth q0 x 0%Z) (off + k)) in OPT; auto.
    + rewrite (l1_onehot (block ws v) (P v) (fun p => if (p =? q)%nat then 1%Z else 0%Z) q) in OPT; auto. lra.
    + intros q0 I0. rewrite BL in I0. apply in_map_iff in I0. destruct I0 as (i & <- & I0). apply in_seq in I0. rewrite NC by lia. rewrite Q, nth_upd by (rewrite repeat_length; lia).
      rewrite nth_repeat. destruct (Nat.eqb_spec k i) as [->|N]; [now rewrite Nat.eqb_refl|]. replace (off + i =? off + k)%nat with false; [reflexivity|]. symmetry. apply Nat.eqb_neq. lia.
  - intros lo hi TY RG. rewrite T in TY. injection TY as ->. unfold full_total in LC3, CQ. rewrite T, RG in LC3, CQ.
    unfold feature_width in WF, LC1. rewrite T in WF, LC1.
    destruct (forallb (Z.eqb 0) (cellv ws x v)); [discriminate|]. unfold dget_ in DY. rewrite T in DY. cbn [bind] in DY. rewrite RG in DY. cbn [bind fst snd] in DY.
    rewrite LC3, Z.eqb_refl in DY. cbn [assert_ bind] in DY. destruct (cellv ws x v) as [|a [|b [|]]] eqn:EC; try discriminate. cbn [get nth_error bind] in DY. injection DY as <-.
    exists (a + lo)%Z. split; [auto|].
    unfold zsum in LC3. cbn [fold_right] in LC3.
    assert (B2 : block ws v = [off; S off]) by (unfold block; rewrite WF; reflexivity).
    assert (X0 : nth off x 0%Z = a) by (rewrite <- (Nat.add_0_r off), NC by lia; reflexivity).
    assert (X1 : nth (S off) x 0%Z = b) by (replace (S off) with (off + 1)%nat by lia; rewrite NC by lia; reflexivity).
    assert (PS := P1 v Hv). rewrite B2 in PS. unfold sumf in PS. cbn [map fold_right] in PS. unfold rsum in PS. cbn [fold_right] in PS.
    set (c := (hi - lo)%Z) in *. set (p := P v off) in *.
    destruct (nearest (IZR c * p)) as (m & HM).
    specialize (OPT (fun q => if (q =? off)%nat then m else (c - m)%Z)). rewrite CQ in OPT.
    rewrite B2 in OPT. specialize (OPT ltac:(unfold total; cbn [fold_right map]; rewrite Nat.eqb_refl; replace (S off =? off)%nat with false by (symmetry; apply Nat.eqb_neq; lia); lia)).
    rewrite !sumf_cons, !sumf_nil in OPT. rewrite Nat.eqb_refl in OPT. replace (S off =? off)%nat with false in OPT by (symmetry; apply Nat.eqb_neq; lia).
    rewrite X0, X1 in OPT. rewrite (MP v off), (MP v (S off)) in OPT by (auto; rewrite B2; cbn; auto). fold p in OPT.
    replace (P v (S off)) with (1 - p) in OPT by lra. replace b with (c - a)%Z in OPT by lia. rewrite !minus_IZR in OPT.
    replace (IZR c - IZR a - IZR c * (1 - p)) with (- (IZR a - IZR c * p)) in OPT by ring.
    replace (IZR c - IZR m - IZR c * (1 - p)) with (- (IZR m - IZR c * p)) in OPT by ring. rewrite !Rabs_Ropp in OPT.
    rewrite plus_IZR. replace (IZR a + IZR lo - (IZR lo + IZR c * p)) with (IZR a - IZR c * p) by ring. lra.
Qed.
End Best.

Lemma C38_values : forall sc data m d junk rows, served sc data [m] d -> (forall e, In e rows -> tame_row e) ->
  exists root out table, find_center_of_tree (ts_grid (d_tree m)) = Ok root /\
    import_rows sc (Rows rows) = Ok table /\ data_median d junk (Rows rows) = Ok out /\ length out = length rows /\
    forall i P, (i < length rows)%nat ->
      (forall v given q, (v < length (sc_names sc))%nat -> restricted (widths sc) (fun u => in_line (ts_get_edges (d_tree m)) root u v) (nth i table []) given ->
         In q (block (widths sc) v) -> P v q = predictive (widths sc) m given v q) ->
      best_row sc data P (nth i out []).
Proof.
  intros sc data m d junk rows SV T. assert (RF := sd_fit _ _ _ _ SV). assert (MN := proj1 (sd_models _ _ _ _ SV)).
  destruct (served_full _ _ _ _ SV) as [SO NE DN DG WP (M & N & mst & counts & srv & MC & MST & -> & CG & SG)].
  destruct SG as [(m' & s & E & -> & TS)|(es & L & _)]; [|exfalso; apply L; reflexivity]. injection E as <-.
  assert (C := MC m (or_introl eq_refl)). set (ws := widths sc) in *. set (V := length (sc_names sc)) in *.
  assert (LW : length ws = V) by apply ws_len.
  destruct (many_rows sc SO RF rows T) as (table & ET & LT & LL). fold ws in LL.
  destruct (C30_data ws V M N m mst s junk table C MST TS LL) as (root & ER & HR & margs & EM & LM & HM).
  assert (CB : forall v, (v < V)%nat -> (0 <= nth v counts 0 <= 127)%Z) by (intros v H; apply (proj2 CG v H)).
  destruct (build_server ws V M N m C mst MST) as (s' & edges & E' & SF & _). rewrite TS in E'. injection E' as <-.
  assert (GM : forall n, (n < length table)%nat -> forall v, (v < V)%nat ->
    (forall q, In q (block ws v) -> 0 <= nth q (nth n margs []) 0) /\ sumf (block ws v) (fun q => nth q (nth n margs []) 0) = 1).
  { intros n Hn v Hv. destruct (HM n Hn) as (_ & HP).
    destruct (restricted_exists ws (fun u => in_line (ts_get_edges (d_tree m)) root u v) (nth n table [])) as (row' & RR).
    destruct (predictive_good ws V M N m mst s row' v C MST TS Hv) as (Q1 & Q2); [apply WP, nth_In; fold ws; lia|]. split.
    - intros q Hq. rewrite (HP v row' Hv RR q Hq). apply Rlt_le, Q1.
    - rewrite <- Q2. apply sumf_ext. intros q Hq. apply (HP v row' Hv RR q Hq). }
  assert (QM : exists xs, mapM (fun mm => quantize_blocks (sv_ri s) counts mm (repeat 0%Z (sv_R s))) margs = Ok xs /\ length xs = length margs /\
     forall n, (n < length margs)%nat -> length (nth n xs []) = list_sum ws /\ forall v, (v < length ws)%nat -> good_cells ws counts (nth n margs []) (nth n xs []) v).
  { apply (mapM_nth _ margs (fun marg x => length x = list_sum ws /\ forall v, (v < length ws)%nat -> good_cells ws counts marg x v) [] []).
    intros marg I. apply (In_nth _ _ []) in I. destruct I as (n & Hn & <-). rewrite LM in Hn.
    destruct (quantize_blocks_good ws counts (nth n margs [])) as (x & EX & LX & GX).
    - apply HM, Hn.
    - rewrite LW. apply CG.
    - intros v Hv. apply CB. lia.
    - intros v q Hv Hq. rewrite LW in Hv. apply (proj1 (GM n Hn v Hv) q Hq).
    - intros v Hv. rewrite LW in Hv. apply (proj2 (GM n Hn v Hv)).
    - exists x. rewrite (sf_ri _ _ _ _ _ SF), (sf_R _ _ _ _ _ SF). auto. }
  destruct QM as (xs & EX & LX & GX). rewrite LM in *.
  assert (EXP : exists out, mapM (fun row => foldM (export_cell sc row) (combine (seq 0 V) (sc_names sc)) []) xs = Ok out /\ length out = length xs /\
    forall n, (n < length xs)%nat -> foldM (export_cell sc (nth n xs [])) (combine (seq 0 V) (sc_names sc)) [] = Ok (nth n out [])).
  { apply (mapM_nth _ xs (fun x o => foldM (export_cell sc x) (combine (seq 0 V) (sc_names sc)) [] = Ok o) [] []).
    intros x I. apply (In_nth _ _ []) in I. destruct I as (n & Hn & <-). rewrite LX in Hn.
    destruct (best_export sc data SO RF counts CG (fun v q => nth q (nth n margs []) 0) (fun v q Hv Hq => proj1 (GM n Hn v Hv) q Hq) (fun v Hv => proj2 (GM n Hn v Hv)) (nth n xs []) (nth n margs [])) as (o & EO & _).
    - auto.
    - apply GX, Hn.
    - apply GX, Hn.
    - exists o. auto. }
  destruct EXP as (out & EO & LO & HO). exists root, out, table. split; [exact ER|]. split; [exact ET|]. split; [|split; [lia|]].
  - unfold data_median. cbn [dv_schema dv_server dv_counts]. rewrite ET. cbn [bind]. rewrite (last_ri sc SO). cbn [bind]. fold ws.
    unfold median. replace (forallb _ table) with true. 2: { symmetry. apply forallb_forall. intros row I. rewrite (sf_R _ _ _ _ _ SF). apply Nat.eqb_eq. auto. }
    cbn [assert_ bind]. rewrite EM. cbn [bind]. rewrite EX. cbn [bind]. unfold export_rows. rewrite (last_ri sc SO). cbn [bind]. fold ws. rewrite Nat.eqb_refl. cbn [assert_ bind]. exact EO.
  - intros i P Hi HP. assert (Hi' : (i < length table)%nat) by lia.
    assert (PM : forall v q, (v < V)%nat -> In q (block ws v) -> nth q (nth i margs []) 0 = P v q).
    { intros v q Hv Hq. destruct (restricted_exists ws (fun u => in_line (ts_get_edges (d_tree m)) root u v) (nth i table [])) as (row' & RR).
      rewrite (proj2 (HM i Hi') v row' Hv RR q Hq). symmetry. now apply HP. }
    destruct (best_export sc data SO RF counts CG P) with (x := nth i xs []) (marg := nth i margs []) as (o & EO1 & BR).
    + intros v q Hv Hq. rewrite <- (PM v q Hv Hq). apply (GM i Hi' v Hv); auto.
    + intros v Hv. rewrite <- (proj2 (GM i Hi' v Hv)). apply sumf_ext. intros q Hq. symmetry. now apply PM.
    + exact PM.
    + apply GX, Hi'.
    + apply GX, Hi'.
    + specialize (HO i ltac:(lia)). assert (XX : Ok o = Ok (nth i out [])) by (etransitivity; [symmetry; exact EO1|exact HO]). injection XX as <-. exact BR.
Qed.

Lemma mix_rows {A B} (f : A -> result B) (g : A -> B) l : (forall a, In a l -> f a = Ok (g a)) -> mapM f l = Ok (map g l).
Proof. induction l as [|a l IH]; intros H; [reflexivity|]. cbn [mapM map]. rewrite (H a (or_introl eq_refl)). cbn [bind]. rewrite IH by (intros; apply H; now right). reflexivity. Qed.

Section Mix.
Variables (ws : list nat) (V M N : nat) (ms : list smodel) (mst : list (list R) -> list (nat * nat)).
Hypothesis MN : ms <> [].
Hypothesis MC : forall m, In m ms -> consistent ws V M N m.
Hypothesis MST : mst_contract mst.
Variable row : list Z.
Hypothesis RL : length row = list_sum ws.
Hypothesis WP : forall w, In w ws -> (1 <= w)%nat.
Notation tot := (sumf ms (fun m => row_prob ws m row)).
Notation Pm := (fun q => sumf ms (fun m => row_prob ws m (bump row q)) / tot).

Lemma sum_bumps m v : In m ms -> (v < V)%nat -> (forall row, 0 < row_prob ws m row) /\ sumf (block ws v) (fun q => row_prob ws m (bump row q)) = row_prob ws m row.
Proof.
  intros I Hv. assert (C := MC m I). destruct (build_server ws V M N m C mst MST) as (s & edges & E & SF & ST & SV & SE & SFe & _).
  split.
  - intros. eapply (row_prob_pos ws V M m edges s); eauto. apply (cm_M _ _ _ _ _ C).
  - eapply (sum_bump ws V M m edges s); eauto; [apply (cm_M _ _ _ _ _ C)|]. unfold block. assert (1 <= nth v ws 0)%nat by (apply WP, nth_In; rewrite (cm_width _ _ _ _ _ C); auto).
    destruct (nth v ws 0%nat); [lia|discriminate].
Qed.

Lemma tot_pos v : (v < V)%nat -> 0 < tot.
Proof.
  intros Hv. apply sumf_pos.
  - intros m I. apply Rlt_le, (proj1 (sum_bumps m v I Hv)).
  - assert (X : exists m, In m ms) by (clear - MN; destruct ms as [|m ms']; [congruence|exists m; now left]). destruct X as (m & I). exists m. split; [auto|]. now apply (sum_bumps m v).
Qed.

Lemma Pm_good v : (v < V)%nat -> (forall q, 0 <= Pm q) /\ sumf (block ws v) Pm = 1.
Proof.
  intros Hv. assert (TP := tot_pos v Hv). split.
  - intros q. apply Rmult_le_pos; [|apply Rlt_le, Rinv_0_lt_compat; auto]. apply sumf_nonneg. intros m I. apply Rlt_le, (proj1 (sum_bumps m v I Hv)).
  - unfold Rdiv. rewrite sumf_scal_r, sumf_swap. rewrite (sumf_ext ms _ (fun m => row_prob ws m row)) by (intros m I; apply (sum_bumps m v I Hv)). apply Rinv_r. lra.
Qed.

Lemma predictive_ratio m v q : In m ms -> (v < V)%nat -> predictive ws m row v q = row_prob ws m (bump row q) / row_prob ws m row.
Proof. intros I Hv. unfold predictive. now rewrite (proj2 (sum_bumps m v I Hv)). Qed.
End Mix.

Lemma C38_repaired : forall sc data ms d junk evidence, served sc data ms d -> tame_row evidence ->
  exists given out, import_rows sc (Rows [evidence]) = Ok [given] /\ repaired_data_median d junk evidence = Ok out /\
    best_row sc data (fun v q => sumf ms (fun m => row_prob (widths sc) m (bump given q)) / sumf ms (fun m => row_prob (widths sc) m given)) out.
Proof.
  intros sc data ms d junk evidence SV T. assert (RF := sd_fit _ _ _ _ SV). assert (MN := proj1 (sd_models _ _ _ _ SV)).
  destruct (served_full _ _ _ _ SV) as [SO NE DN DG WP (M & N & mst & counts & srv & MC & MST & -> & CG & SG)].
  set (ws := widths sc) in *. set (V := length (sc_names sc)) in *. assert (LW : length ws = V) by apply ws_len.
  destruct (evidence_row sc SO evidence T) as (row & ET & RL). fold ws in RL. exists row.
  set (P := fun v q : nat => sumf ms (fun m => row_prob ws m (bump row q)) / sumf ms (fun m => row_prob ws m row)).
  assert (CB : forall v, (v < V)%nat -> (0 <= nth v counts 0 <= 127)%Z) by (intros v H; apply (proj2 CG v H)).
  assert (VP : (0 < V)%nat) by (unfold V; destruct (sc_names sc); [congruence|cbn; lia]).
  assert (MG : exists marg, (match srv with Single s => repaired_marginals_row s junk row | Many es => repaired_ens_marginals_row es junk row end) = Ok marg /\
     length marg = list_sum ws /\ (forall v q, (v < V)%nat -> In q (block ws v) -> nth q marg 0 = P v q) /\
     (match srv with Single s => sv_ri s | Many es => es_ri es end) = make_ragged_index ws).
  { destruct SG as [(m & s & -> & -> & TS)|(es & L1 & -> & ES)].
    - assert (C := MC m (or_introl eq_refl)). destruct (C30_repaired ws V M N m mst s junk row C MST TS RL) as (marg & E & LM & HM).
      exists marg. split; [exact E|]. split; [exact LM|]. split; [|apply (single_facts sc M N [m] mst MC MST m s eq_refl TS)].
      intros v q Hv Hq. rewrite (HM v q Hv Hq). rewrite (predictive_ratio ws V M N [m] mst MC MST row RL WP m v q (or_introl eq_refl) Hv).
      unfold P. rewrite !sumf_cons, !sumf_nil. now rewrite !Rplus_0_r.
    - assert (O : ens_ok ws V M N ms) by (split; auto). pose proof (members_of ws V M N mst ms es O MST ES) as F.
      assert (RI : es_ri es = make_ragged_index ws) by (eapply many_ri; eauto).
      unfold repaired_ens_marginals_row.
      assert (EL : mapM (fun s => lp <- logprob s [row] ;; get IndexError lp 0) (es_members es) = Ok (map (fun m => ln (row_prob ws m row)) ms)).
      { apply mapM_Forall2. clear ES O L1 MN CG SV P. induction F as [|m s ms members Es F IH]; [constructor|]. cbn [map]. constructor.
        - destruct (C26_data ws V M N m mst s [row] (MC m (or_introl eq_refl)) MST Es) as (EQ & _); [intros r [<-|[]]; auto|]. rewrite EQ. reflexivity.
        - apply IH. intros; apply MC; now right. }
      assert (EM : exists margs, mapM (fun s => repaired_marginals_row s junk row) (es_members es) = Ok margs /\
         Forall2 (fun m marg => forall v q, (v < V)%nat -> In q (block ws v) -> nth q marg 0 = predictive ws m row v q) ms margs).
      { clear ES O L1 MN CG SV P EL. induction F as [|m s ms members Es F IH]; [exists []; split; [reflexivity|constructor]|].
        destruct IH as (margs & E & FF); [intros; apply MC; now right|].
        destruct (C30_repaired ws V M N m mst s junk row (MC m (or_introl eq_refl)) MST Es RL) as (marg & E1 & LM & HM).
        exists (marg :: margs). split; [cbn [mapM]; rewrite E1; cbn [bind]; rewrite E; reflexivity|]. constructor; auto. }
      destruct EM as (margs & EM & FM). rewrite EL. cbn [bind]. rewrite EM. cbn [bind]. rewrite RI, mri_last. cbn [bind].
      eexists. split; [reflexivity|]. split; [now rewrite map_length, seq_length|]. split; [|reflexivity].
      intros v q Hv Hq. assert (Hq' : (q < list_sum ws)%nat) by (eapply owns_exists; exists v; unfold block in Hq; apply in_seq in Hq; split; lia).
      rewrite nth_map_seq by auto.
      assert (PD : forall m, In m ms -> 0 < row_prob ws m row) by (intros m I; apply (sum_bumps ws V M N ms mst MC MST row RL WP m v I Hv)).
      assert (TP := tot_pos ws V M N ms mst MN MC MST row RL WP v Hv).
      assert (LSE : logsumexp (map (fun m => ln (row_prob ws m row)) ms) = ln (sumf ms (fun m => row_prob ws m row))).
      { rewrite logsumexp_eq by (destruct ms; [congruence|discriminate]). f_equal. rewrite sumf_map. apply sumf_ext. intros m Hm. now apply exp_ln, PD. }
      rewrite LSE. unfold P. set (t := sumf ms (fun m => row_prob ws m row)) in *. clearbody t.
      assert (PR : forall m, In m ms -> predictive ws m row v q = row_prob ws m (bump row q) / row_prob ws m row) by (intros m I; apply (predictive_ratio ws V M N ms mst MC MST row RL WP m v q I Hv)).
      clear - FM PD TP PR Hv Hq. induction FM as [|m marg ms margs H FM IH]; [unfold sumf, rsum; cbn; unfold Rdiv; ring|].
      cbn [map combine]. rewrite !sumf_cons. rewrite IH by (intros; first [apply PD|apply PR]; now right). rewrite (H v q Hv Hq), (PR m (or_introl eq_refl)).
      assert (0 < row_prob ws m row) by (apply PD; now left). rewrite exp_ratio by auto. field. split; lra. }
  destruct MG as (marg & EM & LM & HM & ERI).
  destruct (quantize_blocks_good ws counts marg) as (x & EX & LX & GX).
  - exact LM.
  - rewrite LW. apply CG.
  - intros v Hv. apply CB. lia.
  - intros v q Hv Hq. rewrite LW in Hv. rewrite (HM v q Hv Hq). apply (Pm_good ws V M N ms mst MN MC MST row RL WP v Hv).
  - intros v Hv. rewrite LW in Hv. rewrite <- (proj2 (Pm_good ws V M N ms mst MN MC MST row RL WP v Hv)). apply sumf_ext. intros q Hq. apply (HM v q Hv Hq).
  - destruct (best_export sc data SO RF counts CG P) with (x := x) (marg := marg) as (out & EO & BR).
    + intros v q Hv Hq. apply (Pm_good ws V M N ms mst MN MC MST row RL WP v Hv).
    + intros v Hv. apply (Pm_good ws V M N ms mst MN MC MST row RL WP v Hv).
    + exact HM.
    + exact LX.
    + exact GX.
    + exists out. split; [exact ET|]. split; [|exact BR].
      unfold repaired_data_median. cbn [dv_schema dv_server dv_counts]. rewrite ET. cbn [bind get nth_error]. rewrite EM. cbn [bind]. rewrite (last_ri sc SO). cbn [bind]. fold ws.
      rewrite ERI. rewrite EX. cbn [bind]. unfold export_rows. rewrite (last_ri sc SO). cbn [bind]. fold ws. rewrite Nat.eqb_refl. cbn [assert_ bind mapM]. fold V.
      unfold V in *. rewrite EO. reflexivity.
Qed.
