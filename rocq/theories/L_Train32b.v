(** The loop over the observations of one cell. *)
From Coq Require Import List Arith Bool ZArith Reals Lra Lia.
From Flocq Require Import Core IEEE754.BinarySingleNaN.
From Verif Require Import Base Spec_Graph Spec_Ragged M_Structure M_Array M_Util M_Training Spec_Stats Spec_Conditional M_Float32 M_Train32 Spec_Float32
  L_Float32 L_Sample32 L_Train32 L_Ragged L_Stats L_Trainer.
Import ListNotations.
Open Scope R_scope.

Lemma map_snd_combine (l : list Z) : forall b, map snd (combine (seq b (length l)) l) = l.
Proof. induction l as [|x l IH]; intros b; [reflexivity|]. cbn. f_equal. apply IH. Qed.

Section CELLS.
Variables (ws : list nat) (tb : table) (M : nat) (A c : Z).
Hypothesis TK : table_ok ws tb.
Hypothesis HA : (1 <= A <= 16)%Z.
Hypothesis Hc : (1 <= c)%Z.
Hypothesis HAc : ((A + 9) * c + A <= 69)%Z.
Notation V := (num_cols tb).

Lemma c_le : (c <= 6)%Z.
Proof. nia. Qed.

Definition cstate : Type := (nat -> f32) * (nat -> nat -> f32) * (nat -> nat -> f32).

Definition cell_inv (v : nat) (M0 : nat -> Z) (st0 st : cstate) (j : Z) : Prop :=
  let '(msg0, feat0, meas0) := st0 in let '(msg, feat, meas) := st in
  (forall m, (m < M)%nat -> exists fr, (forall r, owns ws v r -> near (feat r m) (fr r) /\ (0 <= fr r <= M0 m + j)%Z) /\
     ((exists r, owns ws v r) -> meas_near A (meas v m) (M0 m + j))) /\
  (forall m, (m < M)%nat -> fin32 (msg m) = true /\ 0 <= val (msg m) <= bp (A + 7 * j)) /\
  (forall m, (m < M)%nat -> bp (-1) <= val (msg0 m) -> bp (-1 - (A + 9) * j) <= val (msg m)) /\
  (forall r, ~ owns ws v r -> feat r = feat0 r) /\ (forall u, u <> v -> meas u = meas0 u).

Lemma cell_step v M0 st0 st j r : cell_inv v M0 st0 st j -> owns ws v r -> (0 <= j < c)%Z ->
  (forall m, (m < M)%nat -> (0 <= M0 m)%Z /\ (M0 m + c < 2 ^ A)%Z) -> cell_inv v M0 st0 (cell_draw32 v r st) (j + 1).
Proof.
  destruct st0 as [[msg0 feat0] meas0], st as [[msg feat] meas]. intros (I1 & I2 & I3 & I4 & I5) O Hj HM0.
  pose proof c_le. assert ((2 ^ A <= 2 ^ 16)%Z) by (apply Z.pow_le_mono_r; lia). cbn [cell_draw32 cell_inv].
  split; [|split; [|split; [|split]]].
  - intros m Hm. destruct (I1 m Hm) as (fr & F1 & F2). destruct (HM0 m Hm) as (H0' & H1).
    exists (fun r' => if (r' =? r)%nat then (fr r' + 1)%Z else fr r'). split.
    + intros r' O'. destruct (F1 r' O') as (N1 & N2). unfold set1. destruct (Nat.eqb_spec r' r) as [->|D].
      * split; [apply near_fadd; auto; lia|lia].
      * split; [exact N1|lia].
    + intros _. unfold set1. rewrite Nat.eqb_refl. rewrite Z.add_assoc. apply meas_near_fadd; try lia. apply F2. eauto.
  - intros m Hm. destruct (I1 m Hm) as (fr & F1 & F2). destruct (HM0 m Hm) as (H0' & H1). destruct (F1 r O) as (N1 & N2).
    destruct (I2 m Hm) as (X1 & X2).
    destruct (draw_bounds A HA (msg m) (feat r m) (meas v m) (fr r) (M0 m + j) (-1 - (A + 9) * j) (A + 7 * j) X1 N1 (F2 (ex_intro _ r O)))
      as (D1 & D2 & D3); try lia; try nia; auto.
    split; [exact D1|]. replace (A + 7 * (j + 1))%Z with (A + 7 * j + 7)%Z by lia. exact D2.
  - intros m Hm L0. destruct (I1 m Hm) as (fr & F1 & F2). destruct (HM0 m Hm) as (H0' & H1). destruct (F1 r O) as (N1 & N2).
    destruct (I2 m Hm) as (X1 & X2).
    destruct (draw_bounds A HA (msg m) (feat r m) (meas v m) (fr r) (M0 m + j) (-1 - (A + 9) * j) (A + 7 * j) X1 N1 (F2 (ex_intro _ r O)))
      as (D1 & D2 & D3); try lia; try nia; auto.
    specialize (D3 (I3 m Hm L0)). replace (-1 - (A + 9) * (j + 1))%Z with (-1 - (A + 9) * j - (A + 9))%Z by lia. exact D3.
  - intros r' O'. unfold set1. destruct (Nat.eqb_spec r' r) as [->|D]; [contradiction|]. now apply I4.
  - intros u Hu. unfold set1. destruct (Nat.eqb_spec u v); [contradiction|]. now apply I5.
Qed.

Lemma cell_category_inv v M0 st0 st j r z : cell_inv v M0 st0 st j -> owns ws v r -> (0 <= j)%Z -> (0 <= z)%Z -> (j + z <= c)%Z ->
  (forall m, (m < M)%nat -> (0 <= M0 m)%Z /\ (M0 m + c < 2 ^ A)%Z) -> cell_inv v M0 st0 (cell_category32 v st (r, z)) (j + z).
Proof.
  intros I O Hj Hz Hjz HM0. unfold cell_category32. cbn [fst snd].
  assert (G : forall k, (j + Z.of_nat k <= c)%Z -> cell_inv v M0 st0 (Nat.iter k (cell_draw32 v r) st) (j + Z.of_nat k)).
  { induction k as [|k IH]; intros Hk.
    - cbn. rewrite Z.add_0_r. exact I.
    - cbn [Nat.iter]. replace (j + Z.of_nat (Datatypes.S k))%Z with (j + Z.of_nat k + 1)%Z by lia.
      apply cell_step; auto; [apply IH; lia|lia]. }
  specialize (G (Z.to_nat z) ltac:(lia)). rewrite Z2Nat.id in G by lia. exact G.
Qed.

Lemma cells_inv v M0 st0 l : (forall r z, In (r, z) l -> owns ws v r /\ (0 <= z)%Z) -> forall st j,
  cell_inv v M0 st0 st j -> (0 <= j)%Z -> (j + fold_right Z.add 0%Z (map snd l) <= c)%Z ->
  (forall m, (m < M)%nat -> (0 <= M0 m)%Z /\ (M0 m + c < 2 ^ A)%Z) ->
  cell_inv v M0 st0 (fold_left (cell_category32 v) l st) (j + fold_right Z.add 0%Z (map snd l)).
Proof.
  induction l as [|[r z] l IH]; intros HL st j I Hj Hs HM0.
  - cbn. rewrite Z.add_0_r. exact I.
  - cbn [fold_left map snd fold_right] in *. destruct (HL r z (or_introl eq_refl)) as (O & Hz).
    assert (S0 : (0 <= fold_right Z.add 0%Z (map snd l))%Z).
    { clear - HL. assert (K : forall r z, In (r, z) l -> (0 <= z)%Z) by (intros r' z' I; apply (HL r' z'); now right).
      clear HL. induction l as [|[r' z'] l IHl]; cbn; [lia|]. specialize (K r' z' (or_introl eq_refl)) as K0.
      assert (0 <= fold_right Z.add 0%Z (map snd l))%Z by (apply IHl; intros; eapply K; right; eauto). lia. }
    rewrite Z.add_assoc. apply IH; auto; try lia.
    + intros r' z' I'. apply HL. now right.
    + apply cell_category_inv; auto. lia.
Qed.

(** UP of a cell none of whose statistics have been touched. *)
Lemma add_cell_inv n v msg feat meas M0 : (n < num_rows tb)%nat -> (v < V)%nat -> nonneg_data tb ->
  (block_sum ws (nth n (tb_rows tb) []) v <= c)%Z ->
  (forall m, (m < M)%nat -> (0 <= M0 m)%Z /\ (M0 m + c < 2 ^ A)%Z) ->
  (forall m, (m < M)%nat -> exists fr, (forall r, owns ws v r -> near (feat r m) (fr r) /\ (0 <= fr r <= M0 m)%Z) /\
     ((exists r, owns ws v r) -> meas_near A (meas v m) (M0 m))) ->
  (forall m, (m < M)%nat -> fin32 (msg m) = true /\ 0 <= val (msg m) <= bp A) ->
  exists msg' feat' meas',
    treecat_add_cell32 TY_MULTINOMIAL (tb_ri tb) (nth n (tb_rows tb) []) v (msg, feat, meas) = Ok (msg', feat', meas') /\
    (forall m, (m < M)%nat -> fin32 (msg' m) = true /\ 0 <= val (msg' m) <= bp (A + 7 * c)) /\
    (forall m, (m < M)%nat -> bp (-1) <= val (msg m) -> bp (-1 - (A + 9) * c) <= val (msg' m)) /\
    (forall r, ~ owns ws v r -> feat' r = feat r) /\ (forall u, u <> v -> meas' u = meas u).
Proof.
  intros Hn Hv ND BS HM0 HF Hmsg. unfold treecat_add_cell32. replace (TY_MULTINOMIAL =? TY_MULTINOMIAL)%nat with true by reflexivity.
  rewrite !(ri_get _ _ TK) by lia. cbn [bind].
  set (row := nth n (tb_rows tb) []) in *. set (beg := list_sum (firstn v ws)). set (fin := list_sum (firstn (v + 1) ws)).
  assert (LW : length ws = V) by apply (tk_width _ _ TK).
  assert (EF : fin = (beg + nth v ws 0)%nat).
  { unfold fin, beg. rewrite Nat.add_1_r, sum_firstn_S by lia. lia. }
  set (l := combine (seq beg (fin - beg)) (slice row beg fin)).
  assert (LR : length row = list_sum ws) by (apply (row_len ws tb TK); exact Hn).
  assert (LE : (fin <= list_sum ws)%nat).
  { apply sum_firstn_all. }
  assert (LS : length (slice row beg fin) = (fin - beg)%nat) by (unfold slice; rewrite firstn_length, skipn_length; lia).
  assert (ES : fold_right Z.add 0%Z (map snd l) = block_sum ws row v).
  { unfold l. assert (map snd (combine (seq beg (fin - beg)) (slice row beg fin)) = slice row beg fin) as ->.
    { rewrite <- LS. apply map_snd_combine. }
    rewrite <- (zsum_block ws tb TK row v Hv LR). reflexivity. }
  assert (HLl : forall r z, In (r, z) l -> owns ws v r /\ (0 <= z)%Z).
  { intros r z I. unfold l in I. split.
    - apply in_combine_l in I. apply in_seq in I. unfold owns. fold beg. lia.
    - apply in_combine_r in I. unfold slice in I.
      assert (I2 : In z row).
      { rewrite <- (firstn_skipn beg row). apply in_app_iff. right. rewrite <- (firstn_skipn (fin - beg) (skipn beg row)). apply in_app_iff. now left. }
      clear I. rename I2 into I. apply (In_nth _ _ 0%Z) in I. destruct I as (k & Hk & <-). apply (ND n k). }
  assert (I0 : cell_inv v M0 (msg, feat, meas) (msg, feat, meas) 0).
  { unfold cell_inv. split; [|split; [|split; [|split]]]; auto.
    - intros m Hm. destruct (HF m Hm) as (fr & F1 & F2). exists fr. rewrite Z.add_0_r. auto.
    - intros m Hm. replace (A + 7 * 0)%Z with A by lia. auto.
    - intros m Hm H. replace (-1 - (A + 9) * 0)%Z with (-1)%Z by lia. exact H. }
  assert (BS0 : (0 <= block_sum ws row v)%Z).
  { unfold block_sum. induction (seq 0 (nth v ws 0%nat)) as [|i l' IH]; [cbn; lia|]. cbn [map fold_right].
    pose proof (ND n (list_sum (firstn v ws) + i)%nat) as P. unfold datum in P. fold row in P. lia. }
  pose proof (cells_inv v M0 (msg, feat, meas) l HLl (msg, feat, meas) 0 I0 ltac:(lia) ltac:(rewrite ES; lia) HM0) as R.
  rewrite ES, Z.add_0_l in R. destruct (fold_left (cell_category32 v) l (msg, feat, meas)) as [[msg' feat'] meas'] eqn:E.
  exists msg', feat', meas'. split; [reflexivity|]. destruct R as (R1 & R2 & R3 & R4 & R5). pose proof c_le.
  split; [|split; [|split]]; auto.
  - intros m Hm. destruct (R2 m Hm) as (Q1 & Q2). split; [exact Q1|]. split; [tauto|]. eapply Rle_trans; [apply Q2|]. apply bpow_le. lia.
  - intros m Hm H0. eapply Rle_trans; [|apply R3; auto]. apply bpow_le. nia.
Qed.
End CELLS.
