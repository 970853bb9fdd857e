(** The float32 tables of a server built from a consistent model. *)
From Coq Require Import List Arith Bool ZArith Reals Lra Lia.
From Flocq Require Import Core Relative IEEE754.BinarySingleNaN.
From Verif Require Import Base L_Base Spec_Graph L_Graph Spec_Sum L_Sum M_Structure L_Pairing L_MakeTree L_Program L_ProgramValid Spec_Program L_Center L_Prop1 M_Util Spec_Ragged L_Ragged M_Array M_Training Spec_Stats L_Stats L_Trainer Spec_Conditional L_Asg L_BP L_BPVec L_AddRow
  M_Float32 M_Train32 Spec_Float32 L_Float32 L_Sample32 L_Train32 L_Train32d M_Serving Spec_Serving L_Server M_Serving32 Spec_Serving32 L_Serving32b.
Import ListNotations.
Open Scope R_scope.

Lemma trans_fold32 V (vert : nat -> nat -> f32) l : forall b t, (b + length l <= V - 1)%nat ->
  (forall x y, In (x, y) l -> (x < V)%nat /\ (y < V)%nat) ->
  exists t', foldM (fun trans '(e, v1, v2) =>
           _ <- index ((e <? V - 1) && (v1 <? V) && (v2 <? V))%nat ;;
           Ok (set1 trans e (fun m1 m2 => fdiv (fdiv (trans e m1 m2) (vert v1 m1)) (vert v2 m2)))) (number_from b l) t = Ok t' /\
    (forall e, (e < b)%nat -> t' e = t e) /\
    forall i, (i < length l)%nat -> forall m m',
      t' (b + i)%nat m m' = fdiv (fdiv (t (b + i)%nat m m') (vert (fst (nth i l (0, 0)%nat)) m)) (vert (snd (nth i l (0, 0)%nat)) m').
Proof.
  induction l as [|[x y] l IH]; intros b t HB HR.
  - exists t. split; [reflexivity|]. split; [auto|]. simpl. intros; lia.
  - simpl in HB. destruct (HR x y (or_introl eq_refl)) as (Hx & Hy).
    cbn [number_from foldM]. unfold index. rewrite (proj2 (Nat.ltb_lt b (V - 1))), (proj2 (Nat.ltb_lt x V)), (proj2 (Nat.ltb_lt y V)) by lia.
    cbn [andb bind].
    destruct (IH (Datatypes.S b) (set1 t b (fun m1 m2 => fdiv (fdiv (t b m1 m2) (vert x m1)) (vert y m2)))) as (t' & E & A & B); [lia|intros; apply HR; now right|].
    exists t'. split; [exact E|]. split.
    + intros e He. rewrite A by lia. apply set1_other. lia.
    + intros i Hi m m'. destruct i.
      * rewrite Nat.add_0_r. rewrite A by lia. rewrite set1_same. reflexivity.
      * simpl in Hi. specialize (B i ltac:(lia) m m'). replace (b + Datatypes.S i)%nat with (Datatypes.S b + i)%nat by lia.
        rewrite B. rewrite set1_other by lia. reflexivity.
Qed.

Lemma feat_fold32 (sum : list f32 -> f32) ws : forall n b (f : nat -> nat -> f32),
  (b + n <= length ws)%nat ->
  exists f', foldM (fun feat v =>
           beg <- get IndexError (make_ragged_index ws) v ;; fin <- get IndexError (make_ragged_index ws) (v + 1) ;;
           let tot := fun m => sum (map (fun r => feat r m) (seq beg (fin - beg))) in
           Ok (fun r m => if ((beg <=? r) && (r <? fin))%nat then fdiv (feat r m) (tot m) else feat r m)) (seq b n) f = Ok f' /\
    (forall v q c, (v < b \/ b + n <= v)%nat -> (v < length ws)%nat -> In q (block ws v) -> f' q c = f q c) /\
    (forall v q c, (b <= v < b + n)%nat -> In q (block ws v) -> f' q c = fdiv (f q c) (sum (map (fun q => f q c) (block ws v)))).
Proof.
  induction n; intros b f HB.
  - exists f. split; [reflexivity|]. split; [auto|]. intros; lia.
  - cbn [seq foldM]. rewrite !mri_get by lia. cbn [bind].
    set (f1 := fun r m : nat => if ((list_sum (firstn b ws) <=? r) && (r <? list_sum (firstn (b + 1) ws)))%nat
       then fdiv (f r m) (sum (map (fun r => f r m) (seq (list_sum (firstn b ws)) (list_sum (firstn (b + 1) ws) - list_sum (firstn b ws))))) else f r m).
    destruct (IHn (Datatypes.S b) f1) as (f' & E & A & B); [lia|].
    exists f'. split; [exact E|].
    assert (W : (list_sum (firstn (b + 1) ws) = list_sum (firstn b ws) + nth b ws 0)%nat).
    { rewrite Nat.add_1_r. apply sum_firstn_S. lia. }
    assert (OUT : forall v q c, (v < length ws)%nat -> v <> b -> In q (block ws v) -> f1 q c = f q c).
    { intros v q c Hv N I. unfold f1. destruct ((_ <=? q) && (q <? _))%nat eqn:D; auto.
      apply andb_true_iff in D. destruct D as (D1 & D2). apply Nat.leb_le in D1. apply Nat.ltb_lt in D2.
      exfalso. apply N. apply (owns_unique ws v b q); split; try lia.
      - apply in_seq in I. unfold block in I. lia. }
    split.
    + intros v q c D Hv I. rewrite (A v); auto; [|lia]. apply (OUT v); auto. lia.
    + intros v q c D I. destruct (Nat.eq_dec v b) as [->|N].
      * rewrite (A b) by (auto; lia). unfold f1. unfold block in I. apply in_seq in I.
        rewrite (proj2 (Nat.leb_le _ q)), (proj2 (Nat.ltb_lt q _)) by lia. cbn [andb]. f_equal.
        unfold block. rewrite W. f_equal. f_equal. f_equal. lia.
      * rewrite (B v) by (auto; lia). f_equal.
        -- apply (OUT v); auto. lia.
        -- f_equal. apply map_ext_in. intros q' I'. apply (OUT v); auto. lia.
Qed.

(** What is known about the tables. *)
Record tables32 (ws : list nat) (V M : nat) (A : Z) (m : smodel) (s : server32) : Prop := {
  t3_V : s3_V s = V;
  t3_M : s3_M s = M;
  t3_R : s3_R s = list_sum ws;
  t3_ri : s3_ri s = make_ragged_index ws;
  t3_prog : make_propagation_program (ts_grid (d_tree m)) None = Ok (s3_prog s);
  t3_vert : forall v c, (v < V)%nat -> (c < M)%nat -> fin32 (s3_vert s v c) = true /\ bp (- (A + 3)) <= val (s3_vert s v c) <= 1;
  t3_trans : forall e c1 c2, (e < V - 1)%nat -> (c1 < M)%nat -> (c2 < M)%nat ->
    fin32 (s3_trans s e c1 c2) = true /\ bp (- (A + 11)) <= val (s3_trans s e c1 c2) <= bp (2 * A + 6);
  t3_feat : forall v q c, (v < V)%nat -> In q (block ws v) -> (c < M)%nat ->
    fin32 (s3_feat s q c) = true /\ 0 < val (s3_feat s q c) <= 1 /\
    forall b, (0 <= b <= 140)%Z -> bp (- b) <= feat_prob ws m v q c -> bp (- (b + 3)) <= val (s3_feat s q c);
  t3_fsum : forall v c, (v < V)%nat -> (c < M)%nat -> sumf (block ws v) (fun q => val (s3_feat s q c)) <= 65 / 64
}.

(** The relative error of a quotient that is not tiny. *)
Lemma fdiv_rel (x y : f32) : fin32 x = true -> 0 < val y -> bp (-126) <= val x / val y <= 1 ->
  val (fdiv x y) <= val x / val y * (1 + bp (-24)).
Proof.
  intros Fx Py B. pose proof (bp_pos (-126)) as P126. pose proof (bp_pos (-24)) as P24.
  assert (B1 : bp 0 = 1) by reflexivity.
  pose proof (Bdiv_correct 24 128 p24 e128 mode_NE x y ltac:(lra)) as C. cbn [round_mode] in C. fold (rnd 24 128 (val x / val y)) in C.
  rewrite (small 24 128 p24 (bp (-126)) (bp 0) (val x / val y)) in C; try (apply fmtb; lia);
    [|rewrite B1; exact B|pose proof (bpow_gt_0 radix2 128); lra|apply bpow_lt; lia].
  destruct C as (C & _). unfold fdiv. rewrite C. unfold rnd.
  pose proof (relative_error_N_FLT radix2 (3 - 128 - 24) 24 p24 (fun x => negb (Z.even x)) (val x / val y)) as E.
  change (round radix2 (SpecFloat.fexp 24 128) ZnearestE (val x / val y)) with
    (round radix2 (FLT_exp (3 - 128 - 24) 24) (Znearest (fun x => negb (Z.even x))) (val x / val y)).
  change (3 - 128 - 24 + 24 - 1)%Z with (-126)%Z in E. rewrite (Rabs_pos_eq (val x / val y)) in E by lra.
  specialize (E ltac:(lra)). apply Rabs_le_inv in E. change (bp (- (24) + 1)) with (/ 8388608) in E. change (bp (-24)) with (/ 16777216) in *. lra.
Qed.

Section TABLES.
Variables (lib : numlib) (ws : list nat) (V M N : nat) (m : smodel) (A : Z).
Hypothesis LIB : lib_ok lib.
Hypothesis C : consistent ws V M N m.
Hypothesis CB : counts_below A ws N m.
Hypothesis HA : (6 <= A <= 16)%Z.

Lemma pA : (2 ^ A <= 2 ^ 16)%Z.
Proof. apply Z.pow_le_mono_r; lia. Qed.
Lemma HM : (1 <= M <= 128)%nat.
Proof. apply (cm_M _ _ _ _ _ C). Qed.

Lemma N_bound : INR N + INR M / 2 <= bp (A + 1).
Proof.
  destruct CB as (H & _). pose proof HM as HM'. assert (INR N <= bp A).
  { rewrite INR_IZR_INZ, <- (IZR_Zpower radix2) by lia. apply IZR_le. change (radix2 ^ A)%Z with (2 ^ A)%Z. lia. }
  assert (INR M <= 128) by (rewrite INR_IZR_INZ; apply IZR_le; lia).
  assert (bp 6 <= bp A) by (apply bpow_le; lia). change (bp 6) with 64 in H2.
  replace (bp (A + 1)) with (2 * bp A) by (rewrite bpow_plus; cbn; lra). lra.
Qed.

Lemma total_ge l f n : (forall k, In k l -> (0 <= f k)%Z) -> In n l -> (f n <= total l f)%Z.
Proof.
  induction l as [|k l IH]; intros P I; [destruct I|]. rewrite total_cons.
  assert (0 <= total l f)%Z.
  { clear - P. induction l as [|j l IH]; [cbn; lia|]. rewrite total_cons. pose proof (P j (or_intror (or_introl eq_refl))).
    assert (0 <= total l f)%Z by (apply IH; intros i [<-|I]; apply P; [now left|right; now right]). lia. }
  destruct I as [-> | I]; [lia|]. specialize (IH (fun k I => P k (or_intror I)) I). pose proof (P k (or_introl eq_refl)). lia.
Qed.

Lemma vcount v c : (v < V)%nat -> (c < M)%nat -> (0 <= d_vert m v c < 2 ^ 16)%Z.
Proof.
  intros Hv Hc. split; [now apply (cm_vert_nonneg _ _ _ _ _ C)|].
  assert (d_vert m v c <= total (seq 0 M) (d_vert m v))%Z.
  { apply (total_ge (seq 0 M) (d_vert m v) c); [|apply in_seq; lia]. intros k I. apply in_seq in I. apply (cm_vert_nonneg _ _ _ _ _ C); lia. }
  rewrite (cm_vert _ _ _ _ _ C) in H by auto. destruct CB. pose proof pA. lia.
Qed.

Lemma edge_of e : (e < V - 1)%nat -> exists v1 v2, nth_error (ts_get_edges (d_tree m)) e = Some (v1, v2).
Proof.
  intros He. destruct (cons_tree ws V M N m C) as (_ & L & _).
  destruct (nth_error (ts_get_edges (d_tree m)) e) as [[a b]|] eqn:D; eauto. apply nth_error_None in D. lia.
Qed.

Lemma edge_ends e v1 v2 : nth_error (ts_get_edges (d_tree m)) e = Some (v1, v2) -> (v1 < V)%nat /\ (v2 < V)%nat.
Proof. intros D. apply nth_error_In in D. destruct (cons_tree ws V M N m C) as (_ & _ & RG & _). now apply RG. Qed.

Lemma ecount e c1 c2 : (e < V - 1)%nat -> (c1 < M)%nat -> (c2 < M)%nat -> (0 <= d_edge m e c1 c2 < 2 ^ 16)%Z.
Proof.
  intros He H1 H2. split; [now apply (cm_edge_nonneg _ _ _ _ _ C)|]. destruct (edge_of e He) as (v1 & v2 & D).
  destruct (edge_ends e v1 v2 D) as (B1 & _).
  assert (d_edge m e c1 c2 <= total (seq 0 M) (fun c2 => d_edge m e c1 c2))%Z.
  { apply (total_ge (seq 0 M) (fun c2 => d_edge m e c1 c2) c2); [|apply in_seq; lia]. intros k I. apply in_seq in I. apply (cm_edge_nonneg _ _ _ _ _ C); lia. }
  rewrite (proj1 (cm_edge _ _ _ _ _ C e v1 v2 c1 D H1)) in H. pose proof (vcount v1 c1 B1 H1). lia.
Qed.

Lemma fcount v q c : (v < V)%nat -> In q (block ws v) -> (c < M)%nat -> (0 <= d_feat m q c < 2 ^ 16)%Z.
Proof.
  intros Hv Iq Hc. assert (P : forall k, In k (block ws v) -> (0 <= d_feat m k c)%Z).
  { intros k I. apply (cm_feat_nonneg _ _ _ _ _ C); auto. now apply (block_lt ws V M N m C v). }
  split; [now apply P|]. pose proof (total_ge (block ws v) (fun q => d_feat m q c) q P Iq) as H. destruct CB as (_ & CB').
  destruct (CB' v c) as (_ & H'); [rewrite (cm_width _ _ _ _ _ C); exact Hv|rewrite (proj1 (cm_M _ _ _ _ _ C)); exact Hc|]. pose proof pA. cbn beta in H. lia.
Qed.

Let bpA k : (A + k <= 119)%Z -> bp (A + k) <= bp 119.
Proof. intros. apply bpow_le. lia. Qed.

Lemma vert32 v c : (v < V)%nat -> (c < M)%nat ->
  fin32 (vert_probs32 lib M (d_vert m) v c) = true /\ bp (- (A + 3)) <= val (vert_probs32 lib M (d_vert m) v c) <= 1.
Proof.
  intros Hv Hc. pose proof HM as HM'. unfold vert_probs32. set (p := fun v m0 => plus_prior (d_vert m v m0) vert_prior64).
  assert (P : forall c, (c < M)%nat -> fin32 (p v c) = true /\ bp (-1) <= val (p v c) <= IZR (d_vert m v c) + bp (-1)).
  { intros k Hk. apply plus_half. now apply vcount. }
  assert (H1 : bp (-1) = 1 / 2) by (cbn; lra).
  assert (S : rsum (map (@B2R 24 128) (vec M (p v))) <= bp (A + 1)).
  { rewrite rsum_map_vec. eapply Rle_trans; [|exact N_bound]. rewrite <- (vert_total ws V M N m C v Hv).
    apply sumf_le. intros k I. apply in_seq in I. rewrite <- H1. apply P. lia. }
  assert (B120 : bp (A + 1) <= bp 120) by (apply bpow_le; lia).
  destruct (norm_spec (l_sum lib) (vec M (p v)) (p v c)) as (D1 & D2 & D3 & _).
  - apply LIB.
  - rewrite len_vec. lia.
  - apply Forall_forall. intros x I. apply vec_In in I; [|exact HM']. destruct I as (k & Hk & ->). destruct (P k Hk). split; [auto|lra].
  - lra.
  - now apply In_vec.
  - exists (p v c). split; [now apply In_vec|]. destruct (P c Hc). lra.
  - split; [exact D1|]. split; [|tauto]. apply D3; [lia|]. destruct (P c Hc) as (_ & PL & _). eapply Rle_trans; [|exact PL].
    replace (bp (-1)) with (bp (- (A + 3)) * (2 * bp (A + 1))).
    + apply Rmult_le_compat_l; [apply bpow_ge_0|]. lra.
    + change 2 with (bp 1). rewrite <- !bpow_plus. f_equal. lia.
Qed.

Lemma eprob32 e c1 c2 : (e < V - 1)%nat -> (c1 < M)%nat -> (c2 < M)%nat ->
  fin32 (edge_probs32 lib M (d_edge m) e c1 c2) = true /\ bp (- (A + 11)) <= val (edge_probs32 lib M (d_edge m) e c1 c2) <= 1.
Proof.
  intros He H1 H2. pose proof HM as HM'. unfold edge_probs32. set (p := fun e m1 m2 => plus_prior (d_edge m e m1 m2) (prior64 M)).
  assert (P : forall c1 c2, (c1 < M)%nat -> (c2 < M)%nat -> fin32 (p e c1 c2) = true /\ bp (-8) <= val (p e c1 c2) <= 2 * (IZR (d_edge m e c1 c2) + 1 / 2 / INR M)).
  { intros k k2 Hk Hk2. destruct (plus_prior_near M (d_edge m e k k2) HM' (ecount e k k2 He Hk Hk2)) as (N1 & N2).
    pose proof (plus_prior_rel M (d_edge m e k k2) HM' (ecount e k k2 He Hk Hk2)). split; [exact N1|]. split; [|unfold p; tauto].
    assert (0 <= IZR (d_edge m e k k2)) by (apply IZR_le, (ecount e k k2 He Hk Hk2)). unfold p. lra. }
  set (l := flat_map (fun m1 => vec M (p e m1)) (seq 0 M)).
  assert (IL : forall x, In x l -> exists k k2, (k < M)%nat /\ (k2 < M)%nat /\ x = p e k k2).
  { intros x I. apply in_flat_map in I. destruct I as (k & Ik & I). apply in_seq in Ik. apply vec_In in I; [|exact HM']. destruct I as (k2 & Hk2 & ->). exists k, k2. split; [lia|auto]. }
  assert (LI : forall k k2, (k < M)%nat -> (k2 < M)%nat -> In (p e k k2) l).
  { intros k k2 Hk Hk2. apply in_flat_map. exists k. split; [apply in_seq; lia|]. now apply (In_vec M HM' (p e k)). }
  assert (S : rsum (map (@B2R 24 128) l) <= bp (A + 2)).
  { unfold rsum. rewrite sumf_map. unfold l. rewrite sumf_flat_map. destruct (edge_of e He) as (v1 & v2 & D).
    apply Rle_trans with (sumf (seq 0 M) (fun c1 => 2 * sumf (seq 0 M) (fun c2 => IZR (d_edge m e c1 c2) + 1 / 2 / INR M))).
    - apply sumf_le. intros k I. apply in_seq in I. rewrite <- sumf_scal. unfold vec. rewrite sumf_map. apply sumf_le. intros k2 I2. apply in_seq in I2. apply P; lia.
    - rewrite sumf_scal, (edge_total ws V M N m C e v1 v2 D). replace (A + 2)%Z with (1 + (A + 1))%Z by lia. rewrite bpow_plus. change (bp 1) with 2.
      pose proof N_bound. lra. }
  assert (B120 : bp (A + 2) <= bp 120) by (apply bpow_le; lia).
  assert (LL : (length l <= 128 * 128)%nat).
  { unfold l. assert (X : forall s : list nat, length (flat_map (fun m1 => vec M (p e m1)) s) = (length s * M)%nat).
    { induction s; [reflexivity|]. cbn [flat_map length]. rewrite app_length, len_vec, IHs. lia. }
    rewrite X, seq_length. nia. }
  pose proof (bp_pos (-8)).
  destruct (norm_spec (l_sum lib) l (p e c1 c2)) as (D1 & D2 & D3 & _).
  - apply LIB.
  - change (2 ^ 16)%Z with 65536%Z. lia.
  - apply Forall_forall. intros x I. apply IL in I. destruct I as (k & k2 & Hk & Hk2 & ->). destruct (P k k2 Hk Hk2). split; [auto|lra].
  - lra.
  - now apply LI.
  - exists (p e c1 c2). split; [now apply LI|]. destruct (P c1 c2 H1 H2). lra.
  - split; [exact D1|]. split; [|tauto]. apply D3; [lia|]. destruct (P c1 c2 H1 H2) as (_ & PL & _). eapply Rle_trans; [|exact PL].
    replace (bp (-8)) with (bp (- (A + 11)) * (2 * bp (A + 2))).
    + apply Rmult_le_compat_l; [apply bpow_ge_0|]. lra.
    + change 2 with (bp 1). rewrite <- !bpow_plus. f_equal. lia.
Qed.

(** Dividing by a probability that is at least 2^-(A+3). *)
Lemma div_prob (x y : f32) lo hi : fin32 x = true -> bp lo <= val x <= bp hi -> bp (- (A + 3)) <= val y <= 1 ->
  (-149 <= lo)%Z -> (-149 <= hi + (A + 3) <= 127)%Z -> (lo <= hi)%Z ->
  fin32 (fdiv x y) = true /\ bp lo <= val (fdiv x y) <= bp (hi + (A + 3)).
Proof.
  intros Fx Bx By Hl Hh LH. pose proof (bp_pos lo). pose proof (bp_pos (- (A + 3))).
  apply fdiv_bounds; auto; try (apply fmtb; lia); try (apply bp128; lia); try lra. split.
  - apply Rmult_le_reg_r with (val y); [lra|]. unfold Rdiv. rewrite (Rmult_assoc (val x)), Rinv_l by lra. nra.
  - apply Rmult_le_reg_r with (val y); [lra|]. unfold Rdiv. rewrite (Rmult_assoc (val x)), Rinv_l by lra.
    apply Rle_trans with (bp hi); [lra|]. replace (bp hi) with (bp (hi + (A + 3)) * bp (- (A + 3))) by (rewrite <- bpow_plus; f_equal; lia).
    apply Rmult_le_compat_l; [apply bpow_ge_0|lra].
Qed.

Lemma build32 : exists s, tree_server32 lib m = Ok s /\ tables32 ws V M A m s.
Proof.
  destruct (cm_tree _ _ _ _ _ C) as (es & T & ET). pose proof (cm_M _ _ _ _ _ C) as (EM & _). pose proof HM as HM'.
  pose proof (cm_width _ _ _ _ _ C) as W.
  destruct (find_center_Ok V es T) as (ctr & EC & CC).
  destruct (tree_rooted V _ ctr (make_tree_spanning _ _ T) (proj1 CC)) as (par & dep & RT).
  destruct (make_program_rooted_Ok _ _ _ _ _ RT) as (np & EP & BL).
  pose proof (make_tree_spanning _ _ T) as (L' & RG' & _).
  unfold tree_server32. rewrite ET, EM, (cm_ri _ _ _ _ _ C). cbn [ts_grid ts_V].
  assert (EPP : make_propagation_program (make_tree es) None = Ok (prog_of es ctr par np)).
  { unfold make_propagation_program. rewrite EC. cbn [bind]. exact EP. }
  rewrite EPP. cbn [bind]. rewrite mri_last. cbn [bind]. cbv zeta.
  unfold edge_trans32. unfold make_tree at 1.
  set (l := pair_sort (map sort_pair es)).
  assert (EL : grid_edges (make_tree es) = l) by (unfold make_tree, grid_edges; apply number_from_edges).
  destruct (trans_fold32 V (vert_probs32 lib M (d_vert m)) l 0 (edge_probs32 lib M (d_edge m))) as (tr & E1 & _ & TR).
  { rewrite EL in L'. lia. }
  { intros x y I. rewrite <- EL in I. now apply RG'. }
  rewrite E1. cbn [bind].
  unfold feat_cond32. destruct (feat_fold32 (l_sum lib) ws) with (n := V) (b := 0%nat) (f := fun r c => plus_prior (d_feat m r c) (prior64 M)) as (ft & E2 & _ & FT).
  { lia. }
  match goal with |- context[foldM ?f ?l ?i] => replace (foldM f l i) with (Ok ft) by (symmetry; exact E2) end.
  cbn [bind]. eexists. split; [reflexivity|].
  split; cbn [s3_V s3_ri s3_M s3_R s3_prog s3_vert s3_trans s3_feat]; auto.
  - rewrite ET. cbn [ts_grid]. exact EPP.
  - intros. now apply vert32.
  - intros e c1 c2 He H1 H2. assert (GE : ts_get_edges (d_tree m) = l) by (rewrite ET; exact EL).
    destruct (edge_of e He) as (v1 & v2 & D). destruct (edge_ends e v1 v2 D) as (B1 & B2). rewrite GE in D.
    assert (HL : (e < length l)%nat) by (apply nth_error_Some; congruence).
    specialize (TR e HL c1 c2). cbn [Nat.add] in TR. rewrite TR. rewrite (nth_error_nth _ _ _ D). cbn [fst snd].
    destruct (eprob32 e c1 c2 He H1 H2) as (X1 & X2). destruct (vert32 v1 c1 B1 H1) as (_ & Y2). destruct (vert32 v2 c2 B2 H2) as (_ & Z2).
    destruct (div_prob (edge_probs32 lib M (d_edge m) e c1 c2) (vert_probs32 lib M (d_vert m) v1 c1) (- (A + 11)) 0) as (Q1 & Q2); auto; try lia.
    destruct (div_prob (fdiv (edge_probs32 lib M (d_edge m) e c1 c2) (vert_probs32 lib M (d_vert m) v1 c1)) (vert_probs32 lib M (d_vert m) v2 c2) (- (A + 11)) (0 + (A + 3))) as (R1 & R2); auto; try lia.
    split; [exact R1|]. replace (2 * A + 6)%Z with (0 + (A + 3) + (A + 3))%Z by lia. exact R2.
  - intros v q c Hv Iq Hc. rewrite (FT v q c ltac:(lia) Iq).
    set (p := fun q => plus_prior (d_feat m q c) (prior64 M)). change (plus_prior (d_feat m q c) (prior64 M)) with (p q).
    set (Sr := sumf (block ws v) (fun q => IZR (d_feat m q c) + 1 / 2 / INR M)).
    assert (P : forall k, In k (block ws v) -> fin32 (p k) = true /\ bp (-8) <= val (p k) /\ (IZR (d_feat m k c) + 1 / 2 / INR M) / 2 <= val (p k) <= 2 * (IZR (d_feat m k c) + 1 / 2 / INR M)).
    { intros k Ik. pose proof (fcount v k c Hv Ik Hc) as FC. destruct (plus_prior_near M (d_feat m k c) HM' FC) as (N1 & N2).
      split; [exact N1|]. split; [|apply plus_prior_rel; auto]. assert (0 <= IZR (d_feat m k c)) by (apply IZR_le, FC). unfold p. lra. }
    assert (S2 : rsum (map (@B2R 24 128) (map p (block ws v))) <= 2 * Sr).
    { unfold rsum. rewrite !sumf_map. unfold Sr. rewrite <- sumf_scal. apply sumf_le. intros k Ik. apply P; auto. }
    destruct CB as (_ & CB'). destruct (CB' v c) as (W1 & W2); [lia|rewrite EM; exact Hc|].
    assert (Sb : Sr <= bp (A + 1)).
    { unfold Sr. rewrite sumf_plus, sumf_const, <- IZR_total. replace (bp (A + 1)) with (bp A + bp A) by (rewrite bpow_plus; cbn; lra).
      assert (BA : IZR (2 ^ A) = bp A) by (change (2 ^ A)%Z with (radix2 ^ A)%Z; apply IZR_Zpower; lia).
      apply Rplus_le_compat.
      - rewrite <- BA. apply IZR_le. lia.
      - unfold block. rewrite seq_length. rewrite INR_IZR_INZ.
        assert (M1 : 1 <= INR M) by (rewrite INR_IZR_INZ; apply IZR_le; lia).
        assert (0 < 1 / 2 / INR M <= 1).
        { split; [apply Rdiv_lt_0_compat; lra|]. apply Rmult_le_reg_r with (INR M); [lra|]. unfold Rdiv at 1. rewrite Rmult_assoc, Rinv_l by lra. lra. }
        assert (0 <= IZR (Z.of_nat (nth v ws 0%nat)) <= bp A) by (rewrite <- BA; split; apply IZR_le; lia).
        nra. }
    assert (S0 : 0 < Sr).
    { unfold Sr. apply sumf_pos'; [intro Z0; rewrite Z0 in Iq; destruct Iq|]. intros k Ik. apply (fcount_pos ws V M N m C v); auto. }
    assert (B120 : 2 * bp (A + 1) <= bp 120) by (change 2 with (bp 1); rewrite <- bpow_plus; apply bpow_le; lia).
    pose proof (bp_pos (-8)) as P8. pose proof pA as PA.
    destruct (norm_spec (l_sum lib) (map p (block ws v)) (p q)) as (D1 & D2 & D3 & _).
    + apply LIB.
    + rewrite map_length. unfold block. rewrite seq_length. lia.
    + apply Forall_forall. intros x I. apply in_map_iff in I. destruct I as (k & <- & Ik). destruct (P k Ik) as (? & ? & _). split; [auto|lra].
    + lra.
    + now apply in_map.
    + exists (p q). split; [now apply in_map|]. destruct (P q Iq) as (_ & ? & _). lra.
    + split; [exact D1|]. split.
      * split; [|tauto]. apply Rlt_le_trans with (bp (- (A + 11))); [apply bp_pos|]. apply D3; [lia|].
        destruct (P q Iq) as (_ & PL & _). eapply Rle_trans; [|exact PL]. replace (bp (-8)) with (bp (- (A + 11)) * (2 * (2 * bp (A + 1)))).
        -- apply Rmult_le_compat_l; [apply bpow_ge_0|]. lra.
        -- change 2 with (bp 1). rewrite <- !bpow_plus. f_equal. lia.
      * intros b Hb FP. apply D3; [lia|]. destruct (P q Iq) as (_ & _ & PL & _). eapply Rle_trans; [|exact PL].
        unfold feat_prob in FP. rewrite EM in FP. fold Sr in FP.
        assert (X : bp (- b) * Sr <= IZR (d_feat m q c) + 1 / 2 / INR M).
        { apply Rmult_le_reg_r with (/ Sr); [now apply Rinv_0_lt_compat|]. rewrite Rmult_assoc, Rinv_r by lra. rewrite Rmult_1_r. exact FP. }
        replace (- (b + 3))%Z with (- b + -3)%Z by lia. rewrite bpow_plus. change (bp (-3)) with (/ 8). pose proof (bp_pos (- b)).
        apply Rle_trans with (bp (- b) * / 8 * (2 * (2 * Sr))); [|lra]. apply Rmult_le_compat_l; [|lra]. nra.
  - intros v c Hv Hc.
    set (p := fun q => plus_prior (d_feat m q c) (prior64 M)).
    destruct (block ws v) as [|q0 bl] eqn:EB; [cbn; lra|]. rewrite <- EB.
    assert (I0 : In q0 (block ws v)) by (rewrite EB; now left).
    set (Tt := l_sum lib (map p (block ws v))).
    assert (FV : forall q, In q (block ws v) -> ft q c = fdiv (p q) Tt) by (intros q Iq; apply (FT v q c ltac:(lia) Iq)).
    assert (P : forall k, In k (block ws v) -> fin32 (p k) = true /\ bp (-8) <= val (p k) <= bp 20).
    { intros k Ik. pose proof (fcount v k c Hv Ik Hc) as FC. destruct (plus_prior_near M (d_feat m k c) HM' FC) as (N1 & N2).
      split; [exact N1|]. assert (0 <= IZR (d_feat m k c) <= 65536) by (split; apply IZR_le; lia). change (bp 20) with 1048576.
      assert (bp (-1) <= 1) by (cbn; lra). unfold p. lra. }
    destruct CB as (_ & CB'). destruct (CB' v c) as (W1 & W2); [lia|rewrite EM; exact Hc|]. pose proof pA as PA.
    assert (LN : (Z.of_nat (length (block ws v)) <= 2 ^ 16)%Z) by (unfold block; rewrite seq_length; lia).
    pose proof (bp_pos (-8)) as P8.
    assert (FA : Forall (fun x => fin32 x = true /\ 0 <= val x) (map p (block ws v))).
    { apply Forall_forall. intros x I. apply in_map_iff in I. destruct I as (k & <- & Ik). destruct (P k Ik). split; [auto|lra]. }
    set (Sr := rsum (map (@B2R 24 128) (map p (block ws v)))).
    assert (S1 : Sr <= bp 36).
    { unfold Sr, rsum. rewrite !sumf_map. apply Rle_trans with (sumf (block ws v) (fun _ => bp 20)).
      - apply sumf_le. intros k Ik. apply P; auto.
      - rewrite sumf_const. replace (bp 36) with (bp 16 * bp 20) by (rewrite <- bpow_plus; reflexivity). apply Rmult_le_compat_r; [apply bpow_ge_0|].
        rewrite INR_IZR_INZ. change (bp 16) with (IZR (2 ^ 16)). now apply IZR_le. }
    assert (SO := proj1 (proj2 LIB)). destruct SO as (SO & _). fold Tt in SO.
    destruct (SO (map p (block ws v))) as (T1 & T2 & T3); [now rewrite map_length|exact FA|fold Sr; apply Rle_trans with (bp 36); [exact S1|apply bpow_le; lia]|].
    fold Tt in T1, T2, T3. fold Sr in T2.
    assert (T0 : bp (-8) <= val Tt) by (eapply Rle_trans; [|apply T3; apply (in_map p); exact I0]; apply P; exact I0).
    apply Rle_trans with (sumf (block ws v) (fun q => (1 + bp (-24)) / val Tt * val (p q))).
    + apply sumf_le. intros q Iq. rewrite FV by auto. destruct (P q Iq) as (Fq & Bq).
      assert (Lq : val (p q) <= val Tt) by (apply T3; now apply in_map).
      replace ((1 + bp (-24)) / val Tt * val (p q)) with (val (p q) / val Tt * (1 + bp (-24))) by (field; lra).
      apply fdiv_rel; auto; [lra|]. split.
      * apply Rmult_le_reg_r with (val Tt); [lra|]. unfold Rdiv. rewrite Rmult_assoc, Rinv_l by lra. rewrite Rmult_1_r.
        apply Rle_trans with (bp (-126) * bp 37).
        -- apply Rmult_le_compat_l; [apply bpow_ge_0|]. replace (bp 37) with (bp 1 * bp 36) by (rewrite <- bpow_plus; reflexivity). change (bp 1) with 2. pose proof (bp_pos 36). lra.
        -- rewrite <- bpow_plus. apply Rle_trans with (bp (-8)); [apply bpow_le; lia|lra].
      * apply Rmult_le_reg_r with (val Tt); [lra|]. unfold Rdiv. rewrite Rmult_assoc, Rinv_l by lra. lra.
    + rewrite sumf_scal. replace (sumf (block ws v) (fun q => val (p q))) with Sr by (unfold Sr, rsum; rewrite !sumf_map; reflexivity).
      apply Rmult_le_reg_r with (val Tt); [lra|].
      replace ((1 + bp (-24)) / val Tt * Sr * val Tt) with ((1 + bp (-24)) * Sr) by (field; lra).
      assert (U : bp (-24) <= 1 / 1000) by (cbn; lra). pose proof (bp_pos (-24)). nra.
Qed.

(** The probability of a category is not small if the counts are not large. *)
Lemma feat_prob_low v q c : (v < V)%nat -> In q (block ws v) -> (c < M)%nat -> bp (- (A + 9)) <= feat_prob ws m v q c.
Proof.
  intros Hv Iq Hc. pose proof (cm_M _ _ _ _ _ C) as (EM & _). pose proof HM as HM'. unfold feat_prob. rewrite EM.
  set (Sr := sumf (block ws v) (fun q => IZR (d_feat m q c) + 1 / 2 / INR M)).
  assert (M1 : 1 <= INR M <= 128) by (rewrite INR_IZR_INZ; split; apply IZR_le; lia).
  assert (PR : 1 / 256 <= 1 / 2 / INR M <= 1).
  { split; [apply Rmult_le_reg_r with (INR M); [lra|]; unfold Rdiv at 2; rewrite Rmult_assoc, Rinv_l by lra; lra|].
    apply Rmult_le_reg_r with (INR M); [lra|]. unfold Rdiv at 1. rewrite Rmult_assoc, Rinv_l by lra. lra. }
  destruct CB as (_ & CB'). destruct (CB' v c) as (W1 & W2); [rewrite (cm_width _ _ _ _ _ C); exact Hv|rewrite EM; exact Hc|].
  assert (Sb : Sr <= bp (A + 1)).
  { unfold Sr. rewrite sumf_plus, sumf_const, <- IZR_total. replace (bp (A + 1)) with (bp A + bp A) by (rewrite bpow_plus; cbn; lra).
    assert (BA : IZR (2 ^ A) = bp A) by (change (2 ^ A)%Z with (radix2 ^ A)%Z; apply IZR_Zpower; lia).
    apply Rplus_le_compat.
    - rewrite <- BA. apply IZR_le. lia.
    - unfold block. rewrite seq_length. rewrite INR_IZR_INZ.
      assert (0 <= IZR (Z.of_nat (nth v ws 0%nat)) <= bp A) by (rewrite <- BA; split; apply IZR_le; lia). nra. }
  assert (S0 : 0 < Sr).
  { unfold Sr. apply sumf_pos'; [intro Z0; rewrite Z0 in Iq; destruct Iq|]. intros k Ik. apply (fcount_pos ws V M N m C v); auto. }
  assert (I0 : 0 <= IZR (d_feat m q c)) by (apply IZR_le, (fcount v q c Hv Iq Hc)).
  apply Rmult_le_reg_r with Sr; [exact S0|]. unfold Rdiv at 1. rewrite (Rmult_assoc _ (/ Sr)), Rinv_l by lra. rewrite Rmult_1_r.
  apply Rle_trans with (bp (- (A + 9)) * bp (A + 1)); [apply Rmult_le_compat_l; [apply bpow_ge_0|exact Sb]|].
  rewrite <- bpow_plus. replace (- (A + 9) + (A + 1))%Z with (-8)%Z by lia. change (bp (-8)) with (/ 256). lra.
Qed.
End TABLES.
