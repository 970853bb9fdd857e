(** remove_row; add_row leaves exp(logprob) invariant. *)
From Coq Require Import List Arith Bool ZArith Reals Lia Lra Permutation.
From Verif Require Import Base L_Base Spec_Graph L_MakeTree Spec_Sum L_Sum Spec_Ragged M_Structure M_Util M_Rand L_Rand M_Array M_Training
  Spec_Joint Spec_Stats L_Asg L_Stats L_Trainer L_BPVec Spec_Conditional L_AddRow L_Conditional L_EdgeLogits Spec_Gibbs.
From Verif Require L_Estimate.
Import ListNotations.
Open Scope R_scope.

(** ** Sums *)
Lemma sumf_bump {A} (l : list A) (f g : A -> R) z d : NoDup l -> In z l -> f z = g z + d ->
  (forall x, In x l -> x <> z -> f x = g x) -> sumf l f = sumf l g + d.
Proof.
  intros ND I E O. assert (H : sumf l (fun x => f x - g x) = d).
  { rewrite (sumf_single _ _ z); auto; [lra|]. intros y Hy N. rewrite O; auto. lra. }
  rewrite sumf_minus in H. lra.
Qed.

Lemma ln_prodf {A} (l : list A) (f : A -> R) : (forall x, In x l -> 0 < f x) -> ln (prodf l f) = sumf l (fun x => ln (f x)).
Proof.
  induction l as [|a l IH]; intros H; [exact ln_1|]. rewrite prodf_cons, sumf_cons, ln_mult.
  - rewrite IH; auto. intros; apply H; now right.
  - apply H; now left.
  - apply prodf_pos. intros; apply H; now right.
Qed.

Lemma ln_quot a b : 0 < a -> 0 < b -> ln (a / b) = ln a - ln b.
Proof. intros. unfold Rdiv. rewrite ln_mult, ln_Rinv; auto using Rinv_0_lt_compat. Qed.

Lemma sumf_concat {A} (ls : list (list A)) (f : A -> R) : sumf (concat ls) f = sumf ls (fun l => sumf l f).
Proof. induction ls; [reflexivity|]. cbn [concat]. rewrite sumf_app, IHls, sumf_cons. reflexivity. Qed.

Lemma sumf_subset {A} (l l' : list A) (f : A -> R) : NoDup l -> NoDup l' -> incl l' l ->
  (forall x, In x l -> ~ In x l' -> f x = 0) -> sumf l f = sumf l' f.
Proof.
  intros ND. revert l'. induction l as [|a l IH]; intros l' ND' I Z.
  - destruct l' as [|b l']; [reflexivity|]. destruct (I b). now left.
  - inversion ND; subst. rewrite sumf_cons.
    assert (D : In a l' \/ ~ In a l') by apply Classical_Prop.classic. destruct D as [D|D].
    + apply in_split in D. destruct D as (p & q & ->).
      rewrite (sumf_perm (p ++ a :: q) (a :: p ++ q)) by (apply Permutation_sym, Permutation_middle). rewrite sumf_cons. f_equal.
      pose proof (NoDup_remove_1 _ _ _ ND') as ND1. pose proof (NoDup_remove_2 _ _ _ ND') as ND2.
      apply IH; auto.
      * intros x Hx. assert (X : In x (a :: l)) by (apply I; rewrite in_app_iff in *; cbn; tauto).
        destruct X as [<-|]; auto. contradiction.
      * intros x Hx Nx. apply Z; [now right|]. rewrite in_app_iff in *. cbn. intros [|[->|]]; try tauto.
    + rewrite Z by (auto; now left). rewrite Rplus_0_l. apply IH; auto.
      * intros x Hx. destruct (I x Hx) as [<-|]; auto. contradiction.
      * intros x Hx Nx. apply Z; auto. now right.
Qed.

Lemma NoDup_map_inv' {A B} (f : A -> B) (g : B -> A) l : (forall x, In x l -> g (f x) = x) -> NoDup l -> NoDup (map f l).
Proof.
  induction l as [|a l IH]; intros H N; [constructor|]. inversion N; subst. cbn [map]. constructor.
  - intros I. apply in_map_iff in I. destruct I as (b & E & I). assert (b = a); [|subst; contradiction].
    rewrite <- (H b), <- (H a), E; auto; [now left|now right].
  - apply IH; auto. intros; apply H; now right.
Qed.

Lemma NoDup_app' {A} (l m : list A) : NoDup l -> NoDup m -> (forall x, In x l -> ~ In x m) -> NoDup (l ++ m).
Proof.
  induction l as [|a l IH]; intros N1 N2 D; [exact N2|]. inversion N1; subst. cbn. constructor.
  - rewrite in_app_iff. intros [|]; [contradiction|]. eapply D; [now left|eassumption].
  - apply IH; auto. intros; apply D; now right.
Qed.

Section LG.
Variable lg : R -> R.
Hypothesis REC : forall x, 0 < x -> lg (x + 1) = lg x + ln x.

Lemma lg_rising k : forall x, k = 0%nat \/ 0 < x -> lg (x + INR k) = lg x + ln (rising x k).
Proof.
  induction k as [|k IH]; intros x H; cbn [rising].
  - simpl INR. rewrite Rplus_0_r, ln_1. lra.
  - destruct H as [|H]; [discriminate|]. rewrite S_INR. replace (x + (INR k + 1)) with (x + 1 + INR k) by lra.
    rewrite IH by (right; lra). rewrite REC by auto. rewrite ln_mult; auto; [lra|]. apply rising_pos. lra.
Qed.

(** ** The formula of logprob *)
Definition Lform (tb : table) (M : nat) (s : tstate) : R :=
  let vertex_logits := fun v => logprob_dc lg (vec M (s_vert s v)) vert_prior in
  sumf (seq 0 (num_cols tb)) vertex_logits +
  sumf (ts_grid (s_tree s)) (fun '(e, v1, v2) =>
     logprob_dc lg (concat (vec M (fun m1 => vec M (s_edge s e m1)))) (edge_prior M)
     - vertex_logits v1 - vertex_logits v2) +
  sumf (seq 0 (num_cols tb)) (fun v =>
     let beg := nth v (tb_ri tb) 0%nat in let fin := nth (v + 1)%nat (tb_ri tb) 0%nat in
     logprob_dc lg (concat (map (fun r => vec M (s_feat s r)) (seq beg (fin - beg)))) (feat_prior M)
     - logprob_dc lg (vec M (s_meas s v)) (meas_prior (tb_ri tb) M v)).

Lemma logprob_Ok tb M s : length (s_added s) = num_rows tb -> logprob lg tb M s = Ok (Lform tb M s).
Proof. intros E. unfold logprob. rewrite E, Nat.eqb_refl. reflexivity. Qed.

Section G.
Variables (ws : list nat) (tb : table) (M : nat).
Hypothesis TK : table_ok ws tb.
Hypothesis HM : (1 <= M)%nat.
Hypothesis ND : nonneg_data tb.
Notation V := (num_cols tb).

Definition Lvert (s : tstate) (v : nat) : R := sumf (seq 0 M) (fun m => lg (IZR (s_vert s v m) + 1 / 2)).
Definition Ledge (s : tstate) (e : nat) : R :=
  sumf (seq 0 M) (fun m1 => sumf (seq 0 M) (fun m2 => lg (IZR (s_edge s e m1 m2) + 1 / 2 / INR M))).
Definition Lfeat (s : tstate) (v : nat) : R :=
  sumf (block ws v) (fun r => sumf (seq 0 M) (fun m => lg (IZR (s_feat s r m) + 1 / 2 / INR M)))
  - sumf (seq 0 M) (fun m => lg (IZR (s_meas s v m) + meas_prior (tb_ri tb) M v)).
Definition edge_list (s : tstate) := combine (seq 0 (length (ts_get_edges (s_tree s)))) (ts_get_edges (s_tree s)).

Lemma grid_list (l : list triple) : forall b, (forall i x p q, nth_error l i = Some (x, p, q) -> x = (b + i)%nat) ->
  l = map (fun '(e, (p, q)) => (e, p, q)) (combine (seq b (length l)) (map (fun '(_, v1, v2) => (v1, v2)) l)).
Proof.
  induction l as [|[[x p] q] l IH]; intros b H; [reflexivity|]. cbn [length seq map combine].
  rewrite <- (IH (S b)).
  - f_equal. specialize (H 0%nat x p q eq_refl). rewrite Nat.add_0_r in H. congruence.
  - intros i x' p' q' E. specialize (H (S i) x' p' q' E). lia.
Qed.

Lemma Lform_eq s : tinv ws tb M s ->
  Lform tb M s = sumf (seq 0 V) (Lvert s) + sumf (edge_list s) (fun '(e, (v1, v2)) => Ledge s e - Lvert s v1 - Lvert s v2) + sumf (seq 0 V) (Lfeat s).
Proof.
  intros TI. unfold Lform. cbv zeta.
  assert (LV : forall v, logprob_dc lg (vec M (s_vert s v)) vert_prior = Lvert s v).
  { intros. unfold logprob_dc. now rewrite sumf_vec. }
  f_equal; [f_equal|].
  - apply sumf_ext. auto.
  - destruct (ti_grid _ _ _ _ TI) as (es & T & ET). unfold edge_list, ts_get_edges. rewrite ET. cbn [ts_grid].
    destruct (make_tree_canonical es) as (_ & C & _).
    rewrite (grid_list (make_tree es) 0) at 1 by (intros i x p q E; now destruct (C _ _ _ _ E)).
    rewrite sumf_map, map_length. apply sumf_ext. intros [e [p q]] _. rewrite !LV. do 2 f_equal.
    unfold logprob_dc, Ledge, edge_prior. rewrite sumf_concat. unfold vec at 1. rewrite sumf_map. apply sumf_ext. intros m _. now rewrite sumf_vec.
  - apply sumf_ext. intros v Hv. apply in_seq in Hv. unfold Lfeat, feat_prior. f_equal.
    + rewrite !(ri_nth _ _ TK) by lia. pose proof (tk_width _ _ TK). rewrite Nat.add_1_r, L_Ragged.sum_firstn_S by lia.
      replace (list_sum (firstn v ws) + nth v ws 0 - list_sum (firstn v ws))%nat with (nth v ws 0%nat) by lia.
      fold (block ws v). unfold logprob_dc. rewrite sumf_concat, sumf_map. apply sumf_ext. intros r _. now rewrite sumf_vec.
    + unfold logprob_dc. now rewrite sumf_vec.
Qed.

Lemma datum_nat n r : IZR (datum tb n r) = INR (Z.to_nat (datum tb n r)).
Proof. rewrite INR_IZR_INZ, Z2Nat.id; auto. Qed.

(** Adding row [n] to [s0] multiplies exp(logprob) by its conditional weight. *)
Lemma gain s s0 n : tinv ws tb M s -> tinv ws tb M s0 -> (n < num_rows tb)%nat -> Permutation (s_added s) (n :: s_added s0) ->
  s_asg s = s_asg s0 -> s_tree s = s_tree s0 ->
  Lform tb M s = Lform tb M s0 + ln (conditional_weight ws tb M s0 n (classes_of tb s n)).
Proof.
  intros TI T0 Hn PA EA ET. rewrite !Lform_eq by auto.
  set (z := s_asg s n).
  assert (Hz : forall v, (v < V)%nat -> (z v < M)%nat) by (intros; apply (ti_all _ _ _ _ TI); auto).
  assert (NZ : forall v, (v < V)%nat -> nth v (classes_of tb s n) 0%nat = z v).
  { intros v Hv. unfold classes_of. rewrite (nth_indep _ _ (s_asg s n 0%nat)) by (now rewrite map_length, seq_length).
    rewrite map_nth, seq_nth; auto. }
  destruct (fs_tree _ _ _ _ (ti_fs _ _ _ _ TI)) as (_ & LE & RG & _).
  pose proof (ti_fs _ _ _ _ TI) as F. pose proof (ti_fs _ _ _ _ T0) as F0.
  (* statistics *)
  assert (SV : forall v m, (v < V)%nat -> (m < M)%nat -> IZR (s_vert s v m) = IZR (s_vert s0 v m) + (if (z v =? m)%nat then 1 else 0)).
  { intros v m Hv Hm. rewrite (fs_vert _ _ _ _ F), (fs_vert _ _ _ _ F0), (total_perm _ _ _ PA), total_cons, EA by auto.
    rewrite plus_IZR, <- EA. fold z. unfold one_if at 1. destruct (z v =? m)%nat; lra. }
  assert (SE : forall e v1 v2 m1 m2, In (e, (v1, v2)) (edge_list s) -> (m1 < M)%nat -> (m2 < M)%nat ->
     IZR (s_edge s e m1 m2) = IZR (s_edge s0 e m1 m2) + (if ((z v1 =? m1) && (z v2 =? m2))%nat then 1 else 0)).
  { intros e v1 v2 m1 m2 I H1 H2. unfold edge_list in I.
    assert (E : nth_error (ts_get_edges (s_tree s)) e = Some (v1, v2)).
    { apply L_Estimate.In_combine_nth in I. destruct I as (k & K1 & K2).
      assert (k = e). { apply nth_error_nth with (d := 0%nat) in K1 as K3. rewrite seq_nth in K3; [lia|]. rewrite <- (seq_length (length (ts_get_edges (s_tree s))) 0). apply nth_error_Some. congruence. }
      subst; auto. }
    rewrite (fs_edge _ _ _ _ F _ _ _ _ _ E), (total_perm _ _ _ PA), total_cons by auto. rewrite ET in E.
    rewrite (fs_edge _ _ _ _ F0 _ _ _ _ _ E), EA by auto.
    rewrite plus_IZR, <- EA. fold z. unfold one_if at 1. destruct ((z v1 =? m1) && (z v2 =? m2))%nat; lra. }
  assert (SF : forall v r m, (v < V)%nat -> In r (block ws v) -> (m < M)%nat ->
     IZR (s_feat s r m) = IZR (s_feat s0 r m) + (if (z v =? m)%nat then INR (Z.to_nat (datum tb n r)) else 0)).
  { intros v r m Hv Hr Hm. apply (block_owns ws tb M TK HM) in Hr; auto.
    rewrite (fs_feat _ _ _ _ F v), (fs_feat _ _ _ _ F0 v), (total_perm _ _ _ PA), total_cons, EA by auto.
    rewrite plus_IZR, <- EA. fold z. rewrite <- datum_nat. unfold one_if at 1. destruct (z v =? m)%nat; rewrite mult_IZR; lra. }
  assert (SM : forall v m, (v < V)%nat -> (m < M)%nat ->
     IZR (s_meas s v m) = IZR (s_meas s0 v m) + (if (z v =? m)%nat then INR (list_sum (map (fun r => Z.to_nat (datum tb n r)) (block ws v))) else 0)).
  { intros v m Hv Hm.
    assert (BS : IZR (block_sum ws (nth n (tb_rows tb) []) v) = INR (list_sum (map (fun r => Z.to_nat (datum tb n r)) (block ws v)))).
    { rewrite (block_sum_total ws tb). generalize (block ws v). induction l as [|r l IH]; [reflexivity|].
      rewrite total_cons, plus_IZR, IH. cbn [map list_sum fold_right]. change (fold_right Nat.add 0%nat) with list_sum. rewrite plus_INR, datum_nat. reflexivity. }
    rewrite (fs_meas _ _ _ _ F v), (fs_meas _ _ _ _ F0 v), (total_perm _ _ _ PA), total_cons, EA by auto.
    rewrite plus_IZR, <- EA. fold z. rewrite <- BS. unfold one_if at 1. destruct (z v =? m)%nat; rewrite mult_IZR; lra. }
  (* positivity *)
  pose proof (fun v m => vp_pos ws tb M HM s0 T0 v m) as VP. unfold vert_prior in VP.
  pose proof (fun v q m => fp_pos ws tb M TK HM ND s0 T0 v q m) as FPp. unfold feat_prior in FPp. cbv beta in *.
  assert (EP : forall e m1 m2, (e < V - 1)%nat -> (m1 < M)%nat -> (m2 < M)%nat -> 0 < IZR (s_edge s0 e m1 m2) + 1 / 2 / INR M).
  { intros e m1 m2 He H1 H2. pose proof (edge_nonneg ws tb M HM s0 T0 e m1 m2 He H1 H2). pose proof (inrM M HM). lra. }
  (* gains *)
  assert (GV : forall v, (v < V)%nat -> Lvert s v = Lvert s0 v + ln (class_weight s0 v (z v))).
  { intros v Hv. unfold Lvert. apply sumf_bump with (z := z v).
    - apply seq_NoDup.
    - apply in_seq. specialize (Hz v Hv). lia.
    - rewrite SV, Nat.eqb_refl by auto. unfold class_weight. rewrite <- REC by auto. f_equal. lra.
    - intros m Hm N. apply in_seq in Hm. rewrite SV by (auto; lia). rewrite (proj2 (Nat.eqb_neq (z v) m)) by auto. f_equal. lra. }
  assert (GE : forall e v1 v2, In (e, (v1, v2)) (edge_list s) ->
     Ledge s e = Ledge s0 e + ln (IZR (s_edge s0 e (z v1) (z v2)) + 1 / 2 / INR M)).
  { intros e v1 v2 I. pose proof (in_combine_l _ _ _ _ I) as H1. pose proof (in_combine_r _ _ _ _ I) as H2. apply in_seq in H1.
    destruct (RG _ _ H2) as (R1 & R2). unfold Ledge. apply sumf_bump with (z := z v1).
    - apply seq_NoDup.
    - apply in_seq. specialize (Hz v1 R1). lia.
    - apply sumf_bump with (z := z v2).
      + apply seq_NoDup.
      + apply in_seq. specialize (Hz v2 R2). lia.
      + rewrite (SE e v1 v2) by auto. rewrite !Nat.eqb_refl. cbn [andb]. rewrite <- REC by (apply EP; auto; lia). f_equal. lra.
      + intros m Hm N. apply in_seq in Hm. rewrite (SE e v1 v2) by (auto; lia). rewrite (proj2 (Nat.eqb_neq (z v2) m)) by auto.
        rewrite andb_false_r. f_equal. lra.
    - intros m Hm N. apply in_seq in Hm. apply sumf_ext. intros m2 Hm2. apply in_seq in Hm2.
      rewrite (SE e v1 v2) by (auto; lia). rewrite (proj2 (Nat.eqb_neq (z v1) m)) by auto. cbn [andb]. f_equal. lra. }
  assert (GF : forall v, (v < V)%nat -> Lfeat s v = Lfeat s0 v +
     ln (polya (block ws v) (fun r => IZR (s_feat s0 r (z v)) + 1 / 2 / INR M) (fun r => Z.to_nat (datum tb n r)))).
  { intros v Hv. unfold polya.
    assert (FPz : forall r, In r (block ws v) -> 0 < IZR (s_feat s0 r (z v)) + 1 / 2 / INR M) by (intros; apply (FPp v); auto).
    assert (RP : 0 < rising (sumf (block ws v) (fun r => IZR (s_feat s0 r (z v)) + 1 / 2 / INR M)) (list_sum (map (fun r => Z.to_nat (datum tb n r)) (block ws v)))).
    { destruct (block ws v) as [|q l] eqn:EB; [simpl; lra|]. apply rising_pos.
      apply sumf_pos; [intros; left; auto|]. exists q. split; [now left|apply FPz; now left]. }
    rewrite ln_quot; [|apply prodf_pos; intros; apply rising_pos; auto|auto]. rewrite ln_prodf by (intros; apply rising_pos; auto).
    assert (G1 : sumf (block ws v) (fun r => sumf (seq 0 M) (fun m => lg (IZR (s_feat s r m) + 1 / 2 / INR M))) =
      sumf (block ws v) (fun r => sumf (seq 0 M) (fun m => lg (IZR (s_feat s0 r m) + 1 / 2 / INR M))) +
      sumf (block ws v) (fun r => ln (rising (IZR (s_feat s0 r (z v)) + 1 / 2 / INR M) (Z.to_nat (datum tb n r))))).
    { rewrite <- sumf_plus. apply sumf_ext. intros r Hr. apply sumf_bump with (z := z v).
      - apply seq_NoDup.
      - apply in_seq. specialize (Hz v Hv). lia.
      - rewrite (SF v) by auto. rewrite Nat.eqb_refl. rewrite <- lg_rising by (right; apply FPz; auto). f_equal. lra.
      - intros m Hm N. apply in_seq in Hm. rewrite (SF v) by (auto; lia). rewrite (proj2 (Nat.eqb_neq (z v) m)) by auto. f_equal. lra. }
    assert (G2 : sumf (seq 0 M) (fun m => lg (IZR (s_meas s v m) + meas_prior (tb_ri tb) M v)) =
      sumf (seq 0 M) (fun m => lg (IZR (s_meas s0 v m) + meas_prior (tb_ri tb) M v)) +
      ln (rising (sumf (block ws v) (fun r => IZR (s_feat s0 r (z v)) + 1 / 2 / INR M)) (list_sum (map (fun r => Z.to_nat (datum tb n r)) (block ws v))))).
    { apply sumf_bump with (z := z v).
      - apply seq_NoDup.
      - apply in_seq. specialize (Hz v Hv). lia.
      - rewrite SM by auto. rewrite Nat.eqb_refl. rewrite <- (meas_feat ws tb M TK HM s0 T0) by auto.
        rewrite <- lg_rising.
        + f_equal. lra.
        + destruct (mp_pos ws tb M TK HM ND s0 T0 v (z v) Hv (Hz v Hv)) as [E|P]; [left; rewrite E; reflexivity|right; exact P].
      - intros m Hm N. apply in_seq in Hm. rewrite SM by (auto; lia). rewrite (proj2 (Nat.eqb_neq (z v) m)) by auto. f_equal. lra. }
    unfold Lfeat. rewrite G1, G2. lra. }
  (* assembling *)
  assert (CWP : forall v, (v < V)%nat -> 0 < class_weight s0 v (z v)) by (intros v Hv; unfold class_weight; apply VP; auto).
  assert (PLP : forall v, (v < V)%nat -> 0 < polya (block ws v) (fun r => IZR (s_feat s0 r (z v)) + 1 / 2 / INR M) (fun r => Z.to_nat (datum tb n r))).
  { intros v Hv. unfold polya. apply Rdiv_lt_0_compat.
    - apply prodf_pos. intros q Hq. apply rising_pos. apply (FPp v); auto.
    - destruct (block ws v) as [|q l] eqn:EB; [simpl; lra|]. apply rising_pos. rewrite <- EB in *.
      apply sumf_pos; [intros; left; apply (FPp v); auto|]. exists q. split; [rewrite EB; now left|apply (FPp v); auto; rewrite EB; now left]. }
  unfold conditional_weight, tree_weight. rewrite <- ET. fold (edge_list s).
  assert (NF : forall v, In v (seq 0 V) -> node_factor ws M s0 (fun r => Z.to_nat (datum tb n r)) v (nth v (classes_of tb s n) 0%nat) =
      class_weight s0 v (z v) * polya (block ws v) (fun r => IZR (s_feat s0 r (z v)) + 1 / 2 / INR M) (fun r => Z.to_nat (datum tb n r))).
  { intros v Hv. apply in_seq in Hv. rewrite NZ by lia. reflexivity. }
  assert (PF : forall x, In x (edge_list s) -> (fun '(e, (v1, v2)) => pair_factor M s0 e (nth v1 (classes_of tb s n) 0%nat) (nth v2 (classes_of tb s n) 0%nat)) x =
      (fun '(e, (v1, v2)) => (IZR (s_edge s0 e (z v1) (z v2)) + 1 / 2 / INR M) / (class_weight s0 v1 (z v1) * class_weight s0 v2 (z v2))) x).
  { intros [e [v1 v2]] I. pose proof (in_combine_l _ _ _ _ I) as H1. pose proof (in_combine_r _ _ _ _ I) as H2. apply in_seq in H1.
    destruct (RG _ _ H2) as (R1 & R2). rewrite !NZ by auto. unfold pair_factor. rewrite <- ET.
    unfold edge_list in I. apply L_Estimate.In_combine_nth in I. destruct I as (k & K1 & K2).
    assert (k = e). { apply nth_error_nth with (d := 0%nat) in K1 as K3. rewrite seq_nth in K3; [lia|]. rewrite <- (seq_length (length (ts_get_edges (s_tree s))) 0). apply nth_error_Some. congruence. }
    subst k. rewrite (nth_error_nth _ _ (0, 0)%nat K2). reflexivity. }
  rewrite (prodf_ext _ _ _ NF), (prodf_ext _ _ _ PF).
  assert (PEP : forall x, In x (edge_list s) -> 0 < (fun '(e, (v1, v2)) => (IZR (s_edge s0 e (z v1) (z v2)) + 1 / 2 / INR M) / (class_weight s0 v1 (z v1) * class_weight s0 v2 (z v2))) x).
  { intros [e [v1 v2]] I. pose proof (in_combine_l _ _ _ _ I) as H1. pose proof (in_combine_r _ _ _ _ I) as H2. apply in_seq in H1.
    destruct (RG _ _ H2) as (R1 & R2). apply Rdiv_lt_0_compat; [apply EP; auto; lia|]. apply Rmult_lt_0_compat; auto. }
  assert (PNP : forall v, In v (seq 0 V) -> 0 < class_weight s0 v (z v) * polya (block ws v) (fun r => IZR (s_feat s0 r (z v)) + 1 / 2 / INR M) (fun r => Z.to_nat (datum tb n r))).
  { intros v Hv. apply in_seq in Hv. apply Rmult_lt_0_compat; [apply CWP|apply PLP]; lia. }
  rewrite ln_mult; [|apply prodf_pos; auto|apply prodf_pos; auto]. rewrite !ln_prodf by auto.
  rewrite (sumf_ext (seq 0 V) (Lvert s) (fun v => Lvert s0 v + ln (class_weight s0 v (z v)))) by (intros v Hv; apply in_seq in Hv; apply GV; lia).
  rewrite (sumf_ext (seq 0 V) (Lfeat s) _) by (intros v Hv; apply in_seq in Hv; apply GF; lia).
  rewrite (sumf_ext (edge_list s) (fun '(e, (v1, v2)) => Ledge s e - Lvert s v1 - Lvert s v2)
    (fun x => (fun '(e, (v1, v2)) => Ledge s0 e - Lvert s0 v1 - Lvert s0 v2) x +
       ln ((fun '(e, (v1, v2)) => (IZR (s_edge s0 e (z v1) (z v2)) + 1 / 2 / INR M) / (class_weight s0 v1 (z v1) * class_weight s0 v2 (z v2))) x))).
  2: { intros [e [v1 v2]] I. pose proof (in_combine_l _ _ _ _ I) as H1. pose proof (in_combine_r _ _ _ _ I) as H2. apply in_seq in H1.
       destruct (RG _ _ H2) as (R1 & R2). rewrite (GE e v1 v2), !GV by auto.
       rewrite ln_quot; [|apply EP; auto; lia|apply Rmult_lt_0_compat; auto]. rewrite ln_mult by auto. lra. }
  rewrite (sumf_ext (seq 0 V) (fun v => ln (class_weight s0 v (z v) * _))
     (fun v => ln (class_weight s0 v (z v)) + ln (polya (block ws v) (fun r => IZR (s_feat s0 r (z v)) + 1 / 2 / INR M) (fun r => Z.to_nat (datum tb n r))))).
  2: { intros v Hv. apply in_seq in Hv. apply ln_mult; [apply CWP|apply PLP]; lia. }
  rewrite !sumf_plus. replace (edge_list s0) with (edge_list s) by (unfold edge_list; now rewrite ET). lra.
Qed.

(** States with the same tree, rows and classes have the same weights. *)
Lemma same_weights s1 s2 : tinv ws tb M s1 -> tinv ws tb M s2 -> s_tree s1 = s_tree s2 ->
  Permutation (s_added s1) (s_added s2) -> (forall n v, In n (s_added s1) -> (v < V)%nat -> s_asg s1 n v = s_asg s2 n v) ->
  Lform tb M s1 = Lform tb M s2 /\
  forall n z, In z (vectors V M) -> conditional_weight ws tb M s1 n z = conditional_weight ws tb M s2 n z.
Proof.
  intros T1 T2 ET PA EA. pose proof (ti_fs _ _ _ _ T1) as F1. pose proof (ti_fs _ _ _ _ T2) as F2.
  destruct (fs_tree _ _ _ _ F1) as (_ & LE & RG & _).
  assert (SV : forall v m, (v < V)%nat -> (m < M)%nat -> s_vert s1 v m = s_vert s2 v m).
  { intros v m Hv Hm. rewrite (fs_vert _ _ _ _ F1), (fs_vert _ _ _ _ F2), <- (total_perm _ _ _ PA) by auto.
    apply total_ext. intros n I. now rewrite EA. }
  assert (SE : forall e v1 v2 m1 m2, In (e, (v1, v2)) (edge_list s1) -> (m1 < M)%nat -> (m2 < M)%nat -> s_edge s1 e m1 m2 = s_edge s2 e m1 m2).
  { intros e v1 v2 m1 m2 I H1 H2. pose proof (in_combine_r _ _ _ _ I) as I2. destruct (RG _ _ I2) as (R1 & R2). unfold edge_list in I.
    assert (E : nth_error (ts_get_edges (s_tree s1)) e = Some (v1, v2)).
    { apply L_Estimate.In_combine_nth in I. destruct I as (k & K1 & K2).
      assert (k = e). { apply nth_error_nth with (d := 0%nat) in K1 as K3. rewrite seq_nth in K3; [lia|]. rewrite <- (seq_length (length (ts_get_edges (s_tree s1))) 0). apply nth_error_Some. congruence. }
      subst; auto. }
    rewrite (fs_edge _ _ _ _ F1 _ _ _ _ _ E), (total_perm _ _ _ PA) by auto. rewrite ET in E.
    rewrite (fs_edge _ _ _ _ F2 _ _ _ _ _ E) by auto. apply total_ext. intros n In2.
    apply (Permutation_in _ (Permutation_sym PA)) in In2. now rewrite !EA. }
  assert (SF : forall v r m, (v < V)%nat -> In r (block ws v) -> (m < M)%nat -> s_feat s1 r m = s_feat s2 r m).
  { intros v r m Hv Hr Hm. apply (block_owns ws tb M TK HM) in Hr; auto.
    rewrite (fs_feat _ _ _ _ F1 v), (fs_feat _ _ _ _ F2 v), <- (total_perm _ _ _ PA) by auto.
    apply total_ext. intros n I. now rewrite EA. }
  assert (SM : forall v m, (v < V)%nat -> (m < M)%nat -> s_meas s1 v m = s_meas s2 v m).
  { intros v m Hv Hm. rewrite (fs_meas _ _ _ _ F1 v), (fs_meas _ _ _ _ F2 v), <- (total_perm _ _ _ PA) by auto.
    apply total_ext. intros n I. now rewrite EA. }
  assert (LV : forall v, (v < V)%nat -> Lvert s1 v = Lvert s2 v).
  { intros v Hv. unfold Lvert. apply sumf_ext. intros m Hm. apply in_seq in Hm. rewrite SV by (auto; lia). reflexivity. }
  assert (EL : edge_list s2 = edge_list s1) by (unfold edge_list; now rewrite ET).
  split.
  - rewrite !Lform_eq by auto. rewrite EL. f_equal; [f_equal|].
    + apply sumf_ext. intros v Hv. apply in_seq in Hv. apply LV. lia.
    + apply sumf_ext. intros [e [v1 v2]] I. pose proof (in_combine_r _ _ _ _ I) as I2. destruct (RG _ _ I2) as (R1 & R2).
      rewrite !LV by auto. do 2 f_equal. unfold Ledge. apply sumf_ext. intros m1 H1. apply sumf_ext. intros m2 H2. apply in_seq in H1, H2.
      rewrite (SE e v1 v2) by (auto; lia). reflexivity.
    + apply sumf_ext. intros v Hv. apply in_seq in Hv. unfold Lfeat. f_equal.
      * apply sumf_ext. intros r Hr. apply sumf_ext. intros m Hm. apply in_seq in Hm. rewrite (SF v) by (auto; lia). reflexivity.
      * apply sumf_ext. intros m Hm. apply in_seq in Hm. rewrite SM by (auto; lia). reflexivity.
  - intros n z Iz. apply in_vectors in Iz. destruct Iz as (L & B).
    assert (BN : forall v, (v < V)%nat -> (nth v z 0 < M)%nat) by (intros; apply B, nth_In; lia).
    unfold conditional_weight, tree_weight. rewrite <- ET. f_equal.
    + apply prodf_ext. intros v Hv. apply in_seq in Hv. unfold node_factor, class_weight, polya.
      rewrite SV by (try apply BN; lia).
      assert (EF : forall r, In r (block ws v) -> IZR (s_feat s1 r (nth v z 0%nat)) + 1 / 2 / INR M = IZR (s_feat s2 r (nth v z 0%nat)) + 1 / 2 / INR M).
      { intros r Hr. rewrite (SF v) by (try apply BN; auto; lia). reflexivity. }
      rewrite (sumf_ext _ _ _ EF). do 2 f_equal. apply prodf_ext. intros r Hr. now rewrite EF.
    + apply prodf_ext. intros [e [v1 v2]] I. fold (edge_list s1) in I.
      pose proof (in_combine_l _ _ _ _ I) as I1. pose proof (in_combine_r _ _ _ _ I) as I2. apply in_seq in I1. destruct (RG _ _ I2) as (R1 & R2).
      unfold pair_factor, class_weight. rewrite <- ET.
      assert (HI : In (nth e (ts_get_edges (s_tree s1)) (0, 0)%nat) (ts_get_edges (s_tree s1))) by (apply nth_In; lia).
      destruct (nth e (ts_get_edges (s_tree s1)) (0, 0)%nat) as [a b]. destruct (RG _ _ HI) as (Ra & Rb).
      rewrite (SE e v1 v2), !SV by (try apply BN; auto). reflexivity.
Qed.

(** ** Matrices *)
Lemma in_matrices N : forall A, In A (matrices N V M) <-> length A = N /\ forall z, In z A -> In z (vectors V M).
Proof.
  induction N as [|N IH]; intros A; cbn [matrices].
  - split.
    + intros [<-|[]]. split; [reflexivity|]. intros z [].
    + intros (L & _). destruct A; [now left|discriminate].
  - rewrite in_flat_map. split.
    + intros (z & Hz & H). apply in_map_iff in H. destruct H as (A' & <- & H). apply IH in H. destruct H as (L & H).
      split; [cbn; lia|]. intros y [<-|Hy]; auto.
    + intros (L & H). destruct A as [|z A]; [discriminate|]. exists z. split; [apply H; now left|].
      apply in_map. apply IH. split; [cbn in L; lia|]. intros; apply H; now right.
Qed.

Lemma matrices_NoDup N : NoDup (matrices N V M).
Proof.
  induction N as [|N IH]; cbn [matrices]; [repeat constructor; auto|].
  assert (G : forall l, NoDup l -> NoDup (flat_map (fun z => map (cons z) (matrices N V M)) l)).
  { induction l as [|z l IHl]; intros NDl; cbn [flat_map]; [constructor|]. inversion NDl; subst.
    apply NoDup_app'.
    - apply FinFun.Injective_map_NoDup; auto. intros x y E. congruence.
    - auto.
    - intros A I1 I2. apply in_map_iff in I1. destruct I1 as (A' & <- & _). apply in_flat_map in I2. destruct I2 as (z' & Hz' & I2).
      apply in_map_iff in I2. destruct I2 as (A'' & E & _). inversion E; subst. contradiction. }
  apply G. apply vectors_NoDup.
Qed.

Lemma class_matrix_nth s n v : (n < num_rows tb)%nat -> (v < V)%nat -> nth v (nth n (class_matrix tb s) []) 0%nat = s_asg s n v.
Proof.
  intros Hn Hv. unfold class_matrix. rewrite (nth_indep _ _ (classes_of tb s 0%nat)) by (now rewrite map_length, seq_length).
  rewrite map_nth, seq_nth by auto. cbn [Nat.add]. unfold classes_of.
  rewrite (nth_indep _ _ (s_asg s n 0%nat)) by (now rewrite map_length, seq_length). rewrite map_nth, seq_nth by auto. reflexivity.
Qed.

Lemma class_matrix_row s n : (n < num_rows tb)%nat -> nth n (class_matrix tb s) [] = classes_of tb s n.
Proof.
  intros Hn. unfold class_matrix. rewrite (nth_indep _ _ (classes_of tb s 0%nat)) by (now rewrite map_length, seq_length).
  rewrite map_nth, seq_nth by auto. reflexivity.
Qed.

Lemma class_matrix_set s s' n z : (n < num_rows tb)%nat -> s_asg s' = set1 (s_asg s) n z ->
  class_matrix tb s' = upd (class_matrix tb s) n (map z (seq 0 V)).
Proof.
  intros Hn E. apply nth_ext with (d := []) (d' := []).
  - rewrite upd_length. unfold class_matrix. now rewrite !map_length.
  - unfold class_matrix at 1. rewrite map_length, seq_length. intros k Hk. rewrite class_matrix_row by auto.
    assert (LC : length (class_matrix tb s) = num_rows tb) by (unfold class_matrix; now rewrite map_length, seq_length).
    rewrite nth_upd by (rewrite LC; auto). unfold classes_of. rewrite E. unfold set1.
    destruct (Nat.eqb_spec n k) as [->|NE]; [now rewrite Nat.eqb_refl|].
    rewrite (proj2 (Nat.eqb_neq k n)) by auto. rewrite class_matrix_row by auto. reflexivity.
Qed.

Lemma classes_in s n : tinv ws tb M s -> In (classes_of tb s n) (vectors V M).
Proof.
  intros TI. apply in_vectors. unfold classes_of. split; [now rewrite map_length, seq_length|].
  intros m I. apply in_map_iff in I. destruct I as (v & <- & I). apply in_seq in I. apply (ti_all _ _ _ _ TI). lia.
Qed.

(** One Gibbs update in a state with all rows added. *)
Lemma gibbs_law s n B : tinv ws tb M s -> In n (s_added s) ->
  exists s0, remove_row tb M s n = Ok (s0, None) /\ tinv ws tb M s0 /\ Permutation (s_added s) (n :: s_added s0) /\
    s_asg s0 = s_asg s /\ s_tree s0 = s_tree s /\
    prob (gibbs tb M s n) (fun s' => matrix_eqb (class_matrix tb s') B) =
    sumf (vectors V M) (fun z => conditional_weight ws tb M s0 n z / sumf (vectors V M) (conditional_weight ws tb M s0 n) *
                                 (if matrix_eqb (upd (class_matrix tb s) n z) B then 1 else 0)).
Proof.
  intros TI I. assert (Hn : (n < num_rows tb)%nat) by (apply (fs_rows _ _ _ _ (ti_fs _ _ _ _ TI)), I).
  destruct (remove_row_Ok ws tb M TK HM s n TI I) as (s0 & E & T0 & EA & ET & EAs). exists s0.
  assert (PA : Permutation (s_added s) (n :: s_added s0)) by (rewrite EA; now apply set_remove_perm).
  assert (NI : ~ In n (s_added s0)).
  { intro C. destruct (fs_rows _ _ _ _ (ti_fs _ _ _ _ TI)) as (NDa & _). apply (Permutation_NoDup PA) in NDa. now inversion NDa. }
  split; [exact E|]. split; [exact T0|]. split; [exact PA|]. split; [exact EAs|]. split; [exact ET|].
  unfold prob, gibbs. rewrite expect_bind. unfold unless_raised at 1. rewrite E. cbn [lift rbind expect].
  unfold unless_raised. rewrite expect_bind. rewrite <- (with_own_program s0) at 1.
  rewrite (add_row_expect ws tb M TK HM ND s0 T0 None (s_prog s0)) with (H := fun z => if matrix_eqb (upd (class_matrix tb s) n z) B then 1 else 0).
  - reflexivity.
  - discriminate.
  - apply (fs_prog _ _ _ _ (ti_fs _ _ _ _ T0)).
  - exact Hn.
  - exact NI.
  - intros z s' Hz Ho EQ. cbn [expect].
    destruct (after_draw_Ok ws tb M TK HM s0 T0 (s_prog s0) n Hn z Hz) as (s2 & E2 & EA2 & _).
    rewrite EQ in E2. inversion E2; subst s2. rewrite (class_matrix_set s s' n z Hn).
    + destruct (matrix_eqb _ _); reflexivity.
    + now rewrite EA2, EAs.
Qed.

Definition gfull (T : tree_structure) (A : list (list nat)) (s : tstate) : Prop :=
  tinv ws tb M s /\ s_tree s = T /\ length (s_added s) = num_rows tb /\ class_matrix tb s = A.

Lemma gibbs_invariant T (S : list (list nat) -> tstate) n : (n < num_rows tb)%nat ->
  (forall A, In A (matrices (num_rows tb) V M) -> gfull T A (S A)) ->
  (forall A, In A (matrices (num_rows tb) V M) -> logprob lg tb M (S A) = Ok (Lform tb M (S A))) /\
  forall B, In B (matrices (num_rows tb) V M) ->
  sumf (matrices (num_rows tb) V M) (fun A => exp (Lform tb M (S A)) * prob (gibbs tb M (S A) n) (fun s' => matrix_eqb (class_matrix tb s') B)) =
  exp (Lform tb M (S B)).
Proof.
  intros Hn FS. split. { intros A HA. apply logprob_Ok. apply FS, HA. }
  intros B HB. set (N := num_rows tb) in *. destruct (proj1 (in_matrices N B) HB) as (LB & VB).
  assert (AT : forall A, In A (matrices N V M) -> tinv ws tb M (S A)).
  { intros A HA. apply FS, HA. }
  assert (AN : forall A, In A (matrices N V M) -> In n (s_added (S A))).
  { intros A HA. destruct (FS A HA) as (_ & _ & L & _).
    apply (Permutation_in _ (Permutation_sym (all_added ws tb M HM (S A) (AT A HA) L))). apply in_seq. fold N. lia. }
  assert (UV : forall z, In z (vectors V M) -> In (upd B n z) (matrices N V M)).
  { intros z Hz. apply in_matrices. rewrite upd_length. split; [exact LB|]. intros y Hy. apply In_nth with (d := []) in Hy.
    rewrite upd_length in Hy. destruct Hy as (k & Hk & <-). rewrite nth_upd by lia. destruct (n =? k)%nat; auto. apply VB, nth_In, Hk. }
  assert (EB : B = upd B n (nth n B [])).
  { apply nth_ext with (d := []) (d' := []); [now rewrite upd_length|]. intros k Hk. rewrite nth_upd by lia. destruct (Nat.eqb_spec n k); congruence. }
  assert (Hb : In (nth n B []) (vectors V M)) by (apply VB, nth_In; lia).
  (* the state with row n removed *)
  destruct (gibbs_law (S B) n B (AT B HB) (AN B HB)) as (s0 & ER & T0 & PA0 & EA0 & ET0 & _).
  set (w := conditional_weight ws tb M s0 n). set (W := sumf (vectors V M) w).
  assert (WP : 0 < W).
  { unfold W. apply sumf_pos.
    - intros z Hz. left. apply cond_weight_pos; auto.
    - exists (nth n B []). split; [exact Hb|]. apply cond_weight_pos; auto. }
  assert (KEY : forall z, In z (vectors V M) ->
     exp (Lform tb M (S (upd B n z))) = exp (Lform tb M s0) * w z /\
     prob (gibbs tb M (S (upd B n z)) n) (fun s' => matrix_eqb (class_matrix tb s') B) = w (nth n B []) / W).
  { intros z Hz. pose proof (UV z Hz) as HA. set (A := upd B n z) in *.
    destruct (gibbs_law (S A) n B (AT A HA) (AN A HA)) as (s1 & ER1 & T1 & PA1 & EA1 & ET1 & LAW).
    destruct (FS A HA) as (_ & TA & LA & CA). destruct (FS B HB) as (_ & TB & LBb & CB).
    assert (P01 : Permutation (s_added s1) (s_added s0)).
    { apply Permutation_cons_inv with (a := n). rewrite <- PA1, <- PA0.
      rewrite (all_added ws tb M HM (S A) (AT A HA) LA). symmetry. apply (all_added ws tb M HM (S B) (AT B HB) LBb). }
    assert (NI1 : ~ In n (s_added s1)).
    { intro C. destruct (fs_rows _ _ _ _ (ti_fs _ _ _ _ (AT A HA))) as (NDa & _). apply (Permutation_NoDup PA1) in NDa. now inversion NDa. }
    destruct (same_weights s1 s0 T1 T0) as (SL & SW).
    - congruence.
    - exact P01.
    - intros k v Ik Hv. assert (Hk : (k < num_rows tb)%nat) by (apply (fs_rows _ _ _ _ (ti_fs _ _ _ _ T1)), Ik).
      rewrite EA1, EA0. rewrite <- (class_matrix_nth (S A)), <- (class_matrix_nth (S B)) by auto. rewrite CA, CB. unfold A.
      rewrite nth_upd by lia. destruct (Nat.eqb_spec n k); [subst; contradiction|reflexivity].
    - assert (CZ : classes_of tb (S A) n = z).
      { rewrite <- class_matrix_row by auto. rewrite CA. unfold A. apply nth_upd_same. lia. }
      split.
      + rewrite (gain (S A) s1 n); auto. rewrite CZ, SL, SW by auto. rewrite exp_plus, exp_ln; [reflexivity|]. apply cond_weight_pos; auto.
      + rewrite LAW. rewrite CA. rewrite (sumf_single _ _ (nth n B [])).
        * replace (upd A n (nth n B [])) with B.
          2: { apply nth_ext with (d := []) (d' := []); [unfold A; now rewrite !upd_length|]. intros k Hk. unfold A. rewrite !nth_upd by (rewrite ?upd_length; lia).
               destruct (Nat.eqb_spec n k); congruence. }
          unfold matrix_eqb. destruct (list_eq_dec _ B B); [|congruence]. rewrite SW by auto. fold w.
          rewrite (sumf_ext (vectors V M) (conditional_weight ws tb M s1 n) w) by (intros; unfold w; apply SW; auto). fold W. lra.
        * apply vectors_NoDup.
        * exact Hb.
        * intros y Hy NE. unfold matrix_eqb. destruct (list_eq_dec _ _ _) as [C|]; [|lra]. exfalso. apply NE.
          rewrite <- C. unfold A. rewrite nth_upd_same by (rewrite upd_length; lia). reflexivity. }
  rewrite (sumf_subset _ (map (upd B n) (vectors V M))).
  - rewrite sumf_map. rewrite (sumf_ext _ _ (fun z => exp (Lform tb M s0) * w (nth n B []) / W * w z)).
    + rewrite sumf_scal. fold W. rewrite EB at 2. rewrite (proj1 (KEY _ Hb)). field. lra.
    + intros z Hz. destruct (KEY z Hz) as (-> & ->). field. lra.
  - apply matrices_NoDup.
  - apply NoDup_map_inv' with (g := fun A => nth n A []).
    + intros z Hz. apply nth_upd_same. lia.
    + apply vectors_NoDup.
  - intros A HA. apply in_map_iff in HA. destruct HA as (z & <- & Hz). auto.
  - intros A HA NA. destruct (gibbs_law (S A) n B (AT A HA) (AN A HA)) as (s1 & _ & _ & _ & _ & _ & LAW). rewrite LAW.
    destruct (FS A HA) as (_ & _ & _ & CA). rewrite CA. rewrite sumf_zero; [lra|]. intros z Hz.
    unfold matrix_eqb. destruct (list_eq_dec _ _ _) as [C|]; [|lra]. exfalso. apply NA. apply in_map_iff.
    destruct (proj1 (in_matrices N A) HA) as (LA & VA).
    exists (nth n A []). split; [|apply VA, nth_In; lia].
    rewrite <- C. apply nth_ext with (d := []) (d' := []); [now rewrite !upd_length|]. intros k Hk. rewrite !upd_length in Hk. rewrite !nth_upd by (rewrite ?upd_length; lia).
    destruct (Nat.eqb_spec n k); congruence.
Qed.

(** ** Sweeps *)
Notation N := (num_rows tb).

Lemma gfull_in T A s : gfull T A s -> In A (matrices N V M).
Proof.
  intros (TI & _ & _ & <-). apply in_matrices. unfold class_matrix. split; [now rewrite map_length, seq_length|].
  intros z I. apply in_map_iff in I. destruct I as (n & <- & _). now apply classes_in.
Qed.

Lemma gfull_added T A s n : gfull T A s -> (n < N)%nat -> In n (s_added s).
Proof.
  intros (TI & _ & L & _) Hn. apply (Permutation_in _ (Permutation_sym (all_added ws tb M HM s TI L))). apply in_seq. lia.
Qed.

Lemma gibbs_gfull T A s n : gfull T A s -> (n < N)%nat -> always (fun s' => exists B, gfull T B s') (gibbs tb M s n).
Proof.
  intros GF Hn. pose proof (gfull_added T A s n GF Hn) as I. destruct GF as (TI & ET & L & _).
  destruct (remove_row_Ok ws tb M TK HM s n TI I) as (s0 & E & T0 & EA & ET0 & EAs).
  assert (PA : Permutation (s_added s) (n :: s_added s0)) by (rewrite EA; now apply set_remove_perm).
  assert (NI : ~ In n (s_added s0)).
  { intro C. destruct (fs_rows _ _ _ _ (ti_fs _ _ _ _ TI)) as (NDa & _). apply (Permutation_NoDup PA) in NDa. now inversion NDa. }
  unfold gibbs. apply always_bind.
  assert (U : unless_raised (lift (remove_row tb M s n)) = Ret s0) by (unfold unless_raised; rewrite E; reflexivity). rewrite U. cbn [always].
  unfold unless_raised. apply always_bind. eapply always_mono; [|apply (add_row_always ws tb M TK HM s0 n T0 Hn NI)].
  intros [s' x] (-> & T1 & EA1 & ET1 & _). cbn [always]. exists (class_matrix tb s'). split; [exact T1|]. split; [congruence|]. split; [|reflexivity].
  rewrite EA1, (Permutation_length (set_add_perm n _ NI)), <- (Permutation_length PA). exact L.
Qed.

Lemma gibbs_expect T A s n G g : gfull T A s -> (n < N)%nat -> (forall s' B, gfull T B s' -> G (Ok s') = g B) ->
  expect (gibbs tb M s n) G = sumf (matrices N V M) (fun B => prob (gibbs tb M s n) (fun s' => matrix_eqb (class_matrix tb s') B) * g B).
Proof.
  intros GF Hn HG. pose proof (gfull_added T A s n GF Hn) as I. pose proof (gibbs_gfull T A s n GF Hn) as AL.
  pose proof GF as GF0. destruct GF as (TI & ET & L & CA).
  destruct (gibbs_law s n [] TI I) as (s0 & E & T0 & PA & EA & ET0 & _).
  assert (NI : ~ In n (s_added s0)).
  { intro C. destruct (fs_rows _ _ _ _ (ti_fs _ _ _ _ TI)) as (NDa & _). apply (Permutation_NoDup PA) in NDa. now inversion NDa. }
  assert (UV : forall z, In z (vectors V M) -> In (upd A n z) (matrices N V M)).
  { intros z Hz. destruct (proj1 (in_matrices N A) (gfull_in T A s GF0)) as (LA & VA). apply in_matrices. rewrite upd_length. split; [exact LA|].
    intros y Hy. apply In_nth with (d := []) in Hy.
    rewrite upd_length in Hy. destruct Hy as (k & Hk & <-). rewrite nth_upd by lia. destruct (n =? k)%nat; auto. apply VA, nth_In, Hk. }
  transitivity (sumf (vectors V M) (fun z => conditional_weight ws tb M s0 n z / sumf (vectors V M) (conditional_weight ws tb M s0 n) * g (upd A n z))).
  - unfold gibbs. rewrite expect_bind. unfold unless_raised at 1. rewrite E. cbn [lift rbind expect].
    unfold unless_raised. rewrite expect_bind. rewrite <- (with_own_program s0) at 1.
    apply (add_row_expect ws tb M TK HM ND s0 T0 None (s_prog s0)) with (H := fun z => g (upd A n z)); auto; try discriminate.
    + apply (fs_prog _ _ _ _ (ti_fs _ _ _ _ T0)).
    + intros z s' Hz Ho EQ. cbn [expect].
      destruct (after_draw_Ok ws tb M TK HM s0 T0 (s_prog s0) n Hn z Hz) as (s2 & E2 & EA2 & _).
      rewrite EQ in E2. inversion E2; subst s2. apply HG.
      assert (CM : class_matrix tb s' = upd A n (map z (seq 0 V))).
      { rewrite <- CA. apply class_matrix_set; auto. now rewrite EA2, EA. }
      assert (MR : may_return (gibbs tb M s n) (Ok s')).
      { unfold gibbs. apply may_bind with (a := s0).
        - unfold unless_raised. rewrite E. reflexivity.
        - unfold unless_raised. apply may_bind with (a := (s', None)); [|reflexivity]. rewrite <- (with_own_program s0).
          apply (add_row_may ws tb M TK HM ND s0 T0 None (s_prog s0)) with (zt := z); auto; try discriminate.
          apply (fs_prog _ _ _ _ (ti_fs _ _ _ _ T0)). }
      destruct (always_may _ _ _ _ AL MR) as (s3 & E3 & B & GB). inversion E3; subst s3.
      destruct GB as (GB1 & GB2 & GB3 & _). split; [exact GB1|]. split; [exact GB2|]. split; [exact GB3|exact CM].
  - rewrite (sumf_ext (matrices N V M) _ (fun B => sumf (vectors V M) (fun z =>
      conditional_weight ws tb M s0 n z / sumf (vectors V M) (conditional_weight ws tb M s0 n) * (if matrix_eqb (upd A n z) B then 1 else 0) * g B))).
    + rewrite sumf_swap. apply sumf_ext. intros z Hz. rewrite (sumf_single _ _ (upd A n z)).
      * unfold matrix_eqb. destruct (list_eq_dec _ _ _); [lra|congruence].
      * apply matrices_NoDup.
      * auto.
      * intros B _ NE. unfold matrix_eqb. destruct (list_eq_dec _ _ _); [congruence|lra].
    + intros B _. destruct (gibbs_law s n B TI I) as (s1 & E1 & _ & _ & _ & _ & LAW). rewrite E in E1. inversion E1; subst s1.
      rewrite LAW, CA. rewrite <- sumf_scal_r. reflexivity.
Qed.

Lemma gibbs_same T A s s' n B : gfull T A s -> gfull T A s' -> (n < N)%nat ->
  prob (gibbs tb M s n) (fun s => matrix_eqb (class_matrix tb s) B) = prob (gibbs tb M s' n) (fun s => matrix_eqb (class_matrix tb s) B).
Proof.
  intros G1 G2 Hn. pose proof (gfull_added T A s n G1 Hn) as I1. pose proof (gfull_added T A s' n G2 Hn) as I2.
  destruct G1 as (TI1 & ET1 & L1 & C1). destruct G2 as (TI2 & ET2 & L2 & C2).
  destruct (gibbs_law s n B TI1 I1) as (s0 & E0 & T0 & PA0 & EA0 & ET0 & LAW0).
  destruct (gibbs_law s' n B TI2 I2) as (s1 & E1 & T1 & PA1 & EA1 & ETa & LAW1).
  rewrite LAW0, LAW1, C1, C2.
  destruct (same_weights s0 s1 T0 T1) as (_ & SW).
  - congruence.
  - apply Permutation_cons_inv with (a := n). rewrite <- PA0, <- PA1.
    rewrite (all_added ws tb M HM s TI1 L1). symmetry. apply (all_added ws tb M HM s' TI2 L2).
  - intros k v Ik Hv. assert (Hk : (k < num_rows tb)%nat) by (apply (fs_rows _ _ _ _ (ti_fs _ _ _ _ T0)), Ik).
    rewrite EA0, EA1. rewrite <- (class_matrix_nth s), <- (class_matrix_nth s') by auto. congruence.
  - rewrite (sumf_ext (vectors V M) (conditional_weight ws tb M s0 n) (conditional_weight ws tb M s1 n)) by (intros; apply SW; auto).
    apply sumf_ext. intros z Hz. now rewrite SW.
Qed.

Definition sweep (s : tstate) (rows : list nat) : rprog tstate := rfold (gibbs tb M) rows s.

Lemma sweep_expect T (S : list (list nat) -> tstate) : (forall A, In A (matrices N V M) -> gfull T A (S A)) ->
  forall rows, (forall n, In n rows -> (n < N)%nat) -> forall G g, (forall s' B, gfull T B s' -> G (Ok s') = g B) ->
  exists h, (forall s A, gfull T A s -> expect (sweep s rows) G = h A) /\
    sumf (matrices N V M) (fun A => exp (Lform tb M (S A)) * h A) = sumf (matrices N V M) (fun A => exp (Lform tb M (S A)) * g A).
Proof.
  intros FS. induction rows as [|n rows IH]; intros HR G g HG.
  - exists g. split; [|reflexivity]. intros s A GF. cbn [sweep rfold expect]. now apply HG.
  - destruct (IH ltac:(intros; apply HR; now right) G g HG) as (h & H1 & H2).
    assert (Hn : (n < N)%nat) by (apply HR; now left).
    exists (fun A => sumf (matrices N V M) (fun B => prob (gibbs tb M (S A) n) (fun s' => matrix_eqb (class_matrix tb s') B) * h B)).
    split.
    + intros s A GF. unfold sweep. cbn [rfold]. rewrite expect_bind.
      rewrite (gibbs_expect T A s n _ h GF Hn).
      * apply sumf_ext. intros B _. f_equal. apply (gibbs_same T A); auto. apply FS. eapply gfull_in; eauto.
      * intros s' B GB. apply H1; auto.
    + rewrite <- H2.
      rewrite (sumf_ext _ _ (fun A => sumf (matrices N V M) (fun B => exp (Lform tb M (S A)) * prob (gibbs tb M (S A) n) (fun s' => matrix_eqb (class_matrix tb s') B) * h B))).
      * rewrite sumf_swap. apply sumf_ext. intros B HB. rewrite sumf_scal_r. f_equal. apply (gibbs_invariant T S n Hn FS); auto.
      * intros A HA. rewrite <- sumf_scal. apply sumf_ext. intros. ring.
Qed.

Lemma sweep_invariant T (S : list (list nat) -> tstate) rows : (forall A, In A (matrices N V M) -> gfull T A (S A)) ->
  (forall n, In n rows -> (n < N)%nat) -> forall B, In B (matrices N V M) ->
  sumf (matrices N V M) (fun A => exp (Lform tb M (S A)) * prob (sweep (S A) rows) (fun s' => matrix_eqb (class_matrix tb s') B)) =
  exp (Lform tb M (S B)).
Proof.
  intros FS HR B HB.
  destruct (sweep_expect T S FS rows HR (fun r => match r with Ok s' => if matrix_eqb (class_matrix tb s') B then 1 else 0 | Raise _ => 0 end)
     (fun A => if matrix_eqb A B then 1 else 0)) as (h & H1 & H2).
  - intros s' A (_ & _ & _ & <-). reflexivity.
  - rewrite (sumf_ext _ _ (fun A => exp (Lform tb M (S A)) * h A)).
    + rewrite H2. rewrite (sumf_single _ _ B).
      * unfold matrix_eqb. destruct (list_eq_dec _ _ _); [lra|congruence].
      * apply matrices_NoDup.
      * exact HB.
      * intros A _ NE. unfold matrix_eqb. destruct (list_eq_dec _ _ _); [congruence|lra].
    + intros A HA. f_equal. apply H1. auto.
Qed.
End G.
End LG.

(** ** The statements *)
Lemma full_gfull ws tb prior M T A s : table_ok ws tb -> (1 <= M)%nat -> full_state tb prior M T A s -> gfull ws tb M T A s.
Proof. intros TK HM (RE & H). split; [|exact H]. now apply (reachable_tinv ws tb M TK HM prior). Qed.

Lemma C23_proof : forall lg, (forall x, 0 < x -> lg (x + 1) = lg x + ln x) ->
  forall ws tb prior M T (S : list (list nat) -> tstate) rows, table_ok ws tb -> nonneg_data tb -> (1 <= M)%nat ->
  (forall n, In n rows -> (n < num_rows tb)%nat) ->
  (forall A, In A (matrices (num_rows tb) (num_cols tb) M) -> full_state tb prior M T A (S A)) ->
  exists lp, (forall A, In A (matrices (num_rows tb) (num_cols tb) M) -> logprob lg tb M (S A) = Ok (lp A)) /\
  forall B, In B (matrices (num_rows tb) (num_cols tb) M) ->
  sumf (matrices (num_rows tb) (num_cols tb) M)
    (fun A => exp (lp A) * prob (rfold (gibbs tb M) rows (S A)) (fun s' => matrix_eqb (class_matrix tb s') B)) = exp (lp B).
Proof.
  intros lg REC ws tb prior M T S rows TK ND HM HR FS.
  assert (GF : forall A, In A (matrices (num_rows tb) (num_cols tb) M) -> gfull ws tb M T A (S A)).
  { intros A HA. apply (full_gfull ws tb prior); auto. }
  exists (fun A => Lform lg tb M (S A)). split.
  - intros A HA. apply logprob_Ok. apply FS, HA.
  - apply (sweep_invariant lg REC ws tb M TK HM ND T S rows GF HR).
Qed.

(** *** Every matrix is reachable *)
Lemma C23_states : forall ws tb prior M s0 edges A, table_ok ws tb -> nonneg_data tb -> (1 <= M)%nat ->
  init_trainer tb prior M = Ok s0 -> spanning_tree (num_cols tb) edges -> In A (matrices (num_rows tb) (num_cols tb) M) ->
  exists s, full_state tb prior M (TS (num_cols tb) (make_tree edges)) A s.
Proof.
  intros ws tb prior M s0 edges A TK ND HM E0 T HA. destruct (proj1 (in_matrices tb M HM _ A) HA) as (LA & VA).
  assert (R0 : reachable tb prior M s0) by (exists s0, []; split; [exact E0|]; split; [constructor|reflexivity]).
  destruct (init_Ok ws tb M HM prior s0 E0) as (TI0 & A0 & _).
  destruct (set_edges_Ok ws tb M HM s0 edges TI0 T) as (s1 & E1 & _ & EA1 & _ & ET1).
  assert (R1 : reachable tb prior M s1).
  { apply (reach_step tb prior M s0 (OpSetEdges edges) s1 None R0); [left; exact T|]. cbn [run_op]. rewrite E1. reflexivity. }
  assert (LOOP : forall k, (k <= num_rows tb)%nat -> exists s, reachable tb prior M s /\ s_tree s = TS (num_cols tb) (make_tree edges) /\
     Permutation (s_added s) (seq 0 k) /\ forall n, (n < k)%nat -> classes_of tb s n = nth n A []).
  { induction k as [|k IH]; intros Hk.
    - exists s1. split; [exact R1|]. split; [exact ET1|]. split; [now rewrite EA1, A0|]. intros n Hn. lia.
    - destruct IH as (s & RS & ETs & PS & CS); [lia|].
      assert (NI : ~ In k (s_added s)). { intro C. apply (Permutation_in _ PS) in C. apply in_seq in C. lia. }
      set (zt := fun v => if (v <? num_cols tb)%nat then nth v (nth k A []) 0%nat else s_asg s k v).
      assert (Vk : In (nth k A []) (vectors (num_cols tb) M)) by (apply VA, nth_In; lia).
      apply in_vectors in Vk. destruct Vk as (Lk & Bk).
      destruct (reach_add ws tb prior M s k zt TK HM ND RS) as (s' & RS' & EA' & ET' & ED').
      + lia.
      + exact NI.
      + intros v Hv. unfold zt. rewrite (proj2 (Nat.ltb_lt _ _) Hv). apply Bk, nth_In. lia.
      + intros v Hv. unfold zt. destruct (Nat.ltb_spec v (num_cols tb)); [lia|reflexivity].
      + exists s'. split; [exact RS'|]. split; [congruence|]. split.
        * rewrite ED', set_add_perm, PS by auto. rewrite seq_S. cbn [Nat.add]. apply Permutation_cons_append.
        * intros n Hn. unfold classes_of. rewrite EA'. destruct (Nat.eq_dec n k) as [->|NE].
          -- apply nth_ext with (d := 0%nat) (d' := 0%nat); [now rewrite map_length, seq_length|].
             rewrite map_length, seq_length. intros v Hv. rewrite (nth_indep _ _ (set1 (s_asg s) k zt k 0%nat)) by (now rewrite map_length, seq_length).
             rewrite map_nth, seq_nth by auto. unfold set1. rewrite Nat.eqb_refl. unfold zt. cbn [Nat.add]. now rewrite (proj2 (Nat.ltb_lt _ _) Hv).
          -- rewrite <- CS by lia. unfold classes_of, set1. rewrite (proj2 (Nat.eqb_neq n k)) by auto. reflexivity. }
  destruct (LOOP (num_rows tb) ltac:(lia)) as (s & RS & ETs & PS & CS). exists s.
  split; [exact RS|]. split; [exact ETs|]. split.
  - rewrite (Permutation_length PS). apply seq_length.
  - unfold class_matrix. apply nth_ext with (d := []) (d' := []); [now rewrite map_length, seq_length|].
    rewrite map_length, seq_length. intros n Hn. rewrite (nth_indep _ _ (classes_of tb s 0%nat)) by (now rewrite map_length, seq_length).
    rewrite map_nth, seq_nth by auto. apply CS. exact Hn.
Qed.

(** A function with the recurrence of log-gamma. *)
Definition lg_ex (x : R) : R := sumf (seq 1 (Z.to_nat (up x))) (fun i => ln (x - INR i)).

Lemma lg_ex_rec x : 0 < x -> lg_ex (x + 1) = lg_ex x + ln x.
Proof.
  intros Hx. unfold lg_ex. destruct (archimed x) as (U1 & U2).
  assert (EU : up (x + 1) = (up x + 1)%Z). { symmetry. apply tech_up; rewrite plus_IZR; lra. }
  assert (P : (0 <= up x)%Z). { apply le_IZR. lra. }
  rewrite EU, Z2Nat.inj_add by lia. change (Z.to_nat 1) with 1%nat. rewrite Nat.add_1_r. cbn [seq]. rewrite sumf_cons.
  rewrite <- (seq_shift _ 1), sumf_map. rewrite Rplus_comm. f_equal.
  - apply sumf_ext. intros i _. f_equal. rewrite S_INR. lra.
  - f_equal. simpl INR. lra.
Qed.
