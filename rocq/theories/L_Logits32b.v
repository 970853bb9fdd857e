(** The edge logits in float32. *)
From Coq Require Import List Arith Bool ZArith Reals Lra Lia Permutation.
From Flocq Require Import Core IEEE754.BinarySingleNaN.
From Verif Require Import Base L_Base Spec_Graph Spec_Sum L_Sum Spec_Ragged M_Structure L_Pairing L_Prop1 L_MakeTree M_Util M_Rand L_Rand M_Array M_Training
  Spec_Joint Spec_Stats L_Asg L_Stats L_Trainer Spec_Conditional L_AddRow L_Conditional Spec_EdgeLogits L_EdgeLogits
  M_Float32 Spec_Float32 L_Float32 M_Train32 M_SampleTree32 Spec_Tree32 M_Logits32 Spec_Logits32 L_Serving32a L_Logits32a.
Import ListNotations.
Open Scope R_scope.

Lemma sumf_abs_le {A} (l : list A) f : Rabs (sumf l f) <= sumf l (fun x => Rabs (f x)).
Proof.
  induction l; [rewrite !sumf_nil, Rabs_R0; lra|]. rewrite !sumf_cons. eapply Rle_trans; [apply Rabs_triang|]. lra.
Qed.

(** Lists of float32 numbers close to given real numbers. *)
Section Near.
Context {A : Type}.
Variables (f : A -> f32) (h : A -> R) (d : R).
Lemma near_sizes l : (forall i, In i l -> Rabs (val (f i) - h i) <= d) ->
  sumf (map f l) (fun x => Rabs (val x)) <= sumf l (fun i => Rabs (h i)) + INR (length l) * d.
Proof.
  intros H. rewrite sumf_map, <- sumf_const, <- sumf_plus. apply sumf_le. intros i I.
  replace (val (f i)) with (h i + (val (f i) - h i)) by ring. eapply Rle_trans; [apply Rabs_triang|]. specialize (H i I). lra.
Qed.
Lemma near_sums l : (forall i, In i l -> Rabs (val (f i) - h i) <= d) ->
  Rabs (sumf (map f l) (fun x => val x) - sumf l h) <= INR (length l) * d.
Proof.
  intros H. rewrite sumf_map, <- sumf_minus, <- sumf_const. eapply Rle_trans; [apply sumf_abs_le|]. now apply sumf_le.
Qed.

(** A sum of such numbers. *)
Lemma near_total sum l : sum_near sum -> (Z.of_nat (length l) <= 2 ^ 16)%Z -> 0 <= d ->
  (forall i, In i l -> fin32 (f i) = true /\ Rabs (val (f i) - h i) <= d) ->
  let T := sumf l (fun i => Rabs (h i)) + INR (length l) * d in
  T <= bp 100 ->
  fin32 (sum (map f l)) = true /\ Rabs (val (sum (map f l)) - sumf l h) <= INR (length l) * d + INR (length l) * bp (-23) * T.
Proof.
  intros SN L D H T HT. assert (NZ : forall i, In i l -> Rabs (val (f i) - h i) <= d) by (intros; now apply H).
  pose proof (near_sizes l NZ) as S1. fold T in S1. pose proof (near_sums l NZ) as S2.
  destruct (SN (map f l)) as (F & E).
  - now rewrite map_length.
  - apply Forall_forall. intros x I. apply in_map_iff in I. destruct I as (i & <- & I). now apply H.
  - lra.
  - rewrite map_length in E. split; [exact F|].
    replace (val (sum (map f l)) - sumf l h) with ((val (sum (map f l)) - sumf (map f l) (fun x => val x)) + (sumf (map f l) (fun x => val x) - sumf l h)) by ring.
    eapply Rle_trans; [apply Rabs_triang|].
    assert (INR (length l) * bp (-23) * sumf (map f l) (fun x => Rabs (val x)) <= INR (length l) * bp (-23) * T).
    { apply Rmult_le_compat_l; [|exact S1]. apply Rmult_le_pos; [apply pos_INR|apply bpow_ge_0]. }
    lra.
Qed.
End Near.

Lemma foldM_fadd {A} (l : list A) (F : f32 -> A -> result f32) (h : A -> list f32) : forall acc,
  (forall acc x, In x l -> F acc x = Ok (fold_left fadd (h x) acc)) -> foldM F l acc = Ok (fold_left fadd (flat_map h l) acc).
Proof.
  induction l as [|a l IH]; intros acc H; cbn [foldM flat_map]; [reflexivity|].
  rewrite H by now left. cbn [bind]. rewrite IH by (intros; apply H; now right). now rewrite fold_left_app.
Qed.

Definition cells (M : nat) : list (nat * nat) := flat_map (fun m1 => map (pair m1) (seq 0 M)) (seq 0 M).
Lemma cells_length M : length (cells M) = (M * M)%nat.
Proof.
  unfold cells. assert (G : forall n k, length (flat_map (fun m1 => map (pair m1) (seq 0 M)) (seq k n)) = (n * M)%nat).
  { induction n; intros k; [reflexivity|]. cbn [seq flat_map]. now rewrite app_length, map_length, seq_length, IHn. }
  apply G.
Qed.
Lemma cells_sum M (f : nat * nat -> R) : sumf (cells M) f = sumf (seq 0 M) (fun m1 => sumf (seq 0 M) (fun m2 => f (m1, m2))).
Proof. unfold cells. rewrite sumf_flat_map. apply sumf_ext. intros. now rewrite sumf_map. Qed.

Lemma minus_inf (x : f32) : fin32 x = true -> fadd x (B754_infinity true) = B754_infinity true.
Proof. destruct x as [s|s| |s m e H]; try discriminate; intros _; reflexivity. Qed.

Lemma sq_bound M : (M <= 128)%nat -> INR (M * M) <= 16384 /\ INR (M * M + 2 * M) <= 16640.
Proof.
  intros H. split; rewrite INR_IZR_INZ; apply IZR_le; nia.
Qed.

Section Logits.
Variables (ws : list nat) (tb : table) (prior : list f32) (M : nat).
Hypothesis TK : table_ok ws tb.
Hypothesis HM : (1 <= M <= 128)%nat.
Notation V := (num_cols tb).
Notation N := (num_rows tb).
Variables (g : f32 -> f32) (sum : list f32 -> f32) (lg : R -> R) (delta : R).
Hypothesis GO : gammaln_ok delta N M lg g.
Hypothesis SN : sum_near sum.
Hypothesis HD : 0 <= delta <= 1.

Lemma edge_logit32_near pairs : (length pairs <= N)%nat -> (forall x y, In (x, y) pairs -> (x < M /\ y < M)%nat) ->
  let h := fun '(m1, m2) => lg (INR (pcount pairs m1 m2) + 1 / 2 / INR M) in
  let T := sumf (cells M) (fun i => Rabs (h i)) + INR (M * M) * delta in
  T <= bp 100 ->
  exists x, edge_logit32 g N M pairs = Ok x /\ fin32 x = true /\
    Rabs (val x - sumf (cells M) h) <= INR (M * M) * delta + INR (M * M) * bp (-23) * T.
Proof.
  intros L B h T HT. unfold edge_logit32. destruct (counts_Ok M pairs (fun _ _ => 0%nat) B) as (c & -> & HC). cbn [bind].
  set (f := fun '(m1, m2) => g (fadd (f32_of (Z.of_nat (pcount pairs m1 m2)) 0) (to32 (prior64 M)))).
  rewrite (foldM_fadd _ _ (fun m1 => map (fun m2 => f (m1, m2)) (seq 0 M))).
  - replace (flat_map (fun m1 => map (fun m2 => f (m1, m2)) (seq 0 M)) (seq 0 M)) with (map f (cells M)).
    2: { unfold cells. rewrite flat_map_concat_map, concat_map, map_map, flat_map_concat_map. f_equal. apply map_ext. intros. now rewrite map_map. }
    eexists. split; [reflexivity|]. change (fold_left fadd (map f (cells M)) fzero) with (seq_sum (map f (cells M))).
    pose proof (near_total f h delta seq_sum (cells M) seq_sum_near) as H. rewrite (cells_length M) in H. apply H.
    + clear - HM. nia.
    + lra.
    + intros [m1 m2] _. destruct (GO (Z.of_nat (pcount pairs m1 m2)) (prior64 M) (1 / 2 / INR M)) as (G1 & G2).
      * pose proof (pcount_le pairs m1 m2). lia.
      * left. split; reflexivity.
      * split; [exact G1|]. unfold f, h. rewrite INR_IZR_INZ. exact G2.
    + exact HT.
  - intros acc m1 _. rewrite (foldM_fadd _ _ (fun m2 => [f (m1, m2)])).
    + reflexivity.
    + intros acc' m2 _. unfold gammaln_table32. rewrite HC. cbn [Nat.add].
      rewrite (proj2 (Nat.leb_le _ _)) by (pose proof (pcount_le pairs m1 m2); lia). reflexivity.
Qed.

Lemma vert_near s v : tinv ws tb M s -> (v < V)%nat ->
  let h := fun m => lg (IZR (class_count s v m) + 1 / 2) in
  let T := sumf (seq 0 M) (fun m => Rabs (h m)) + INR M * delta in
  T <= bp 100 ->
  let x := logprob_dc32 g sum (vec M (s_vert s v)) vert_prior64 in
  fin32 x = true /\ Rabs (val x - sumf (seq 0 M) h) <= INR M * delta + INR M * bp (-23) * T.
Proof.
  intros TI Hv h T HT x. unfold x, logprob_dc32, vec. rewrite map_map.
  pose proof (near_total (fun m => g (fadd (f32_of (s_vert s v m) 0) (to32 vert_prior64))) h delta sum (seq 0 M) SN) as H.
  rewrite seq_length in H. apply H; auto; try lra; [clear - HM; lia|].
  intros m I. apply in_seq in I. assert (EV : s_vert s v m = class_count s v m).
  { rewrite (fs_vert _ _ _ _ (ti_fs _ _ _ _ TI)) by lia. reflexivity. }
  rewrite EV. apply (GO (class_count s v m) vert_prior64 (1 / 2)); [|right; split; reflexivity].
  pose proof (added_le ws tb M (proj1 HM) s TI) as AL. unfold class_count. clear - AL. revert AL. generalize (s_added s) as l. intros l AL.
  assert (0 <= total l (fun n => one_if (s_asg s n v =? m)%nat) <= Z.of_nat (length l))%Z; [|lia]. clear AL.
  induction l; [cbn; lia|]. rewrite total_cons. cbn [length]. destruct (s_asg s a v =? m)%nat; cbn [one_if]; lia.
Qed.

Lemma inr_split : INR (M * M + 2 * M) = INR (M * M) + 2 * INR M /\ INR (M * M + 3) = INR (M * M) + 3 /\ INR M <= INR (M * M) /\ 1 <= INR M.
Proof.
  repeat split.
  - rewrite plus_INR, (mult_INR 2 M). cbn [INR]. lra.
  - rewrite plus_INR. cbn [INR]. lra.
  - apply le_INR. nia.
  - apply (le_INR 1). lia.
Qed.

(** The four numbers combined. *)
Lemma combine_near (x v1 v2 p : f32) Px Pa Pb Wp Wa Wb :
  fin32 x = true -> fin32 v1 = true -> fin32 v2 = true ->
  Rabs Px <= Wp -> Rabs Pa <= Wa -> Rabs Pb <= Wb -> Wp + Wa + Wb + Rabs (val p) <= bp 60 ->
  Rabs (val x - Px) <= INR (M * M) * delta + INR (M * M) * bp (-23) * (Wp + INR (M * M) * delta) ->
  Rabs (val v1 - Pa) <= INR M * delta + INR M * bp (-23) * (Wa + INR M * delta) ->
  Rabs (val v2 - Pb) <= INR M * delta + INR M * bp (-23) * (Wb + INR M * delta) ->
  let y := fsub (fsub x v1) v2 in
  fin32 y = true /\
  (fin32 p = true ->
     fin32 (fadd y p) = true /\ Rabs (val (fadd y p)) <= bp 126 /\
     Rabs (val (fadd y p) - (Px - Pa - Pb + val p)) <= logit_error M delta (Wp + Wa + Wb + Rabs (val p))).
Proof.
  intros Fx F1 F2 HP HA HB HW EX E1 E2 y. unfold logit_error. destruct inr_split as (I1 & I2 & I3 & I4). rewrite I1, I2.
  destruct (sq_bound M (proj2 HM)) as (S1 & S2). rewrite I1 in S2.
  set (m := INR M) in *. set (q := INR (M * M)) in *. set (u := bp (-23)) in *. assert (U : u = / 8388608) by reflexivity.
  assert (U4 : bp (-24) = u / 2) by (rewrite U; cbn; lra).
  set (Tp := Wp + q * delta) in *. set (Ta := Wa + m * delta) in *. set (Tb := Wb + m * delta) in *.
  pose proof (Rabs_pos Px). pose proof (Rabs_pos Pa). pose proof (Rabs_pos Pb). pose proof (Rabs_pos (val p)).
  assert (QD : 0 <= q * delta <= q) by nra. assert (MD : 0 <= m * delta <= m) by nra.
  set (T := Tp + Ta + Tb + Rabs (val p)).
  replace (Wp + Wa + Wb + Rabs (val p) + (q + 2 * m) * delta) with T by (unfold T, Tp, Ta, Tb; ring).
  assert (TB : T <= 2 * bp 60). { assert (bp 60 >= 16640) by (apply Rle_ge; apply Rle_trans with (bp 15); [cbn; lra|apply bpow_le; lia]). unfold T, Tp, Ta, Tb. lra. }
  assert (TPS : 0 <= Tp /\ 0 <= Ta /\ 0 <= Tb /\ 0 <= T) by (unfold T, Tp, Ta, Tb; lra).
  assert (UQ : 0 <= u * q <= 1 / 512) by (rewrite U; lra). assert (UM : u * m <= u * q) by (rewrite U; lra).
  assert (B62 : 2 * (2 * bp 60) <= bp 120 /\ 2 * (2 * bp 60) <= bp 126).
  { replace (2 * (2 * bp 60)) with (bp 62) by (change 62%Z with (2 + 60)%Z; rewrite bpow_plus; change (bp 2) with 4; ring). split; apply bpow_le; lia. }
  (* errors of the three sums *)
  set (ex := q * u * Tp) in *. set (ea := m * u * Ta) in *. set (eb := m * u * Tb) in *.
  assert (EXB : 0 <= ex <= u * q * Tp) by (unfold ex; split; [apply Rmult_le_pos; [lra|lra]|right; ring]).
  assert (EAB : 0 <= ea <= u * q * Ta).
  { unfold ea; split; [apply Rmult_le_pos; [apply Rmult_le_pos; rewrite ?U; lra|lra]|]. replace (m * u) with (u * m) by ring. apply Rmult_le_compat_r; lra. }
  assert (EBB : 0 <= eb <= u * q * Tb).
  { unfold eb; split; [apply Rmult_le_pos; [apply Rmult_le_pos; rewrite ?U; lra|lra]|]. replace (m * u) with (u * m) by ring. apply Rmult_le_compat_r; lra. }
  assert (ESUM : ex + ea + eb <= u * q * T).
  { apply Rle_trans with (u * q * Tp + u * q * Ta + u * q * Tb); [lra|]. unfold T. assert (0 <= u * q * Rabs (val p)) by (apply Rmult_le_pos; lra). lra. }
  assert (EST : ex + ea + eb <= T / 512) by (eapply Rle_trans; [exact ESUM|]; assert (u * q * T <= 1 / 512 * T) by (apply Rmult_le_compat_r; lra); lra).
  assert (UT : 0 <= u * T <= T / 512) by (rewrite U; lra).
  assert (ND : q * delta + 2 * (m * delta) = T - (Wp + Wa + Wb + Rabs (val p))) by (unfold T, Tp, Ta, Tb; ring).
  apply Rabs_le_inv in HP, HA, HB, EX, E1, E2. assert (AP : - Rabs (val p) <= val p <= Rabs (val p)) by (apply Rabs_le_inv, Rle_refl).
  assert (MXP : Tp = Wp + q * delta) by reflexivity. assert (MXA : Ta = Wa + m * delta) by reflexivity. assert (MXB : Tb = Wb + m * delta) by reflexivity.
  assert (TD : T = Tp + Ta + Tb + Rabs (val p)) by reflexivity.
  clearbody ex ea eb Tp Ta Tb T.
  destruct (fsub_near x v1 Fx F1) as (G1 & R1).
  { apply Rabs_le. lra. }
  assert (R1' : Rabs (val (fsub x v1) - (val x - val v1)) <= u * T).
  { eapply Rle_trans; [exact R1|]. rewrite U4. assert (A2 : Rabs (val x - val v1) <= 2 * T) by (apply Rabs_le; lra).
    apply Rle_trans with (u / 2 * (2 * T)); [|lra]. apply Rmult_le_compat_l; [rewrite U; lra|exact A2]. }
  apply Rabs_le_inv in R1'.
  destruct (fsub_near (fsub x v1) v2 G1 F2) as (G2 & R2).
  { apply Rabs_le. lra. }
  assert (R2' : Rabs (val (fsub (fsub x v1) v2) - (val (fsub x v1) - val v2)) <= u * T).
  { eapply Rle_trans; [exact R2|]. rewrite U4. assert (A2 : Rabs (val (fsub x v1) - val v2) <= 2 * T) by (apply Rabs_le; lra).
    apply Rle_trans with (u / 2 * (2 * T)); [|lra]. apply Rmult_le_compat_l; [rewrite U; lra|exact A2]. }
  apply Rabs_le_inv in R2'. fold y in G2, R2'. split; [exact G2|]. intros Fp.
  destruct (fadd_near y p G2 Fp) as (G3 & R3).
  { apply Rabs_le. lra. }
  assert (R3' : Rabs (val (fadd y p) - (val y + val p)) <= u * T).
  { eapply Rle_trans; [exact R3|]. rewrite U4. assert (A2 : Rabs (val y + val p) <= 2 * T) by (apply Rabs_le; lra).
    apply Rle_trans with (u / 2 * (2 * T)); [|lra]. apply Rmult_le_compat_l; [rewrite U; lra|exact A2]. }
  apply Rabs_le_inv in R3'. split; [exact G3|].
  assert (FIN : (q + 2 * m) * delta + (q + 3) * u * T = q * delta + 2 * (m * delta) + u * q * T + 3 * (u * T)) by ring.
  split; apply Rabs_le; [|rewrite FIN]; lra.
Qed.
End Logits.
