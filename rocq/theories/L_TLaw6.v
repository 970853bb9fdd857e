(** The law of [add_row] in float32 over any history, and on the generator's outputs. *)
From Coq Require Import List Arith Bool ZArith Reals Lra Lia Permutation FunctionalExtensionality.
From Flocq Require Import Core Relative IEEE754.BinarySingleNaN.
From Verif Require Import Base L_Base Spec_Graph L_Graph Spec_Sum L_Sum M_Structure L_Pairing L_MakeTree L_Program L_ProgramValid Spec_Program L_Center L_Prop1 M_Rand L_Rand L_Shuffle M_Util Spec_Ragged L_Ragged M_Array Spec_Joint M_Training Spec_MST Spec_Stats L_Stats L_Trainer Spec_Conditional L_Conditional L_Asg L_BP L_BPVec L_AddRow
  M_Float32 M_Train32 Spec_Float32 L_Float32 L_Sample32 L_Train32 L_Train32b L_Train32c L_Train32d L_Train32e L_Train32f L_Train32g L_Train32h Spec_Accuracy L_Acc1 L_Acc3 Spec_Law L_Law1 L_Law2 L_Law3 L_Law4 L_Law5 L_Grid L_Grid2 L_Grid3 L_TLaw1 L_TLaw2 Spec_TrainLaw L_TLaw3 L_TLaw4 L_TLaw5.
Import ListNotations.
Open Scope R_scope.

Lemma drift_nonneg M A delta : drift_bound M A delta -> 0 <= delta.
Proof.
  intros [(a & _ & ->)|(-> & _)]; [lra|]. apply Rmult_le_pos; [apply pos_INR|]. pose proof (bp_pos (A - 21)). lra.
Qed.

Lemma reachable_law dot ws tb prior M d A c b eta delta t n :
  dot_ok dot -> dot_accurate (Z.of_nat M) eta dot -> bp (-23) <= eta -> drift_bound M A delta ->
  table_ok ws tb -> nonneg_data tb -> (1 <= M <= 128)%nat -> (1 <= A <= 16)%Z -> (1 <= c)%nat -> ((A + 9) * Z.of_nat c + A <= 69)%Z ->
  ((Z.of_nat (num_rows tb) + 1) * Z.of_nat c < 2 ^ A)%Z -> Forall (fun w => (Z.of_nat w <= 2 ^ A)%Z) ws -> at_most c ws tb ->
  (0 <= b)%Z -> (3 * A + 2 * b + (A + 8) * Z.of_nat d + 12 <= 126)%Z ->
  reachable32 dot tb prior M t -> (n < num_rows tb)%nat -> ~ In n (s_added (t_state t)) -> neighbours_at_most d (t_state t) ->
  (forall v m, (v < num_cols tb)%nat -> (m < M)%nat ->
     bp (- b) <= polya (block ws v) (fun r => IZR (s_feat (t_state t) r m) + 1 / 2 / INR M) (fun r => Z.to_nat (datum tb n r))) ->
  row_error tb c eta delta <= 1 / 4 ->
  forall z, In z (vectors (num_cols tb) M) ->
    agree (row_error tb c eta delta) (prob (ideal (add_row32 dot tb M t n)) (drawn tb n z))
      (conditional_weight ws tb M (t_state t) n z / sumf (vectors (num_cols tb) M) (conditional_weight ws tb M (t_state t) n)).
Proof.
  intros D DA HE DB TK ND HM HA Hc HAc HN HW AM Hb HL RT Hn NI DG PB SM z Iz.
  destruct (eprobs_agree dot ws tb prior M A (Z.of_nat c) delta D TK ND HM HA (inj_le 1 c Hc) HAc HN HW AM DB t RT) as (TI & EP).
  apply (add_row32_law dot ws tb M d A (Z.of_nat c) b eta delta n); auto; try lia.
  - now apply (drift_nonneg M A).
  - intros e m1 m2 He H1 H2. now apply EP.
  - intros e m1 m2 He H1 H2. now apply EP.
Qed.

(** ** The number of draws *)
Definition rcost (i : instr) : nat := match i with I OP_ROOT _ _ _ => 1%nat | I OP_OUT _ _ _ => 1%nat | _ => 0%nat end.
Lemma rinstr_shape cell dot types ri row V E M vp ep st i : shape M (rcost i) (add_instr32_with cell dot types ri row V E M vp ep st i).
Proof.
  destruct st as [[[mi fe] me] asg], i as [op v v2 e]. unfold add_instr32_with. apply lift_shape. intros [] _.
  destruct op; cbn [rcost].
  - apply lift_shape. intros ty _. apply lift_shape. intros [[a1 a2] a3] _. exact Logic.I.
  - apply lift_shape. intros [] _. exact Logic.I.
  - cbn [shape]. rewrite vec_len. split; [lia|]. intros. exact Logic.I.
  - apply lift_shape. intros [] _. cbn [shape]. rewrite vec_len. split; [lia|]. intros. exact Logic.I.
  - exact Logic.I.
Qed.
Lemma rcost_app l l' : list_sum (map rcost (l ++ l')) = (list_sum (map rcost l) + list_sum (map rcost l'))%nat.
Proof. rewrite map_app, list_sum_app. reflexivity. Qed.
Lemma rcost_zero l : (forall i, In i l -> rcost i = 0%nat) -> list_sum (map rcost l) = 0%nat.
Proof. induction l as [|i l IH]; intros H; [reflexivity|]. cbn [map]. change (list_sum (rcost i :: map rcost l)) with (rcost i + list_sum (map rcost l))%nat. rewrite (H i), IH; [reflexivity| |now left]. intros; apply H; now right. Qed.
Lemma routs_cost edges r par (np : list (nat * option nat * list nat)) :
  list_sum (map rcost (concat (map (outs_of edges r par) np))) = list_sum (map (fun v => if (v =? r)%nat then 0 else 1)%nat (order np)).
Proof.
  induction np as [|[[v p] cs] np IH]; [reflexivity|]. cbn [map concat]. rewrite rcost_app, IH. unfold outs_of.
  change (order ((v, p, cs) :: np)) with (v :: order np). unfold list_sum.
  destruct (v =? r)%nat eqn:E; cbn [map rcost fold_right fst]; rewrite ?E; fold (order np); lia.
Qed.
Lemma but_one r V k : (r < V)%nat -> list_sum (map (fun v => if (v =? r)%nat then 0 else 1)%nat (seq k (V))) = (V - (if (k <=? r) && (r <? k + V) then 1 else 0))%nat.
Proof.
  intros _. revert k. induction V as [|V IH]; intros k; [reflexivity|]. cbn [seq map]. change (list_sum (?a :: ?l)) with (a + list_sum l)%nat. rewrite IH.
  destruct (Nat.eqb_spec k r), (Nat.leb_spec k r), (Nat.ltb_spec r (k + Datatypes.S V)), (Nat.leb_spec (Datatypes.S k) r), (Nat.ltb_spec r (Datatypes.S k + V)); cbn [andb]; lia.
Qed.
Lemma rprog_cost edges r par np V dep : rooted V (grid_edges (make_tree edges)) r par dep -> bfs_list V r par np -> (r < V)%nat ->
  list_sum (map rcost (prog_of edges r par np)) = V.
Proof.
  intros RT BL Hr. unfold prog_of. rewrite !rcost_app, routs_cost, (rcost_zero (concat _)); [|].
  - rewrite (perm_sum _ _ (fun v => if (v =? r)%nat then 0 else 1)%nat (order_perm V r par np BL)), but_one by exact Hr.
    cbn [map rcost list_sum fold_right Nat.add]. destruct (Nat.leb_spec 0 r), (Nat.ltb_spec r V); cbn [andb]; lia.
  - intros i Ii. apply in_concat in Ii. destruct Ii as (l & Il & Ii). apply in_map_iff in Il. destruct Il as ([[v p] cs] & <- & _).
    cbn [ins_of] in Ii. destruct Ii as [<-|Ii]; [reflexivity|]. apply in_map_iff in Ii. destruct Ii as (x & <- & _). reflexivity.
Qed.

Lemma add_row_shape dot ws tb M t n : tinv ws tb M (t_state t) -> shape M (num_cols tb) (add_row32 dot tb M t n).
Proof.
  intros TI. destruct TI as [FS SO AL (edges & T & ET)]. pose proof (fs_prog _ _ _ _ FS) as FP. rewrite ET in FP. cbn [ts_grid] in FP.
  destruct (prog_shape (num_cols tb) edges None (s_prog (t_state t)) T ltac:(discriminate) FP) as (r & par & dep & np & RT & BL & EP).
  assert (Hr : (r < num_cols tb)%nat) by (destruct RT; assumption).
  unfold add_row32, add_row32_with. destruct (set_mem n (s_added (t_state t))); [exact Logic.I|]. apply lift_shape. intros row _.
  rewrite <- (rprog_cost edges r par np (num_cols tb) dep RT BL Hr) at 1. rewrite <- EP.
  rewrite <- (Nat.add_0_r (list_sum _)). apply shape_bind; [apply shape_fold; intros; apply rinstr_shape|]. intros [[[a1 a2] a3] a4].
  apply lift_shape. intros s' _. exact Logic.I.
Qed.

Lemma drawn_in_sum tb n p Zs : NoDup Zs -> prob p (drawn_in tb n Zs) = sumf Zs (fun z => prob p (drawn tb n z)).
Proof.
  intros ND. unfold prob. rewrite <- expect_sum. apply expect_ext. intros [a|e]; [|symmetry; apply sumf_zero; auto].
  unfold drawn_in, drawn. set (l := classes_of tb (t_state (fst a)) n). clearbody l. induction ND as [|X Xs NI ND IH]; [reflexivity|]. rewrite sumf_cons, <- IH.
  destruct (in_dec _ l (X :: Xs)) as [I1|I1], (list_eq_dec _ l X) as [->|N1], (in_dec _ _ Xs) as [I2|I2]; try lra; try (exfalso; cbn in I1; tauto).
  - destruct I1 as [<-|I1]; tauto.
Qed.

Lemma reachable_law_generator dot ws tb prior M d A c b eta delta t n :
  dot_ok dot -> dot_accurate (Z.of_nat M) eta dot -> bp (-23) <= eta -> drift_bound M A delta ->
  table_ok ws tb -> nonneg_data tb -> (1 <= M <= 128)%nat -> (1 <= A <= 16)%Z -> (1 <= c)%nat -> ((A + 9) * Z.of_nat c + A <= 69)%Z ->
  ((Z.of_nat (num_rows tb) + 1) * Z.of_nat c < 2 ^ A)%Z -> Forall (fun w => (Z.of_nat w <= 2 ^ A)%Z) ws -> at_most c ws tb ->
  (0 <= b)%Z -> (3 * A + 2 * b + (A + 8) * Z.of_nat d + 12 <= 126)%Z ->
  reachable32 dot tb prior M t -> (n < num_rows tb)%nat -> ~ In n (s_added (t_state t)) -> neighbours_at_most d (t_state t) ->
  (forall v m, (v < num_cols tb)%nat -> (m < M)%nat ->
     bp (- b) <= polya (block ws v) (fun r => IZR (s_feat (t_state t) r m) + 1 / 2 / INR M) (fun r => Z.to_nat (datum tb n r))) ->
  row_error tb c eta delta <= 1 / 4 ->
  forall Zs, NoDup Zs -> (forall z, In z Zs -> In z (vectors (num_cols tb) M)) ->
    Rabs (run_prob (num_cols tb) (add_row32 dot tb M t n) (drawn_in tb n Zs)
          - sumf Zs (fun z => conditional_weight ws tb M (t_state t) n z / sumf (vectors (num_cols tb) M) (conditional_weight ws tb M (t_state t) n)))
    <= (exp (row_error tb c eta delta) - 1) + INR (num_cols tb) * (INR M * bp (-21)).
Proof.
  intros D DA HE DB TK ND HM HA Hc HAc HN HW AM Hb HL RT Hn NI DG PB SM Zs NZ IZ.
  pose proof (reachable_law dot ws tb prior M d A c b eta delta t n D DA HE DB TK ND HM HA Hc HAc HN HW AM Hb HL RT Hn NI DG PB SM) as LAW.
  destruct (eprobs_agree dot ws tb prior M A (Z.of_nat c) delta D TK ND HM HA (inj_le 1 c Hc) HAc HN HW AM DB t RT) as (TI & _).
  pose proof (reachable_draws dot ws tb prior M A (Z.of_nat c) D TK ND HM HA (inj_le 1 c Hc) HAc HN HW AM t n RT Hn NI) as US.
  pose proof (add_row_shape dot ws tb M t n TI) as SH. pose proof (run_near _ M (drawn_in tb n Zs) _ US (num_cols tb) SH) as RNR.
  set (p := add_row32 dot tb M t n) in *. set (Y := sumf Zs _).
  assert (E0 : 0 <= row_error tb c eta delta).
  { unfold row_error. apply Rmult_le_pos; [apply pos_INR|]. pose proof (drift_nonneg M A delta DB). pose proof (bp_pos (-23)).
    assert (0 <= IZR (2 * Z.of_nat c * (12 + 2 * Z.of_nat c) + 14)) by (apply IZR_le; nia). nra. }
  assert (AG : Rabs (prob (ideal p) (drawn_in tb n Zs) - Y) <= exp (row_error tb c eta delta) - 1).
  { apply agree_abs; [exact E0|exact (ideal_prob_01 _ _ _ US)|]. rewrite drawn_in_sum by exact NZ. apply agree_sum. intros z I. apply LAW. now apply IZ. }
  replace (run_prob (num_cols tb) p (drawn_in tb n Zs) - Y) with ((prob (ideal p) (drawn_in tb n Zs) - Y) + (run_prob (num_cols tb) p (drawn_in tb n Zs) - prob (ideal p) (drawn_in tb n Zs))) by ring.
  eapply Rle_trans; [apply Rabs_triang|]. lra.
Qed.

(** ** A case *)
Lemma seq_dot_accurate : dot_accurate 2 (4 * bp (-23)) seq_dot.
Proof.
  intros x y L W FX FY PR SU. destruct (lib0_accurate 3 ltac:(lia)) as (_ & H & _). apply H; auto. lia.
Qed.

Lemma q1_polya (sf : nat -> nat -> Z) :
  map (fun r => map (sf r) (seq 0 2)) (seq 0 5) = [[0%Z; 1%Z]; [0%Z; 0%Z]; [0%Z; 0%Z]; [1%Z; 0%Z]; [0%Z; 0%Z]] ->
  forall v m, (v < num_cols tb4)%nat -> (m < 2)%nat ->
     bp (- 3) <= polya (block [2; 3]%nat v) (fun r => IZR (sf r m) + 1 / 2 / INR 2) (fun r => Z.to_nat (datum tb4 1 r)).
Proof.
  intros F. cbn [map seq] in F. injection F as F00 F01 F10 F11 F20 F21 F30 F31 F40 F41.
  intros v m Hv Hm. change (num_cols tb4) with 2%nat in Hv.
  assert (B3 : bp (-3) = 1 / 8) by (cbn; lra). change (- (3))%Z with (-3)%Z. rewrite B3. unfold polya. change (INR 2) with 2. replace (1 / 2 / 2) with (1 / 4) by lra.
  destruct v as [|[|v]]; [| |lia]; (destruct m as [|[|m]]; [| |lia]); unfold block; cbn; rewrite ?F00, ?F01, ?F10, ?F11, ?F20, ?F21, ?F30, ?F31, ?F40, ?F41;
    change (Pos.to_nat 1) with 1%nat; cbn [rising Nat.add];
    match goal with |- _ <= ?x / ?y => assert (YP : 0 < y) by lra; apply Rmult_le_reg_r with y; [exact YP|]; unfold Rdiv at 1; replace (x / y * y) with x by (field; lra); lra end.
Qed.

Lemma C82_case_proof : dot_accurate 2 (4 * bp (-23)) seq_dot /\ dot_ok seq_dot /\ bp (-23) <= 4 * bp (-23) /\ drift_bound 2 3 0 /\
  table_ok [2; 3]%nat tb4 /\ nonneg_data tb4 /\ at_most 1 [2; 3]%nat tb4 /\
  ((3 + 9) * Z.of_nat 1 + 3 <= 69)%Z /\ ((Z.of_nat (num_rows tb4) + 1) * Z.of_nat 1 < 2 ^ 3)%Z /\
  Forall (fun w => (Z.of_nat w <= 2 ^ 3)%Z) [2; 3]%nat /\ (3 * 3 + 2 * 3 + (3 + 8) * Z.of_nat 1 + 12 <= 126)%Z /\
  reachable32 seq_dot tb4 [0%R] 2 q1 /\ (1 < num_rows tb4)%nat /\ ~ In 1%nat (s_added (t_state q1)) /\ neighbours_at_most 1 (t_state q1) /\
  (forall v m, (v < num_cols tb4)%nat -> (m < 2)%nat ->
     bp (- 3) <= polya (block [2; 3]%nat v) (fun r => IZR (s_feat (t_state q1) r m) + 1 / 2 / INR 2) (fun r => Z.to_nat (datum tb4 1 r))) /\
  row_error tb4 1 (4 * bp (-23)) 0 <= 1 / 4 /\ In [0; 1]%nat (vectors (num_cols tb4) 2) /\
  NoDup [[0; 1]; [1; 0]]%nat /\ (forall z, In z [[0; 1]; [1; 0]]%nat -> In z (vectors (num_cols tb4) 2)).
Proof.
  destruct tb4_ok as (T1 & T2 & T3). destruct q1_case as (Q1 & Q2).
  split; [exact seq_dot_accurate|]. split; [exact seq_dot_ok|]. split; [pose proof (bp_pos (-23)); lra|].
  split; [left; exists 1%nat; split; reflexivity|]. split; [exact T1|]. split; [exact T2|]. split; [exact T3|].
  split; [cbn; lia|]. split; [cbn; lia|]. split; [repeat constructor; cbn; lia|]. split; [cbn; lia|]. split; [exact Q1|].
  split; [cbn; lia|]. split; [rewrite Q2; intros [K|[]]; discriminate|]. split.
  { intros v. assert (E : ts_get_edges (s_tree (t_state q1)) = [(0, 1)%nat]) by (vm_compute; reflexivity). rewrite E.
    cbn [filter fst snd]. destruct ((0 =? v) || (1 =? v))%nat; cbn; lia. }
  split; [apply q1_polya; vm_compute; reflexivity|].
  assert (V2 : vectors (num_cols tb4) 2 = [[0; 0]; [0; 1]; [1; 0]; [1; 1]]%nat) by reflexivity. rewrite V2.
  split; [unfold row_error; change (num_cols tb4) with 2%nat; cbn; lra|]. split; [cbn; auto|].
  split; [constructor; [intros [H|[]]; discriminate|constructor; [intros []|constructor]]|]. intros z [<-|[<-|[]]]; cbn; auto.
Qed.
