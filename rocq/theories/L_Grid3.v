(** The law of [TreeCatServer.sample] on the generator's outputs. *)
From Coq Require Import List Arith Bool ZArith Reals Lra Lia Permutation.
From Flocq Require Import Core Relative IEEE754.BinarySingleNaN.
From Verif Require Import Base L_Base Spec_Graph L_Graph Spec_Sum L_Sum M_Structure L_Program L_ProgramValid Spec_Program L_Center M_Rand L_Rand L_Shuffle M_Util Spec_Ragged L_Ragged M_Array M_Training Spec_MST Spec_Stats L_Stats L_Estimate Spec_Conditional L_BP L_BPVec L_AddRow
  M_Float32 M_Train32 Spec_Float32 L_Float32 L_Sample32 M_Serving Spec_Serving L_Server L_Serve1 M_Serving32 Spec_Serving32 L_Serving32a L_Serving32b L_Serving32c L_Serving32d M_Sample32 L_ServeSample2 Spec_Accuracy L_Acc1 Spec_Law L_Law6 L_Grid L_Grid2.
Import ListNotations.
Open Scope R_scope.

Definition cost (n : nat) (counts : list Z) (i : instr) : nat :=
  match i with I OP_DOWN v _ _ => (n * (1 + Z.to_nat (nth v counts 0%Z)))%nat | _ => 0%nat end.
Lemma sum_ones {A} c (l : list A) : list_sum (map (fun _ => c) l) = (length l * c)%nat.
Proof. induction l as [|x l IH]; [reflexivity|]. change (map (fun _ => c) (x :: l)) with (c :: map (fun _ : A => c) l). change (list_sum (c :: map (fun _ : A => c) l)) with (c + list_sum (map (fun _ : A => c) l))%nat. rewrite IH. cbn [length]. lia. Qed.

Section SHAPE.
Variables (lib : numlib) (ws : list nat) (V M B n : nat) (s : server32) (counts row : list Z).
Hypothesis EV : s3_V s = V.
Hypothesis EM : s3_M s = M.
Hypothesis ER : s3_ri s = make_ragged_index ws.
Hypothesis LW : length ws = V.
Hypothesis CL : length counts = V.
Hypothesis BM : (M <= B)%nat.
Hypothesis BW : forall v, (v < V)%nat -> (nth v ws 0 <= B)%nat.

Lemma vec_len k (f : nat -> f32) : length (vec k f) = k.
Proof. unfold vec. now rewrite map_length, seq_length. Qed.
Lemma classes_shape mo v vs : shape B n (draw_classes32 M n mo v vs).
Proof.
  unfold draw_classes32. replace n with (list_sum (map (fun _ : nat => 1%nat) (seq 0 n))) at 1 by (rewrite sum_ones, seq_length; lia).
  apply shape_fold. intros i st _. cbn [shape]. rewrite vec_len. auto.
Qed.
Lemma cells_shape beg fin cl fs : (fin - beg <= B)%nat -> shape B n (draw_cells32 s n beg fin cl fs).
Proof.
  intros H. unfold draw_cells32. replace n with (list_sum (map (fun _ : nat => 1%nat) (seq 0 n))) at 1 by (rewrite sum_ones, seq_length; lia).
  apply shape_fold. intros i st _. cbn [shape]. rewrite map_length, seq_length. auto.
Qed.
Lemma lift_shape {A A'} D (r : result A) (f : A -> fprog A') : (forall a, r = Ok a -> shape B D (f a)) -> shape B D (fbind (flift r) f).
Proof. destruct r as [a|e]; intros H; [apply H; reflexivity|exact Logic.I]. Qed.
Lemma instr_shape st i : shape B (cost n counts i) (sample_instr32_with lib (observe_nonzero32 lib) s n counts row st i).
Proof.
  destruct st as [[[mi mo] vs] fs], i as [op v v2 e]. unfold sample_instr32_with. apply lift_shape. intros [] E. unfold index in E.
  destruct (v <? s3_V s)%nat eqn:Hv; [|discriminate]. apply Nat.ltb_lt in Hv. rewrite EV in Hv. destruct op.
  1-4: repeat (apply lift_shape; intros); exact Logic.I.
  cbn [cost]. replace (n * (1 + Z.to_nat (nth v counts 0%Z)))%nat with (n + Z.to_nat (nth v counts 0%Z) * n)%nat by lia.
  apply shape_bind; [rewrite EM; apply classes_shape|]. intros vs'. rewrite ER, !mri_get by lia. cbn [flift fbind].
  apply lift_shape. intros c EC. apply lift_shape. intros _ _.
  assert (c = nth v counts 0%Z) as ->.
  { unfold get in EC. destruct (nth_error counts v) eqn:EN; [|discriminate]. inversion EC; subst. symmetry. now apply nth_error_nth. }
  replace (Z.to_nat (nth v counts 0%Z) * n)%nat with (list_sum (map (fun _ : nat => n) (seq 0 (Z.to_nat (nth v counts 0%Z)))) + 0)%nat by (rewrite sum_ones, seq_length; lia).
  apply shape_bind; [|intros; exact Logic.I]. apply shape_fold. intros j fs' _. apply cells_shape.
  rewrite Nat.add_1_r, sum_firstn_S by lia. specialize (BW v Hv). lia.
Qed.

Lemma sample_shape : shape B (list_sum (map (cost n counts) (s3_prog s))) (sample32 lib s n counts (Some row)).
Proof.
  unfold sample32, sample32_with. apply lift_shape. intros [] _. apply lift_shape. intros [] _.
  rewrite <- (Nat.add_0_r (list_sum _)). apply shape_bind; [apply shape_fold; intros; apply instr_shape|]. intros [[[a1 a2] a3] a4]. exact Logic.I.
Qed.
End SHAPE.

Lemma cost_app n counts l l' : list_sum (map (cost n counts) (l ++ l')) = (list_sum (map (cost n counts) l) + list_sum (map (cost n counts) l'))%nat.
Proof. rewrite map_app, list_sum_app. reflexivity. Qed.
Lemma cost_zero n counts l : (forall i, In i l -> cost n counts i = 0%nat) -> list_sum (map (cost n counts) l) = 0%nat.
Proof. induction l as [|i l IH]; intros H; [reflexivity|]. cbn [map]. change (list_sum (cost n counts i :: map (cost n counts) l)) with (cost n counts i + list_sum (map (cost n counts) l))%nat. rewrite (H i), IH; [reflexivity| |now left]. intros; apply H; now right. Qed.

Lemma perm_sum (l l' : list nat) (f : nat -> nat) : Permutation l l' -> list_sum (map f l) = list_sum (map f l').
Proof. unfold list_sum. intros P. induction P; cbn [map fold_right] in *; lia. Qed.

Lemma outs_cost n counts edges r par (np : list (nat * option nat * list nat)) :
  list_sum (map (cost n counts) (concat (map (outs_of edges r par) np))) = list_sum (map (fun v => n * (1 + Z.to_nat (nth v counts 0%Z)))%nat (order np)).
Proof.
  induction np as [|[[v p] cs] np IH]; [reflexivity|]. cbn [map concat]. rewrite cost_app, IH. unfold outs_of.
  change (order ((v, p, cs) :: np)) with (v :: order np). unfold list_sum.
  destruct (v =? r)%nat; cbn [map cost fold_right fst]; fold (order np); lia.
Qed.
Lemma prog_cost n counts edges r par np V dep : rooted V (grid_edges (make_tree edges)) r par dep -> bfs_list V r par np ->
  list_sum (map (cost n counts) (prog_of edges r par np)) = list_sum (map (fun v => n * (1 + Z.to_nat (nth v counts 0%Z)))%nat (seq 0 V)).
Proof.
  intros RT BL. unfold prog_of. rewrite !cost_app, outs_cost, (cost_zero n counts (concat _)); [cbn [map cost list_sum fold_right Nat.add]|].
  - apply perm_sum. apply (order_perm V r par np BL).
  - intros i Ii. apply in_concat in Ii. destruct Ii as (l & Il & Ii). apply in_map_iff in Il. destruct Il as ([[v p] cs] & <- & _).
    cbn [ins_of] in Ii. destruct Ii as [<-|Ii]; [reflexivity|]. apply in_map_iff in Ii. destruct Ii as (c & <- & _). reflexivity.
Qed.

Lemma total_cost n counts : (forall v, (v < length counts)%nat -> (0 <= nth v counts 0)%Z) ->
  Z.of_nat (list_sum (map (fun v => n * (1 + Z.to_nat (nth v counts 0%Z)))%nat (seq 0 (length counts)))) = (Z.of_nat n * (Z.of_nat (length counts) + fold_right Z.add 0%Z counts))%Z.
Proof.
  induction counts as [|x l IH]; intros P; [cbn; lia|]. cbn [length seq map fold_right]. change (list_sum (?a :: ?l)) with (a + list_sum l)%nat.
  rewrite <- seq_shift, map_map. cbn [nth]. rewrite Nat2Z.inj_add, IH by (intros v Hv; apply (P (Datatypes.S v)); cbn [length]; lia).
  specialize (P 0%nat ltac:(cbn [length]; lia)). cbn [nth] in P. lia.
Qed.

Lemma ideal_prob_01 {A} (Q : A -> Prop) b (p : fprog A) : draws_usable Q p -> 0 <= prob (ideal p) b <= 1.
Proof.
  induction p as [a|e|w k IH]; intros HU.
  - unfold prob. cbn [ideal expect]. destruct (b a); lra.
  - destruct HU.
  - cbn [draws_usable] in HU. destruct HU as (U & HK). unfold prob. cbn [ideal expect].
    pose proof (total_pos w U) as PT. unfold total in PT. set (f := fun r => match r with Ok a => if b a then 1 else 0 | Raise _ => 0 end).
    destruct (map B2R w) as [|x l] eqn:EW; [cbn in PT; lra|]. rewrite <- EW in *. destruct (Req_EM_T (rsum (map B2R w)) 0) as [Z|_]; [lra|].
    rewrite map_length. set (S0 := rsum (map B2R w)) in *.
    assert (NTH : forall i, nth i (map B2R w) 0 = val (nth i w fzero)) by (intros i; apply (map_nth (fun x : f32 => val x) w fzero)).
    assert (T : forall i, (i < length w)%nat -> 0 <= nth i (map B2R w) 0 / S0 * expect (ideal (k i)) f <= nth i (map B2R w) 0 / S0).
    { intros i Hi. rewrite NTH. destruct (weight_ok w U i) as (_ & W1). destruct (Req_dec (val (nth i w fzero)) 0) as [->|NZ]; [unfold Rdiv; lra|].
      assert (0 <= val (nth i w fzero) / S0) by (apply Rmult_le_pos; [lra|left; now apply Rinv_0_lt_compat]).
      specialize (IH i (HK i Hi ltac:(lra))). unfold prob in IH. fold f in IH. nra. }
    split; [apply sumf_nonneg; intros i Hi; apply in_seq in Hi; apply T; lia|].
    eapply Rle_trans; [apply sumf_le; intros i Hi; apply in_seq in Hi; apply (T i); lia|].
    rewrite sumf_div. rewrite <- (map_length B2R w), sumf_seq_nth. fold S0. unfold Rdiv. rewrite Rinv_r by lra. lra.
Qed.

Lemma agree_abs e x y : 0 <= e -> 0 <= x <= 1 -> agree e x y -> Rabs (x - y) <= exp e - 1.
Proof.
  intros He Hx (Y0 & Y1 & Y2). rewrite exp_Ropp in Y1. assert (E1 : 1 <= exp e) by (pose proof (exp_ineq1_le e); lra).
  assert (Y1' : y <= x * exp e).
  { apply Rmult_le_reg_r with (/ exp e); [apply Rinv_0_lt_compat; lra|]. rewrite Rmult_assoc, Rinv_r by lra. lra. }
  apply Rabs_le. split; [nra|]. destruct (Rle_dec y 1); nra.
Qed.

Lemma one_of_sum (p : rprog (list (list Z))) Xs : NoDup Xs -> prob p (one_of Xs) = sumf Xs (prob_of p).
Proof.
  intros ND. unfold prob_of, prob. rewrite <- expect_sum. apply expect_ext. intros [a|e]; [|symmetry; apply sumf_zero; auto].
  unfold one_of. induction ND as [|X Xs NI ND IH]; [reflexivity|]. rewrite sumf_cons, <- IH. 
  destruct (in_dec _ a (X :: Xs)) as [I1|I1], (list_eq_dec _ a X) as [->|N1], (in_dec _ _ Xs) as [I2|I2]; try lra; try (exfalso; cbn in I1; tauto).
  - destruct I1 as [<-|I1]; tauto.
Qed.

Lemma samples_of_generator : forall lib ws V M N m A W b c d eta lambda row n counts data,
  lib_ok lib -> accurate W eta lambda lib -> consistent ws V M N m -> counts_below A ws N m -> degree_at_most d m ->
  (6 <= A <= 16)%Z -> (0 <= b <= 140)%Z -> (0 <= c)%Z -> (2 * (A + 3 + (b + 4) * c) + (A + 8) * Z.of_nat d + 24 <= 126)%Z ->
  bp (-23) <= eta -> (Z.of_nat (M * M) <= W)%Z -> (forall v, (v < V)%nat -> (Z.of_nat (nth v ws 0%nat) <= W)%Z) ->
  data = Some row \/ data = None /\ row = repeat 0%Z (list_sum ws) ->
  length row = list_sum ws -> Forall (fun x => (0 <= x)%Z) row ->
  (forall v, (v < V)%nat -> (block_sum ws row v <= c)%Z) ->
  (forall v q k, (v < V)%nat -> In q (block ws v) -> (k < M)%nat -> nth q row 0%Z <> 0%Z -> bp (- b) <= feat_prob ws m v q k) ->
  length counts = V -> (forall v, (v < V)%nat -> (0 <= nth v counts 0 <= 127)%Z) ->
  (forall v, (v < V)%nat -> (0 < nth v counts 0)%Z -> (1 <= nth v ws 0)%nat) ->
  let total := IZR (130 * Z.of_nat V + 4 * Z.of_nat (list_sum ws) + 16 * fold_right Z.add 0%Z row + 16 * fold_right Z.add 0%Z counts) * eta in
  let draws := (n * (V + Z.to_nat (fold_right Z.add 0%Z counts)))%nat in
  total <= 1 / 4 ->
  exists s, tree_server32 lib m = Ok s /\ forall B Xs, (M <= B)%nat -> (forall v, (v < V)%nat -> (nth v ws 0 <= B)%nat) -> NoDup Xs ->
    (forall X, In X Xs -> length X = n /\ forall x, In x X -> legal_row ws counts x) ->
    Rabs (run_prob draws (sample32 lib s n counts data) (one_of Xs)
          - sumf Xs (fun X => prodf X (fun x => arrangements ws counts x * (row_prob ws m (merge row x) / row_prob ws m row))))
    <= (exp (INR n * total) - 1) + INR draws * (INR B * bp (-21)).
Proof.
  intros lib ws V M N m A W b c d eta lambda row n counts data LIB ACC C CB DG HA Hb Hc HL HE WM WW DT RL RN RC RF CL C0 CW total draws TS.
  destruct (sample_follows_law lib ws V M N m A W b c d eta lambda row n counts data LIB ACC C CB DG HA Hb Hc HL HE WM WW DT RL RN RC RF CL C0 CW TS) as (s & ES & LAW).
  exists s. split; [exact ES|]. intros B Xs BM BW ND LX.
  destruct (sample_usable32 lib ws V M N m A b c n counts row LIB C CB HA Hb Hc ltac:(nia) CL C0 CW RL RN RC RF) as (s' & ES' & US). rewrite ES in ES'. inversion ES'; subst s'. clear ES'.
  destruct (build32 lib ws V M N m A LIB C CB HA) as (s' & ES' & TB). rewrite ES in ES'. inversion ES'; subst s'. clear ES'.
  set (mst := L_Estimate.naive_mst). assert (MC : mst_contract mst) by exact L_Estimate.naive_mst_contract.
  destruct (build_server ws V M N m C mst MC) as (sx & edges & EX & SF & ST & SV & SE & SFe & _ & _ & EP).
  destruct (sf_tree _ _ _ _ _ SF) as (ET & T). pose proof EP as EP'. rewrite ET in EP. cbn [ts_grid] in EP.
  destruct (prog_shape V edges None (sv_prog sx) T ltac:(discriminate) EP) as (r & par & dep & np & RT & BL & EQ).
  assert (EQ3 : s3_prog s = prog_of edges r par np).
  { pose proof (t3_prog _ _ _ _ _ _ TB) as E3. rewrite <- ST in E3. rewrite EP' in E3. inversion E3. congruence. }
  assert (ED : sample32 lib s n counts data = sample32 lib s n counts (Some row)).
  { destruct DT as [->|(-> & ->)]; [reflexivity|]. unfold sample32, sample32_with. now rewrite (t3_R _ _ _ _ _ _ TB). }
  rewrite ED in LAW |- *.
  assert (ND0 : (0 <= fold_right Z.add 0%Z counts)%Z).
  { assert (G : forall l, (forall v, (v < length l)%nat -> (0 <= nth v l 0)%Z) -> (0 <= fold_right Z.add 0%Z l)%Z).
    { clear. induction l as [|x l IH]; intros P; cbn; [lia|]. specialize (IH (fun v Hv => P (Datatypes.S v) ltac:(cbn; lia))). specialize (P 0%nat ltac:(cbn; lia)). cbn in P. lia. }
    apply G. intros v Hv. apply C0. lia. }
  assert (EC : list_sum (map (cost n counts) (s3_prog s)) = draws).
  { rewrite EQ3, (prog_cost n counts edges r par np V dep RT BL). apply Nat2Z.inj. rewrite <- CL, total_cost by (intros v Hv; apply C0; lia). unfold draws. lia. }
  pose proof (sample_shape lib ws V M B n s counts row (t3_V _ _ _ _ _ _ TB) (t3_M _ _ _ _ _ _ TB) (t3_ri _ _ _ _ _ _ TB) (cm_width _ _ _ _ _ C) CL BM BW) as SH.
  rewrite EC in SH. pose proof (run_near _ B (one_of Xs) _ US draws SH) as RNR.
  set (p := sample32 lib s n counts (Some row)) in *. set (Y := sumf Xs _).
  assert (E0 : 0 <= INR n * total).
  { apply Rmult_le_pos; [apply pos_INR|]. unfold total. pose proof (bp_pos (-23)). apply Rmult_le_pos; [|lra]. apply IZR_le.
    assert (G : (0 <= fold_right Z.add 0%Z row)%Z) by (clear - RN; induction RN; cbn; lia). lia. }
  assert (AG : Rabs (prob (ideal p) (one_of Xs) - Y) <= exp (INR n * total) - 1).
  { apply agree_abs; [exact E0|exact (ideal_prob_01 _ _ _ US)|]. rewrite one_of_sum by exact ND. apply agree_sum. intros X IX. apply LAW; apply LX; exact IX. }
  replace (run_prob draws p (one_of Xs) - Y) with ((prob (ideal p) (one_of Xs) - Y) + (run_prob draws p (one_of Xs) - prob (ideal p) (one_of Xs))) by ring.
  eapply Rle_trans; [apply Rabs_triang|]. lra.
Qed.

Lemma ex_weights : usable [f32_of 1 0; f32_of 0 0; f32_of 3 0].
Proof.
  destruct (f32_int 1 ltac:(lia)) as (F1 & E1), (f32_int 0 ltac:(lia)) as (F0 & E0), (f32_int 3 ltac:(lia)) as (F2 & E2).
  assert (4 <= bp 100) by (change 4 with (bp 2); apply bpow_le; lia).
  split; [cbn [length]; lia|]. split; [repeat constructor; auto; rewrite ?E1, ?E0, ?E2; lra|]. exists (f32_of 1 0). split; [now left|]. rewrite E1. lra.
Qed.
Lemma ex_case_grid : NoDup [[[1; 1; 0; 3; 0; 0]; [0; 2; 0; 1; 1; 1]]; [[1; 1; 0; 3; 0; 0]; [1; 1; 0; 0; 0; 3]]]%Z /\
  (forall X, In X [[[1; 1; 0; 3; 0; 0]; [0; 2; 0; 1; 1; 1]]; [[1; 1; 0; 3; 0; 0]; [1; 1; 0; 0; 0; 3]]]%Z -> length X = 2%nat /\ forall x, In x X -> legal_row [2; 1; 3]%nat [2; 0; 3]%Z x) /\
  (forall v, (v < 3)%nat -> (nth v [2; 1; 3] 0 <= 3)%nat).
Proof.
  split; [|split].
  - constructor; [intros [H|[]]; discriminate|]. constructor; [intros []|constructor].
  - intros X [<-|[<-|[]]]; (split; [reflexivity|]); intros x [<-|[<-|[]]]; (split; [reflexivity|]; split; [intros y I; cbn in I; lia|]; intros v Hv; cbn [length] in Hv; destruct v as [|[|[|v]]]; [reflexivity..|lia]).
  - intros v Hv. destruct v as [|[|[|v]]]; cbn; lia.
Qed.
