(** A model for which the float32 log probability is finite and wrong. *)
From Coq Require Import List Arith Bool ZArith Reals Lra Lia.
From Flocq Require Import Core Relative IEEE754.BinarySingleNaN.
From Verif Require Import Base L_Base Spec_Graph L_Graph Spec_Sum L_Sum M_Structure L_MakeTree Spec_Joint M_Util Spec_Ragged M_Array M_Training Spec_Stats Spec_Conditional L_Asg L_Summary
  M_Float32 M_Train32 Spec_Float32 L_Float32 L_Sample32 M_Serving Spec_Serving L_Server M_Serving32 Spec_Serving32 L_Serving32a L_Serving32b L_Serving32c L_Serving32d L_Serving32f Spec_Accuracy L_Acc1 L_Acc3 L_Acc4.
Import ListNotations.
Open Scope R_scope.

(** ** A library whose first powers can be computed *)
Definition pow1 (x : f32) (n : Z) : f32 :=
  match n with 0%Z => f32_of 1 0 | 1%Z => x | _ => floor_pow x n end.
Definition lib1 : numlib := NumLib seq_dot seq_sum pow1 floor_log.

Lemma one32 : fin32 (f32_of 1 0) = true /\ val (f32_of 1 0) = 1.
Proof. split; [reflexivity|]. cbn. unfold F2R. cbn. lra. Qed.

Lemma pow1_ok : pow_ok pow1.
Proof.
  intros x n Fx Bx Hn. destruct n as [|p|p]; [| |lia].
  - cbn [pow1 Z.to_nat pow]. destruct one32 as (F & E). rewrite E. pose proof (bp_pos (-149)). repeat split; auto; try lra.
  - destruct p as [p|p|]; try exact (floor_pow_ok x _ Fx Bx Hn). cbn [pow1]. change (Z.to_nat 1) with 1%nat. rewrite pow_1. pose proof (bp_pos (-149)).
    split; [exact Fx|]. split; [lra|]. split; [discriminate|]. split; lra.
Qed.

Lemma lib1_ok : lib_ok lib1.
Proof. split; [exact seq_dot_ok|]. split; [exact seq_sum_ok|]. split; [exact pow1_ok|exact floor_log_ok]. Qed.

Lemma lib1_accurate W : (3 <= W < 2 ^ 16)%Z -> accurate W (IZR (W + 1) * bp (-23)) (bp (-10)) lib1.
Proof.
  intros HW. destruct (lib0_accurate W HW) as (A1 & A2 & A3 & A4). split; [exact A1|]. split; [exact A2|]. split; [|exact A4].
  intros x n Fx Bx Hn LO. pose proof eps_pos. assert (0 <= IZR (W + 1)) by (apply IZR_le; lia).
  assert (E0 : 0 <= IZR (W + 1) * bp (-23)) by nra.
  destruct n as [|p|p]; [| |lia].
  - cbn [l_pow lib1 pow1 Z.to_nat pow]. rewrite (proj2 one32). apply agree_refl; lra.
  - destruct p as [p|p|]; try exact (A3 x _ Fx Bx Hn LO). cbn [l_pow lib1 pow1]. change (Z.to_nat 1) with 1%nat. rewrite pow_1. apply agree_refl; lra.
Qed.

(** ** The logarithms that are added *)
Fixpoint sums (lib : numlib) (s : server32) (row : list Z) (prog : list instr) (messages : nat -> nat -> f32) : result (list f32) :=
  match prog with
  | [] => Raise TypeError
  | I op v v2 e :: prog =>
    _ <- index (v <? s3_V s)%nat ;;
    let message := messages v in
    match op with
    | OP_UP =>
      message <- observe32 lib s row v message ;;
      sums lib s row prog (set1 messages v message)
    | OP_IN =>
      _ <- index ((v2 <? s3_V s) && (e <? s3_V s - 1))%nat ;;
      let trans := if (v2 <? v)%nat then transpose (s3_trans s e) else s3_trans s e in
      let below := vec (s3_M s) (messages v2) in
      let message := fun m => fmul (message m) (l_dot lib (vec (s3_M s) (trans m)) below) in
      let message_sum := l_sum lib (vec (s3_M s) message) in
      l <- sums lib s row prog (set1 messages v (fun m => fdiv (message m) message_sum)) ;;
      Ok (message_sum :: l)
    | OP_ROOT => Ok [l_sum lib (vec (s3_M s) message)]
    | _ => sums lib s row prog messages
    end
  end.

Lemma loop_sums lib s row prog : forall messages lp l, sums lib s row prog messages = Ok l ->
  logprob_loop32 lib s row prog messages lp = Ok (fold_left (fun lp y => fadd lp (l_log lib y)) l lp).
Proof.
  induction prog as [|[op v v2 e] prog IH]; intros messages lp l H; [discriminate|]. cbn [sums logprob_loop32] in *.
  destruct (index (v <? s3_V s)%nat); [|discriminate]. cbn [bind] in *. destruct op; try (now apply IH).
  - destruct (observe32 lib s row v (messages v)); [|discriminate]. cbn [bind] in *. now apply IH.
  - destruct (index ((v2 <? s3_V s) && (e <? s3_V s - 1))%nat); [|discriminate]. cbn [bind] in *.
    destruct (sums _ _ _ _ _) as [l'|] eqn:E; [|discriminate]. cbn [bind] in H. inversion H; subst l. cbn [fold_left]. now apply IH.
  - inversion H; subst. reflexivity.
Qed.

(** A power of two above a positive number. *)
Definition above (x : f32) : option Z := match x with B754_finite false m e _ => Some (Zdigits radix2 (Zpos m) + e)%Z | _ => None end.
Definition all_above (l : list f32) : option Z :=
  fold_right (fun x a => match above x, a with Some k, Some t => Some (k + t)%Z | _, _ => None end) (Some 0%Z) l.

Lemma Some_inj (A : Type) (a b : A) : Some a = Some b -> a = b.
Proof. congruence. Qed.

Lemma above_ln x k : above x = Some k -> fin32 x = true /\ 0 < val x /\ ln (val x) <= IZR k * ln 2.
Proof.
  destruct x as [sg|sg| |sg m e H]; try discriminate. destruct sg; [discriminate|]. unfold above. intros E. apply Some_inj in E. subst k.
  assert (P : 0 < val (B754_finite false m e H)) by (apply F2R_gt_0; reflexivity).
  split; [reflexivity|]. split; [exact P|]. rewrite <- ln_bp. apply Rlt_le, ln_increasing; [exact P|].
  change (val (B754_finite false m e H)) with (F2R (Float radix2 (Zpos m) e)). unfold F2R. cbn [Fnum Fexp]. rewrite bpow_plus.
  apply Rmult_lt_compat_r; [apply bpow_gt_0|]. pose proof (Zdigits_correct radix2 (Zpos m)) as (_ & D). rewrite <- (IZR_Zpower radix2 (Zdigits radix2 (Zpos m)) (Zdigits_ge_0 radix2 (Zpos m))). apply IZR_lt.
  rewrite Z.abs_eq in D by lia. exact D.
Qed.

Lemma added_logs lib W eta lambda V l : lib_ok lib -> accurate W eta lambda lib -> (Z.of_nat V <= 2 ^ 16)%Z ->
  forall k lp n, all_above l = Some k -> (n + length l <= V)%nat -> fin32 lp = true -> Rabs (val lp) <= 256 * INR n ->
  let x := fold_left (fun lp y => fadd lp (l_log lib y)) l lp in
  fin32 x = true /\ val x <= val lp + IZR k * ln 2 + INR (length l) * (lambda + bp (-16) * INR (V + 1)).
Proof.
  intros LIB ACC HV. destruct LIB as (_ & _ & _ & LG & _). destruct ACC as (_ & _ & _ & AL).
  induction l as [|y l IH]; intros k lp n AB HN FL BL; cbn zeta.
  - inversion AB; subst. cbn. split; [exact FL|]. lra.
  - cbn [all_above fold_right] in AB. fold (all_above l) in AB. destruct (above y) as [ky|] eqn:EY; [|discriminate]. destruct (all_above l) as [t|] eqn:ET; [|discriminate].
    inversion AB; subst k. destruct (above_ln y ky EY) as (F & P & LY). cbn [length] in HN.
    destruct (LG y F P) as (Q1 & Q2). pose proof (AL y F P) as Q3.
    destruct (add_log_near lp (l_log lib y) n V HV ltac:(lia) FL Q1 BL Q2) as (L1 & L2 & L3).
    cbn [fold_left]. destruct (IH t (fadd lp (l_log lib y)) (n + 1)%nat eq_refl ltac:(lia) L1 L2) as (X1 & X2). split; [exact X1|].
    apply Rabs_le_inv in L3. apply Rabs_le_inv in Q3. rewrite plus_IZR. cbn [length]. rewrite S_INR. lra.
Qed.

(** ** The model: a hub and [n] leaves, each leaf a copy of the hub with noise *)
Section WIDE.
Variables (n1 n2 : nat).
Notation n := (n1 + n2)%nat.
Notation V := (Datatypes.S n).
Definition K : Z := 16384.
Definition star (n : nat) : list (nat * nat) := map (fun i => (0, i)%nat) (seq 1 n).
Definition wide_ws : list nat := 1%nat :: repeat 2%nat n.
(** Leaf [v] has cells [2 v - 1] and [2 v]. *)
Definition wide_model : smodel :=
  SModel (TS V (make_tree (star n))) (make_ragged_index wide_ws)
    (fun v c => K)
    (fun e c1 c2 => if (c1 =? c2)%nat then K else 0%Z)
    (fun q c => match q with 0%nat => K | _ => if Bool.eqb (Nat.even q) (c =? 0)%nat then 0%Z else K end)
    2 (repeat 0 (V * (V - 1) / 2)).
(** The hub is not observed, the first leaves are at their second value, the others
    at their first. *)
Definition wide_row : list Z := 0%Z :: concat (repeat [0; 1]%Z n1) ++ concat (repeat [1; 0]%Z n2).

Lemma star_spanning k : spanning_tree (Datatypes.S k) (star k).
Proof.
  unfold star. split; [now rewrite map_length, seq_length|]. split.
  - intros u v H. apply in_map_iff in H. destruct H as (x & E & H). inversion E; subst. apply in_seq in H. lia.
  - assert (R : forall v, (v < Datatypes.S k)%nat -> reach (map (fun i => (0, i)%nat) (seq 1 k)) 0 v).
    { intros v Hv. destruct v; [apply reach_refl|]. apply reach_adj. left. apply in_map_iff. exists (Datatypes.S v). split; [reflexivity|]. apply in_seq. lia. }
    intros u v Hu Hv. eapply reach_trans; [apply reach_sym|]; apply R; auto.
Qed.

Lemma two c : (c < 2)%nat -> c = 0%nat \/ c = 1%nat.
Proof. lia. Qed.

Lemma wide_consistent : consistent wide_ws V 2 (Z.to_nat (2 * K)) wide_model.
Proof.
  constructor; cbn [wide_model d_ri d_M d_tree d_vert d_edge d_feat d_logits].
  - unfold wide_ws. cbn [length]. now rewrite repeat_length.
  - reflexivity.
  - split; [reflexivity|lia].
  - exists (star n). split; [apply star_spanning|reflexivity].
  - intros v Hv. rewrite Z2Nat.id by (unfold K; lia). reflexivity.
  - intros e v1 v2 c _ Hc. destruct (two c Hc) as [-> | ->]; split; reflexivity.
  - intros. unfold K. lia.
  - intros e c1 c2 _ _ _. destruct (c1 =? c2)%nat; unfold K; lia.
  - intros q c _ _. destruct q; [unfold K; lia|]. destruct (Bool.eqb _ _); unfold K; lia.
  - now rewrite repeat_length.
Qed.
End WIDE.

(** ** Ten leaves against twenty-four *)
Definition wm := wide_model 10 24.
Definition wws := wide_ws 10 24.
Definition wrow := wide_row 10 24.

Lemma each35 (P : nat -> Prop) : Forall P (seq 0 35) -> forall v, (v < 35)%nat -> P v.
Proof. intros F v H. rewrite Forall_forall in F. apply F. apply in_seq. lia. Qed.

Lemma wide_layout v : (v < 35)%nat ->
  block wws v = (if (v =? 0)%nat then [0] else [2 * v - 1; 2 * v])%nat /\
  (v <> 0%nat -> nth (2 * v - 1) wrow 0%Z = (if (v <=? 10)%nat then 0 else 1)%Z /\ nth (2 * v) wrow 0%Z = (if (v <=? 10)%nat then 1 else 0)%Z /\ Nat.even (2 * v - 1) = false /\ Nat.even (2 * v) = true /\ (0 < 2 * v - 1)%nat).
Proof.
  revert v. apply each35. change (seq 0 35) with (map (fun i => i) (seq 0 35)). cbn [seq map].
  repeat constructor; intros; try congruence; try (split; [reflexivity|]; split; [reflexivity|]; split; [reflexivity|]; split; [reflexivity|]; lia).
Qed.

Lemma wide_block v c : (v < 35)%nat -> (c < 2)%nat -> (total (block wws v) (fun q => d_feat wm q c) = K)%Z.
Proof.
  intros Hv Hc. destruct (wide_layout v Hv) as (E & L). rewrite E. destruct (Nat.eqb_spec v 0) as [-> | NZ]; [reflexivity|].
  destruct (L NZ) as (_ & _ & E1 & E2 & P). unfold total. cbn [map fold_right]. unfold wm, wide_model. cbn [d_feat].
  destruct (2 * v - 1)%nat as [|a] eqn:EA; [lia|]. destruct (2 * v)%nat as [|b] eqn:EB; [lia|]. rewrite E1, E2.
  destruct (two c Hc) as [-> | ->]; reflexivity.
Qed.

Lemma wide_counts : counts_below 16 wws (Z.to_nat (2 * K)) wm.
Proof.
  split; [rewrite Z2Nat.id; unfold K; lia|]. intros v c Hv Hc. change (length wws) with 35%nat in Hv. change (d_M wm) with 2%nat in Hc. split.
  - revert v Hv. apply each35. cbn [seq]. repeat constructor.
  - rewrite (wide_block v c Hv Hc). reflexivity.
Qed.

Lemma wide_once v : (v < 35)%nat -> (block_sum wws wrow v <= 1)%Z.
Proof. revert v. apply each35. cbn [seq]. repeat constructor; intros H; vm_compute in H; discriminate. Qed.

Lemma prodf_bp {A} (l : list A) (h : A -> Z) : prodf l (fun x => bp (h x)) = bp (fold_right Z.add 0%Z (map h l)).
Proof. induction l as [|x l IH]; [reflexivity|]. cbn [prodf fold_right map]. fold (prodf l (fun x => bp (h x))). now rewrite IH, bpow_plus. Qed.

Lemma prodf_above {A} (l : list A) f (h : A -> Z) : (forall x, In x l -> bp (h x) <= f x) -> bp (fold_right Z.add 0%Z (map h l)) <= prodf l f.
Proof.
  induction l as [|x l IH]; intros B; [cbn; lra|]. cbn [prodf fold_right map]. rewrite bpow_plus.
  apply Rmult_le_compat; [apply bpow_ge_0|apply bpow_ge_0|apply B; now left|]. apply IH. intros y I. apply B. now right.
Qed.

Lemma wide_vert v c : vert_prob wm v c = 1 / 2.
Proof. unfold vert_prob, wm, wide_model, K. cbn. lra. Qed.

Lemma wide_edge e : edge_prob wm e 0 0 = 65537 / 131076.
Proof. unfold edge_prob, wm, wide_model, K. cbn. lra. Qed.

Lemma wide_feat v q c : (v < 35)%nat -> (c < 2)%nat -> v <> 0%nat -> feat_prob wws wm v q c = (IZR (d_feat wm q c) + 1 / 4) / (16384 + 1 / 2).
Proof.
  intros Hv Hc NZ. unfold feat_prob. change (d_M wm) with 2%nat. change (INR 2) with (1 + 1). f_equal; [lra|].
  pose proof (wide_block v c Hv Hc) as B. destruct (wide_layout v Hv) as (E & _). rewrite E in *. destruct (Nat.eqb_spec v 0) as [-> | _]; [congruence|].
  unfold total in B. cbn [map fold_right] in B. apply (f_equal IZR) in B. rewrite !plus_IZR in B. unfold K in B. unfold sumf. cbn [fold_right]. lra.
Qed.

Lemma wide_exact : bp (-229) <= row_prob wws wm wrow.
Proof.
  set (z := repeat 0%nat 35).
  assert (NZ : forall v, nth v z 0%nat = 0%nat). { intros v. unfold z. destruct (Nat.lt_ge_cases v 35); [apply nth_repeat|]. apply nth_overflow. now rewrite repeat_length. }
  assert (POS : forall z, In z (vectors 35 2) -> 0 <= latent_prob wm z * row_given wws wm wrow z).
  { clear z NZ. intros z I. apply in_vectors in I. destruct I as (L & B). assert (NB : forall v, (v < 35)%nat -> (nth v z 0 < 2)%nat) by (intros v Hv; apply B, nth_In; lia).
    apply Rmult_le_pos.
    - unfold latent_prob, tree_weight. apply Rmult_le_pos; apply prodf_nonneg.
      + intros v _. rewrite wide_vert. lra.
      + intros (e & v1 & v2) _. destruct (nth e (ts_get_edges (d_tree wm)) (0, 0)%nat) as (a & b). rewrite !wide_vert.
        assert (P : 0 <= edge_prob wm e (nth v1 z 0%nat) (nth v2 z 0%nat)).
        { unfold edge_prob, wm, wide_model, K. cbn. destruct (_ =? _)%nat; lra. }
        lra.
    - unfold row_given. change (ts_V (d_tree wm)) with 35%nat. apply prodf_nonneg. intros v Iv. apply in_seq in Iv. apply prodf_nonneg. intros q Iq.
      apply Rlt_le, powerRZ_lt. apply (L_Acc3.feat_pos wws 35 2 (Z.to_nat (2 * K)) wm 16 (wide_consistent 10 24) wide_counts ltac:(lia) v q); [lia|exact Iq|apply NB; lia]. }
  unfold row_prob. change (ts_V (d_tree wm)) with 35%nat. change (d_M wm) with 2%nat.
  apply Rle_trans with (latent_prob wm z * row_given wws wm wrow z).
  2:{ apply (sumf_member_le (vectors 35 2) (fun z => latent_prob wm z * row_given wws wm wrow z) z); [exact POS|]. apply in_vectors. unfold z. rewrite repeat_length. split; [reflexivity|].
      intros k I. apply repeat_spec in I. lia. }
  change (-229)%Z with (-35 + -194)%Z. rewrite bpow_plus. apply Rmult_le_compat; try apply bpow_ge_0.
  - unfold latent_prob, tree_weight. change (ts_V (d_tree wm)) with 35%nat. change (-35)%Z with (-35 + 0)%Z. rewrite bpow_plus. apply Rmult_le_compat; try apply bpow_ge_0.
    + change (-35)%Z with (fold_right Z.add 0 (map (fun _ => -1) (seq 0 35)))%Z. apply prodf_above. intros v _. rewrite wide_vert. cbn. lra.
    + set (l := combine _ _). replace 0%Z with (fold_right Z.add 0 (map (fun _ : nat * (nat * nat) => 0) l))%Z by (clear; induction l as [|x l IH]; [reflexivity|]; cbn [map fold_right]; rewrite IH; reflexivity).
      apply prodf_above. intros (e & v1 & v2) _. rewrite !NZ. destruct (nth e (ts_get_edges (d_tree wm)) (0, 0)%nat) as (a & b). rewrite !wide_vert, wide_edge. cbn. lra.
  - unfold row_given. change (ts_V (d_tree wm)) with 35%nat.
    change (-194)%Z with (fold_right Z.add 0 (map (fun v => if (v =? 0)%nat then 0 else if (v <=? 10)%nat then -17 else -1) (seq 0 35)))%Z.
    apply prodf_above. intros v I. apply in_seq in I. rewrite NZ. destruct (wide_layout v ltac:(lia)) as (E & L). rewrite E.
    destruct (Nat.eqb_spec v 0) as [-> | NV]; [cbn; lra|]. destruct (L NV) as (R1 & R2 & E1 & E2 & P).
    unfold prodf. cbn [fold_right]. rewrite R1, R2, !wide_feat by (try lia; auto). unfold wm, wide_model. cbn [d_feat].
    destruct (2 * v - 1)%nat as [|a] eqn:EA; [lia|]. destruct (2 * v)%nat as [|b] eqn:EB; [lia|]. rewrite E1, E2.
    change ((if Bool.eqb true (0 =? 0)%nat then 0 else K)%Z) with 0%Z. change ((if Bool.eqb false (0 =? 0)%nat then 0 else K)%Z) with 16384%Z.
    destruct (v <=? 10)%nat; rewrite powerRZ_O, powerRZ_1; [change (bp (-17)) with (/ IZR 131072)|change (bp (-1)) with (/ IZR 2)]; lra.
Qed.

Definition known (r : result (list f32)) : option (nat * Z) :=
  match r with Ok l => match all_above l with Some k => Some (length l, k) | None => None end | Raise _ => None end.

Lemma wide_sums : match tree_server32 lib1 wm with Ok s => known (sums lib1 s wrow (s3_prog s) (s3_vert s)) | Raise _ => None end = Some (35%nat, (-359)%Z).
Proof. vm_cast_no_check (eq_refl (Some (35%nat, (-359)%Z))). Qed.

Lemma wide_wrong : exists s x, tree_server32 lib1 wm = Ok s /\ logprob_row32 lib1 s wrow = Ok x /\ fin32 x = true /\ val x < ln (row_prob wws wm wrow) - 60.
Proof.
  destruct (logprob_finite_one lib1 wws 35 2 (Z.to_nat (2 * K)) wm wrow lib1_ok (wide_consistent 10 24) wide_counts) as (s & x & E1 & E2 & F).
  { reflexivity. } { unfold wrow, wide_row. cbn [concat repeat app]. repeat constructor; lia. } { exact wide_once. }
  exists s, x. split; [exact E1|]. split; [exact E2|]. split; [exact F|].
  pose proof wide_sums as WS. rewrite E1 in WS. destruct (sums lib1 s wrow (s3_prog s) (s3_vert s)) as [l|] eqn:ES; [|discriminate]. cbn [known] in WS.
  destruct (all_above l) as [k|] eqn:EA; [|discriminate]. apply Some_inj in WS. apply pair_equal_spec in WS. destruct WS as (LL & ->).
  assert (EX : logprob_loop32 lib1 s wrow (s3_prog s) (s3_vert s) fzero = Ok x).
  { unfold logprob_row32 in E2. destruct (length wrow =? s3_R s)%nat; exact E2 || discriminate. }
  rewrite (loop_sums _ _ _ _ _ fzero l ES) in EX. assert (XE : fold_left (fun lp y => fadd lp (l_log lib1 y)) l fzero = x) by (now inversion EX).
  destruct (added_logs lib1 4 (5 * bp (-23)) (bp (-10)) 35 l lib1_ok (lib1_accurate 4 ltac:(lia)) ltac:(lia) (-359)%Z fzero 0%nat EA ltac:(lia) eq_refl) as (_ & B).
  { cbn. rewrite Rabs_R0. lra. }
  rewrite XE, LL in B. change (val fzero) with 0 in B.
  assert (LR : IZR (-229) * ln 2 <= ln (row_prob wws wm wrow)).
  { rewrite <- ln_bp. destruct wide_exact as [H|<-]; [|lra]. apply Rlt_le, ln_increasing; [apply bpow_gt_0|exact H]. }
  assert (L2 : 1 / 2 <= ln 2). { rewrite <- (ln_exp (1 / 2)). destruct exp_half as [H| ->]; [|lra]. apply Rlt_le, ln_increasing; [apply exp_pos|exact H]. }
  assert (T : INR 35 * (bp (-10) + bp (-16) * INR (35 + 1)) <= 1). { rewrite !INR_IZR_INZ. change (Z.of_nat 35) with 35%Z. change (Z.of_nat (35 + 1)) with 36%Z. change (bp (-10)) with (/ IZR 1024). change (bp (-16)) with (/ IZR 65536). lra. }
  lra.
Qed.

(** ** The statement *)
Lemma wide_trees_wrong : exists lib ws V M N m row, lib_ok lib /\ accurate 4 (5 * bp (-23)) (bp (-10)) lib /\ consistent ws V M N m /\ counts_below 16 ws N m /\
  length row = list_sum ws /\ Forall (fun x => (0 <= x)%Z) row /\ (forall v, (v < V)%nat -> (block_sum ws row v <= 1)%Z) /\
  (Z.of_nat (M * M) <= 4)%Z /\ (forall v, (v < V)%nat -> (Z.of_nat (nth v ws 0%nat) <= 4)%Z) /\
  exists s x, tree_server32 lib m = Ok s /\ logprob_row32 lib s row = Ok x /\ is_finite x = true /\ B2R x < ln (row_prob ws m row) - 60.
Proof.
  exists lib1, wws, 35%nat, 2%nat, (Z.to_nat (2 * K)), wm, wrow. split; [exact lib1_ok|]. split; [exact (lib1_accurate 4 ltac:(lia))|]. split; [exact (wide_consistent 10 24)|].
  split; [exact wide_counts|]. split; [reflexivity|]. split; [unfold wrow, wide_row; cbn [concat repeat app]; repeat constructor; lia|]. split; [exact wide_once|].
  split; [reflexivity || lia|]. split; [apply each35; cbn [seq]; repeat constructor; discriminate|]. exact wide_wrong.
Qed.
