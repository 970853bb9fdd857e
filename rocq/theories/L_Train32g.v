(** A trainer whose float32 weights all underflow. *)
From Coq Require Import List Arith Bool ZArith Reals Lra Lia.
From Flocq Require Import Core IEEE754.BinarySingleNaN.
From Coq Require Import Floats.SpecFloat.
From Verif Require Import Base L_Base Spec_Graph Spec_Ragged M_Structure Spec_Program Spec_Sum M_Rand M_Array M_Util M_Training Spec_Stats Spec_Conditional M_Float32 M_Train32 Spec_Float32
  L_Float32 L_Sample32 L_Stats L_Trainer.
Import ListNotations.
Open Scope nat_scope.

(** One ordinal feature with levels 0 .. 127 and three rows: 0, 0, 127. *)
Definition tb3 : table := Tab [0] [0; 2] [[127; 0]; [127; 0]; [0; 127]]%Z.

Definition dummy : trainer32 :=
  T32 (TSt (TS 0 []) [] [] (fun _ _ => 0) (fun _ _ => 0%Z) (fun _ _ _ => 0%Z) (fun _ _ => 0%Z) (fun _ _ => 0%Z) (fun _ _ _ => 0%R)) (fun _ _ _ => fzero).
Definition u0 : f64 := B754_zero false.
Definition u1 : f64 := f64_of 31 (-5).

Definition ok_of {T} (d : T) (r : result T) : T := match r with Ok a => a | Raise _ => d end.
Definition is_ok {T} (r : result T) : bool := match r with Ok _ => true | Raise _ => false end.
Lemma is_ok_spec {T} (d : T) r : is_ok r = true -> r = Ok (ok_of d r).
Proof. destruct r; [reflexivity|discriminate]. Qed.

Section DOT.
Variable dot : list f32 -> list f32 -> f32.
Definition s0 : trainer32 := ok_of dummy (init_trainer32 tb3 [] 2).
Definition s1 : trainer32 := fst (ok_of (dummy, None) (frun [u0] (add_row32 dot tb3 2 s0 0))).
Definition s2 : trainer32 := fst (ok_of (dummy, None) (frun [u1] (add_row32 dot tb3 2 s1 1))).

Lemma uni0 : uniform01 u0.
Proof. split; [reflexivity|]. cbn. lra. Qed.
Lemma uni1 : uniform01 u1.
Proof.
  unfold u1, f64_of.
  assert (F : fmt64 (31 * bpow radix2 (-5))) by (apply fmt_int; [reflexivity|lia|lia]).
  assert (B : (0 <= 31 * bpow radix2 (-5) < 1)%R) by (cbn; lra).
  assert (L : (1 < bpow radix2 1024)%R) by (change 1%R with (bpow radix2 0); apply bpow_lt; lia).
  destruct (normalize_bounds 53 1024 p53 e1024 31 (-5) false _ _ F F) as (A1 & A2); [lra|lra|lra|]. split; [exact A1|lra].
Qed.

Lemma ok0 : init_trainer32 tb3 [] 2 = Ok s0.
Proof. apply is_ok_spec. vm_compute. reflexivity. Qed.
Definition none_ok (r : result (trainer32 * option exn)) : bool := match r with Ok (_, None) => true | _ => false end.
Lemma none_ok_spec r : none_ok r = true -> r = Ok (fst (ok_of (dummy, None) r), None).
Proof. destruct r as [[t [x|]]|]; [discriminate|reflexivity|discriminate]. Qed.
Lemma ok1 : frun [u0] (add_row32 dot tb3 2 s0 0) = Ok (s1, None).
Proof. unfold s1. apply none_ok_spec. vm_compute. reflexivity. Qed.
Lemma ok2 : frun [u1] (add_row32 dot tb3 2 s1 1) = Ok (s2, None).
Proof. unfold s2. apply none_ok_spec. vm_compute. reflexivity. Qed.
Opaque s0 s1 s2.

Lemma s2_reachable : reachable32 dot tb3 [] 2 s2.
Proof.
  apply (r32_add _ _ _ _ _ s1 1 [u1] _ None).
  - apply (r32_add _ _ _ _ _ s0 0 [u0] _ None); [apply r32_init, ok0|cbn; lia|repeat constructor; apply uni0|exact ok1].
  - cbn. lia.
  - constructor; [exact uni1|constructor].
  - exact ok2.
Qed.

Definition facts (t : tstate) := (s_added t, s_tree t, s_prog t, (s_asg t 0 0, s_asg t 1 0), (s_vert t 0 0, s_vert t 0 1),
  (s_feat t 0 0, s_feat t 0 1), (s_feat t 1 0, s_feat t 1 1), (s_meas t 0 0, s_meas t 0 1)).
Lemma s2_facts : facts (t_state s2) = ([0; 1], TS 1 [], [I OP_UP 0 0 0; I OP_ROOT 0 0 0; I OP_DOWN 0 0 0], (0, 1), (1, 1)%Z, (127, 127)%Z, (0, 0)%Z, (127, 127)%Z).
Proof. vm_compute. reflexivity. Qed.

Lemma s2_added : s_added (t_state s2) = [0; 1].
Proof. pose proof s2_facts as F. set (s := t_state s2) in *. clearbody s. now injection F as F1 _ _ _ _ _ _ _ _ _ _ _ _. Qed.

(** Both weights of row 2 are zero, so class 0 is taken whatever is drawn. *)
Definition pzero (x : f32) : bool := match x with B754_zero false => true | _ => false end.
Definition last_step (p : fprog (trainer32 * option exn)) : bool :=
  match p with
  | FCat [x; y] k =>
    pzero x && pzero y && match frun [] (k 0) with Ok (t', None) => s_asg (t_state t') 2 0 =? 0 | _ => false end
  | _ => false
  end.
Lemma last_ok : last_step (add_row32 dot tb3 2 s2 2) = true.
Proof. vm_compute. reflexivity. Qed.

Lemma always_zero u : exists t', frun [u] (add_row32 dot tb3 2 s2 2) = Ok (t', None) /\ s_asg (t_state t') 2 0 = 0.
Proof.
  pose proof last_ok as E. unfold last_step in E.
  destruct (add_row32 dot tb3 2 s2 2) as [| |w k]; [discriminate|discriminate|].
  destruct w as [|x [|y [|z w]]]; try discriminate. apply andb_true_iff in E. destruct E as (E0 & E). apply andb_true_iff in E0. destruct E0 as (E1 & E2).
  destruct x as [[]| | |]; try discriminate; destruct y as [[]| | |]; try discriminate.
  cbn [frun]. replace (sample_from_probs32 u [B754_zero false; B754_zero false]) with (Ok 0) by (destruct u as [[]|[]| |[] m e B]; reflexivity).
  cbn [bind]. destruct (frun [] (k 0)) as [[t' [x|]]|]; try discriminate.
  exists t'. split; [reflexivity|]. now apply Nat.eqb_eq.
Qed.

(** In exact arithmetic the two classes are equally likely. *)
Definition equal2 (st : (nat -> R) * (nat -> nat -> R) * (nat -> nat -> R)) : Prop :=
  let '(f, p, q) := st in (0 < f 0%nat)%R /\ f 0 = f 1 /\ (forall r, r < 2 -> (0 < p r 0%nat)%R /\ p r 0 = p r 1) /\ (0 < q 0%nat 0%nat)%R /\ q 0 0 = q 0 1.

Lemma equal_draw st r : r < 2 -> equal2 st -> equal2 (cell_draw 0 r st).
Proof.
  destruct st as [[f p] q]. intros Hr (A1 & A2 & A3 & A4 & A5). cbn. destruct (A3 r Hr) as (P1 & P2).
  split; [apply Rdiv_lt_0_compat; [now apply Rmult_lt_0_compat|assumption]|].
  split; [now rewrite <- A2, <- P2, <- A5|]. split; [|cbn; lra].
  intros k Hk. unfold set1. destruct (Nat.eqb_spec k r) as [->|]; [rewrite P2 in *; lra|auto].
Qed.

Lemma equal_iter r k st : r < 2 -> equal2 st -> equal2 (Nat.iter k (cell_draw 0 r) st).
Proof. intros Hr H. induction k; [exact H|]. cbn [Nat.iter nat_rect]. now apply equal_draw. Qed.

Lemma equal_cell st : equal2 st -> exists st', treecat_add_cell TY_MULTINOMIAL [0; 2] [0; 127]%Z 0 st = Ok st' /\ equal2 st'.
Proof.
  intros H. unfold treecat_add_cell. cbn [Nat.eqb TY_MULTINOMIAL bind get nth_error Nat.add].
  eexists. split; [reflexivity|]. cbn [Nat.sub seq combine slice firstn skipn fold_left].
  unfold cell_category. cbn [fst snd]. apply equal_iter; [lia|]. apply equal_iter; [lia|]. exact H.
Qed.

Lemma tb3_ok : table_ok [2] tb3.
Proof. split; try reflexivity; repeat constructor. Qed.
Lemma tb3_nonneg : nonneg_data tb3.
Proof. intros [|[|[|n]]] [|[|[|r]]]; cbn; try lia; destruct n; cbn; try lia; destruct r; lia. Qed.

Lemma one_vertex : spanning_tree 1 [].
Proof. split; [reflexivity|]. split; [intros a b []|]. intros a b Ha Hb. replace a with b by lia. exists 0. constructor. Qed.

Lemma exact_half : prob (add_row tb3 2 (t_state s2) 2) (fun '(s, _) => s_asg s 2 0 =? 1) = (1 / 2)%R.
Proof.
  pose proof s2_facts as F. set (s := t_state s2) in *. clearbody s. injection F as F1 F2 F3 F4 F5 F6 F6' F7 F7' F8 F8' F9 F9'. unfold prob, add_row. rewrite F1.
  change (set_mem 2 [0; 1]) with false. cbv iota zeta. rewrite F3.
  change (num_cols tb3) with 1. cbn [tb3 tb_rows tb_types tb_ri get nth_error lift rbind rfold].
  set (vp := fun v m => (IZR (s_vert s v m) + vert_prior)%R). set (fp := fun r m => (IZR (s_feat s r m) + feat_prior 2)%R).
  set (mp := fun v m => (IZR (s_meas s v m) + meas_prior [0; 2]%nat 2 v)%R).
  unfold add_instr at 1. cbn [check Nat.ltb Nat.leb lift rbind get nth_error].
  destruct (equal_cell (vp 0, fp, mp)) as ([[msg fp'] mp'] & EC & (A1 & A2 & _)).
  { unfold equal2, vp, fp, mp, vert_prior, meas_prior, feat_prior. cbn [nth Nat.add Nat.sub INR]. replace (1 + 1)%R with 2%R by ring. rewrite F6, F6', F9, F9'.
    split; [lra|]. split; [reflexivity|]. split; [|split; [lra|reflexivity]].
    intros [|[|r]] Hr; [rewrite F7, F7'|rewrite F8, F8'|lia]; (split; [lra|reflexivity]). }
  change TY_MULTINOMIAL with 0 in EC. rewrite EC. cbn [lift rbind]. unfold add_instr at 1. cbn [check Nat.ltb Nat.leb lift rbind].
  change (set1 vp 0 msg 0) with msg. cbn [expect]. unfold vec. cbn [seq map]. rewrite <- A2.
  destruct (Req_EM_T (rsum [msg 0; msg 0]) 0) as [E|_]; [cbn in E; lra|]. 
  unfold sumf. cbn [seq length map rsum fold_right nth].
  assert (K : forall m, m < 2 -> exists x,
    update_stats 1 2 1 [0] [0; 2] [0; 127]%Z (ts_grid (s_tree s)) (set1 (s_asg s 2) 0 m)
      (TSt (s_tree s) (s_prog s) (set_add 2 [0; 1]) (set1 (s_asg s) 2 (set1 (s_asg s 2) 0 m)) (s_vert s) (s_edge s) (s_feat s) (s_meas s) (s_eprobs s)) = Ok x /\
    s_asg x 2 0 = m).
  { intros m Hm.
    destruct (update_stats_Ok [2] tb3 2 tb3_ok ltac:(lia) 1 2 (set1 (s_asg s 2) 0 m)
      (TSt (s_tree s) (s_prog s) (set_add 2 [0; 1]) (set1 (s_asg s) 2 (set1 (s_asg s 2) 0 m)) (s_vert s) (s_edge s) (s_feat s) (s_meas s) (s_eprobs s)) [])
      as (v' & e' & f' & m' & p' & EU & _); [exact one_vertex|exact F2|cbn; lia| |].
    - intros v Hv. change (num_cols tb3) with 1 in Hv. replace v with 0 by lia. exact Hm.
    - eexists. split; [exact EU|]. reflexivity. }
  destruct (K 0) as (x0 & E0 & Z0); [lia|]. destruct (K 1) as (x1 & E1 & Z1); [lia|].
  rewrite F3 in E0, E1. 
  unfold add_instr. cbn [check Nat.ltb Nat.leb lift rbind expect].
  cbn [s_tree]. rewrite E0, E1. cbn [lift rbind expect]. rewrite Z0, Z1. cbn [Nat.eqb]. unfold rsum, sumf. cbn [fold_right]. field. lra.
Qed.
End DOT.
Global Opaque s0 s1 s2.

(** A case of the positive theorem: three rows, two categorical features. *)
Definition tb4 : table := Tab [0; 0] [0; 2; 5] [[1; 0; 0; 1; 0]; [0; 1; 0; 0; 1]; [0; 0; 1; 0; 0]]%Z.
Definition q0 : trainer32 := ok_of dummy (init_trainer32 tb4 [0%R] 2).
Definition q1 : trainer32 := fst (ok_of (dummy, None) (frun [u1; u0] (add_row32 seq_dot tb4 2 q0 0))).
Lemma q1_case : reachable32 seq_dot tb4 [0%R] 2 q1 /\ s_added (t_state q1) = [0].
Proof.
  assert (E0 : init_trainer32 tb4 [0%R] 2 = Ok q0) by (apply is_ok_spec; vm_compute; reflexivity).
  assert (E1 : frun [u1; u0] (add_row32 seq_dot tb4 2 q0 0) = Ok (q1, None)) by (unfold q1; apply none_ok_spec; vm_compute; reflexivity).
  split; [|vm_compute; reflexivity].
  apply (r32_add _ _ _ _ _ q0 0 [u1; u0] _ None); [now apply r32_init|cbn; lia| |exact E1].
  constructor; [exact uni1|]. constructor; [exact uni0|constructor].
Qed.
Lemma tb4_ok : table_ok [2; 3] tb4 /\ nonneg_data tb4 /\ at_most 1 [2; 3] tb4.
Proof.
  split; [split; try reflexivity; repeat constructor|]. split.
  - intros [|[|[|n]]] r; unfold datum; cbn [nth tb_rows tb4]; try (do 6 (destruct r as [|r]; cbn; try lia)). destruct n, r; cbn; lia.
  - intros [|[|[|n]]] [|[|v]] Hn Hv; cbn in *; lia.
Qed.
Global Opaque q0 q1.
