(** Cases for C86 and C87. *)
From Coq Require Import List Arith Bool ZArith Reals Lra Lia Permutation QArith.
From Flocq Require Import Core IEEE754.BinarySingleNaN.
From Verif Require Import Base L_Base Spec_Graph L_Graph Spec_Sum L_Sum Spec_Ragged Spec_Trees M_Structure L_Pairing L_MakeTree M_Rand M_SampleTree L_AllTrees M_Schedule M_Array M_Training
  Spec_Stats L_Stats Spec_Conditional Spec_EdgeLogits Spec_Model L_Estimate
  M_Float32 Spec_Float32 L_Float32 L_Sample32 M_Train32 Spec_Serving32 M_SampleTree32 Spec_Tree32 L_Serving32a L_Tree32d L_Train32g L_Train32h M_Logits32 Spec_Logits32 L_Logits32a L_Logits32e
  M_EstimateTree32 L_EstTree32 M_Run32 Spec_Run32 L_Run32a L_Run32b.
From Verif Require Spec_MST.
Import ListNotations.
Open Scope R_scope.

Lemma C86_proof : forall mst V grid logits B, Spec_MST.mst_contract mst -> (1 <= V)%nat -> make_complete_graph V = Ok grid ->
  length logits = length grid -> 0 <= B <= bp 60 ->
  Forall (fun x => (fin32 x = true /\ Rabs (val x) <= B) \/ x = B754_infinity true) logits ->
  (exists T, spanning_tree V T /\ allowed_by logits T) ->
  exists T, estimate_tree32 mst grid logits = Ok T /\ canonical_tree V T /\ allowed_by logits T /\
    forall T', spanning_tree V T' -> allowed_by logits T' ->
      sumf T' (fun '(x, y) => val (nth (find_complete_edge x y) logits fzero)) <=
      sumf T (fun '(x, y) => val (nth (find_complete_edge x y) logits fzero)) + INR (V - 1) * (bp (-20) * (B + 1)).
Proof.
  intros mst V grid logits B MC HV EG LL (HB0 & HB) GL EX. rewrite make_complete_graph_Ok in EG. inversion EG; subst grid.
  rewrite complete_grid_length in LL. exact (estimate_near mst V logits B MC HV LL HB GL EX HB0).
Qed.

(** Three features: two logits and minus infinity. *)
Lemma C86_case_proof : Spec_MST.mst_contract naive_mst /\
  let logits := [f32_of 3 (-1); B754_infinity true; f32_of (-3) 0] in
  exists grid, make_complete_graph 3 = Ok grid /\ length logits = length grid /\
  Forall (fun x => (fin32 x = true /\ Rabs (val x) <= 4) \/ x = B754_infinity true) logits /\ 0 <= 4 <= bp 60 /\
  spanning_tree 3 [(0, 1); (1, 2)]%nat /\ allowed_by logits [(0, 1); (1, 2)]%nat.
Proof.
  split; [exact naive_mst_contract|]. cbv zeta. exists [(0, 0, 1); (1, 0, 2); (2, 1, 2)]%nat. split; [reflexivity|]. split; [reflexivity|].
  assert (E1 : val (f32_of 3 (-1)) = 3 / 2).
  { rewrite <- SF2R_B2SF. assert (E : B2SF (f32_of 3 (-1)) = SpecFloat.S754_finite false 12582912 (-23)) by (vm_compute; reflexivity). rewrite E. unfold SF2R, F2R. cbn. lra. }
  assert (E2 : val (f32_of (-3) 0) = -3).
  { rewrite <- SF2R_B2SF. assert (E : B2SF (f32_of (-3) 0) = SpecFloat.S754_finite true 12582912 (-22)) by (vm_compute; reflexivity). rewrite E. unfold SF2R, F2R. cbn. lra. }
  split.
  { repeat apply Forall_cons; [left|right|left|apply Forall_nil]; try reflexivity; (split; [reflexivity|]); rewrite ?E1, ?E2; apply Rabs_le; lra. }
  split. { split; [lra|]. change 4 with (bp 2). apply bpow_le. lia. }
  split; [apply (path_spanning 3); lia|].
  intros x y [E|[E|[]]]; inversion E; subst; reflexivity.
Qed.

Lemma C86_none : forall mst V grid logits B, mst_forest mst -> (1 <= V)%nat -> make_complete_graph V = Ok grid ->
  length logits = length grid -> 0 <= B <= bp 60 ->
  Forall (fun x => (fin32 x = true /\ Rabs (val x) <= B) \/ x = B754_infinity true) logits ->
  ~ (exists T, spanning_tree V T /\ allowed_by logits T) -> estimate_tree32 mst grid logits = Raise AssertionError.
Proof.
  intros mst V grid logits B MF HV EG LL (HB0 & HB) GL NX. rewrite make_complete_graph_Ok in EG. inversion EG; subst grid.
  rewrite complete_grid_length in LL. exact (estimate_none mst V logits B HV LL HB GL HB0 MF NX).
Qed.

Lemma naive_forest : mst_forest naive_mst.
Proof.
  intros V w HV (LW & _). unfold naive_mst. rewrite LW. pose proof (best_spec w (filter (present_dec w) (all_trees V))) as B.
  destruct (best w _) as [T|].
  - destruct B as (I & _). apply filter_In in I. destruct I as (I & PD). apply all_trees_enumerate in I. split; [now apply present_dec_iff|].
    exists []. rewrite app_nil_r. apply I.
  - split; [intros x y []|]. eexists. cbn [app]. apply (path_spanning V). lia.
Qed.

(** Three features, the first tied to no other. *)
Lemma C86_none_case_proof : mst_forest naive_mst /\
  let logits := [B754_infinity true; B754_infinity true; fzero] in
  Forall (fun x => (fin32 x = true /\ Rabs (val x) <= 0) \/ x = B754_infinity true) logits /\
  ~ (exists T, spanning_tree 3 T /\ allowed_by logits T).
Proof.
  split; [exact naive_forest|]. cbv zeta. split.
  { repeat apply Forall_cons; [right|right|left|apply Forall_nil]; try reflexivity. split; [reflexivity|]. change (val fzero) with 0. rewrite Rabs_R0. lra. }
  intros (T & ST & AL). destruct (tree_neq 3 T ST) with (x := 0%nat) (y := 0%nat) as (N & _); [|congruence].
  destruct (proj2 (proj2 ST) 0%nat 1%nat ltac:(lia) ltac:(lia)) as (n & Wk). inversion Wk as [|u v w' k AD _]; subst.
  destruct AD as [I|I]; destruct (tree_neq 3 T ST _ _ I) as (N & H1 & H2); specialize (AL _ _ I);
    destruct v as [|[|[|v]]]; try lia; vm_compute in AL; discriminate.
Qed.

Lemma lg0_below : gammaln_below 9 3 2 lg0.
Proof.
  intros c p Hc [-> | ->]; apply lg0_at; try lia; [|lra]. replace (1 / 2 / INR 2) with (1 / 4) by (cbn [INR]; field). lra.
Qed.

Definition cfg0 : train_config := Cfg 2 (3 # 2) 2 3 true.

Lemma C87_case_proof : dot_ok seq_dot /\ table_ok [2; 3]%nat tb4 /\ nonneg_data tb4 /\ config_ok cfg0 /\ at_most 1 [2; 3]%nat tb4 /\
  (1 <= 16 <= 16)%Z /\ ((16 + 9) * Z.of_nat 1 + 16 <= 69)%Z /\ ((Z.of_nat (num_rows tb4) + 1) * Z.of_nat 1 < 2 ^ 16)%Z /\
  Forall (fun w => (Z.of_nat w <= 2 ^ 16)%Z) [2; 3]%nat /\
  Spec_MST.mst_contract naive_mst /\ (exists t0, init_trainer32 tb4 (map (fun p => B2R p) [fzero]) (c_clusters cfg0) = Ok t0) /\
  gammaln_ok (bp (-10)) (num_rows tb4) (c_clusters cfg0) lg0 g0 /\ gammaln_below 9 (num_rows tb4) (c_clusters cfg0) lg0 /\
  sum_near seq_sum /\ sum_ok seq_sum /\ exp_ok (bp (-23)) exp0 /\
  0 <= bp (-10) <= 1 /\ 0 <= bp (-23) <= 1 /\ INR (2 * 2 + 2 * 2) * 9 + 0 <= bp 59 /\
  Forall (fun p => (fin32 p = true /\ Rabs (val p) <= 0) \/ p = B754_infinity true) [fzero] /\
  (Z.of_nat (num_cols tb4 * (num_cols tb4 - 1) / 2) <= 2 ^ 16)%Z /\
  (spanning_tree (num_cols tb4) [(0, 1)]%nat /\ allowed_by [fzero] [(0, 1)]%nat) /\
  INR 1 * (2 * logit_error 2 (bp (-10)) 72 + bp (-20) * (72 + logit_error 2 (bp (-10)) 72 + 1)) <= 1 / 50.
Proof.
  pose proof C85_case_proof as (C1 & C2 & C3 & C4 & C5 & C6 & C7 & C8 & _ & _ & C11 & C12 & C13 & C14 & _ & _ & CE & _).
  split; [exact C1|]. split; [exact C2|]. split; [exact C3|]. split.
  { split; [cbn; lia|]. split; unfold Qle; cbn; lia. }
  split; [exact C4|]. split; [exact C5|]. split; [exact C6|]. split; [exact C7|]. split; [exact C8|].
  split; [exact naive_mst_contract|]. split.
  { assert (E0 : init_trainer32 tb4 [0%R] 2 = Ok (ok_of dummy (init_trainer32 tb4 [0%R] 2))) by (apply is_ok_spec; vm_compute; reflexivity).
    exists (ok_of dummy (init_trainer32 tb4 [0%R] 2)). exact E0. }
  split; [exact C11|]. split; [exact lg0_below|]. split; [exact C12|]. split; [exact C13|]. split; [exact C14|].
  split. { split; [apply bpow_ge_0|change 1 with (bp 0); apply bpow_le; lia]. }
  split. { split; [apply bpow_ge_0|change 1 with (bp 0); apply bpow_le; lia]. }
  split. { apply Rle_trans with (bp 7); [cbn; lra|apply bpow_le; lia]. }
  split. { apply Forall_cons; [|apply Forall_nil]. left. split; [reflexivity|]. change (val fzero) with 0. rewrite Rabs_R0. lra. }
  split; [cbn; lia|]. split.
  { split; [apply (path_spanning 2); lia|]. intros x y [E|[]]. inversion E; subst. reflexivity. }
  cbn [INR]. unfold logit_error. change (bp (-10)) with (/ 1024). change (bp (-23)) with (/ 8388608). change (bp (-20)) with (/ 1048576). cbn [Nat.mul Nat.add INR]. lra.
Qed.

(** Generators with constant outputs. *)
Lemma generators_exist : exists us ps, generators us ps.
Proof. exists (fun _ => u0), (fun _ n => seq 0 n). split; [intros _; exact uni0|intros; reflexivity]. Qed.
