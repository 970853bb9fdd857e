(** The statements of property C66. *)
From Coq Require Import List Arith Bool ZArith Reals Lia.
From Flocq Require Import Core IEEE754.BinarySingleNaN.
From Verif Require Import Base Spec_Graph Spec_Ragged M_Structure M_Rand M_Util M_Training Spec_Stats Spec_Conditional M_Float32 M_Train32 Spec_Float32
  L_Sample32 L_Train32f L_Train32g.
Import ListNotations.
Open Scope nat_scope.

Lemma reachable_draws2 dot ws tb prior M t n :
  dot_ok dot -> table_ok ws tb -> nonneg_data tb -> 1 <= M <= 128 -> at_most 2 ws tb ->
  (Z.of_nat (num_rows tb) < 32767)%Z -> Forall (fun w => (Z.of_nat w <= 65536)%Z) ws ->
  reachable32 dot tb prior M t -> n < num_rows tb -> ~ In n (s_added (t_state t)) ->
  draws_usable (fun '(t', x) => x = None /\ from_scratch ws tb M (t_state t') /\
                                s_added (t_state t') = set_add n (s_added (t_state t)))
    (add_row32 dot tb M t n).
Proof.
  intros D TK ND HM AM HN HW RT Hn NI.
  apply (reachable_draws dot ws tb prior M 16 2); auto; try lia.
Qed.

Lemma C66_case_proof : dot_ok seq_dot /\ table_ok [2; 3] tb4 /\ nonneg_data tb4 /\ at_most 1 [2; 3] tb4 /\
  (1 <= 16 <= 16)%Z /\ ((16 + 9) * Z.of_nat 1 + 16 <= 69)%Z /\ ((Z.of_nat (num_rows tb4) + 1) * Z.of_nat 1 < 2 ^ 16)%Z /\
  Forall (fun w => (Z.of_nat w <= 2 ^ 16)%Z) [2; 3] /\
  reachable32 seq_dot tb4 [0%R] 2 q1 /\ 1 < num_rows tb4 /\ ~ In 1 (s_added (t_state q1)).
Proof.
  destruct tb4_ok as (T1 & T2 & T3). destruct q1_case as (Q1 & Q2). rewrite Q2.
  split; [exact seq_dot_ok|]. split; [exact T1|]. split; [exact T2|]. split; [exact T3|].
  split; [lia|]. split; [cbn; lia|]. split; [cbn; lia|]. split; [repeat constructor; cbn; lia|].
  split; [exact Q1|]. split; [cbn; lia|]. intros [K|[]]; discriminate.
Qed.

Lemma C66_refuted_proof : forall dot, exists t,
  table_ok [2] tb3 /\ nonneg_data tb3 /\ at_most 127 [2] tb3 /\
  reachable32 dot tb3 [] 2 t /\ ~ In 2 (s_added (t_state t)) /\
  prob (add_row tb3 2 (t_state t) 2) (fun '(s, _) => s_asg s 2 0 =? 1) = (1 / 2)%R /\
  forall u, exists t', frun [u] (add_row32 dot tb3 2 t 2) = Ok (t', None) /\ s_asg (t_state t') 2 0 = 0.
Proof.
  intros dot. exists (s2 dot). split; [exact tb3_ok|]. split; [exact tb3_nonneg|]. split.
  { intros [|[|[|n]]] [|v] Hn Hv; cbn in *; lia. }
  split; [apply s2_reachable|]. split.
  - rewrite s2_added. intros [K|[K|[]]]; discriminate.
  - split; [apply exact_half|]. apply always_zero.
Qed.
