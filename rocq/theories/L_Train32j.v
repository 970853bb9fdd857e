(** The table of the refutation of C66, with the repaired sampler. *)
From Coq Require Import List Arith Bool ZArith Reals Lra Lia.
From Flocq Require Import Core IEEE754.BinarySingleNaN.
From Verif Require Import Base L_Base Spec_Graph Spec_Ragged M_Structure M_Rand M_Util M_Training Spec_Stats Spec_Conditional M_Float32 M_Train32 M_Repaired7 Spec_Float32
  L_Float32 L_Sample32 L_Stats L_Trainer L_Train32g.
Import ListNotations.
Open Scope nat_scope.

Section DOT.
Variable dot : list f32 -> list f32 -> f32.
Definition p1 : trainer32 := fst (ok_of (dummy, None) (frun [u0] (repaired_add_row32 dot tb3 2 s0 0))).
Definition p2 : trainer32 := fst (ok_of (dummy, None) (frun [u1] (repaired_add_row32 dot tb3 2 p1 1))).

Lemma rok1 : frun [u0] (repaired_add_row32 dot tb3 2 s0 0) = Ok (p1, None).
Proof. unfold p1. apply none_ok_spec. vm_compute. reflexivity. Qed.
Lemma rok2 : frun [u1] (repaired_add_row32 dot tb3 2 p1 1) = Ok (p2, None).
Proof. unfold p2. apply none_ok_spec. vm_compute. reflexivity. Qed.
Lemma p2_added : s_added (t_state p2) = [0; 1].
Proof. vm_compute. reflexivity. Qed.

Definition takes (u : f64) (m : nat) : bool :=
  match frun [u] (repaired_add_row32 dot tb3 2 p2 2) with Ok (t', None) => s_asg (t_state t') 2 0 =? m | _ => false end.
Lemma takes_spec u m : takes u m = true -> exists t', frun [u] (repaired_add_row32 dot tb3 2 p2 2) = Ok (t', None) /\ s_asg (t_state t') 2 0 = m.
Proof.
  unfold takes. destruct (frun [u] _) as [[t' [x|]]|]; try discriminate. intros E. exists t'. split; [reflexivity|]. now apply Nat.eqb_eq.
Qed.
Lemma takes0 : takes u0 0 = true.
Proof. vm_compute. reflexivity. Qed.
Lemma takes1 : takes u1 1 = true.
Proof. vm_compute. reflexivity. Qed.
Opaque p1 p2.

Lemma p2_reachable : reachable32_with (repaired_add_cell32 2) dot tb3 [] 2 p2.
Proof.
  apply (r32_add _ _ _ _ _ p1 1 [u1] _ None).
  - apply (r32_add _ _ _ _ _ s0 0 [u0] _ None); [apply r32_init, ok0|cbn; lia|repeat constructor; apply uni0|exact rok1].
  - cbn. lia.
  - constructor; [exact uni1|constructor].
  - exact rok2.
Qed.
End DOT.
Global Opaque p1 p2.

Lemma C66_repaired_case_proof : exists t,
  dot_ok seq_dot /\ table_ok [2] tb3 /\ nonneg_data tb3 /\ at_most 127 [2] tb3 /\
  (Z.of_nat (num_rows tb3) < 65535)%Z /\ ((Z.of_nat (num_rows tb3) + 1) * Z.of_nat 127 < 2 ^ 22)%Z /\
  Forall (fun w => (Z.of_nat w <= 2 ^ 22)%Z) [2] /\
  reachable32_with (repaired_add_cell32 2) seq_dot tb3 [] 2 t /\ ~ In 2 (s_added (t_state t)) /\
  forall m, m < 2 -> exists u t', uniform01 u /\ frun [u] (repaired_add_row32 seq_dot tb3 2 t 2) = Ok (t', None) /\ s_asg (t_state t') 2 0 = m.
Proof.
  exists (p2 seq_dot). split; [exact seq_dot_ok|]. split; [exact tb3_ok|]. split; [exact tb3_nonneg|]. split.
  { intros [|[|[|n]]] [|v] Hn Hv; cbn in *; lia. }
  split; [cbn; lia|]. split; [cbn; lia|]. split; [repeat constructor; cbn; lia|]. split; [apply p2_reachable|]. split.
  - rewrite p2_added. intros [K|[K|[]]]; discriminate.
  - intros [|[|m]] Hm; [| |lia].
    + destruct (takes_spec seq_dot u0 0 (takes0 seq_dot)) as (t' & E1 & E2). exists u0, t'. split; [exact uni0|auto].
    + destruct (takes_spec seq_dot u1 1 (takes1 seq_dot)) as (t' & E1 & E2). exists u1, t'. split; [exact uni1|auto].
Qed.
