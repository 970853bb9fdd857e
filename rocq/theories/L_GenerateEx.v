(** Concrete cases for C57 - C61. *)
From Coq Require Import List Arith ZArith Reals Lia.
From Verif Require Import Base Spec_Graph L_Graph Spec_Sum Spec_Ragged M_Structure L_Center M_Util M_Rand M_EstimateTree Spec_MST L_Estimate M_Training Spec_Stats Spec_Conditional M_Serving Spec_Serving Spec_Summary M_Generate Spec_Generate L_Trainer.
From Verif Require L_MakeTree.
Import ListNotations.
Open Scope nat_scope.

Lemma case1 : proper_tree 3 (TS 3 (make_tree [(0, 1); (1, 2)])) /\ (exists mst, mst_contract mst) /\
  (exists m, clean_model (TS 3 (make_tree [(0, 1); (1, 2)])) 2 = Ok m) /\
  dist (ts_get_edges (TS 3 (make_tree [(0, 1); (1, 2)]))) 0 2 2 /\
  generate_dataset (fun v n => [Z.of_nat v; Z.of_nat n; 127%Z]) 2 2 3 =
    Ok (Tab [TY_MULTINOMIAL; TY_MULTINOMIAL] [0; 3; 6] [[0; 0; 127; 1; 0; 127]; [0; 1; 127; 1; 1; 127]]%Z).
Proof.
  split. { exists [(0, 1); (1, 2)]. split; [exact (L_MakeTree.path_spanning 3 ltac:(lia))|reflexivity]. }
  split. { exists naive_mst. exact naive_mst_contract. }
  split. { eexists. reflexivity. }
  split.
  { change (dist [(0, 1); (1, 2)] 0 2 2). split.
    - eapply walk_cons with 1; [left; now left|]. eapply walk_cons with 2; [left; right; now left|]. apply walk_nil.
    - intros n W. destruct n as [|[|n]]; [inversion W| |lia]. inversion W as [|? x ? ? A W']; subst. inversion W'; subst.
      destruct A as [[A|[A|[]]]|[A|[A|[]]]]; discriminate. }
  reflexivity.
Qed.

Lemma case2 : let tb := Tab [TY_MULTINOMIAL; TY_MULTINOMIAL] [0; 3; 6] [[0; 0; 127; 1; 0; 127]; [0; 1; 127; 1; 1; 127]]%Z in
  table_ok [3; 3] tb /\ nonneg_data tb /\ (forall n v, n < 2 -> v < 2 -> (n + v) mod 2 < 2).
Proof.
  cbn zeta. split; [|split].
  - constructor; cbn; auto.
  - intros n r. unfold datum. cbn [tb_rows]. destruct n as [|[|n]]; cbn [nth].
    + do 7 (destruct r as [|r]; cbn [nth]; try lia).
    + do 7 (destruct r as [|r]; cbn [nth]; try lia).
    + destruct n, r; cbn; lia.
  - intros. apply Nat.mod_upper_bound. lia.
Qed.
