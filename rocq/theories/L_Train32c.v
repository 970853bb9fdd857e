(** All draws of [add_row32] are from usable weights. *)
From Coq Require Import List Arith Bool ZArith Reals Lra Lia.
From Flocq Require Import Core IEEE754.BinarySingleNaN.
From Verif Require Import Base Spec_Graph Spec_Ragged M_Structure Spec_Program M_Array M_Util M_Training Spec_Stats Spec_Conditional M_Float32 M_Train32 Spec_Float32
  L_Float32 L_Sample32 L_Train32 L_Train32b L_Ragged L_Prop1 L_MakeTree L_Stats L_Trainer.
Import ListNotations.
Open Scope R_scope.

(** ** Positions in a list without repetitions *)
Lemma split_unique {T} (l1 l2 r1 r2 : list T) x : NoDup (l1 ++ x :: l2) -> l1 ++ x :: l2 = r1 ++ x :: r2 -> l1 = r1 /\ l2 = r2.
Proof.
  revert r1. induction l1 as [|a l1 IH]; intros [|b r1] ND E; cbn in *.
  - inversion E; auto.
  - inversion E; subst. inversion ND as [|? ? N _]; subst. exfalso. apply N. apply in_app_iff. right. now left.
  - inversion E; subst. inversion ND as [|? ? N _]; subst. exfalso. apply N. apply in_app_iff. right. now left.
  - inversion E; subst. inversion ND; subst. destruct (IH r1) as (-> & ->); auto.
Qed.

Lemma before_in {T} (pre suf : list T) i x : NoDup (pre ++ i :: suf) -> precedes (pre ++ i :: suf) x i -> In x pre.
Proof.
  intros ND (l1 & l2 & l3 & E). replace (l1 ++ x :: l2 ++ i :: l3) with ((l1 ++ x :: l2) ++ i :: l3) in E by (rewrite <- app_assoc; reflexivity).
  destruct (split_unique _ _ _ _ _ ND E) as (-> & _). apply in_app_iff. right. now left.
Qed.

Lemma after_notin {T} (pre suf : list T) i y : NoDup (pre ++ i :: suf) -> precedes (pre ++ i :: suf) i y -> ~ In y pre.
Proof.
  intros ND (l1 & l2 & l3 & E) I. destruct (split_unique _ _ _ _ _ ND E) as (-> & ->).
  apply NoDup_remove_1 in ND. rewrite app_assoc in ND. apply NoDup_remove_2 in ND. apply ND. rewrite !in_app_iff. auto.
Qed.

Lemma in_prefix {T} (pre suf : list T) x y : NoDup (pre ++ suf) -> precedes (pre ++ suf) x y -> In y pre -> In x pre.
Proof.
  intros ND P I. apply in_split in I. destruct I as (a & b & ->). rewrite <- app_assoc in *. cbn in *.
  apply before_in in P; auto. apply in_app_iff. now left.
Qed.

Lemma follows_unique {T} (l : list T) x y d : NoDup l -> directly_follows l x d -> directly_follows l y d -> x = y.
Proof.
  intros ND (a & b & E1) (a' & b' & E2). subst l.
  replace (a ++ x :: d :: b) with ((a ++ [x]) ++ d :: b) in * by (rewrite <- app_assoc; reflexivity).
  replace (a' ++ y :: d :: b') with ((a' ++ [y]) ++ d :: b') in * by (rewrite <- app_assoc; reflexivity).
  destruct (split_unique _ _ _ _ _ ND E2) as (E & _). apply app_inj_tail in E. tauto.
Qed.

Section ADD.
Variables (dot : list f32 -> list f32 -> f32) (ws : list nat) (tb : table) (M : nat) (A c : Z).
Hypothesis DOT : dot_ok dot.
Hypothesis TK : table_ok ws tb.
Hypothesis ND : nonneg_data tb.
Hypothesis HM : (1 <= M <= 128)%nat.
Hypothesis HA : (1 <= A <= 30)%Z.
Hypothesis Hc : (1 <= c)%Z.
Hypothesis HAc : ((A + 9) * c + A <= 69)%Z.
Hypothesis HN : ((Z.of_nat (num_rows tb) + 1) * c < 2 ^ A)%Z.
Hypothesis HW : Forall (fun w => (Z.of_nat w <= 2 ^ A)%Z) ws.
Hypothesis HC : forall n v, (n < num_rows tb)%nat -> (v < num_cols tb)%nat -> (block_sum ws (nth n (tb_rows tb) []) v <= c)%Z.
Notation V := (num_cols tb).
Notation lo := (-1 - (A + 9) * c)%Z.
Notation hi := (A + 7 * c)%Z.

Lemma c6 : (c <= 6)%Z.
Proof. nia. Qed.
Lemma lo_bound : (2 * lo - 2 * A - 8 >= -149)%Z.
Proof. lia. Qed.
Lemma hi_bound : (2 * hi + A + 10 <= 127)%Z.
Proof. pose proof c6. assert (C : (c = 1 \/ c = 2 \/ c = 3 \/ c = 4 \/ c = 5 \/ c = 6)%Z) by lia. destruct C as [-> | [-> | [-> | [-> | [-> | ->]]]]]; lia. Qed.

(** ** The statistics are small *)
Lemma total_le l f b : (forall n, In n l -> (0 <= f n <= b)%Z) -> (0 <= total l f <= Z.of_nat (length l) * b)%Z.
Proof.
  induction l as [|n l IH]; intros H; [cbn; lia|]. rewrite total_cons. cbn [length].
  specialize (H n (or_introl eq_refl)) as H0. assert (I := IH (fun k I => H k (or_intror I))). lia.
Qed.

Lemma added_le s : tinv ws tb M s -> (length (s_added s) <= num_rows tb)%nat.
Proof.
  intros [[(F1 & F2) _ _ _ _ _ _ _ _] _ _ _]. rewrite <- (seq_length (num_rows tb) 0). apply NoDup_incl_length; auto.
  intros n I. apply in_seq. specialize (F2 n I). lia.
Qed.

Lemma N_small : (Z.of_nat (num_rows tb) < 2 ^ A)%Z /\ (Z.of_nat (num_rows tb) * c + c < 2 ^ A)%Z.
Proof. nia. Qed.

Lemma vert_small s v m : tinv ws tb M s -> (v < V)%nat -> (m < M)%nat -> (0 <= s_vert s v m < 2 ^ A)%Z.
Proof.
  intros TI Hv Hm. pose proof (added_le s TI) as L. pose proof N_small. destruct TI as [[_ _ _ _ FV _ _ _ _] _ _ _]. rewrite FV by auto.
  destruct (total_le (s_added s) (fun n => one_if (s_asg s n v =? m)%nat) 1) as (T1 & T2); [intros n _; unfold one_if; destruct (_ =? _)%nat; lia|]. lia.
Qed.

Lemma edge_small s e m1 m2 : tinv ws tb M s -> (e < V - 1)%nat -> (m1 < M)%nat -> (m2 < M)%nat -> (0 <= s_edge s e m1 m2 < 2 ^ A)%Z.
Proof.
  intros TI He H1 H2. pose proof (added_le s TI) as L. pose proof N_small. destruct TI as [[_ _ (EV & ST) _ _ FE _ _ _] _ _ _].
  destruct (nth_error (ts_get_edges (s_tree s)) e) as [[v1 v2]|] eqn:E.
  - rewrite (FE e v1 v2) by auto.
    destruct (total_le (s_added s) (fun n => one_if ((s_asg s n v1 =? m1)%nat && (s_asg s n v2 =? m2)%nat)) 1) as (T1 & T2);
      [intros n _; unfold one_if; destruct (_ && _); lia|]. lia.
  - apply nth_error_None in E. destruct ST as (SL & _). lia.
Qed.

Lemma datum_le n v r : (n < num_rows tb)%nat -> owns ws v r -> (0 <= datum tb n r <= block_sum ws (nth n (tb_rows tb) []) v)%Z.
Proof.
  intros Hn O. split; [apply ND|]. destruct O as (Hv & Hr). unfold block_sum, datum.
  set (b := list_sum (firstn v ws)) in *. set (row := nth n (tb_rows tb) []).
  assert (K : forall l, In (r - b)%nat l -> (nth r row 0 <= fold_right Z.add 0 (map (fun i => nth (b + i) row 0) l))%Z /\
                        (0 <= fold_right Z.add 0 (map (fun i => nth (b + i) row 0) l))%Z).
  { assert (P : forall k, (0 <= nth k row 0)%Z) by (intros k; apply (ND n k)).
    assert (Q : forall l, (0 <= fold_right Z.add 0 (map (fun i => nth (b + i) row 0) l))%Z).
    { induction l as [|i l IH]; cbn [map fold_right]; [lia|]. specialize (P (b + i)%nat). lia. }
    induction l as [|i l IH]; intros I; [destruct I|]. cbn [map fold_right]. pose proof (P (b + i)%nat). pose proof (Q l).
    destruct I as [->|I]; [replace (b + (r - b))%nat with r in * by lia; lia|]. destruct (IH I). lia. }
  apply (K (seq 0 (nth v ws 0%nat))). apply in_seq. lia.
Qed.

Lemma feat_small s v r m : tinv ws tb M s -> owns ws v r -> (m < M)%nat -> (0 <= s_feat s r m <= s_meas s v m)%Z /\ (s_meas s v m + c < 2 ^ A)%Z.
Proof.
  intros TI O Hm. pose proof (added_le s TI) as L. pose proof N_small as (_ & NS).
  assert (Hv : (v < V)%nat) by (rewrite <- (tk_width _ _ TK); apply O).
  destruct TI as [[(F1 & F2) _ _ _ _ _ _ FF FM] _ _ _]. rewrite (FF v r m O Hm), (FM v m Hv Hm).
  assert (B : forall n, In n (s_added s) -> (0 <= one_if (s_asg s n v =? m)%nat * block_sum ws (nth n (tb_rows tb) []) v <= c)%Z).
  { intros n I. specialize (F2 n I). pose proof (HC n v F2 Hv). pose proof (datum_le n v r F2 O). unfold one_if. destruct (_ =? _)%nat; lia. }
  assert (C : (total (s_added s) (fun n => one_if (s_asg s n v =? m)%nat * datum tb n r) <=
               total (s_added s) (fun n => one_if (s_asg s n v =? m)%nat * block_sum ws (nth n (tb_rows tb) []) v))%Z).
  { assert (G : forall l, (forall k, In k l -> (k < num_rows tb)%nat) ->
      (total l (fun n => one_if (s_asg s n v =? m)%nat * datum tb n r) <=
       total l (fun n => one_if (s_asg s n v =? m)%nat * block_sum ws (nth n (tb_rows tb) []) v))%Z).
    { induction l as [|n l IH]; intros Hl; [cbn; lia|]. rewrite !total_cons. assert (I := IH (fun k I => Hl k (or_intror I))).
      pose proof (datum_le n v r (Hl n (or_introl eq_refl)) O). destruct (s_asg s n v =? m)%nat; cbn [one_if]; lia. }
    apply G; auto. }
  assert (D : (0 <= total (s_added s) (fun n => one_if (s_asg s n v =? m)%nat * datum tb n r))%Z).
  { apply total_nonneg. intros n _. pose proof (ND n r). unfold one_if. destruct (_ =? _)%nat; lia. }
  pose proof (total_le _ _ _ B) as (B1 & B2). nia.
Qed.
End ADD.
