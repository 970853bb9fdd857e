(** Rescaling messages does not change what add_row draws. *)
From Coq Require Import List Arith Bool ZArith Reals Lra Lia.
From Verif Require Import Base L_Base Spec_Graph Spec_Ragged Spec_Sum L_Sum M_Structure M_Rand L_Rand M_Array M_Util M_Training Spec_Stats Spec_Joint Spec_Conditional M_Float32 M_Train32 M_Repaired7
  L_Ragged L_Stats L_Trainer L_AddRow L_Conditional.
Import ListNotations.
Open Scope R_scope.

(** ** Programs whose draws have proportional weights *)
Inductive prel {A B} (Q : A -> B -> Prop) : rprog A -> rprog B -> Prop :=
| pr_ret a b : Q a b -> prel Q (Ret a) (Ret b)
| pr_fail e : prel Q (Fail e) (Fail e)
| pr_cat w k w' k' c : 0 < c -> w' = map (Rmult c) w -> (forall i, (i < length w)%nat -> prel Q (k i) (k' i)) -> prel Q (Cat w k) (Cat w' k').

Lemma prel_bind {A B C D} (Q : A -> B -> Prop) (P : C -> D -> Prop) p q f g :
  prel Q p q -> (forall a b, Q a b -> prel P (f a) (g b)) -> prel P (rbind p f) (rbind q g).
Proof. induction 1; intros H'; cbn [rbind]; [auto|constructor|]. eapply pr_cat; eauto. Qed.

Lemma prel_lift {A B} (Q : A -> B -> Prop) x y : match x, y with Ok a, Ok b => Q a b | Raise e, Raise e' => e = e' | _, _ => False end -> prel Q (lift x) (lift y).
Proof. destruct x, y; cbn; intros H; try contradiction; [now constructor|subst; constructor]. Qed.

Lemma prel_fold {A S T} (Q : S -> T -> Prop) (f : S -> A -> rprog S) (g : T -> A -> rprog T) l :
  (forall s t a, Q s t -> prel Q (f s a) (g t a)) -> forall s t, Q s t -> prel Q (rfold f l s) (rfold g l t).
Proof. intros H. induction l as [|a l IH]; intros s t HQ; cbn [rfold]; [now constructor|]. eapply prel_bind; [now apply H|]. intros. now apply IH. Qed.

Lemma rsum_scale c w : rsum (map (Rmult c) w) = c * rsum w.
Proof.
  induction w as [|x w IH]; [cbn; ring|]. change (rsum (map (Rmult c) (x :: w))) with (c * x + rsum (map (Rmult c) w)).
  rewrite IH. change (rsum (x :: w)) with (x + rsum w). ring.
Qed.

Lemma prel_expect {A} (p q : rprog A) f : prel eq p q -> expect p f = expect q f.
Proof.
  induction 1 as [a b ->|e|w k w' k' c Hc -> _ IH]; [reflexivity|reflexivity|].
  destruct w as [|x w]; [reflexivity|]. set (ww := x :: w) in *. 
  cbn [expect]. assert (E : match map (Rmult c) ww with [] => f (Raise IndexError) | _ :: _ => if Req_EM_T (rsum (map (Rmult c) ww)) 0 then expect (k' 0%nat) f else sumf (seq 0 (length (map (Rmult c) ww))) (fun i => nth i (map (Rmult c) ww) 0 / rsum (map (Rmult c) ww) * expect (k' i) f) end =
    if Req_EM_T (rsum (map (Rmult c) ww)) 0 then expect (k' 0%nat) f else sumf (seq 0 (length (map (Rmult c) ww))) (fun i => nth i (map (Rmult c) ww) 0 / rsum (map (Rmult c) ww) * expect (k' i) f)) by reflexivity.
  rewrite E. clear E. change (match ww with [] => f (Raise IndexError) | _ :: _ => if Req_EM_T (rsum ww) 0 then expect (k 0%nat) f else sumf (seq 0 (length ww)) (fun i => nth i ww 0 / rsum ww * expect (k i) f) end) with
    (if Req_EM_T (rsum ww) 0 then expect (k 0%nat) f else sumf (seq 0 (length ww)) (fun i => nth i ww 0 / rsum ww * expect (k i) f)).
  rewrite rsum_scale. destruct (Req_EM_T (rsum ww) 0) as [Z0|NZ].
  - rewrite Z0, Rmult_0_r. destruct (Req_EM_T 0 0) as [_|N]; [|congruence]. apply IH. unfold ww. cbn. lia.
  - destruct (Req_EM_T (c * rsum ww) 0) as [Z1|_]; [apply Rmult_integral in Z1; destruct Z1; [lra|contradiction]|].
    rewrite map_length. apply sumf_ext. intros i Hi. apply in_seq in Hi. rewrite (IH i) by lia. f_equal.
    replace (nth i (map (Rmult c) ww) 0) with (c * nth i ww 0).
    + field. split; [exact NZ|lra].
    + rewrite (nth_indep (map (Rmult c) ww) 0 (c * 0)) by (rewrite map_length; lia). symmetry. apply (map_nth (Rmult c)).
Qed.

Section REPAIR.
Variables (ws : list nat) (tb : table) (M : nat).
Hypothesis TK : table_ok ws tb.
Hypothesis HM : (1 <= M)%nat.
Notation V := (num_cols tb).

Definition prop_to (f g : nat -> R) : Prop := exists c, 0 < c /\ forall m, (m < M)%nat -> g m = c * f m.
Definition vpos (f : nat -> R) : Prop := forall m, (m < M)%nat -> 0 < f m.

Lemma prop_refl f : prop_to f f.
Proof. exists 1. split; [lra|]. intros. ring. Qed.

Lemma vec_scale (f g : nat -> R) c : (forall m, (m < M)%nat -> g m = c * f m) -> vec M g = map (Rmult c) (vec M f).
Proof. intros H. unfold vec. rewrite map_map. apply map_ext_in. intros m I. apply in_seq in I. apply H. lia. Qed.

Lemma rmax_pos f : vpos f -> 0 < rmax (vec M f).
Proof.
  intros P. apply Rlt_le_trans with (f 0%nat); [apply P; lia|]. apply rmax_ge. unfold vec. apply in_map. apply in_seq. lia.
Qed.

Lemma prop_div f g d e : 0 < d -> 0 < e -> prop_to f g -> prop_to (fun m => f m / d) (fun m => g m / e).
Proof.
  intros Hd He (c & Hc & H). exists (c * d / e). split; [apply Rdiv_lt_0_compat; auto; now apply Rmult_lt_0_compat|].
  intros m Hm. rewrite (H m Hm). field. split; lra.
Qed.

(** ** One cell *)
Definition tables_pos (feat meas : nat -> nat -> R) : Prop :=
  forall v r m, owns ws v r -> (m < M)%nat -> 0 < feat r m /\ 0 < meas v m.

Definition crel (st st' : (nat -> R) * (nat -> nat -> R) * (nat -> nat -> R)) : Prop :=
  let '(f, p, q) := st in let '(f', p', q') := st' in
  p' = p /\ q' = q /\ tables_pos p q /\ vpos f /\ vpos f' /\ prop_to f f'.

Lemma draw_rel v r st st' : owns ws v r -> crel st st' -> crel (cell_draw v r st) (repaired_draw M v r st').
Proof.
  destruct st as [[f p] q], st' as [[f' p'] q']. intros O (-> & -> & T & P & P' & PR).
  unfold repaired_draw. cbn [cell_draw crel]. split; [reflexivity|]. split; [reflexivity|].
  assert (PQ : forall m, (m < M)%nat -> 0 < p r m / q v m) by (intros m Hm; destruct (T v r m O Hm); now apply Rdiv_lt_0_compat).
  assert (Q1 : vpos (fun m => f m * p r m / q v m)) by (intros m Hm; unfold Rdiv; rewrite Rmult_assoc; apply Rmult_lt_0_compat; [auto|now apply PQ]).
  assert (Q2 : vpos (fun m => f' m * p r m / q v m)) by (intros m Hm; unfold Rdiv; rewrite Rmult_assoc; apply Rmult_lt_0_compat; [auto|now apply PQ]).
  pose proof (rmax_pos _ Q2) as TP. split; [|split; [exact Q1|split]].
  - intros v' r' m O' Hm. destruct (T v' r' m O' Hm) as (A1 & A2). unfold set1. split.
    + destruct (Nat.eqb_spec r' r) as [->|]; lra.
    + destruct (Nat.eqb_spec v' v) as [->|]; lra.
  - intros m Hm. apply Rdiv_lt_0_compat; [now apply Q2|exact TP].
  - destruct PR as (c & Hc & H). exists (c / rmax (vec M (fun m => f' m * p r m / q v m))). split; [now apply Rdiv_lt_0_compat|].
    intros m Hm. rewrite (H m Hm). destruct (T v r m O Hm). field. split; lra.
Qed.

Lemma category_rel v rc st st' : owns ws v (fst rc) -> crel st st' -> crel (cell_category v st rc) (repaired_category M v st' rc).
Proof.
  intros O H. unfold cell_category, repaired_category. induction (Z.to_nat (snd rc)) as [|k IH]; [exact H|].
  cbn [Nat.iter nat_rect]. now apply draw_rel.
Qed.

Lemma cells_rel v l st st' : (forall rc, In rc l -> owns ws v (fst rc)) -> crel st st' -> crel (fold_left (cell_category v) l st) (fold_left (repaired_category M v) l st').
Proof.
  revert st st'. induction l as [|rc l IH]; intros st st' HL H; [exact H|]. cbn [fold_left]. apply IH.
  - intros x I. apply HL. now right.
  - apply category_rel; [apply HL; now left|exact H].
Qed.

Lemma add_cell_rel ty row v st st' : (v < V)%nat -> crel st st' ->
  match treecat_add_cell ty (tb_ri tb) row v st, repaired_add_cell M ty (tb_ri tb) row v st' with
  | Ok a, Ok b => crel a b | Raise e, Raise e' => e = e' | _, _ => False end.
Proof.
  intros Hv H. unfold treecat_add_cell, repaired_add_cell. destruct (ty =? TY_MULTINOMIAL)%nat; [|reflexivity].
  rewrite !(ri_get _ _ TK) by lia. cbn [bind]. apply cells_rel; [|exact H].
  intros [r z] I. apply in_combine_l in I. apply in_seq in I. cbn [fst].
  pose proof (tk_width _ _ TK) as W. rewrite Nat.add_1_r, sum_firstn_S in I by lia. split; lia.
Qed.

(** ** One instruction *)
Section INSTR.
Variables (row : list Z) (vp : nat -> nat -> R) (ep : nat -> nat -> nat -> R).
Hypothesis VP : forall v m, (v < V)%nat -> (m < M)%nat -> 0 < vp v m.
Hypothesis EP : forall e m1 m2, (e < V - 1)%nat -> (m1 < M)%nat -> (m2 < M)%nat -> 0 < ep e m1 m2.

Definition srel (st st' : (nat -> nat -> R) * (nat -> nat -> R) * (nat -> nat -> R) * (nat -> nat)) : Prop :=
  let '(f, p, q, z) := st in let '(f', p', q', z') := st' in
  p' = p /\ q' = q /\ z' = z /\ tables_pos p q /\ forall v, (v < V)%nat -> vpos (f v) /\ vpos (f' v) /\ prop_to (f v) (f' v).

Lemma sumf_vpos g : (forall m, (m < M)%nat -> 0 < g m) -> 0 < sumf (seq 0 M) g.
Proof.
  intros P. apply sumf_pos.
  - intros m I. apply in_seq in I. left. apply P. lia.
  - exists 0%nat. split; [apply in_seq; lia|]. apply P. lia.
Qed.

Lemma instr_rel st st' i : srel st st' ->
  prel srel (add_instr (tb_types tb) (tb_ri tb) row V (V - 1) M vp ep st i) (repaired_add_instr (tb_types tb) (tb_ri tb) row V (V - 1) M vp ep st' i).
Proof.
  destruct st as [[[f p] q] z], st' as [[[f' p'] q'] z'], i as [op v v2 e]. intros (-> & -> & -> & T & H).
  assert (G : forall g g', vpos g -> vpos g' -> prop_to g g' -> forall z0, srel (set1 f v g, p, q, z0) (set1 f' v g', p, q, z0)).
  { intros g g' P P' PR z0. split; [reflexivity|]. split; [reflexivity|]. split; [reflexivity|]. split; [exact T|].
    intros u Hu. unfold set1. destruct (u =? v)%nat; auto. }
  assert (CK : forall b (X Y : rprog _), (b = true -> prel srel X Y) -> prel srel (rbind (lift (check b)) (fun _ => X)) (rbind (lift (check b)) (fun _ => Y))).
  { intros [] X Y K; cbn [check lift rbind]; [auto|constructor]. }
  destruct op; cbn [repaired_add_instr add_instr]; apply CK; intros Hv; apply Nat.ltb_lt in Hv; destruct (H v Hv) as (Pv & Pv' & PRv).
  - destruct (get OutOfBounds (tb_types tb) v) as [ty|]; cbn [lift rbind]; [|constructor].
    eapply (prel_bind crel).
    + apply prel_lift. apply (add_cell_rel ty row v (f v, p, q) (f' v, p, q) Hv). split; [reflexivity|]. split; [reflexivity|]. auto.
    + intros [[g a] b] [[g' a'] b'] (-> & -> & T' & P1 & P2 & P3). constructor.
      split; [reflexivity|]. split; [reflexivity|]. split; [reflexivity|]. split; [exact T'|].
      intros u Hu. unfold set1. destruct (u =? v)%nat; auto.
  - apply CK. intros B. apply andb_true_iff in B. destruct B as (B1 & B2). apply Nat.ltb_lt in B1, B2.
    destruct (H v2 B1) as (P2 & P2' & PR2). constructor.
    set (tr := if (v2 <? v)%nat then transpose (ep e) else ep e).
    assert (TR : forall m m2, (m < M)%nat -> (m2 < M)%nat -> 0 < tr m m2) by (intros m m2 H1 H2; unfold tr, transpose; destruct (v2 <? v)%nat; now apply EP).
    set (S1 := fun m => sumf (seq 0 M) (fun m2 => tr m m2 * (f v2 m2 / vp v2 m2))).
    set (S2 := fun m => sumf (seq 0 M) (fun m2 => tr m m2 * (f' v2 m2 / vp v2 m2))).
    assert (SP1 : forall m, (m < M)%nat -> 0 < S1 m) by (intros m Hm; apply sumf_vpos; intros m2 Hm2; apply Rmult_lt_0_compat; [auto|apply Rdiv_lt_0_compat; auto]).
    assert (SP2 : forall m, (m < M)%nat -> 0 < S2 m) by (intros m Hm; apply sumf_vpos; intros m2 Hm2; apply Rmult_lt_0_compat; [auto|apply Rdiv_lt_0_compat; auto]).
    assert (Q1 : vpos (fun m => f v m * S1 m / vp v m)) by (intros m Hm; apply Rdiv_lt_0_compat; auto; apply Rmult_lt_0_compat; auto).
    assert (Q2 : vpos (fun m => f' v m * S2 m / vp v m)) by (intros m Hm; apply Rdiv_lt_0_compat; auto; apply Rmult_lt_0_compat; auto).
    pose proof (rmax_pos _ Q1) as T1. pose proof (rmax_pos _ Q2) as T2.
    apply (G (fun m => f v m * S1 m / vp v m / rmax (vec M (fun m => f v m * S1 m / vp v m)))
             (fun m => f' v m * S2 m / vp v m / rmax (vec M (fun m => f' v m * S2 m / vp v m)))).
    + intros m Hm. apply Rdiv_lt_0_compat; auto.
    + intros m Hm. apply Rdiv_lt_0_compat; auto.
    + apply prop_div; auto. destruct PRv as (c & Hc & E1). destruct PR2 as (d & Hd & E2).
      exists (c * d). split; [now apply Rmult_lt_0_compat|]. intros m Hm. rewrite (E1 m Hm).
      assert (ES : S2 m = d * S1 m).
      { unfold S1, S2. rewrite <- sumf_scal. apply sumf_ext. intros m2 I. apply in_seq in I. rewrite (E2 m2) by lia. unfold Rdiv. ring. }
      rewrite ES. unfold Rdiv. ring.
  - destruct PRv as (c & Hc & E1). eapply (pr_cat _ _ _ _ _ c Hc); [now apply vec_scale|].
    intros m _. constructor. split; [reflexivity|]. split; [reflexivity|]. split; [reflexivity|]. split; [exact T|exact H].
  - apply CK. intros B. apply andb_true_iff in B. destruct B as (B & B3). apply andb_true_iff in B. destruct B as (B1 & B2). apply Nat.ltb_lt in B1, B2, B3.
    set (tr := if (v <? v2)%nat then transpose (ep e) else ep e).
    assert (TR : forall m m2, (m < M)%nat -> (m2 < M)%nat -> 0 < tr m m2) by (intros m m2 H1 H2; unfold tr, transpose; destruct (v <? v2)%nat; now apply EP).
    destruct PRv as (c & Hc & E1).
    assert (EE : forall m, (m < M)%nat -> f' v m * tr (z v2) m / vp v m = c * (f v m * tr (z v2) m / vp v m)).
    { intros m Hm. rewrite (E1 m Hm). unfold Rdiv. ring. }
    eapply (pr_cat _ _ _ _ _ c Hc); [now apply vec_scale|].
    intros m _. constructor. apply G.
    + intros k Hk. apply Rdiv_lt_0_compat; auto. apply Rmult_lt_0_compat; auto.
    + intros k Hk. apply Rdiv_lt_0_compat; auto. apply Rmult_lt_0_compat; auto.
    + exists c. split; [exact Hc|exact EE].
  - constructor. split; [reflexivity|]. split; [reflexivity|]. split; [reflexivity|]. split; [exact T|exact H].
Qed.
End INSTR.
End REPAIR.

Lemma repair_keeps ws tb prior M s n f : table_ok ws tb -> nonneg_data tb -> (1 <= M)%nat ->
  reachable tb prior M s -> (n < num_rows tb)%nat ->
  expect (repaired_add_row tb M s n) f = expect (add_row tb M s n) f.
Proof.
  intros TK ND HM RE Hn. pose proof (reachable_tinv ws tb M TK HM prior s RE) as TI. symmetry. apply prel_expect.
  unfold repaired_add_row, add_row. destruct (set_mem n (s_added s)); [now constructor|].
  rewrite (L_Base.get_Ok _ IndexError (tb_rows tb) n []) by exact Hn. cbn [lift rbind].
  eapply (prel_bind (srel ws tb M)).
  - apply prel_fold; [intros st st' i; apply instr_rel; auto|].
    + intros v m. apply (L_AddRow.vp_pos ws tb M HM s TI).
    + intros e m1 m2. apply (L_AddRow.ep_pos ws tb M HM s TI).
    + split; [reflexivity|]. split; [reflexivity|]. split; [reflexivity|]. split.
      * intros v r m O Hm. assert (Hv : (v < num_cols tb)%nat) by (rewrite <- (tk_width _ _ TK); apply O).
        assert (IB : In r (block ws v)) by (eapply block_owns; eauto).
        split; [apply (L_AddRow.fp_pos ws tb M TK HM ND s TI v); auto|].
        destruct (L_AddRow.mp_pos ws tb M TK HM ND s TI v m Hv Hm) as [E|P]; [rewrite E in IB; destruct IB|exact P].
      * intros v Hv. assert (P : vpos M (fun m => IZR (s_vert s v m) + vert_prior)) by (intros m Hm; apply (L_AddRow.vp_pos ws tb M HM s TI); auto).
        split; [exact P|]. split; [exact P|apply prop_refl].
  - intros [[[a b] c] z] [[[a' b'] c'] z'] (_ & _ & -> & _). cbv zeta.
    destruct (update_stats _ _ _ _ _ _ _ _ _); cbn [lift rbind]; now constructor.
Qed.
