(** Epochs converge to the joint posterior of trees and classes. *)
From Coq Require Import List Arith Bool ZArith Reals Lia Lra Permutation Sorted.
From Verif Require Import Base L_Base Spec_Graph L_Graph Spec_Sum L_Sum Spec_Trees Spec_Ragged M_Structure L_Pairing L_Prop1 L_MakeTree M_Util
  M_Rand L_Rand M_SampleTree L_SampleTree L_TreeMCMC L_AllTrees M_Array M_Training Spec_Joint Spec_Stats L_Asg L_Stats L_Trainer
  Spec_Conditional L_AddRow L_Conditional Spec_EdgeLogits L_EdgeLogits Spec_Gibbs L_Gibbs L_Train Spec_Epoch L_Epoch L_Shuffle L_Doeblin L_TreeReach.
Import ListNotations.
Open Scope R_scope.

Definition ind (b : bool) : R := if b then 1 else 0.
Lemma ind_range b : 0 <= ind b <= 1.
Proof. destruct b; cbn; lra. Qed.

Lemma sumf_list_prod {A B} (l : list A) (m : list B) (f : A * B -> R) : sumf (list_prod l m) f = sumf l (fun a => sumf m (fun b => f (a, b))).
Proof. induction l as [|a l IH]; [reflexivity|]. cbn [list_prod]. rewrite sumf_app, sumf_map, sumf_cons, IH. reflexivity. Qed.

Section Converge.
Variable lg : R -> R.
Hypothesis REC : forall x, 0 < x -> lg (x + 1) = lg x + ln x.
Variables (ws : list nat) (tb : table) (prior : list R) (M : nat).
Hypothesis TK : table_ok ws tb.
Hypothesis HM : (1 <= M)%nat.
Hypothesis ND : nonneg_data tb.
Notation V := (num_cols tb).
Notation N := (num_rows tb).
Hypothesis LP : length prior = tri V.
Variable TT : list (list edge).
Hypothesis ET : enumerates_trees V TT.
Notation gf := (fun T A s => gfull ws tb M (with_tree tb T) A s).
Notation "'mats'" := (matrices N V M).
Variable St : list edge -> list (list nat) -> tstate.
Hypothesis SG : forall T A, In T TT -> In A mats -> gf T A (St T A).

(** ** A sweep over rows *)
Definition gk (T : list edge) (n : nat) (A B : list (list nat)) : R :=
  prob (gibbs tb M (St T A) n) (fun s => matrix_eqb (class_matrix tb s) B).
Fixpoint sk (T : list edge) (rows : list nat) (A B : list (list nat)) : R :=
  match rows with [] => ind (matrix_eqb A B) | n :: rows => sumf mats (fun C => gk T n A C * sk T rows C B) end.

Lemma gk_form T n A B : In T TT -> In A mats -> (n < N)%nat -> exists w : list nat -> R, (forall z, In z (vectors V M) -> 0 < w z) /\
  gk T n A B = sumf (vectors V M) (fun z => w z / sumf (vectors V M) w * ind (matrix_eqb (upd A n z) B)).
Proof.
  intros IT IA Hn. pose proof (SG T A IT IA) as GF. pose proof (gfull_added ws tb M HM _ A _ n GF Hn) as I. destruct GF as (TI & _ & _ & CA).
  destruct (gibbs_law ws tb M TK HM ND (St T A) n B TI I) as (s0 & _ & T0 & _ & _ & _ & LAW).
  exists (conditional_weight ws tb M s0 n). split; [intros z Hz; now apply cond_weight_pos|]. unfold gk. rewrite LAW, CA. reflexivity.
Qed.

Lemma vectors_sum_pos (w : list nat -> R) : (forall z, In z (vectors V M) -> 0 < w z) -> 0 < sumf (vectors V M) w.
Proof.
  intros H. apply sumf_pos; [intros; left; auto|]. exists (repeat 0%nat V).
  assert (I : In (repeat 0%nat V) (vectors V M)). { apply in_vectors. rewrite repeat_length. split; [reflexivity|]. intros m J. apply repeat_spec in J. lia. }
  auto.
Qed.

Lemma gk_nonneg T n A B : In T TT -> In A mats -> (n < N)%nat -> 0 <= gk T n A B.
Proof.
  intros IT IA Hn. destruct (gk_form T n A B IT IA Hn) as (w & W & ->). apply sumf_nonneg. intros z Hz.
  apply Rmult_le_pos; [|apply ind_range]. left. apply Rdiv_lt_0_compat; [auto|now apply vectors_sum_pos].
Qed.

Lemma matrix_eqb_eq A B : matrix_eqb A B = true <-> A = B.
Proof. unfold matrix_eqb. destruct (list_eq_dec _ A B); split; congruence. Qed.

Lemma gk_pos T n A z : In T TT -> In A mats -> (n < N)%nat -> In z (vectors V M) -> 0 < gk T n A (upd A n z).
Proof.
  intros IT IA Hn Hz. destruct (gk_form T n A (upd A n z) IT IA Hn) as (w & W & ->). apply sumf_pos.
  - intros y Hy. apply Rmult_le_pos; [|apply ind_range]. left. apply Rdiv_lt_0_compat; [auto|now apply vectors_sum_pos].
  - exists z. split; [exact Hz|]. rewrite (proj2 (matrix_eqb_eq _ _) eq_refl). cbn [ind]. rewrite Rmult_1_r. apply Rdiv_lt_0_compat; [auto|now apply vectors_sum_pos].
Qed.

Lemma upd_mats A n z : In A mats -> In z (vectors V M) -> (n < N)%nat -> In (upd A n z) mats.
Proof.
  intros IA Hz Hn. apply in_matrices in IA; auto. destruct IA as (LA & VA). apply in_matrices; auto. rewrite upd_length. split; [exact LA|].
  intros y Hy. apply In_nth with (d := []) in Hy. rewrite upd_length in Hy. destruct Hy as (k & Hk & <-). rewrite nth_upd by lia.
  destruct (k =? n)%nat; auto. apply VA, nth_In, Hk.
Qed.

Lemma sk_nonneg T rows : In T TT -> (forall n, In n rows -> (n < N)%nat) -> forall A B, In A mats -> 0 <= sk T rows A B.
Proof.
  intros IT. induction rows as [|n rows IH]; intros HR A B IA; cbn [sk]; [apply ind_range|].
  apply sumf_nonneg. intros C IC. apply Rmult_le_pos; [apply gk_nonneg; auto; apply HR; now left|]. apply IH; auto. intros; apply HR; now right.
Qed.

Lemma sk_pos T rows : In T TT -> (forall n, In n rows -> (n < N)%nat) -> forall A B, In A mats -> In B mats ->
  (forall n, (n < N)%nat -> ~ In n rows -> nth n A [] = nth n B []) -> 0 < sk T rows A B.
Proof.
  intros IT. induction rows as [|n rows IH]; intros HR A B IA IB HE; cbn [sk].
  - assert (A = B).
    { apply in_matrices in IA; auto. apply in_matrices in IB; auto. destruct IA as (LA & _), IB as (LB & _).
      apply nth_ext with (d := []) (d' := []); [lia|]. intros i Hi. apply HE; [lia|auto]. }
    subst. rewrite (proj2 (matrix_eqb_eq _ _) eq_refl). cbn. lra.
  - assert (Hn : (n < N)%nat) by (apply HR; now left). assert (HR' : forall k, In k rows -> (k < N)%nat) by (intros; apply HR; now right).
    pose proof IB as IB0. apply in_matrices in IB0; auto. destruct IB0 as (LB & VB). pose proof IA as IA0. apply in_matrices in IA0; auto. destruct IA0 as (LA & _).
    assert (Hz : In (nth n B []) (vectors V M)) by (apply VB, nth_In; lia).
    apply sumf_pos.
    + intros C IC. apply Rmult_le_pos; [now apply gk_nonneg|now apply sk_nonneg].
    + exists (upd A n (nth n B [])). split; [now apply upd_mats|]. apply Rmult_lt_0_compat; [now apply gk_pos|].
      apply IH; auto; [now apply upd_mats|]. intros k Hk NI. rewrite nth_upd by lia. destruct (Nat.eqb_spec k n) as [->|NE]; [reflexivity|].
      apply HE; auto. intros [E|E]; congruence.
Qed.

Lemma sk_sum T rows : In T TT -> (forall n, In n rows -> (n < N)%nat) -> forall G g, (forall s' B, gf T B s' -> G (Ok s') = g B) ->
  forall s A, gf T A s -> expect (sweep tb M s rows) G = sumf mats (fun B => sk T rows A B * g B).
Proof.
  intros IT. induction rows as [|n rows IH]; intros HR G g HG s A GF.
  - cbn [sweep rfold expect sk]. rewrite (HG s A GF). rewrite (sumf_single _ _ A).
    + rewrite (proj2 (matrix_eqb_eq _ _) eq_refl). cbn. ring.
    + apply matrices_NoDup.
    + eapply gfull_in; eauto.
    + intros B _ NE. destruct (matrix_eqb A B) eqn:E; [apply matrix_eqb_eq in E; congruence|]. cbn. ring.
  - assert (Hn : (n < N)%nat) by (apply HR; now left). assert (IA : In A mats) by (eapply gfull_in; eauto).
    unfold sweep. cbn [rfold]. rewrite expect_bind.
    rewrite (gibbs_expect ws tb M TK HM ND _ A s n _ (fun C => sumf mats (fun B => sk T rows C B * g B)) GF Hn).
    + cbn [sk]. rewrite (sumf_ext mats (fun B => sumf mats _ * g B) (fun B => sumf mats (fun C => gk T n A C * sk T rows C B * g B))) by (intros; now rewrite <- sumf_scal_r).
      rewrite (sumf_swap _ _ mats mats (fun B C => gk T n A C * sk T rows C B * g B)). apply sumf_ext. intros C _. rewrite <- sumf_scal.
      apply sumf_ext. intros B _. rewrite (gibbs_same lg ws tb M TK HM ND _ A s (St T A) n C GF (SG T A IT IA) Hn). unfold gk. ring.
    + intros s' C GC. apply IH; auto. intros; apply HR; now right.
Qed.

(** ** The tree *)
Definition tk (A : list (list nat)) (T T' : list edge) : R :=
  match compute_edge_logits lg tb prior M (St T A) with
  | Ok l => prob (sample_tree (complete_grid V) (map Some l) T) (fun E => if edge_list_eq_dec E T' then true else false)
  | Raise _ => 0
  end.

Lemma TT_can T : In T TT -> canonical V T.
Proof. intros I. apply ET in I. unfold canonical_tree in I. unfold canonical, labelled. tauto. Qed.

Lemma tk_sum A T l g : In T TT -> In A mats -> compute_edge_logits lg tb prior M (St T A) = Ok l ->
  expect (sample_tree (complete_grid V) (map Some l) T) (fun r => match r with Ok T' => g T' | Raise _ => 0 end) = sumf TT (fun T' => tk A T T' * g T').
Proof.
  intros IT IA EL. unfold tk. rewrite EL. destruct (gf_logits lg ws tb prior M HM LP T A _ (SG T A IT IA)) as (l' & EL' & LL & _).
  rewrite EL in EL'. inversion EL'; subst l'.
  rewrite (sample_tree_expect_ext V _ TT T _ (fun r => sumf TT (fun T' => g T' * ind (match r with Ok E => if edge_list_eq_dec E T' then true else false | Raise _ => false end)))).
  - rewrite expect_sum. apply sumf_ext. intros T' _. rewrite expect_scal, Rmult_comm. f_equal. unfold prob. apply expect_ext. intros [E|e]; [|reflexivity]. destruct (edge_list_eq_dec E T'); reflexivity.
  - exact ET.
  - eapply TT_V; eauto.
  - now rewrite map_length.
  - exact IT.
  - intros T' IT'. rewrite (sumf_single _ _ T').
    + destruct (edge_list_eq_dec T' T'); [cbn; ring|congruence].
    + apply ET.
    + exact IT'.
    + intros T2 _ NE. destruct (edge_list_eq_dec T' T2); [congruence|]. cbn. ring.
Qed.

Lemma tk_pos A T T' : In T TT -> In T' TT -> In A mats -> 0 < tk A T T'.
Proof.
  intros IT IT' IA. unfold tk. destruct (gf_logits lg ws tb prior M HM LP T A _ (SG T A IT IA)) as (l & EL & LL & _). rewrite EL.
  apply sample_tree_reaches; auto using TT_can.
Qed.

(** ** Epochs *)
Definition states : list (list edge * list (list nat)) := list_prod TT mats.
Definition ek (x y : list edge * list (list nat)) : R := tk (snd x) (fst x) (fst y) * sk (fst y) (seq 0 N) (snd x) (snd y).

Lemma sumf_states (f : list edge * list (list nat) -> R) : sumf states f = sumf TT (fun T => sumf mats (fun A => f (T, A))).
Proof. apply sumf_list_prod. Qed.

Lemma rows_lt n : In n (seq 0 N) -> (n < N)%nat.
Proof. intros I. apply in_seq in I. lia. Qed.

Lemma epoch_sum G g s T A : (forall s' T' B, In T' TT -> gf T' B s' -> G (Ok s') = g (T', B)) -> In T TT -> gf T A s ->
  expect (full_epoch lg tb prior M s) G = sumf states (fun y => ek (T, A) y * g y).
Proof.
  intros HG IT GF. assert (IA : In A mats) by (refine (gfull_in ws tb M _ (with_tree tb T) A s GF); assumption).
  destruct (gf_logits lg ws tb prior M HM LP T A s GF) as (l & EL & LL & _).
  assert (EL' : compute_edge_logits lg tb prior M (St T A) = Ok l) by (rewrite <- EL; apply (same_logits lg ws tb prior M TK HM LP T T A); [now apply SG|exact GF]).
  unfold full_epoch. rewrite expect_bind.
  rewrite (resample_expect lg ws tb prior M HM LP TT ET T A s l _ (fun T' => sumf mats (fun B => sk T' (seq 0 N) A B * g (T', B)))); auto.
  - rewrite (tk_sum A T l (fun T' => sumf mats (fun B => sk T' (seq 0 N) A B * g (T', B))) IT IA EL'). rewrite sumf_states. apply sumf_ext. intros T' IT'. rewrite <- sumf_scal. apply sumf_ext. intros B _. unfold ek. cbn [fst snd]. ring.
  - intros s' T' IT' G'. apply (sk_sum T' (seq 0 N) IT' rows_lt G (fun B => g (T', B))); auto.
Qed.

Lemma ek_pos x y : In x states -> In y states -> 0 < ek x y.
Proof.
  destruct x as [T A], y as [T' B]. unfold states. rewrite !in_prod_iff. intros (IT & IA) (IT' & IB). unfold ek. cbn [fst snd].
  apply Rmult_lt_0_compat; [now apply tk_pos|]. apply sk_pos; auto; [apply rows_lt|]. intros n Hn NI. exfalso. apply NI. apply in_seq. lia.
Qed.

Lemma ek_one x : In x states -> sumf states (ek x) = 1.
Proof.
  destruct x as [T A]. unfold states at 1. rewrite in_prod_iff. intros (IT & IA).
  pose proof (epoch_sum (fun _ => 1) (fun _ => 1) (St T A) T A (fun _ _ _ _ _ => eq_refl) IT (SG T A IT IA)) as E. rewrite expect_const in E.
  rewrite E at 1. apply sumf_ext. intros. ring.
Qed.

Lemma epochs_iterate G g : (forall s' T' B, In T' TT -> gf T' B s' -> G (Ok s') = g (T', B)) ->
  forall ks s T A, In T TT -> gf T A s ->
  expect (rfold (fun s (_ : nat) => full_epoch lg tb prior M s) ks s) G = iterate states ek (length ks) g (T, A).
Proof.
  intros HG. induction ks as [|k ks IH]; intros s T A IT GF; [now apply HG|].
  cbn [rfold length iterate]. rewrite expect_bind. apply epoch_sum; auto.
Qed.

Definition Z : R := sumf states (fun y => joint lg tb prior M St (fst y) (snd y)).
Definition post (y : list edge * list (list nat)) : R := joint lg tb prior M St (fst y) (snd y) / Z.

Lemma joint_pos T A : 0 < joint lg tb prior M St T A.
Proof. apply exp_pos. Qed.

Lemma post_inv y : In y states -> sumf states (fun x => post x * ek x y) = post y.
Proof.
  destruct y as [T' A']. unfold states at 1. rewrite in_prod_iff. intros (IT' & IA'). unfold post. cbn [fst snd].
  rewrite (sumf_ext _ _ (fun x => joint lg tb prior M St (fst x) (snd x) * ek x (T', A') / Z)) by (intros; unfold Rdiv; ring).
  rewrite sumf_div. f_equal.
  rewrite <- (epochs_invariant lg REC ws tb prior M TK HM ND LP TT ET St SG 1 T' A' IT' IA'). rewrite sumf_states.
  apply sumf_ext. intros T IT. apply sumf_ext. intros A IA. cbn [fst snd]. f_equal. symmetry. unfold prob, epochs.
  rewrite (epochs_iterate _ (fun y => ind ((if edge_list_eq_dec (fst y) T' then true else false) && matrix_eqb (snd y) A'))) with (T := T) (A := A); auto.
  - cbn [length seq iterate]. rewrite sumf_states. rewrite (sumf_single _ _ T').
    + rewrite (sumf_single _ _ A').
      * cbn [fst snd]. destruct (edge_list_eq_dec T' T'); [|congruence]. rewrite (proj2 (matrix_eqb_eq _ _) eq_refl). cbn. ring.
      * apply matrices_NoDup.
      * exact IA'.
      * intros B _ NE. cbn [fst snd]. destruct (matrix_eqb B A') eqn:E; [apply matrix_eqb_eq in E; congruence|]. rewrite andb_false_r. cbn. ring.
    + apply ET.
    + exact IT'.
    + intros T2 _ NE. apply sumf_zero. intros B _. cbn [fst snd]. destruct (edge_list_eq_dec T2 T'); [congruence|]. cbn. ring.
  - intros s' T2 B I2 G2. rewrite (is_at_gf ws tb M TT ET T2 B); auto.
Qed.

Lemma epochs_converge : TT <> [] -> exists rho, 0 <= rho < 1 /\
  forall (b : list edge -> list (list nat) -> bool) G k s T A, (forall s' T' B, In T' TT -> gf T' B s' -> G (Ok s') = ind (b T' B)) ->
  In T TT -> gf T A s ->
  Rabs (expect (epochs lg tb prior M k s) G -
        sumf states (fun y => post y * ind (b (fst y) (snd y)))) <= rho ^ k.
Proof.
  intros NE.
  assert (NS : exists x, In x states).
  { destruct TT as [|T0 l] eqn:E; [congruence|]. rewrite <- E in *. assert (I0 : In T0 TT) by (rewrite E; now left).
    exists (T0, repeat (repeat 0%nat V) N). apply in_prod; [exact I0|]. apply in_matrices; auto. rewrite repeat_length. split; [reflexivity|].
    intros z Hz. apply repeat_spec in Hz. subst z. apply in_vectors. rewrite repeat_length. split; [reflexivity|]. intros m J. apply repeat_spec in J. lia. }
  assert (ZP : 0 < Z) by (apply sumf_pos; [intros; left; apply joint_pos|destruct NS as (x & I); exists x; split; [exact I|apply joint_pos]]).
  assert (P1 : sumf states post = 1) by (unfold post; rewrite sumf_div; fold Z; field; lra).
  assert (PP : forall x, In x states -> 0 <= post x) by (intros x _; left; apply Rdiv_lt_0_compat; [apply joint_pos|exact ZP]).
  destruct (rate_exists states ek post ek_pos ek_one PP P1 post_inv) as (rho & RO). exists rho. split; [apply RO|].
  intros b G k s T A HG IT GF. assert (IA : In A mats) by (refine (gfull_in ws tb M _ (with_tree tb T) A s GF); assumption).
  pose proof (converge states ek post ek_one PP P1 post_inv rho k
    (fun y => ind (b (fst y) (snd y))) 0 1 (T, A) RO (fun x _ => ind_range _) (in_prod _ _ _ _ IT IA)) as C.
  rewrite Rminus_0_r, Rmult_1_r in C. unfold epochs.
  rewrite (epochs_iterate _ (fun y => ind (b (fst y) (snd y)))) with (T := T) (A := A); auto. now rewrite seq_length.
Qed.

Lemma gf_event (b : list edge -> list (list nat) -> bool) s' T' B : In T' TT -> gf T' B s' ->
  (if b (ts_get_edges (s_tree s')) (class_matrix tb s') then 1 else 0) = ind (b T' B).
Proof. intros IT' (_ & ETs & _ & CB). rewrite ETs, CB. unfold with_tree. rewrite (canonical_edges V T'); [reflexivity|now apply ET]. Qed.

Lemma gf_Lform T A s s' : In T TT -> gf T A s -> gf T A s' -> Lform lg tb M s = Lform lg tb M s'.
Proof.
  intros IT G1 G2. destruct (same_counts lg ws tb prior M TK HM LP T T A s s' G1 G2) as (SV & SF & SE).
  rewrite (tree_form lg ws tb prior M TK HM LP TT ET T A s IT G1), (tree_form lg ws tb prior M TK HM LP TT ET T A s' IT G2).
  destruct (TT_canonical tb TT ET T IT) as ((_ & RG & _) & _). f_equal; [f_equal|].
  - apply sumf_ext. intros v Hv. apply in_seq in Hv. apply SV. lia.
  - apply sumf_ext. intros [x y] I. destruct (RG _ _ I). now apply SE.
  - apply sumf_ext. intros v Hv. apply in_seq in Hv. apply SF. lia.
Qed.
End Converge.
