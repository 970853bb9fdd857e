(** Expectations of programs that draw from float32 weights. *)
From Coq Require Import List Arith ZArith Reals Lra Lia Permutation.
From Flocq Require Import Core IEEE754.BinarySingleNaN.
From Verif Require Import Base Spec_Sum L_Sum M_Rand L_Rand M_Training M_Float32 Spec_Float32 L_Float32 L_Sample32 M_Train32 L_Train32e Spec_Law Spec_Serving32 L_Grid L_Grid2 M_Run32 Spec_Run32 L_Run32a Spec_RunLaw32.
Import ListNotations.
Open Scope R_scope.
#[local] Opaque all_rands.

(** All results of positive probability satisfy [Q], and no run raises. *)
Fixpoint gok {A} (Q : A -> Prop) (p : gprog A) : Prop :=
  match p with
  | GRet a => Q a
  | GFail _ => False
  | GCat w k => usable w /\ forall i, (i < length w)%nat -> 0 < draw_prob w i -> gok Q (k i)
  | GPerm n k => forall l, Permutation l (seq 0 n) -> gok Q (k l)
  end.

Lemma filter_some {A} (P : A -> bool) l : (0 < length (filter P l))%nat -> exists x, In x l /\ P x = true.
Proof.
  induction l as [|x l IH]; cbn; [lia|]. destruct (P x) eqn:E; [eauto|]. intros H. destruct (IH H) as (y & I & Py). eauto.
Qed.

Lemma draw_source w i : 0 < draw_prob w i -> exists u, uniform01 u /\ sample_from_probs32 u w = Ok i.
Proof.
  unfold draw_prob. intros H.
  assert (L : (0 < length (filter (fun u => match sample_from_probs32 u w with Ok j => (j =? i)%nat | Raise _ => false end) all_rands))%nat).
  { destruct (length _); [|lia]. cbn [INR] in H. unfold Rdiv in H. rewrite Rmult_0_l in H. lra. }
  apply filter_some in L. destruct L as (u & I & E). exists u. split; [now apply rands_uniform|].
  destruct (sample_from_probs32 u w) as [j|]; [|discriminate]. apply Nat.eqb_eq in E. now subst.
Qed.

Lemma gok_gsafe {A} (Q : A -> Prop) p : gsafe Q p -> gok Q p.
Proof.
  induction p as [a|e|w k IH|n k IH]; cbn [gsafe gok]; auto. intros (U & H). split; [exact U|]. intros i Hi Pi.
  apply IH, H; [exact Hi|]. destruct (draw_source w i Pi) as (u & Hu & E). destruct (sample_usable u w Hu U) as (j & E' & _ & PJ).
  rewrite E in E'. inversion E'; subst. exact PJ.
Qed.

Lemma gok_and {A} (Q Q' : A -> Prop) p : gok Q p -> gok Q' p -> gok (fun a => Q a /\ Q' a) p.
Proof.
  induction p as [a|e|w k IH|n k IH]; cbn [gok]; auto. intros (U & H) (_ & H'). split; auto.
Qed.

Lemma gok_mono {A} (Q Q' : A -> Prop) p : (forall a, Q a -> Q' a) -> gok Q p -> gok Q' p.
Proof.
  intros K. induction p as [a|e|w k IH|n k IH]; cbn [gok]; auto. intros (U & H). split; auto.
Qed.

Lemma gok_bind {A B} (R : B -> Prop) p (f : A -> gprog B) : gok (fun a => gok R (f a)) p -> gok R (gbind p f).
Proof. induction p as [a|e|w k IH|n k IH]; cbn [gok gbind]; auto. intros (U & H). split; auto. Qed.

Lemma gok_fold {A S} (f : S -> A -> gprog S) (J : S -> Prop) l : forall s, J s ->
  (forall s a, J s -> In a l -> gok J (f s a)) -> gok J (gfold f l s).
Proof.
  induction l as [|a l IH]; intros s HJ K; cbn [gfold]; [exact HJ|]. apply gok_bind.
  eapply gok_mono; [|apply K; [exact HJ|now left]]. intros s' HJ'. apply IH; [exact HJ'|]. intros; apply K; [assumption|now right].
Qed.

Lemma gok_of_f {A} (Q : A -> Prop) (p : fprog A) : draws_usable Q p -> gok (fun a => Q a /\ exists us, Forall uniform01 us /\ frun us p = Ok a) (of_f p).
Proof.
  induction p as [a|e|w k IH]; cbn [draws_usable of_f gok].
  - intros H. split; [exact H|]. exists []. split; [constructor|reflexivity].
  - auto.
  - intros (U & H). split; [exact U|]. intros i Hi Pi. destruct (draw_source w i Pi) as (u & Hu & E).
    destruct (sample_usable u w Hu U) as (j & E' & Hj & PJ). rewrite E in E'. inversion E'; subst j.
    eapply gok_mono; [|apply (IH i (H i Hi PJ))]. intros a (Qa & us & FU & ER). split; [exact Qa|]. exists (u :: us). split; [now constructor|].
    cbn [frun]. rewrite E. exact ER.
Qed.

Lemma gexpect_bind {A B} (p : gprog A) (f : A -> gprog B) G : gexpect (gbind p f) G = gexpect p (fun a => gexpect (f a) G).
Proof.
  induction p as [a|e|w k IH|n k IH]; cbn [gbind gexpect]; auto.
  - apply sumf_ext. intros i _. now rewrite IH.
  - f_equal. apply sumf_ext. intros l _. now rewrite IH.
Qed.

Lemma gexpect_between {A} (Q : A -> Prop) p G lo hi : gok Q p -> (forall a, Q a -> lo <= G a <= hi) -> lo <= gexpect p G <= hi.
Proof.
  intros HQ HG. induction p as [a|e|w k IH|n k IH]; cbn [gok gexpect] in *.
  - auto.
  - destruct HQ.
  - destruct HQ as (U & H). pose proof (draw_prob_sum w U) as S1.
    assert (T : forall i, In i (seq 0 (length w)) -> draw_prob w i * lo <= draw_prob w i * gexpect (k i) G <= draw_prob w i * hi).
    { intros i Hi. apply in_seq in Hi. pose proof (draw_prob_nonneg w i) as D0. destruct (Req_dec (draw_prob w i) 0) as [->|NZ]; [lra|].
      assert (lo <= gexpect (k i) G <= hi) by (apply IH, H; [lia|lra]). split; apply Rmult_le_compat_l; lra. }
    pose proof (sumf_le _ _ _ (fun i Hi => proj1 (T i Hi))) as L1. pose proof (sumf_le _ _ _ (fun i Hi => proj2 (T i Hi))) as L2.
    rewrite sumf_scal_r, S1 in L1. rewrite sumf_scal_r, S1 in L2. lra.
  - pose proof (perms_length_pos _ (seq 0 n)) as LP. set (c := INR (length (perms (seq 0 n)))) in *.
    assert (T : forall l, In l (perms (seq 0 n)) -> lo <= gexpect (k l) G <= hi) by (intros l I; apply IH, HQ; now apply perms_Permutation).
    pose proof (sumf_le _ (fun _ => lo) (fun l => gexpect (k l) G) (fun i Hi => proj1 (T i Hi))) as L1.
    pose proof (sumf_le _ (fun l => gexpect (k l) G) (fun _ => hi) (fun i Hi => proj2 (T i Hi))) as L2. rewrite sumf_const in L1, L2. fold c in L1, L2.
    split; apply Rmult_le_reg_r with c; auto; unfold Rdiv; rewrite Rmult_assoc, Rinv_l by lra; lra.
Qed.

Lemma gexpect_minus {A} (p : gprog A) F G : gexpect p (fun a => F a - G a) = gexpect p F - gexpect p G.
Proof.
  induction p as [a|e|w k IH|n k IH]; cbn [gexpect]; [reflexivity|lra| |].
  - rewrite <- sumf_minus. apply sumf_ext. intros i _. rewrite IH. ring.
  - unfold Rdiv. rewrite <- Rmult_minus_distr_r. f_equal. rewrite <- sumf_minus. apply sumf_ext. intros i _. apply IH.
Qed.

Lemma gexpect_near {A} (Q : A -> Prop) p F G e : gok Q p -> (forall a, Q a -> Rabs (F a - G a) <= e) -> Rabs (gexpect p F - gexpect p G) <= e.
Proof.
  intros HQ H. rewrite <- gexpect_minus. apply Rabs_le. apply (gexpect_between Q); auto. intros a Qa. specialize (H a Qa). revert H.
  unfold Rabs. destruct (Rcase_abs _); lra.
Qed.

Lemma gexpect_same {A} (Q : A -> Prop) p F G : gok Q p -> (forall a, Q a -> F a = G a) -> gexpect p F = gexpect p G.
Proof.
  intros HQ H. assert (E : Rabs (gexpect p F - gexpect p G) <= 0) by (apply (gexpect_near Q); auto; intros a Qa; rewrite H by auto; rewrite Rminus_eq_0, Rabs_R0; lra).
  pose proof (Rabs_pos (gexpect p F - gexpect p G)) as P0. apply Rminus_diag_uniq. destruct (Req_dec (gexpect p F - gexpect p G) 0) as [E0|N0]; [exact E0|].
  apply Rabs_pos_lt in N0. lra.
Qed.

Lemma gexpect_sum {A X} (p : gprog A) (l : list X) (F : X -> A -> R) : gexpect p (fun a => sumf l (fun x => F x a)) = sumf l (fun x => gexpect p (F x)).
Proof.
  induction p as [a|e|w k IH|n k IH]; cbn [gexpect].
  - reflexivity.
  - symmetry. apply sumf_zero. auto.
  - rewrite (sumf_ext _ _ (fun i => sumf l (fun x => draw_prob w i * gexpect (k i) (F x)))) by (intros; rewrite IH, sumf_scal; reflexivity).
    rewrite sumf_swap. reflexivity.
  - rewrite (sumf_ext _ _ (fun s => sumf l (fun x => gexpect (k s) (F x)))) by (intros; apply IH). rewrite sumf_swap. now rewrite <- sumf_div.
Qed.

Lemma gexpect_scal {A} (p : gprog A) c F : gexpect p (fun a => c * F a) = c * gexpect p F.
Proof.
  induction p as [a|e|w k IH|n k IH]; cbn [gexpect]; [reflexivity|lra| |].
  - rewrite <- sumf_scal. apply sumf_ext. intros i _. rewrite IH. ring.
  - unfold Rdiv. rewrite <- Rmult_assoc. f_equal. rewrite <- sumf_scal. apply sumf_ext. intros i _. apply IH.
Qed.

(** Programs with a bounded number of draws have the law of [run_prob]. *)
Lemma gprob_of_f {A} (Q : A -> Prop) B b (p : fprog A) : draws_usable Q p -> forall D, shape B D p -> gprob (of_f p) b = run_prob D p b.
Proof.
  unfold gprob. induction p as [a|e|w k IH]; intros HU D SH.
  - rewrite run_ret. reflexivity.
  - destruct HU.
  - cbn [draws_usable shape of_f gexpect] in *. destruct HU as (U & HK). destruct D as [|D]; [destruct SH|]. destruct SH as (_ & SK).
    rewrite run_cat by exact U. apply sumf_ext. intros i Hi. apply in_seq in Hi. destruct (Req_dec (draw_prob w i) 0) as [->|NZ]; [lra|].
    f_equal. apply IH; [|apply SK; lia]. apply HK; [lia|]. assert (P : 0 < draw_prob w i) by (pose proof (draw_prob_nonneg w i); lra).
    destruct (draw_source w i P) as (u & Hu & E). destruct (sample_usable u w Hu U) as (j & E' & _ & PJ). rewrite E in E'. inversion E'; subst. exact PJ.
Qed.

(** Two laws that agree on all sets up to [e] agree on all functions into [0,1]. *)
Lemma sets_to_functions {X} (l : list X) (p q : X -> R) e (h : X -> R) : NoDup l ->
  (forall l', NoDup l' -> (forall x, In x l' -> In x l) -> Rabs (sumf l' p - sumf l' q) <= e) ->
  (forall x, In x l -> 0 <= h x <= 1) -> Rabs (sumf l (fun x => p x * h x) - sumf l (fun x => q x * h x)) <= e.
Proof.
  intros ND HS Hh.
  assert (K : forall p q, (forall l', NoDup l' -> (forall x, In x l' -> In x l) -> Rabs (sumf l' p - sumf l' q) <= e) ->
    sumf l (fun x => p x * h x) - sumf l (fun x => q x * h x) <= e).
  { clear p q HS. intros p q HS. set (f := fun x => if Rle_dec (q x) (p x) then true else false).
    assert (H : Rabs (sumf (filter f l) p - sumf (filter f l) q) <= e).
    { apply HS; [now apply NoDup_filter|]. intros x I. now apply filter_In in I. }
    rewrite <- sumf_minus in H. rewrite <- sumf_minus. eapply Rle_trans; [|eapply Rle_trans; [apply Rle_abs|exact H]].
    clear HS H ND. induction l as [|x l IH]; [cbn; lra|]. assert (Hx : 0 <= h x <= 1) by (apply Hh; now left).
    assert (IH' := IH ltac:(intros; apply Hh; now right)). rewrite sumf_cons. cbn [filter]. unfold f at 1. destruct (Rle_dec (q x) (p x)).
    - rewrite sumf_cons. nra.
    - nra. }
  apply Rabs_le. split; [|apply (K p q HS)].
  assert (sumf l (fun x => q x * h x) - sumf l (fun x => p x * h x) <= e); [|lra].
  apply K. intros l' N I. rewrite Rabs_minus_sym. auto.
Qed.
