(** Programs run on the generator's outputs, and with ideal draws. *)
From Coq Require Import List Arith Bool ZArith Reals Lra Lia Permutation.
From Flocq Require Import Core IEEE754.BinarySingleNaN.
From Verif Require Import Base L_Base Spec_Sum L_Sum Spec_Stats M_Rand L_Rand M_Float32 M_Train32 Spec_Float32 L_Float32 L_Sample32 L_Serving32a L_Acc1 Spec_Law L_Grid.
Import ListNotations.
Open Scope R_scope.

Definition cnt {A} (P : A -> bool) (l : list A) : R := INR (length (filter P l)).
Lemma cnt_cons {A} P (x : A) l : cnt P (x :: l) = (if P x then 1 else 0) + cnt P l.
Proof. unfold cnt. cbn [filter]. destruct (P x); cbn [length]; rewrite ?S_INR; lra. Qed.
Lemma cnt_app {A} P (l l' : list A) : cnt P (l ++ l') = cnt P l + cnt P l'.
Proof. unfold cnt. rewrite filter_app, app_length, plus_INR. reflexivity. Qed.
Lemma cnt_flat {A} P (Rs : list A) (L : list (list A)) :
  cnt P (flat_map (fun u => map (cons u) L) Rs) = sumf Rs (fun u => cnt (fun us => P (u :: us)) L).
Proof.
  induction Rs as [|u Rs IH]; [reflexivity|]. cbn [flat_map]. rewrite cnt_app, sumf_cons, IH. f_equal. unfold cnt. now rewrite filter_map_len.
Qed.
Lemma cnt_true {A} (P : A -> bool) l : (forall x, P x = true) -> cnt P l = INR (length l).
Proof. intros H. induction l as [|x l IH]; [reflexivity|]. rewrite cnt_cons, H, IH. cbn [length]. rewrite S_INR. lra. Qed.
Lemma cnt_false {A} (P : A -> bool) l : (forall x, P x = false) -> cnt P l = 0.
Proof. intros H. induction l as [|x l IH]; [reflexivity|]. rewrite cnt_cons, H, IH. lra. Qed.
Lemma cnt_ext {A} (P Q : A -> bool) l : (forall x, In x l -> P x = Q x) -> cnt P l = cnt Q l.
Proof. induction l as [|x l IH]; intros H; [reflexivity|]. rewrite !cnt_cons, (H x) by now left. rewrite IH; [reflexivity|]. intros; apply H; now right. Qed.

Lemma sumf_single n j (g : nat -> R) : (j < n)%nat -> sumf (seq 0 n) (fun i => (if (j =? i)%nat then 1 else 0) * g i) = g j.
Proof.
  intros H. replace n with (j + (1 + (n - j - 1)))%nat by lia. rewrite !seq_app, !sumf_app. cbn [Nat.add seq]. rewrite sumf_cons, sumf_nil, Nat.eqb_refl.
  rewrite !sumf_zero; [lra| |]; intros i Hi; apply in_seq in Hi; rewrite (proj2 (Nat.eqb_neq j i)) by lia; lra.
Qed.

(** Grouping the outputs of the generator by the entry they give. *)
Lemma group {U} (Rs : list U) (g : U -> result nat) n (c : nat -> R) (F : U -> R) :
  (forall u, In u Rs -> exists j, g u = Ok j /\ (j < n)%nat /\ F u = c j) ->
  sumf Rs F = sumf (seq 0 n) (fun i => cnt (fun u => match g u with Ok j => (j =? i)%nat | Raise _ => false end) Rs * c i).
Proof.
  induction Rs as [|u Rs IH]; intros H.
  - rewrite sumf_nil. symmetry. apply sumf_zero. intros. unfold cnt. cbn. lra.
  - rewrite sumf_cons, IH by (intros; apply H; now right). destruct (H u (or_introl eq_refl)) as (j & E & Hj & ->).
    rewrite (sumf_ext _ (fun i => cnt _ (u :: Rs) * c i) (fun i => (if (j =? i)%nat then 1 else 0) * c i + cnt (fun u => match g u with Ok j => (j =? i)%nat | Raise _ => false end) Rs * c i)).
    + now rewrite sumf_plus, sumf_single.
    + intros i _. rewrite cnt_cons, E. lra.
Qed.

Notation two53 := (IZR (2 ^ 53)).
Lemma two53_pos : 0 < two53.
Proof. apply IZR_lt. lia. Qed.
Lemma rands_len : INR (length all_rands) = two53.
Proof. unfold all_rands. rewrite map_length, seq_length, INR_IZR_INZ, Z2Nat.id by lia. reflexivity. Qed.
Lemma rands_uniform u : In u all_rands -> uniform01 u.
Proof. unfold all_rands. intros I. rewrite in_map_iff in I. destruct I as (k & <- & I). rewrite in_seq in I. apply rand_ok. lia. Qed.
#[local] Opaque all_rands.
Lemma lists_len D : INR (length (rand_lists D)) = two53 ^ D.
Proof.
  induction D as [|D IH]; [reflexivity|]. cbn [rand_lists pow].
  rewrite <- (cnt_true (fun _ => true) _ ltac:(auto)), cnt_flat. rewrite (sumf_ext _ _ (fun _ => two53 ^ D)) by (intros; rewrite cnt_true by auto; exact IH).
  rewrite sumf_const, rands_len. reflexivity.
Qed.
Definition okb {A} (p : fprog A) (b : A -> bool) (us : list f64) : bool := match frun us p with Ok a => b a | Raise _ => false end.
Lemma run_prob_eq {A} D (p : fprog A) b : run_prob D p b = cnt (okb p b) (rand_lists D) / two53 ^ D.
Proof. reflexivity. Qed.
Lemma cnt_le {A} (P : A -> bool) l : 0 <= cnt P l <= INR (length l).
Proof. induction l as [|x l IH]; [cbn; unfold cnt; cbn; lra|]. rewrite cnt_cons. cbn [length]. rewrite S_INR. destruct (P x); lra. Qed.
Lemma run_prob_01 {A} D (p : fprog A) b : 0 <= run_prob D p b <= 1.
Proof.
  rewrite run_prob_eq. pose proof (cnt_le (okb p b) (rand_lists D)) as H. rewrite lists_len in H. pose proof (pow_lt two53 D two53_pos) as P. split.
  - apply Rmult_le_pos; [lra|]. left. now apply Rinv_0_lt_compat.
  - apply Rmult_le_reg_r with (two53 ^ D); [exact P|]. unfold Rdiv. rewrite Rmult_assoc, Rinv_l by lra. lra.
Qed.

Lemma run_ret {A} D (a : A) b : run_prob D (FRet a) b = if b a then 1 else 0.
Proof.
  rewrite run_prob_eq. pose proof (pow_lt two53 D two53_pos) as P. destruct (b a) eqn:E.
  - rewrite cnt_true by (intros; exact E). rewrite lists_len. field. lra.
  - rewrite cnt_false by (intros; exact E). unfold Rdiv. lra.
Qed.
Lemma run_cat {A} D w (k : nat -> fprog A) b : usable w ->
  run_prob (Datatypes.S D) (FCat w k) b = sumf (seq 0 (length w)) (fun i => draw_prob w i * run_prob D (k i) b).
Proof.
  intros U. pose proof (pow_lt two53 D two53_pos) as P. pose proof two53_pos as P'. rewrite run_prob_eq. cbn [rand_lists pow]. rewrite cnt_flat.
  rewrite (group all_rands (fun u => sample_from_probs32 u w) (length w) (fun i => cnt (okb (k i) b) (rand_lists D))).
  - rewrite <- sumf_div. apply sumf_ext. intros i _. rewrite run_prob_eq. unfold draw_prob.
    fold (cnt (fun u => match sample_from_probs32 u w with Ok j => (j =? i)%nat | Raise _ => false end) all_rands). field. split; lra.
  - intros u I. destruct (sample_usable u w (rands_uniform u I) U) as (j & E & Hj & _). exists j. split; [exact E|]. split; [exact Hj|].
    apply cnt_ext. intros us _. unfold okb. cbn [frun]. rewrite E. reflexivity.
Qed.

Lemma shape_mono {A} B D D' (p : fprog A) : (D <= D')%nat -> shape B D p -> shape B D' p.
Proof.
  revert D D'. induction p as [a|e|w k IH]; intros D D' L H; cbn [shape] in *; auto. destruct D as [|D]; [destruct H|]. destruct D' as [|D']; [lia|].
  destruct H as (H1 & H2). split; [exact H1|]. intros i Hi. apply (IH i D D'); [lia|auto].
Qed.
Lemma shape_bind {A A'} B D D' (p : fprog A) (f : A -> fprog A') : shape B D p -> (forall a, shape B D' (f a)) -> shape B (D + D') (fbind p f).
Proof.
  revert D. induction p as [a|e|w k IH]; intros D H F; cbn [shape fbind] in *; auto.
  - apply shape_mono with D'; [lia|auto].
  - destruct D as [|D]; [destruct H|]. cbn [Nat.add]. destruct H as (H1 & H2). split; [exact H1|]. intros i Hi. apply IH; auto.
Qed.
Lemma shape_lift {A} B D (r : result A) : shape B D (flift r).
Proof. destruct r; exact Logic.I. Qed.
Lemma shape_fold {A St} B (cost : A -> nat) (f : St -> A -> fprog St) l : (forall x st, In x l -> shape B (cost x) (f st x)) ->
  forall st, shape B (list_sum (map cost l)) (ffold f l st).
Proof.
  induction l as [|x l IH]; intros H st; [exact Logic.I|]. cbn [ffold map list_sum fold_right]. apply shape_bind; [apply H; now left|].
  intros st'. apply IH. intros; apply H; now right.
Qed.

(** The two laws differ by at most 2^-21 per draw and weight. *)
Lemma run_near {A} (Q : A -> Prop) B b (p : fprog A) : draws_usable Q p -> forall D, shape B D p ->
  Rabs (run_prob D p b - prob (ideal p) b) <= INR D * (INR B * bp (-21)).
Proof.
  pose proof (bp_pos (-21)) as PB. pose proof (pos_INR B) as PI.
  induction p as [a|e|w k IH]; intros HU D SH.
  - rewrite run_ret. cbn [ideal prob]. unfold prob. cbn [expect ideal]. rewrite Rminus_eq_0, Rabs_R0. pose proof (pos_INR D). apply Rmult_le_pos; [lra|]. apply Rmult_le_pos; lra.
  - destruct HU.
  - cbn [draws_usable shape] in *. destruct HU as (U & HK). destruct D as [|D]; [destruct SH|]. destruct SH as (LB & SK).
    rewrite run_cat by exact U. unfold prob. cbn [ideal expect].
    pose proof (total_pos w U) as PT. unfold total in PT. set (f := fun r => match r with Ok a => if b a then 1 else 0 | Raise _ => 0 end).
    destruct (map B2R w) as [|x l] eqn:EW; [cbn in PT; lra|]. rewrite <- EW in *. destruct (Req_EM_T (rsum (map B2R w)) 0) as [Z|_]; [lra|].
    rewrite map_length. set (S0 := rsum (map B2R w)) in *.
    assert (NTH : forall i, nth i (map B2R w) 0 = val (nth i w fzero)) by (intros i; apply (map_nth (fun x : f32 => val x) w fzero)).
    rewrite <- sumf_minus.
    rewrite (sumf_ext _ _ (fun i => (draw_prob w i - val (nth i w fzero) / S0) * run_prob D (k i) b + val (nth i w fzero) / S0 * (run_prob D (k i) b - expect (ideal (k i)) f)))
      by (intros i _; rewrite NTH; ring).
    rewrite sumf_plus. eapply Rle_trans; [apply Rabs_triang|]. rewrite S_INR, Rmult_plus_distr_r, Rplus_comm. apply Rplus_le_compat.
    + eapply Rle_trans; [apply sumf_abs|].
      eapply Rle_trans; [apply sumf_le with (g := fun i => val (nth i w fzero) / S0 * (INR D * (INR B * bp (-21))))|].
      * intros i Hi. apply in_seq in Hi. destruct (weight_ok w U i) as (_ & W1). rewrite Rabs_mult, Rabs_pos_eq by (apply Rmult_le_pos; [lra|left; now apply Rinv_0_lt_compat]).
        destruct (Req_dec (val (nth i w fzero)) 0) as [->|NZ]; [unfold Rdiv; lra|]. apply Rmult_le_compat_l; [apply Rmult_le_pos; [lra|left; now apply Rinv_0_lt_compat]|].
        apply (IH i); [apply HK; [lia|lra]|apply SK; lia].
      * rewrite sumf_scal_r, sumf_div, <- (total_seq w). fold S0. unfold total. fold S0. unfold Rdiv. rewrite Rinv_r by lra. lra.
    + eapply Rle_trans; [apply sumf_abs|]. eapply Rle_trans; [apply sumf_le with (g := fun i => Rabs (draw_prob w i - val (nth i w fzero) / S0))|].
      * intros i _. rewrite Rabs_mult. pose proof (run_prob_01 D (k i) b) as H. rewrite (Rabs_pos_eq (run_prob D (k i) b)) by lra.
        pose proof (Rabs_pos (draw_prob w i - val (nth i w fzero) / S0)). nra.
      * eapply Rle_trans; [apply (draw_prob_near w U)|]. rewrite Rmult_1_l. apply Rmult_le_compat_r; [lra|]. now apply le_INR.
Qed.
