(** The draws of TreeCatServer.sample: independent rows, cells of counts. *)
From Coq Require Import List Arith Lia Bool ZArith Reals Lra Permutation FunctionalExtensionality.
From Verif Require Import Base L_Base Spec_Sum L_Sum M_Rand L_Rand M_Util L_Quantize M_Array Spec_Stats L_Stats L_Asg L_BPVec.
Import ListNotations.
Open Scope R_scope.

(** A loop that draws once for every row, followed by a quantity that is a
    product over the rows. *)
Section Prod.
Context {S X : Type}.
Variables (w : nat -> list R) (upd : S -> nat -> nat -> S) (view : S -> nat -> X) (updv : nat -> nat -> X -> X).
Variable Inv : S -> Prop.
Hypothesis VS : forall st n i, view (upd st n i) n = updv n i (view st n).
Hypothesis VO : forall st n i n', n' <> n -> view (upd st n i) n' = view st n'.

Lemma prod_cat (g : nat -> X -> R) G ns : NoDup ns ->
  (forall n, In n ns -> w n <> [] /\ rsum (w n) <> 0) ->
  (forall st n i, In n ns -> (i < length (w n))%nat -> Inv st -> Inv (upd st n i)) ->
  forall done st, (forall n, In n done -> ~ In n ns) -> Inv st ->
  (forall st', Inv st' -> G (Ok st') = prodf done (fun n => g n (view st' n)) * prodf ns (fun n => g n (view st' n))) ->
  expect (rfold (fun st n => Cat (w n) (fun i => Ret (upd st n i))) ns st) G =
  prodf done (fun n => g n (view st n)) *
  prodf ns (fun n => sumf (seq 0 (length (w n))) (fun i => nth i (w n) 0 / rsum (w n) * g n (updv n i (view st n)))).
Proof.
  induction ns as [|a t IH]; intros ND HW HI done st DJ I0 HG.
  - cbn [rfold expect]. rewrite HG by auto. reflexivity.
  - inversion ND; subst. destruct (HW a (or_introl eq_refl)) as (W1 & W2). cbn [rfold rbind expect].
    destruct (w a) as [|x0 wa] eqn:EW; [congruence|]. rewrite <- EW in *.
    destruct (Req_EM_T (rsum (w a)) 0) as [EZ|NZ]; [contradiction|].
    rewrite prodf_cons. rewrite <- Rmult_assoc, (Rmult_comm (prodf done _)), Rmult_assoc, <- sumf_scal_r. apply sumf_ext. intros i Hi.
    apply in_seq in Hi.
    rewrite (IH H2 (fun n H => HW n (or_intror H)) (fun st n i H => HI st n i (or_intror H)) (a :: done) (upd st a i)).
    + rewrite prodf_cons, VS.
      rewrite (prodf_ext done (fun n => g n (view (upd st a i) n)) (fun n => g n (view st n))).
      2:{ intros n Hn. rewrite VO; auto. intro; subst. apply (DJ a Hn). now left. }
      rewrite (prodf_ext t (fun n => sumf _ (fun i0 => nth i0 (w n) 0 / rsum (w n) * g n (updv n i0 (view (upd st a i) n))))
        (fun n => sumf (seq 0 (length (w n))) (fun i0 => nth i0 (w n) 0 / rsum (w n) * g n (updv n i0 (view st n))))).
      2:{ intros n Hn. apply sumf_ext. intros. rewrite VO; auto. intro; subst; auto. }
      ring.
    + intros n [<-|Hn]; auto. intro Ht. apply (DJ n Hn). now right.
    + apply HI; auto; [now left|lia].
    + intros st' I'. rewrite HG by auto. rewrite !prodf_cons. ring.
Qed.
End Prod.

(** ** The cells of one row *)
Section Cells.
Variables (beg width : nat) (p : nat -> R).   (* [p q]: weight of position [q] *)
Notation block := (seq beg width).
Notation tot := (sumf block p).

(** Expectation of [h] after [k] draws of positions, starting from the counts
    [x]. *)
Fixpoint cellstep (k : nat) (h : (nat -> Z) -> R) (x : nat -> Z) : R :=
  match k with
  | O => h x
  | S k => sumf block (fun q => p q / tot * cellstep k h (set1 x q (int8 (x q + 1))))
  end.

Lemma cellstep_ext k h h' x : (forall x', (forall q, ~ In q block -> x' q = x q) -> h x' = h' x') ->
  cellstep k h x = cellstep k h' x.
Proof.
  revert x. induction k; intros x H; cbn [cellstep].
  - apply H. auto.
  - apply sumf_ext. intros q Hq. f_equal. apply IHk. intros x' Hx. apply H. intros q' Hq'. rewrite Hx by auto.
    apply set1_other. intro; subst; auto.
Qed.

Lemma cellstep_scal k h c x : cellstep k (fun x => c * h x) x = c * cellstep k h x.
Proof.
  revert x. induction k; intros x; cbn [cellstep]; auto. rewrite <- sumf_scal. apply sumf_ext. intros. rewrite IHk. ring.
Qed.

Variable X : nat -> Z.
Definition hit (x : nat -> Z) : R := prodf block (fun q => if (x q =? X q)%Z then 1 else 0).

Lemma cellstep_zero k x : (forall q, In q block -> 0 <= x q /\ x q + Z.of_nat k <= 127)%Z ->
  (exists q, In q block /\ (X q < x q)%Z) -> cellstep k hit x = 0.
Proof.
  revert x. induction k; intros x B (q & Hq & L); cbn [cellstep].
  - unfold hit. apply prodf_zero with q; auto. destruct (Z.eqb_spec (x q) (X q)); [lia|reflexivity].
  - apply sumf_zero. intros q' Hq'. rewrite IHk; [ring| |].
    + intros q0 H0. unfold set1. destruct (Nat.eqb_spec q0 q') as [->|].
      * destruct (B q' Hq'). rewrite int8_id by lia. lia.
      * destruct (B q0 H0). lia.
    + exists q. split; auto. unfold set1. destruct (Nat.eqb_spec q q') as [->|]; auto.
      destruct (B q' Hq'). rewrite int8_id by lia. lia.
Qed.

Definition multi (x : nat -> Z) : R :=
  prodf block (fun q => (p q / tot) ^ Z.to_nat (X q - x q) / INR (fact (Z.to_nat (X q - x q)))).

Lemma prodf_split {A} (eqd : forall a b : A, {a = b} + {a <> b}) (l : list A) f x : NoDup l -> In x l ->
  prodf l f = f x * prodf (remove eqd x l) f.
Proof.
  induction l as [|y l IH]; intros ND I; [destruct I|]. inversion ND; subst. rewrite prodf_cons. cbn [remove].
  destruct (eqd x y) as [->|N].
  - rewrite notin_remove by auto. reflexivity.
  - destruct I as [->|I]; [congruence|]. rewrite IH, prodf_cons by auto. ring.
Qed.

Lemma total_sum l (f : nat -> Z) : sumf l (fun q => IZR (f q)) = IZR (total l f).
Proof. induction l; [reflexivity|]. rewrite sumf_cons, total_cons, IHl, plus_IZR. reflexivity. Qed.

Lemma cellstep_multi k x : (forall q, In q block -> 0 <= x q /\ x q + Z.of_nat k <= 127)%Z ->
  (forall q, In q block -> (x q <= X q)%Z) -> total block (fun q => X q - x q)%Z = Z.of_nat k ->
  cellstep k hit x = INR (fact k) * multi x.
Proof.
  revert x. induction k; intros x B L T.
  - cbn [cellstep fact]. unfold hit, multi.
    assert (Z0 : forall q, In q block -> (X q - x q = 0)%Z).
    { intros q Hq. assert (G : forall l, (forall q, In q l -> 0 <= X q - x q)%Z -> total l (fun q => X q - x q)%Z = 0%Z -> forall q, In q l -> (X q - x q = 0)%Z).
      { clear. induction l; intros P T q I; [destruct I|]. rewrite total_cons in T.
        pose proof (total_nonneg l (fun q => X q - x q)%Z (fun n H => P n (or_intror H))). pose proof (P a (or_introl eq_refl)).
        destruct I as [->|I]; [lia|]. apply IHl; auto; [|lia]. intros; apply P; now right. }
      apply (G block); auto. intros q' H'. specialize (L q' H'). lia. }
    rewrite Rmult_1_l. rewrite !prodf_one; auto.
    + intros q Hq. rewrite Z0 by auto. simpl. field.
    + intros q Hq. specialize (Z0 q Hq). destruct (Z.eqb_spec (x q) (X q)); [reflexivity|lia].
  - cbn [cellstep].
    rewrite (sumf_ext _ _ (fun q => IZR (X q - x q) * (INR (fact k) * multi x))).
    + rewrite sumf_scal_r, total_sum, T. rewrite <- INR_IZR_INZ. rewrite fact_simpl, mult_INR. ring.
    + intros q Hq. destruct (B q Hq) as (B1 & B2). specialize (L q Hq) as Lq.
      assert (EI : int8 (x q + 1) = (x q + 1)%Z) by (apply int8_id; lia).
      assert (B' : forall q0, In q0 block -> (0 <= set1 x q (int8 (x q + 1)) q0 /\ set1 x q (int8 (x q + 1)) q0 + Z.of_nat k <= 127)%Z).
      { intros q0 H0. unfold set1. destruct (Nat.eqb_spec q0 q) as [->|]; [rewrite EI; lia|]. destruct (B q0 H0). lia. }
      destruct (Z.eq_dec (X q) (x q)) as [E|N].
      * rewrite E, Z.sub_diag. rewrite cellstep_zero; auto; [lra|]. exists q. split; auto. rewrite set1_same, EI. lia.
      * rewrite IHk; auto.
        -- unfold multi. rewrite !(prodf_split Nat.eq_dec block _ q) by (auto; apply seq_NoDup).
           rewrite set1_same, EI.
           rewrite (prodf_ext (remove Nat.eq_dec q block)
              (fun q0 => (p q0 / tot) ^ Z.to_nat (X q0 - set1 x q (x q + 1)%Z q0) / INR (fact (Z.to_nat (X q0 - set1 x q (x q + 1)%Z q0))))
              (fun q0 => (p q0 / tot) ^ Z.to_nat (X q0 - x q0) / INR (fact (Z.to_nat (X q0 - x q0))))).
           2:{ intros q0 H0. apply in_remove in H0. rewrite set1_other by apply H0. reflexivity. }
           set (d := Z.to_nat (X q - (x q + 1))). assert (ED : Z.to_nat (X q - x q) = S d) by (unfold d; lia).
           assert (EZ : IZR (X q - x q) = INR (S d)). { rewrite <- ED, INR_IZR_INZ. f_equal. lia. }
           rewrite ED, EZ. rewrite fact_simpl, mult_INR. cbn [pow].
           assert (INR (fact d) <> 0) by apply INR_fact_neq_0. assert (INR (S d) <> 0) by (apply not_0_INR; lia).
           generalize (p q / tot). intros y. field. auto.
        -- intros q0 H0. unfold set1. destruct (Nat.eqb_spec q0 q) as [->|]; [rewrite EI; lia|auto].
        -- rewrite EI. 
           assert (G : forall l, NoDup l -> In q l -> (total l (fun q0 => X q0 - set1 x q (x q + 1) q0) = total l (fun q0 => X q0 - x q0) - 1)%Z).
           { clear. induction l; intros ND I; [destruct I|]. inversion ND; subst. rewrite !total_cons. destruct I as [->|I].
             - rewrite set1_same. rewrite (total_ext l _ (fun q0 => X q0 - x q0)%Z); [lia|]. intros n Hn. rewrite set1_other; auto. intro; subst; auto.
             - rewrite IHl by auto. rewrite set1_other; [lia|]. intro; subst; auto. }
           rewrite G by (auto; apply seq_NoDup). rewrite T. lia.
Qed.
End Cells.

(** [rfold] over a range with an invariant that counts. *)
Lemma always_rfold_seq {S} (f : S -> nat -> rprog S) (P : nat -> S -> Prop) n : forall b s,
  P b s -> (forall i s, (b <= i < b + n)%nat -> P i s -> always (P (i + 1)%nat) (f s i)) ->
  always (P (b + n)%nat) (rfold f (seq b n) s).
Proof.
  induction n; intros b s H0 H; cbn [seq rfold].
  - now rewrite Nat.add_0_r.
  - apply always_bind. eapply always_mono; [|apply (H b s); auto; lia]. intros s' H'.
    replace (b + Datatypes.S n)%nat with (Datatypes.S b + n)%nat by lia. apply IHn.
    + now rewrite Nat.add_1_r in H'.
    + intros. apply H; auto. lia.
Qed.
