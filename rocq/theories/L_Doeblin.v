(** Finite Markov chains with positive transition probabilities converge. *)
From Coq Require Import List Arith Reals Lia Lra.
From Verif Require Import Spec_Sum L_Sum.
Import ListNotations.
Open Scope R_scope.

Lemma min_positive {A} (l : list A) (f : A -> R) : (forall x, In x l -> 0 < f x) -> exists eps, 0 < eps /\ forall x, In x l -> eps <= f x.
Proof.
  induction l as [|a l IH]; intros H.
  - exists 1. split; [lra|]. intros x [].
  - destruct IH as (eps & EP & HE); [intros; apply H; now right|]. exists (Rmin (f a) eps). split.
    + apply Rmin_glb_lt; [apply H; now left|exact EP].
    + intros x [<-|I]; [apply Rmin_l|]. eapply Rle_trans; [apply Rmin_r|now apply HE].
Qed.

Section Chain.
Context {X : Type} (states : list X) (P : X -> X -> R) (p : X -> R).
Hypothesis POS : forall x y, In x states -> In y states -> 0 < P x y.
Hypothesis ONE : forall x, In x states -> sumf states (P x) = 1.
Hypothesis PN : forall x, In x states -> 0 <= p x.
Hypothesis P1 : sumf states p = 1.
Hypothesis INV : forall y, In y states -> sumf states (fun x => p x * P x y) = p y.

Fixpoint iterate (k : nat) (f : X -> R) (x : X) : R :=
  match k with 0%nat => f x | S k => sumf states (fun y => P x y * iterate k f y) end.

Lemma nonempty : exists x, In x states.
Proof. destruct states as [|x l]; [cbn in P1; lra|]. exists x. now left. Qed.

Lemma step_average f : sumf states (fun x => p x * sumf states (fun y => P x y * f y)) = sumf states (fun y => p y * f y).
Proof.
  rewrite (sumf_ext _ _ (fun x => sumf states (fun y => p x * P x y * f y))).
  - rewrite sumf_swap. apply sumf_ext. intros y I. rewrite sumf_scal_r. now rewrite INV.
  - intros x _. rewrite <- sumf_scal. apply sumf_ext. intros. ring.
Qed.

Lemma iterate_average k f : sumf states (fun x => p x * iterate k f x) = sumf states (fun x => p x * f x).
Proof. induction k; [reflexivity|]. cbn [iterate]. rewrite step_average. exact IHk. Qed.

Lemma average_between f lo hi : (forall x, In x states -> lo <= f x <= hi) -> lo <= sumf states (fun x => p x * f x) <= hi.
Proof.
  intros H. split.
  - replace lo with (sumf states (fun x => p x * lo)) by (rewrite sumf_scal_r, P1; ring).
    apply sumf_le. intros x I. apply Rmult_le_compat_l; [now apply PN|]. now apply H.
  - replace hi with (sumf states (fun x => p x * hi)) by (rewrite sumf_scal_r, P1; ring).
    apply sumf_le. intros x I. apply Rmult_le_compat_l; [now apply PN|]. now apply H.
Qed.

Definition rate_ok (rho : R) : Prop := 0 <= rho < 1 /\ exists eps, 0 < eps /\ rho = 1 - INR (length states) * eps /\
  forall x y, In x states -> In y states -> eps <= P x y.

Lemma rate_exists : exists rho, rate_ok rho.
Proof.
  destruct (min_positive (list_prod states states) (fun q => P (fst q) (snd q))) as (eps & EP & HE).
  { intros [x y] I. apply in_prod_iff in I. now apply POS. }
  assert (HE' : forall x y, In x states -> In y states -> eps <= P x y).
  { intros x y Ix Iy. apply (HE (x, y)). now apply in_prod. }
  exists (1 - INR (length states) * eps). split.
  - destruct nonempty as (x & I). split.
    + pose proof (ONE x I) as O1. rewrite <- O1. rewrite <- sumf_const. enough (sumf states (fun _ => eps) <= sumf states (P x)) by lra.
      apply sumf_le. auto.
    + assert (0 < INR (length states)). { apply lt_0_INR. destruct states; [destruct I|cbn; lia]. }
      pose proof (Rmult_lt_0_compat _ _ H EP). lra.
  - exists eps. auto.
Qed.

Lemma contract rho f lo hi : rate_ok rho -> (forall x, In x states -> lo <= f x <= hi) ->
  exists lo' hi', hi' - lo' = rho * (hi - lo) /\ forall x, In x states -> lo' <= sumf states (fun y => P x y * f y) <= hi'.
Proof.
  intros (_ & eps & EP & RE & HE) HF. set (B := sumf states (fun y => eps * f y)).
  exists (B + rho * lo), (B + rho * hi). split; [ring|]. intros x I.
  assert (D : sumf states (fun y => P x y * f y) = B + sumf states (fun y => (P x y - eps) * f y)).
  { unfold B. rewrite <- sumf_plus. apply sumf_ext. intros. ring. }
  assert (R1 : sumf states (fun y => P x y - eps) = rho) by (rewrite sumf_minus, sumf_const, ONE; auto).
  rewrite D. split; apply Rplus_le_compat_l.
  - rewrite <- R1, <- sumf_scal_r. apply sumf_le. intros y Iy. apply Rmult_le_compat_l; [|now apply HF]. pose proof (HE x y I Iy). lra.
  - rewrite <- R1, <- sumf_scal_r. apply sumf_le. intros y Iy. apply Rmult_le_compat_l; [|now apply HF]. pose proof (HE x y I Iy). lra.
Qed.

Lemma converge rho k f lo hi x : rate_ok rho -> (forall x, In x states -> lo <= f x <= hi) -> In x states ->
  Rabs (iterate k f x - sumf states (fun y => p y * f y)) <= rho ^ k * (hi - lo).
Proof.
  intros RO HF I.
  assert (H : exists lo' hi', hi' - lo' = rho ^ k * (hi - lo) /\ forall x, In x states -> lo' <= iterate k f x <= hi').
  { clear x I. induction k as [|k IH].
    - exists lo, hi. split; [cbn; ring|exact HF].
    - destruct IH as (l1 & h1 & D1 & B1). destruct (contract rho (iterate k f) l1 h1 RO B1) as (l2 & h2 & D2 & B2).
      exists l2, h2. split; [rewrite D2, D1; cbn [pow]; ring|exact B2]. }
  destruct H as (lo' & hi' & D & B). rewrite <- D. rewrite <- (iterate_average k f).
  pose proof (average_between (iterate k f) lo' hi' B). pose proof (B x I). apply Rabs_le. lra.
Qed.
End Chain.
