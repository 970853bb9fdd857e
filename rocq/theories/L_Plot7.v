(** The curves of a circular plot stay inside the circle. *)
From Coq Require Import List Arith Reals Lra Lia.
From Verif Require Import Base Spec_Graph Spec_Trees M_Plot Spec_Plot L_Plot2.
From Coq Require Import Permutation.
Import ListNotations.
Open Scope R_scope.

Lemma Rabs_le_inv x y : Rabs x <= y -> - y <= x <= y.
Proof. unfold Rabs. destruct (Rcase_abs x); lra. Qed.

Lemma dot_le (p q : point) : in_circle p -> in_circle q -> Rabs (fst p * fst q + snd p * snd q) <= 1.
Proof.
  unfold in_circle. intros P Q. apply Rabs_le.
  pose proof (Rle_0_sqr (fst p - fst q)). pose proof (Rle_0_sqr (snd p - snd q)). pose proof (Rle_0_sqr (fst p + fst q)). pose proof (Rle_0_sqr (snd p + snd q)).
  unfold Rsqr in *. lra.
Qed.

Lemma weighted u v x : 0 <= u -> 0 <= v -> Rabs x <= 1 -> u * v * x <= u * v.
Proof. intros U V X. apply Rabs_le_inv in X. assert (0 <= u * v) by (now apply Rmult_le_pos). nra. Qed.

Lemma hull (a b c d : point) u v w x : in_circle a -> in_circle b -> in_circle c -> in_circle d ->
  0 <= u -> 0 <= v -> 0 <= w -> 0 <= x -> u + v + w + x = 1 ->
  in_circle (u * fst a + v * fst b + w * fst c + x * fst d, u * snd a + v * snd b + w * snd c + x * snd d).
Proof.
  intros A B C D U V W X E. unfold in_circle. cbn [fst snd].
  pose proof (weighted u u _ U U (dot_le a a A A)). pose proof (weighted v v _ V V (dot_le b b B B)). pose proof (weighted w w _ W W (dot_le c c C C)). pose proof (weighted x x _ X X (dot_le d d D D)).
  pose proof (weighted u v _ U V (dot_le a b A B)). pose proof (weighted u w _ U W (dot_le a c A C)). pose proof (weighted u x _ U X (dot_le a d A D)).
  pose proof (weighted v w _ V W (dot_le b c B C)). pose proof (weighted v x _ V X (dot_le b d B D)). pose proof (weighted w x _ W X (dot_le c d C D)).
  replace 1 with ((u + v + w + x) * (u + v + w + x)) by (rewrite E; ring). lra.
Qed.

Lemma apart_two (p q : point) : in_circle p -> in_circle q -> 0 <= apart p q <= 2.
Proof.
  intros P Q. split; [apply sqrt_pos|]. unfold apart. rewrite <- (sqrt_Rsqr 2) by lra. apply sqrt_le_1_alt. pose proof (dot_le p q P Q) as D. apply Rabs_le_inv in D.
  unfold in_circle in *. unfold Rsqr. lra.
Qed.

Lemma shrunk f (p : point) : -1 <= f <= 1 -> in_circle p -> in_circle (f * fst p, f * snd p).
Proof.
  unfold in_circle. cbn [fst snd]. intros F P. replace (f * fst p * (f * fst p) + f * snd p * (f * snd p)) with ((f * f) * (fst p * fst p + snd p * snd p)) by ring.
  pose proof (Rle_0_sqr (fst p)). pose proof (Rle_0_sqr (snd p)). unfold Rsqr in *. assert (0 <= f * f <= 1) by nra. nra.
Qed.

Lemma curves_inside V c t : (1 <= V)%nat -> bends V c -> in_circle (cv_begin c) -> in_circle (cv_end c) -> 0 <= t <= 1 -> in_circle (bezier c t).
Proof.
  intros HV (C1 & C2) B E T. pose proof (apart_two _ _ B E) as D. set (d := apart _ _) in *. set (f := 1 - 2 / 3 * d + 1 / 6 * d ^ 2 - 1 / INR V) in *.
  assert (F : -1 <= f <= 1).
  { assert (1 <= INR V) by (apply (le_INR 1); lia). assert (0 < 1 / INR V <= 1).
    { split; [apply Rdiv_lt_0_compat; lra|]. apply Rmult_le_reg_r with (INR V); [lra|]. unfold Rdiv. rewrite Rmult_assoc, Rinv_l by lra. lra. }
    unfold f. nra. }
  unfold bezier. apply hull; auto.
  - rewrite C1. now apply shrunk.
  - rewrite C2. now apply shrunk.
  - apply pow_le. lra.
  - apply Rmult_le_pos; [|lra]. apply Rmult_le_pos; [lra|]. apply pow_le. lra.
  - apply Rmult_le_pos; [|apply pow_le; lra]. lra.
  - apply pow_le. lra.
  - ring.
Qed.

(** ** The places of the features *)
Lemma on_circle_in V i : in_circle (on_circle V i).
Proof. unfold in_circle, on_circle. cbn [fst snd]. match goal with |- cos ?a * _ + _ <= _ => pose proof (sin2_cos2 a) end. unfold Rsqr in *. lra. Qed.

Lemma share len d : 0 <= len -> 0 < d -> 2 * len <= d -> 0 <= len / d <= 1 / 2.
Proof.
  intros L D H. split; [apply Rmult_le_pos; [exact L|left; now apply Rinv_0_lt_compat]|]. apply Rmult_le_reg_r with d; [exact D|]. unfold Rdiv. rewrite Rmult_assoc, Rinv_l by lra. lra.
Qed.

Lemma pulled_inside len at_ edges v : 0 <= len -> in_circle (at_ v) -> (forall a b, In (a, b) edges -> in_circle (at_ a) /\ in_circle (at_ b) /\ 0 < apart (at_ a) (at_ b) /\ 2 * len <= apart (at_ a) (at_ b)) ->
  in_circle (pulled len at_ edges v).
Proof.
  intros L Iv H.
  assert (FI : forall g e, last_with g v edges = Some e -> In e edges /\ g e = v) by (intros g e F; apply find_some in F as (F & G); apply Nat.eqb_eq in G; split; [now apply in_rev|exact G]).
  assert (TW : forall q, toward len (at_ v) q = (len / apart (at_ v) q * (fst q - fst (at_ v)), len / apart (at_ v) q * (snd q - snd (at_ v)))) by (intros q; unfold toward; f_equal; unfold Rdiv; ring).
  assert (X : exists q s, in_circle q /\ 0 <= s <= 1 / 2 /\
    match last_with snd v edges with Some e => toward len (at_ v) (at_ (fst e)) | None => (0, 0) end = (s * (fst q - fst (at_ v)), s * (snd q - snd (at_ v)))).
  { destruct (last_with snd v edges) as [[a b]|] eqn:E.
    - apply FI in E as (I & E). cbn [fst snd] in *. subst b. destruct (H a v I) as (A & B & P & Q). exists (at_ a), (len / apart (at_ v) (at_ a)). split; [exact A|]. split; [|apply TW].
      rewrite (apart_sym (at_ v)). now apply share.
    - exists (at_ v), 0. split; [exact Iv|]. split; [lra|]. f_equal; ring. }
  assert (Y : exists q s, in_circle q /\ 0 <= s <= 1 / 2 /\
    match last_with fst v edges with Some e => toward len (at_ v) (at_ (snd e)) | None => (0, 0) end = (s * (fst q - fst (at_ v)), s * (snd q - snd (at_ v)))).
  { destruct (last_with fst v edges) as [[a b]|] eqn:E.
    - apply FI in E as (I & E). cbn [fst snd] in *. subst a. destruct (H v b I) as (A & B & P & Q). exists (at_ b), (len / apart (at_ v) (at_ b)). split; [exact B|]. split; [|apply TW]. now apply share.
    - exists (at_ v), 0. split; [exact Iv|]. split; [lra|]. f_equal; ring. }
  destruct X as (q & s & Iq & S1 & E1), Y as (r & t & Ir & S2 & E2). unfold pulled. rewrite E1, E2. cbn [fst snd].
  pose proof (hull (at_ v) q r r (1 - s - t) s t 0 Iv Iq Ir Ir ltac:(lra) ltac:(lra) ltac:(lra) ltac:(lra) ltac:(lra)) as HU.
  revert HU. unfold in_circle. cbn [fst snd]. intros HU. match type of HU with ?A <= _ => match goal with |- ?B <= _ => replace B with A by ring end end. exact HU.
Qed.

Lemma drawn_inside names density observed latent tree samples slots at_ place fig contract :
  let V := length names in
  arranged slots at_ -> canonical_tree V tree -> (forall T, In T samples -> canonical_tree V T) -> 0 <= contract <= 1 / 2 ->
  (forall v, (v < V)%nat -> place v = pulled (contract * (2 * sin (PI / INR V))) at_ tree v) ->
  shows names density observed latent tree samples slots place fig ->
  forall c t, In c (fg_tree fig ++ fg_sampled fig) -> 0 <= t <= 1 -> in_circle (bezier c t).
Proof.
  intros V AR CT CS HC PL SH c t Ic Ht.
  assert (EC : exists a b, (a < b < V)%nat /\ cv_begin c = place a /\ cv_end c = place b).
  { assert (RT : forall T a b, canonical_tree V T -> In (a, b) T -> (a < b < V)%nat). { intros T a b ((_ & R & _) & O & _) I. destruct (R a b I). specialize (O a b I). lia. }
    apply in_app_or in Ic as [I|I]; apply (in_map ends) in I.
    - rewrite (sh_tree _ _ _ _ _ _ _ _ _ SH) in I. apply in_map_iff in I as ([a b] & E & I). exists a, b. split; [eauto|]. unfold ends in E. inversion E. auto.
    - destruct (sh_sampled _ _ _ _ _ _ _ _ _ SH) as (es & _ & K & ES). rewrite ES in I. apply in_map_iff in I as ([a b] & E & I). apply K in I as (T & IT & I).
      exists a, b. split; [eauto|]. unfold ends in E. cbn [fst snd] in E. inversion E. auto. }
  destruct EC as (a & b & Hab & Ea & Eb). assert (H2 : (2 <= V)%nat) by lia.
  pose proof (sh_slots _ _ _ _ _ _ _ _ _ SH) as PS. assert (LS : length slots = V) by (rewrite (Permutation_length PS); apply seq_length).
  assert (AT : forall v, (v < V)%nat -> exists i, (i < V)%nat /\ nth_error slots i = Some v /\ at_ v = on_circle V i).
  { intros v Hv. assert (I : In v slots) by (apply (Permutation_in v (Permutation_sym PS)), in_seq; fold V; lia). apply In_nth_error in I as (i & E). exists i.
    split; [rewrite <- LS; apply nth_error_Some; congruence|]. split; [exact E|]. rewrite <- LS. now apply AR. }
  pose proof (sin_step_pos V H2) as SP.
  assert (IN : forall v, (v < V)%nat -> in_circle (place v)).
  { intros v Hv. rewrite PL by auto. destruct (AT v Hv) as (i & _ & _ & Ei). apply pulled_inside; [apply Rmult_le_pos; lra|rewrite Ei; apply on_circle_in|].
    intros x y I. destruct CT as ((_ & R & _) & O & _). destruct (R x y I) as (Hx & Hy). specialize (O x y I). destruct (AT x Hx) as (j & Hj & Ej & Fj), (AT y Hy) as (k & Hk & Ek & Fk).
    rewrite Fj, Fk. split; [apply on_circle_in|]. split; [apply on_circle_in|]. assert (NE : j <> k) by (intros ->; rewrite Ej in Ek; inversion Ek; lia).
    pose proof (circle_gap V j k H2 Hj Hk NE). split; [lra|]. nra. }
  apply (curves_inside V); [lia| | | |exact Ht].
  - pose proof (sh_bends _ _ _ _ _ _ _ _ _ SH) as B. rewrite Forall_forall in B. now apply B.
  - rewrite Ea. apply IN. lia.
  - rewrite Eb. apply IN. lia.
Qed.

(** A chord of three features, half way. *)
Lemma antipodes : bezier (plot_chord (1, 0) (-1, 0) (1 / 2) None) (1 / 2) = (0, 0).
Proof. unfold bezier. cbn [plot_chord cv_begin cv_c1 cv_c2 cv_end pscale fst snd]. f_equal; field. Qed.
