(** contract_positions, and points of a circle. *)
From Coq Require Import List Arith Lia Bool Reals Lra Permutation.
From Verif Require Import Base M_Plot Spec_Plot L_Base.
Import ListNotations.
Open Scope list_scope.
Open Scope R_scope.

(** ** Distances *)
Lemma apart_norm p q : norm2 (psub p q) = apart p q.
Proof. reflexivity. Qed.
Lemma apart_euc p q : apart p q = dist_euc (fst p) (snd p) (fst q) (snd q).
Proof. reflexivity. Qed.
Lemma apart_tri p q r : apart p r <= apart p q + apart q r.
Proof. rewrite !apart_euc. apply triangle. Qed.
Lemma apart_sym p q : apart p q = apart q p.
Proof. unfold apart. f_equal. ring. Qed.
Lemma apart_refl p : apart p p = 0.
Proof. unfold apart. rewrite !Rminus_eq_0, Rmult_0_l, Rplus_0_l. apply sqrt_0. Qed.
Lemma apart_nonneg p q : 0 <= apart p q.
Proof. apply sqrt_pos. Qed.
Lemma apart_sq p q : apart p q * apart p q = (fst p - fst q) * (fst p - fst q) + (snd p - snd q) * (snd p - snd q).
Proof. apply sqrt_sqrt. pose proof (Rle_0_sqr (fst p - fst q)). pose proof (Rle_0_sqr (snd p - snd q)). unfold Rsqr in *. lra. Qed.

Lemma move_by len p q r : 0 < apart p q -> apart r (padd r (toward len p q)) = Rabs len.
Proof.
  intros H. pose proof (apart_sq p q) as S. apply Rsqr_inj; [apply apart_nonneg|apply Rabs_pos|].
  rewrite <- Rsqr_abs. unfold Rsqr. rewrite apart_sq. unfold padd, toward. cbn [fst snd].
  replace (_ * _ + _ * _) with (len * len * (((fst p - fst q) * (fst p - fst q) + (snd p - snd q) * (snd p - snd q)) / (apart p q * apart p q))) by (field; lra).
  rewrite S. replace (_ / _) with 1; [ring|]. field. rewrite <- S. apply Rmult_integral_contrapositive. lra.
Qed.

(** ** The circle *)
Lemma slot_on_circle V i : (0 < V)%nat -> (cos (slot_angle V i), sin (slot_angle V i)) = on_circle V i.
Proof.
  intros H. unfold on_circle, slot_angle. apply lt_INR in H. cbn [INR] in H.
  replace (2 * PI * ((INR i + 1 / 2) / INR V + 1 / 4)) with (2 * PI * (INR i / INR V + 1 / (2 * INR V) + 1 / 4)) by (field; lra). reflexivity.
Qed.

Lemma circle_apart V i j : (0 < V)%nat -> apart (on_circle V i) (on_circle V j) = 2 * Rabs (sin (PI * (INR i - INR j) / INR V)).
Proof.
  intros HV. apply lt_INR in HV. cbn [INR] in HV.
  apply Rsqr_inj; [apply apart_nonneg|pose proof (Rabs_pos (sin (PI * (INR i - INR j) / INR V))); lra|].
  rewrite Rsqr_mult, <- Rsqr_abs. unfold Rsqr at 1. rewrite apart_sq. unfold on_circle. cbn [fst snd].
  rewrite form2, form4. set (x := 2 * PI * _). set (y := 2 * PI * _).
  replace ((x - y) / 2) with (PI * (INR i - INR j) / INR V) by (unfold x, y; field; lra).
  pose proof (sin2_cos2 ((x + y) / 2)) as SC. unfold Rsqr in *. set (s := sin (PI * _ / _)) in *.
  set (a := sin ((x + y) / 2)) in *. set (b := cos ((x + y) / 2)) in *. transitivity (2 * 2 * (s * s) * (a * a + b * b)); [ring|]. rewrite SC. ring.
Qed.

Lemma sin_steps V k : (2 <= V)%nat -> (1 <= k)%nat -> (k < V)%nat -> sin (PI / INR V) <= sin (PI * INR k / INR V).
Proof.
  intros HV H1 H2. pose proof PI_RGT_0. apply le_INR in HV. cbn [INR] in HV. apply le_INR in H1. cbn [INR] in H1.
  assert (H3 : INR k <= INR V - 1). { apply (le_INR (Datatypes.S k)) in H2. rewrite S_INR in H2. lra. }
  assert (Q : 0 < / INR V <= / 2) by (split; [apply Rinv_0_lt_compat; lra|apply Rinv_le_contravar; lra]).
  assert (LO : forall x, 1 <= x -> 2 * x <= INR V -> sin (PI / INR V) <= sin (PI * x / INR V)).
  { intros x X1 X2. unfold Rdiv. rewrite Rmult_assoc. set (t := / INR V) in *.
    assert (E : INR V * t = 1) by (unfold t; field; lra).
    assert (x * t <= / 2) by nra. assert (0 < x * t) by nra. assert (t <= x * t) by nra.
    apply sin_incr_1; nra. }
  destruct (Rle_lt_dec (2 * INR k) (INR V)) as [L|L]; [apply LO; lra|].
  replace (PI * INR k / INR V) with (PI - PI * (INR V - INR k) / INR V) by (field; lra).
  rewrite sin_PI_x. apply LO; lra.
Qed.
Lemma sin_step_pos V : (2 <= V)%nat -> 0 < sin (PI / INR V).
Proof.
  intros HV. apply le_INR in HV. cbn [INR] in HV. pose proof PI_RGT_0. assert (Q : 0 < / INR V <= / 2) by (split; [apply Rinv_0_lt_compat; lra|apply Rinv_le_contravar; lra]).
  unfold Rdiv. apply sin_gt_0; nra.
Qed.

Lemma circle_gap V i j : (2 <= V)%nat -> (i < V)%nat -> (j < V)%nat -> i <> j -> 2 * sin (PI / INR V) <= apart (on_circle V i) (on_circle V j).
Proof.
  intros HV Hi Hj N.
  assert (G : forall i j, (i < j)%nat -> (j < V)%nat -> 2 * sin (PI / INR V) <= apart (on_circle V j) (on_circle V i)).
  { intros a b L Hb. rewrite circle_apart by lia. rewrite <- minus_INR by lia.
    pose proof (sin_steps V (b - a) HV ltac:(lia) ltac:(lia)). pose proof (Rle_abs (sin (PI * INR (b - a) / INR V))). lra. }
  destruct (Nat.lt_total i j) as [L|[L|L]]; [rewrite apart_sym; auto|tauto|auto].
Qed.
Lemma circle_step V i : (2 <= V)%nat -> apart (on_circle V i) (on_circle V (Datatypes.S i)) = 2 * sin (PI / INR V).
Proof.
  intros HV. rewrite apart_sym, circle_apart by lia. rewrite S_INR. replace (INR i + 1 - INR i) with 1 by ring. rewrite Rmult_1_r.
  rewrite Rabs_pos_eq; [reflexivity|]. left. now apply sin_step_pos.
Qed.

(** ** numpy *)
Lemma mapM_total {A B} (f : A -> result B) (g : A -> B) l : (forall a, In a l -> f a = Ok (g a)) -> mapM f l = Ok (map g l).
Proof. induction l as [|a l IH]; intros H; [reflexivity|]. cbn [mapM map]. rewrite H by now left. cbn [bind]. rewrite IH by (intros; apply H; now right). reflexivity. Qed.

Lemma index_get_Ok {A} (a : list A) index d : (forall i, In i index -> (i < length a)%nat) -> index_get a index = Ok (map (fun i => nth i a d) index).
Proof. intros H. apply mapM_total. intros i I. now apply get_Ok, H. Qed.


Lemma index_set_Ok d : forall index values a, length index = length values -> (forall i, In i index -> (i < length a)%nat) ->
  exists a', index_set a index values = Ok a' /\ length a' = length a /\
    forall j, nth j a' d = match find (fun '(i, _) => (i =? j)%nat) (rev (combine index values)) with Some (_, x) => x | None => nth j a d end.
Proof.
  intros index values a LE. unfold index_set.
  assert (G : forall ps a, (forall i x, In (i, x) ps -> (i < length a)%nat) ->
     exists a', foldM (fun a '(i, x) => put IndexError a i x) ps a = Ok a' /\ length a' = length a /\
       forall j, nth j a' d = match find (fun '(i, _) => (i =? j)%nat) (rev ps) with Some (_, x) => x | None => nth j a d end).
  { clear. intros ps. induction ps as [|[i x] ps IH] using rev_ind; intros a H; [exists a; auto|].
    destruct (IH a) as (a' & E & L & N); [intros; apply (H i0 x0); apply in_or_app; auto|].
    rewrite foldM_app, E. cbn [bind foldM].
    assert (Hi : (i < length a')%nat) by (rewrite L; apply (H i x), in_or_app; right; now left).
    rewrite put_Ok by auto. cbn [bind]. eexists. split; [reflexivity|]. split; [now rewrite upd_length|].
    intros j. rewrite nth_upd by auto. rewrite rev_app_distr. cbn [rev app find]. destruct (i =? j)%nat; auto. }
  intros H. apply G. intros i x I. apply in_combine_l in I. auto.
Qed.

Lemma find_combine_map {A} (g : nat * nat -> nat) (h : nat * nat -> A) j : forall es,
  find (fun '(i, _) => (i =? j)%nat) (rev (combine (map g es) (map h es))) = option_map (fun e => (g e, h e)) (find (fun e => (g e =? j)%nat) (rev es)).
Proof.
  intros es. replace (combine (map g es) (map h es)) with (map (fun e => (g e, h e)) es).
  - rewrite <- map_rev. induction (rev es) as [|e l IH]; [reflexivity|]. cbn [map find]. destruct (g e =? j)%nat; [reflexivity|exact IH].
  - induction es as [|e es IH]; [reflexivity|]. cbn. now rewrite IH.
Qed.

Lemma index_add_Ok (g : nat * nat -> nat) (h : nat * nat -> point) es a : (forall e, In e es -> (g e < length a)%nat) ->
  exists a', index_add a (map g es) (map h es) = Ok a' /\ length a' = length a /\
    forall j, nth j a' (0, 0) = match last_with g j es with Some e => padd (nth j a (0, 0)) (h e) | None => nth j a (0, 0) end.
Proof.
  intros H. unfold index_add.
  rewrite (index_get_Ok a (map g es) (0, 0)) by (intros i I; apply in_map_iff in I as (e & <- & I); auto). cbn [bind].
  replace (map (fun '(p, q) => padd p q) (combine (map (fun i => nth i a (0, 0)) (map g es)) (map h es)))
    with (map (fun e => padd (nth (g e) a (0, 0)) (h e)) es).
  2: { clear H. induction es as [|e es IH]; [reflexivity|]. cbn. now rewrite IH. }
  destruct (index_set_Ok (0, 0) (map g es) (map (fun e => padd (nth (g e) a (0, 0)) (h e)) es) a) as (a' & E & L & N).
  - now rewrite !map_length.
  - intros i I. apply in_map_iff in I as (e & <- & I). auto.
  - exists a'. split; [exact E|]. split; [exact L|]. intros j. rewrite N, find_combine_map. unfold last_with.
    destruct (find _ (rev es)) as [e|] eqn:F; [|reflexivity]. cbn [option_map]. apply find_some in F as (_ & F). apply Nat.eqb_eq in F. now rewrite F.
Qed.

Lemma fold_min : forall l x, (In (fold_left Rmin l x) (x :: l)) /\ forall y, In y (x :: l) -> fold_left Rmin l x <= y.
Proof.
  induction l as [|z l IH]; intros x; cbn [fold_left].
  - split; [now left|]. intros y [<-|[]]. lra.
  - destruct (IH (Rmin x z)) as (I & M). split.
    + destruct I as [I|I]; [|right; now right]. destruct (Rmin_case_strong x z (fun m => m = x \/ m = z)) as [E|E]; auto; rewrite <- I; cbn; rewrite E; auto.
    + intros y [<-|[<-|J]].
      * eapply Rle_trans; [apply M; now left|apply Rmin_l].
      * eapply Rle_trans; [apply M; now left|apply Rmin_r].
      * apply M. now right.
Qed.
Lemma array_min_Ok l : l <> [] -> exists m, array_min l = Ok m /\ In m l /\ forall y, In y l -> m <= y.
Proof. destruct l as [|x l]; intros H; [congruence|]. eexists. split; [reflexivity|]. apply fold_min. Qed.

(** ** contract_positions *)
Lemma contract_Ok (XY : list point) edges step : edges <> [] -> length XY = (length edges + 1)%nat ->
  (forall a b, In (a, b) edges -> (a < length XY)%nat /\ (b < length XY)%nat /\ 0 < apart (nth a XY (0, 0)) (nth b XY (0, 0))) ->
  exists XY' len, contract_positions XY edges step = Ok XY' /\ length XY' = length XY /\ shortest XY edges len /\
    forall v, (v < length XY)%nat -> nth v XY' (0, 0) = pulled (step * len) (fun v => nth v XY (0, 0)) edges v.
Proof.
  intros NE LX H. unfold contract_positions. cbv zeta.
  assert (LN : (length edges =? 0)%nat = false) by (destruct edges; [congruence|reflexivity]). rewrite LN. cbn [negb assert_ bind].
  rewrite (proj2 (Nat.eqb_eq _ _) LX). cbn [assert_ bind].
  rewrite (index_get_Ok XY (map fst edges) (0, 0)) by (intros i I; apply in_map_iff in I as ([a b] & <- & I); now apply (H a b)). cbn [bind].
  rewrite (index_get_Ok XY (map snd edges) (0, 0)) by (intros i I; apply in_map_iff in I as ([a b] & <- & I); now apply (H a b)). cbn [bind].
  set (P := fun i => nth i XY (0, 0)).
  assert (E1 : map (fun '(p, q) => psub p q) (combine (map P (map fst edges)) (map P (map snd edges))) = map (fun e => psub (P (fst e)) (P (snd e))) edges).
  { clear. induction edges as [|e es IH]; [reflexivity|]. cbn. now rewrite IH. }
  rewrite E1. rewrite map_map. destruct (array_min_Ok (map (fun e => norm2 (psub (P (fst e)) (P (snd e)))) edges)) as (len & EM & IM & MM).
  { destruct edges; [congruence|discriminate]. }
  rewrite EM. cbn [bind]. apply in_map_iff in IM as ([a0 b0] & EL & I0). cbn [fst snd] in EL.
  assert (LP : 0 < len) by (rewrite <- EL; apply (H a0 b0 I0)). destruct (Rlt_dec 0 len) as [_|]; [|tauto]. cbn [assert_ bind].
  assert (E2 : map (fun '(p, d) => pscale len (pscale (/ d) p)) (combine (map (fun e => psub (P (fst e)) (P (snd e))) edges) (map (fun e => norm2 (psub (P (fst e)) (P (snd e)))) edges))
             = map (fun e => toward len (P (snd e)) (P (fst e))) edges).
  { clear. induction edges as [|e es IH]; [reflexivity|]. cbn [map combine]. rewrite IH. f_equal. unfold toward, pscale. cbn [fst snd]. rewrite (apart_sym (P (snd e))). change (norm2 _) with (apart (P (fst e)) (P (snd e))).
    unfold psub, Rdiv. cbn [fst snd]. f_equal; ring. }
  rewrite E2. rewrite !map_map.
  destruct (index_add_Ok snd (fun e => pscale step (toward len (P (snd e)) (P (fst e)))) edges XY) as (X1 & EX1 & LX1 & N1).
  { intros [a b] I. now apply (H a b). }
  rewrite EX1. cbn [bind].
  destruct (index_add_Ok fst (fun e => pscale (-1) (pscale step (toward len (P (snd e)) (P (fst e))))) edges X1) as (X2 & EX2 & LX2 & N2).
  { intros [a b] I. rewrite LX1. now apply (H a b). }
  exists X2, len. split; [exact EX2|]. split; [congruence|]. split.
  { split; [exists a0, b0; split; [exact I0|now rewrite <- EL]|]. intros a b I. apply MM. apply in_map_iff. exists (a, b). auto. }
  intros v Hv. rewrite N2. specialize (N1 v). rewrite N1. unfold pulled. fold (P v).
  assert (T1 : forall p q, pscale step (toward len p q) = toward (step * len) p q) by (intros; unfold pscale, toward; cbn [fst snd]; f_equal; unfold Rdiv; ring).
  assert (T2 : forall p q, pscale (-1) (toward (step * len) p q) = toward (step * len) q p).
  { intros p q. unfold pscale, toward. cbn [fst snd]. rewrite (apart_sym q p). f_equal; unfold Rdiv; ring. }
  assert (F : forall g e, last_with g v edges = Some e -> g e = v) by (intros g e F; apply find_some in F as (_ & F); now apply Nat.eqb_eq).
  destruct (last_with fst v edges) as [e|] eqn:F1; destruct (last_with snd v edges) as [e'|] eqn:F2; try apply F in F1; try apply F in F2; rewrite ?T1, ?T2, ?F1, ?F2; unfold padd; cbn [fst snd]; fold (P v); rewrite ?Rplus_0_r; try reflexivity.
  destruct (P v); reflexivity.
Qed.


(** Each point moves by at most twice the step. *)
Lemma pulled_near len at_ edges v : 
  (forall a b, In (a, b) edges -> 0 < apart (at_ a) (at_ b)) -> apart (at_ v) (pulled len at_ edges v) <= 2 * Rabs len.
Proof.
  intros H. unfold pulled. set (p := match last_with snd v edges with Some e => _ | None => _ end). set (q := match last_with fst v edges with Some e => _ | None => _ end).
  assert (FI : forall g e, last_with g v edges = Some e -> In e edges /\ g e = v) by (intros g e F; apply find_some in F as (F & G); apply Nat.eqb_eq in G; split; [now apply in_rev|exact G]).
  assert (Z : forall r, apart r (padd r (0, 0)) = 0) by (intros [x y]; replace (padd (x, y) (0, 0)) with (x, y) by (unfold padd; cbn; f_equal; ring); apply apart_refl).
  pose proof (Rabs_pos len) as PL.
  assert (B1 : apart (at_ v) (padd (at_ v) p) <= Rabs len).
  { unfold p. destruct (last_with snd v edges) as [[a b]|] eqn:E; [|rewrite Z; lra]. apply FI in E as (I & E). cbn [fst snd] in *. subst b. rewrite move_by; [lra|]. rewrite apart_sym. auto. }
  assert (B2 : apart (padd (at_ v) p) (padd (padd (at_ v) p) q) <= Rabs len).
  { unfold q. destruct (last_with fst v edges) as [[a b]|] eqn:E; [|rewrite Z; lra]. apply FI in E as (I & E). cbn [fst snd] in *. subst a. rewrite move_by; [lra|]. auto. }
  change (_, _) with (padd (padd (at_ v) p) q). pose proof (apart_tri (at_ v) (padd (at_ v) p) (padd (padd (at_ v) p) q)). lra.
Qed.
