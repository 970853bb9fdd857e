(** The repaired contract_positions. *)
From Coq Require Import List Arith Lia Bool Reals Lra Permutation.
From Verif Require Import Base M_Plot M_Repaired6 Spec_Plot L_Base L_Plot2.
Import ListNotations.
Open Scope list_scope.
Open Scope R_scope.

Definition psum (ps : list point) : point := (fold_right Rplus 0 (map fst ps), fold_right Rplus 0 (map snd ps)).
Lemma padd_assoc p q r : padd (padd p q) r = padd p (padd q r).
Proof. unfold padd. cbn. f_equal; ring. Qed.
Lemma padd_0 p : padd p (0, 0) = p.
Proof. destruct p. unfold padd. cbn. f_equal; ring. Qed.
Lemma psum_app l l' : psum (l ++ l') = padd (psum l) (psum l').
Proof. induction l as [|p l IH]; [unfold psum, padd; cbn; f_equal; ring|]. unfold psum, padd in *. cbn in *. injection IH as -> ->. f_equal; ring. Qed.

Lemma add_at_Ok (g : nat * nat -> nat) (h : nat * nat -> point) es : forall a, (forall e, In e es -> (g e < length a)%nat) ->
  exists a', add_at a (map g es) (map h es) = Ok a' /\ length a' = length a /\
    forall j, (j < length a)%nat -> nth j a' (0, 0) = padd (nth j a (0, 0)) (psum (flat_map (fun e => if (g e =? j)%nat then [h e] else []) es)).
Proof.
  unfold add_at. induction es as [|e es IH]; intros a H.
  - exists a. repeat split. intros j _. cbn. now rewrite padd_0.
  - cbn [map combine foldM]. assert (He : (g e < length a)%nat) by (apply H; now left).
    rewrite (get_Ok _ IndexError a (g e) (0, 0) He). cbn [bind]. rewrite put_Ok by exact He. cbn [bind].
    destruct (IH (upd a (g e) (padd (nth (g e) a (0, 0)) (h e)))) as (a' & E & L & N).
    { intros f I. rewrite upd_length. apply H. now right. }
    exists a'. split; [exact E|]. rewrite upd_length in L. split; [exact L|]. intros j Hj. rewrite N by (now rewrite upd_length).
    rewrite nth_upd by auto. cbn [flat_map]. rewrite psum_app. destruct (Nat.eqb_spec (g e) j) as [->|NE].
    + rewrite padd_assoc. f_equal. f_equal. unfold psum. cbn. destruct (h e). cbn. f_equal; ring.
    + f_equal. unfold psum at 2. cbn [map fold_right]. unfold padd. cbn [fst snd]. rewrite !Rplus_0_l. reflexivity.
Qed.

Lemma pulls_sum len at_ v : forall edges, (forall a b, In (a, b) edges -> a <> b) ->
  psum (pulls len at_ edges v) = padd (psum (flat_map (fun e => if (snd e =? v)%nat then [toward len (at_ (snd e)) (at_ (fst e))] else []) edges))
                                      (psum (flat_map (fun e => if (fst e =? v)%nat then [toward len (at_ (fst e)) (at_ (snd e))] else []) edges)).
Proof.
  induction edges as [|[a b] es IH]; intros H; [unfold psum, padd; cbn; f_equal; ring|].
  unfold pulls in *. cbn [flat_map fst snd]. rewrite !psum_app, IH by (intros; apply H; now right).
  assert (N := H a b (or_introl eq_refl)).
  assert (Z : psum [] = (0, 0)) by reflexivity.
  destruct (Nat.eqb_spec a v) as [->|Na]; destruct (Nat.eqb_spec b v) as [->|Nb]; try tauto; rewrite ?Z; unfold padd; cbn [fst snd]; f_equal; ring.
Qed.

Lemma repaired_contract_Ok (XY : list point) edges step : length XY = (length edges + 1)%nat ->
  (forall a b, In (a, b) edges -> (a < length XY)%nat /\ (b < length XY)%nat /\ 0 < apart (nth a XY (0, 0)) (nth b XY (0, 0))) ->
  exists XY' len, repaired_contract_positions XY edges step = Ok XY' /\ length XY' = length XY /\ (edges <> [] -> shortest XY edges len) /\
    forall v, (v < length XY)%nat -> nth v XY' (0, 0) = pulled_by_all (step * len) (fun v => nth v XY (0, 0)) edges v.
Proof.
  intros LX H. unfold repaired_contract_positions. cbv zeta.
  destruct edges as [|e0 es0].
  { exists XY, 0. split; [reflexivity|]. split; [reflexivity|]. split; [congruence|]. intros v Hv. unfold pulled_by_all. cbn. rewrite !Rplus_0_r. now destruct (nth v XY (0, 0)). }
  remember (e0 :: es0) as edges eqn:EE. assert (NE : edges <> []) by now rewrite EE.
  assert (LN : (length edges =? 0)%nat = false) by now rewrite EE. clear EE e0 es0. rewrite LN.
  rewrite (proj2 (Nat.eqb_eq _ _) LX). cbn [assert_ bind].
  rewrite (index_get_Ok XY (map fst edges) (0, 0)) by (intros i I; apply in_map_iff in I as ([a b] & <- & I); now apply (H a b)). cbn [bind].
  rewrite (index_get_Ok XY (map snd edges) (0, 0)) by (intros i I; apply in_map_iff in I as ([a b] & <- & I); now apply (H a b)). cbn [bind].
  set (P := fun i => nth i XY (0, 0)).
  assert (E1 : map (fun '(p, q) => psub p q) (combine (map P (map fst edges)) (map P (map snd edges))) = map (fun e => psub (P (fst e)) (P (snd e))) edges).
  { clear. induction edges as [|e es IH]; [reflexivity|]. cbn. now rewrite IH. }
  rewrite E1. rewrite map_map. destruct (array_min_Ok (map (fun e => norm2 (psub (P (fst e)) (P (snd e)))) edges)) as (len & EM & IM & MM).
  { destruct edges; [congruence|discriminate]. }
  rewrite EM. cbn [bind]. apply in_map_iff in IM as ([a0 b0] & EL & I0). cbn [fst snd] in EL.
  assert (LP : 0 < len) by (rewrite <- EL; apply (H a0 b0 I0)). destruct (Rlt_dec 0 len) as [_|]; [|tauto]. cbn [assert_ bind].
  assert (E2 : map (fun '(p, d) => pscale len (pscale (/ d) p)) (combine (map (fun e => psub (P (fst e)) (P (snd e))) edges) (map (fun e => norm2 (psub (P (fst e)) (P (snd e)))) edges))
             = map (fun e => toward len (P (snd e)) (P (fst e))) edges).
  { clear. induction edges as [|e es IH]; [reflexivity|]. cbn [map combine]. rewrite IH. f_equal. unfold toward, pscale. cbn [fst snd]. rewrite (apart_sym (P (snd e))). change (norm2 _) with (apart (P (fst e)) (P (snd e))).
    unfold psub, Rdiv. cbn [fst snd]. f_equal; ring. }
  rewrite E2. rewrite !map_map.
  destruct (add_at_Ok snd (fun e => pscale step (toward len (P (snd e)) (P (fst e)))) edges XY) as (X1 & EX1 & LX1 & N1).
  { intros [a b] I. now apply (H a b). }
  rewrite EX1. cbn [bind].
  destruct (add_at_Ok fst (fun e => pscale (-1) (pscale step (toward len (P (snd e)) (P (fst e))))) edges X1) as (X2 & EX2 & LX2 & N2).
  { intros [a b] I. rewrite LX1. now apply (H a b). }
  exists X2, len. split; [exact EX2|]. split; [congruence|]. split.
  { intros _. split; [exists a0, b0; split; [exact I0|now rewrite <- EL]|]. intros a b I. apply MM. apply in_map_iff. exists (a, b). auto. }
  intros v Hv. rewrite N2 by (now rewrite LX1). rewrite N1 by exact Hv. rewrite padd_assoc.
  change (pulled_by_all (step * len) P edges v) with (padd (P v) (psum (pulls (step * len) P edges v))).
  rewrite pulls_sum.
  - f_equal. assert (T1 : forall p q, pscale step (toward len p q) = toward (step * len) p q) by (intros; unfold pscale, toward; cbn [fst snd]; f_equal; unfold Rdiv; ring).
    assert (T2 : forall p q, pscale (-1) (toward (step * len) p q) = toward (step * len) q p).
    { intros p q. unfold pscale, toward. cbn [fst snd]. rewrite (apart_sym q p). f_equal; unfold Rdiv; ring. }
    f_equal; f_equal; apply flat_map_ext; intros e; destruct (_ =? v)%nat; rewrite ?T1, ?T2; reflexivity.
  - intros a b I ->. destruct (H b b I) as (_ & _ & D). rewrite apart_refl in D. lra.
Qed.

(** The pulls cancel out: the centre of the features stays. *)
Lemma psum_map_padd (P Q : nat -> point) l : psum (map (fun v => padd (P v) (Q v)) l) = padd (psum (map P l)) (psum (map Q l)).
Proof. induction l as [|x l IH]; [unfold psum, padd; cbn; f_equal; ring|]. unfold psum, padd in *. cbn in *. injection IH as -> ->. f_equal; ring. Qed.
Lemma psum_single v (p : point) n : (v < n)%nat -> forall Q : nat -> point, (forall u, Q u = if (v =? u)%nat then p else (0, 0)) -> psum (map Q (seq 0 n)) = p.
Proof.
  intros Hv Q HQ. assert (G : forall n, psum (map Q (seq 0 n)) = if (v <? n)%nat then p else (0, 0)).
  { clear Hv n. induction n as [|n IH]; [reflexivity|]. rewrite seq_S, map_app, psum_app, IH. cbn [map]. rewrite Nat.add_0_l, HQ.
    unfold psum. cbn [map fold_right]. unfold padd. cbn [fst snd].
    destruct (Nat.ltb_spec v n), (Nat.ltb_spec v (Datatypes.S n)), (Nat.eqb_spec v n); try lia; cbn [fst snd]; destruct p; cbn [fst snd]; f_equal; ring. }
  rewrite G. destruct (Nat.ltb_spec v n); [reflexivity|lia].
Qed.
Lemma pulls_cancel len at_ n : forall edges, (forall a b, In (a, b) edges -> (a < n)%nat /\ (b < n)%nat /\ a <> b) ->
  psum (map (fun v => psum (pulls len at_ edges v)) (seq 0 n)) = (0, 0).
Proof.
  induction edges as [|[a b] es IH]; intros H.
  - unfold pulls. cbn. induction (seq 0 n) as [|x l IH]; [reflexivity|]. unfold psum in *. cbn in *. injection IH as -> ->. f_equal; ring.
  - destruct (H a b (or_introl eq_refl)) as (Ha & Hb & N).
    rewrite (map_ext _ (fun v => padd (padd (if (a =? v)%nat then toward len (at_ a) (at_ b) else (0, 0)) (if (b =? v)%nat then toward len (at_ b) (at_ a) else (0, 0))) (psum (pulls len at_ es v)))).
    + rewrite psum_map_padd, IH by (intros; apply H; now right). rewrite psum_map_padd.
      rewrite (psum_single a (toward len (at_ a) (at_ b)) n Ha) by reflexivity. rewrite (psum_single b (toward len (at_ b) (at_ a)) n Hb) by reflexivity.
      unfold toward, padd. cbn [fst snd]. rewrite (apart_sym (at_ b)). unfold Rdiv. f_equal; ring.
    + intros v. unfold pulls at 1. cbn [flat_map]. rewrite psum_app. fold (pulls len at_ es v). f_equal.
      destruct (Nat.eqb_spec a v) as [->|Na], (Nat.eqb_spec b v) as [->|Nb]; try tauto; unfold psum, padd; cbn; try reflexivity; f_equal; ring.
Qed.
Lemma repaired_center (XY XY' : list point) edges step len : length XY' = length XY ->
  (forall a b, In (a, b) edges -> (a < length XY)%nat /\ (b < length XY)%nat /\ 0 < apart (nth a XY (0, 0)) (nth b XY (0, 0))) ->
  (forall v, (v < length XY)%nat -> nth v XY' (0, 0) = pulled_by_all (step * len) (fun v => nth v XY (0, 0)) edges v) -> psum XY' = psum XY.
Proof.
  intros L H N. assert (S : forall l : list point, l = map (fun i => nth i l (0, 0)) (seq 0 (length l))).
  { intros l. apply nth_ext with (d := (0, 0)) (d' := (fun i => nth i l (0, 0)) 0%nat); [now rewrite map_length, seq_length|]. intros i Hi. rewrite (map_nth (fun i => nth i l (0, 0)) (seq 0 (length l)) 0%nat), seq_nth by auto. reflexivity. }
  rewrite (S XY'), L. rewrite (map_ext_in _ (fun v => padd (nth v XY (0, 0)) (psum (pulls (step * len) (fun v => nth v XY (0, 0)) edges v)))).
  - rewrite psum_map_padd, pulls_cancel; [rewrite padd_0; now rewrite <- S|]. intros a b I. destruct (H a b I) as (A & B & D). repeat split; auto. intros ->. rewrite apart_refl in D. lra.
  - intros v I. apply in_seq in I. rewrite N by lia. reflexivity.
Qed.

Lemma C69_repaired_proof : forall (XY : list point) edges step, length XY = (length edges + 1)%nat ->
  (forall a b, In (a, b) edges -> (a < length XY)%nat /\ (b < length XY)%nat /\ 0 < apart (nth a XY (0, 0)) (nth b XY (0, 0))) ->
  exists XY' len, repaired_contract_positions XY edges step = Ok XY' /\ length XY' = length XY /\ (edges <> [] -> shortest XY edges len) /\
    (forall v, (v < length XY)%nat -> nth v XY' (0, 0) = pulled_by_all (step * len) (fun v => nth v XY (0, 0)) edges v) /\
    fold_right Rplus 0 (map fst XY') = fold_right Rplus 0 (map fst XY) /\ fold_right Rplus 0 (map snd XY') = fold_right Rplus 0 (map snd XY).
Proof.
  intros XY edges step L H. destruct (repaired_contract_Ok XY edges step L H) as (XY' & len & E & L' & SH & N). exists XY', len. split; [exact E|]. split; [exact L'|]. split; [exact SH|]. split; [exact N|].
  pose proof (repaired_center XY XY' edges step len L' H N) as C. unfold psum in C. injection C as C1 C2. auto.
Qed.

Lemma repaired_contract_case : exists XY', repaired_contract_positions [(0, 0); (1, 0); (0, 1)] [(0, 1); (0, 2)]%nat (1 / 4) = Ok XY' /\ nth 0 XY' (0, 0) = (1 / 4, 1 / 4).
Proof.
  assert (A1 : apart (0, 0) (1, 0) = 1) by (unfold apart; cbn [fst snd]; replace (_ + _) with 1 by ring; apply sqrt_1).
  assert (A2 : apart (0, 0) (0, 1) = 1) by (unfold apart; cbn [fst snd]; replace (_ + _) with 1 by ring; apply sqrt_1).
  destruct (repaired_contract_Ok [(0, 0); (1, 0); (0, 1)] [(0, 1); (0, 2)]%nat (1 / 4)) as (XY' & len & E & L & SH & N); [reflexivity| |].
  - intros a b [[= <- <-]|[[= <- <-]|[]]]; cbn [length nth]; (split; [lia|]); (split; [lia|]); rewrite ?A1, ?A2; lra.
  - exists XY'. split; [exact E|]. rewrite N by (cbn; lia). assert (len = 1) as ->.
    { destruct SH as ((a & b & I & ->) & _); [discriminate|]. destruct I as [[= <- <-]|[[= <- <-]|[]]]; cbn [nth]; assumption. }
    unfold pulled_by_all, pulls. cbn [flat_map nth Nat.eqb app map]. unfold toward. cbn [fst snd]. rewrite A1, A2. cbn. f_equal; field.
Qed.
