(** Proofs about the annealing schedule. *)
From Coq Require Import List ZArith QArith Qround Lqa Lia Permutation Arith.
From Verif Require Import Base L_Base M_Schedule Spec_Schedule.
Import ListNotations.
Open Scope nat_scope.

Definition qn (n : nat) : Q := inject_Z (Z.of_nat n).

Lemma qn_S n : (qn (n + 1) == qn n + 1)%Q.
Proof. unfold qn. rewrite Nat2Z.inj_add, inject_Z_plus. reflexivity. Qed.

Lemma qn_succ n : (qn (S n) == qn n + 1)%Q.
Proof. rewrite <- qn_S, Nat.add_1_r. reflexivity. Qed.

Lemma qn_le a b : a <= b -> (qn a <= qn b)%Q.
Proof. intros. unfold qn. rewrite <- Zle_Qle. lia. Qed.

Lemma qn_le_inv a b : (qn a <= qn b)%Q -> a <= b.
Proof. unfold qn. rewrite <- Zle_Qle. lia. Qed.

Lemma qn_0 : (qn 0 == 0)%Q.
Proof. reflexivity. Qed.

Section Sched.
Variables (ids : list nat) (e rate : Q).
Notation N := (length ids).
Hypothesis He : (1 <= e)%Q.
Hypothesis Hr : (1 <= rate)%Q.
Hypothesis ND : NoDup ids.
Hypothesis RG : forall x, In x ids -> x < N.

Lemma cyc_in i : 0 < N -> In (cycle_next ids i) ids.
Proof. intros. unfold cycle_next. apply nth_In. apply Nat.mod_upper_bound. lia. Qed.

Lemma cyc_inj i j : i < j -> j - i < N -> cycle_next ids i <> cycle_next ids j.
Proof.
  intros L D E. unfold cycle_next in E.
  assert (HN : N <> 0) by lia.
  assert (i mod N = j mod N).
  { apply (proj1 (NoDup_nth ids 0) ND); try (apply Nat.mod_upper_bound; lia). exact E. }
  pose proof (Nat.div_mod i N HN). pose proof (Nat.div_mod j N HN).
  assert (i / N <= j / N) by (apply Nat.div_le_mono; lia).
  assert (j - i = N * (j / N - i / N)) by nia.
  destruct (Nat.eq_dec (j / N) (i / N)) as [E2|NE].
  - rewrite E2 in *. nia.
  - assert (1 <= j / N - i / N) by lia. nia.
Qed.

(** Rows assigned when [a] rows have been added and [r] removed. *)
Definition window (r a : nat) : list nat := map (cycle_next ids) (seq r (a - r)).

Lemma window_snoc r a : r <= a -> window r (a + 1) = window r a ++ [cycle_next ids a].
Proof.
  intros. unfold window. replace (a + 1 - r) with ((a - r) + 1) by lia.
  rewrite seq_app, map_app. cbn. do 2 f_equal. f_equal. lia.
Qed.

Lemma window_cons r a : r < a -> window r a = cycle_next ids r :: window (r + 1) a.
Proof.
  intros. unfold window. replace (a - r) with (S (a - (r + 1))) by lia. cbn.
  replace (r + 1) with (S r) by lia. reflexivity.
Qed.

Lemma window_length r a : length (window r a) = a - r.
Proof. unfold window. now rewrite map_length, seq_length. Qed.

Lemma window_fresh r a : r <= a -> a - r < N -> ~ In (cycle_next ids a) (window r a).
Proof.
  intros L D I. unfold window in I. apply in_map_iff in I. destruct I as (i & E & I).
  apply in_seq in I. revert E. apply cyc_inj; lia.
Qed.

Lemma window_NoDup r a : r <= a -> a - r <= N -> NoDup (window r a).
Proof.
  intros L D. remember (a - r) as k eqn:K. revert r L D K. induction k; intros.
  - unfold window. rewrite <- K. constructor.
  - rewrite window_cons by lia. constructor.
    + intros I. unfold window in I. apply in_map_iff in I. destruct I as (i & E & I).
      apply in_seq in I. symmetry in E. revert E. apply cyc_inj; lia.
    + apply IHk; lia.
Qed.

Record inv (s : sched) : Prop := mkInv {
  i_le : s_rem s <= s_add s;
  i_num : s_num s = (Z.of_nat (s_add s) - Z.of_nat (s_rem s))%Z;
  i_cap : s_add s - s_rem s <= N;
  i_eq : (s_state s == 2 * e - qn (s_add s) * (e - 1) + qn (s_rem s) * e)%Q;
  i_lo : (1 - e <= s_state s)%Q;
  i_hi : (s_state s <= 2 * e)%Q;
}.

Lemma inv_init : inv (mkSched 0 0 (2 * e) 0 0).
Proof. split; cbn [s_add s_rem s_state s_num s_next]; try lia; try lra. rewrite qn_0. lra. Qed.

(** What the bounds on [state] say about the counters. *)
Lemma inv_adds_hi s : inv s -> (qn (s_add s) <= qn (s_add s - s_rem s) * e)%Q.
Proof.
  intros [L _ _ E _ H]. assert (Q : (qn (s_add s - s_rem s) == qn (s_add s) - qn (s_rem s))%Q).
  { unfold qn. rewrite Nat2Z.inj_sub by lia. unfold Zminus. rewrite inject_Z_plus, inject_Z_opp. reflexivity. }
  rewrite Q. rewrite E in H. lra.
Qed.

Lemma inv_adds_lo s : inv s -> (qn (s_add s - s_rem s) * e - (3 * e - 1) <= qn (s_add s))%Q.
Proof.
  intros [L _ _ E H _]. assert (Q : (qn (s_add s - s_rem s) == qn (s_add s) - qn (s_rem s))%Q).
  { unfold qn. rewrite Nat2Z.inj_sub by lia. unfold Zminus. rewrite inject_Z_plus, inject_Z_opp. reflexivity. }
  rewrite Q. rewrite E in H. lra.
Qed.

Definition pre_step (s : sched) : sched * action :=
  if Qle_bool 0 (s_state s)
  then (mkSched (s_add s + 1) (s_rem s) (s_state s - (e - 1)) (s_num s + 1)%Z (s_next s - rate),
        AddRow (cycle_next ids (s_add s)))
  else (mkSched (s_add s) (s_rem s + 1) (s_state s + e) (s_num s - 1)%Z (s_next s),
        RemoveRow (cycle_next ids (s_rem s))).

Lemma sched_step_pre s : sched_step ids e rate s =
  let '(s', a) := pre_step s in let '(s'', b) := sched_sample s' in (s'', a :: b).
Proof. unfold sched_step, pre_step. now destruct (Qle_bool 0 (s_state s)). Qed.

Lemma rem_room s : inv s -> (s_state s < 0)%Q -> 3 <= s_add s - s_rem s.
Proof.
  intros [L _ _ E H _] Hs. rewrite E in Hs.
  destruct (le_lt_dec 3 (s_add s - s_rem s)) as [|C]; [assumption|exfalso].
  assert (A : s_add s <= s_rem s + 2) by lia. apply qn_le in A.
  assert (Q2 : (qn (s_rem s + 2) == qn (s_rem s) + 2)%Q).
  { unfold qn. rewrite Nat2Z.inj_add, inject_Z_plus. reflexivity. }
  rewrite Q2 in A. pose proof (qn_le 0 (s_rem s) ltac:(lia)) as P. rewrite qn_0 in P.
  assert ((qn (s_add s) * (e - 1) <= (qn (s_rem s) + 2) * (e - 1))%Q).
  { apply Qmult_le_compat_r; lra. }
  lra.
Qed.

Lemma pre_step_inv s s' a : inv s -> (s_num s < Z.of_nat N)%Z -> pre_step s = (s', a) ->
  inv s' /\ 1 <= s_add s' - s_rem s' /\ s_add s' + s_rem s' = s_add s + s_rem s + 1 /\
  ((a = AddRow (cycle_next ids (s_add s)) /\ s_add s' = s_add s + 1 /\ s_rem s' = s_rem s
    /\ (s_next s' == s_next s - rate)%Q) \/
   (a = RemoveRow (cycle_next ids (s_rem s)) /\ s_add s' = s_add s /\ s_rem s' = s_rem s + 1
    /\ s_next s' = s_next s /\ 3 <= s_add s - s_rem s /\ (1 < e)%Q)).
Proof.
  intros I LT E. pose proof I as [L Nm C Eq Lo Hi]. unfold pre_step in E.
  destruct (Qle_bool 0 (s_state s)) eqn:B; inversion E; subst; clear E; cbn [s_add s_rem s_state s_num s_next].
  - apply Qle_bool_iff in B. split; [split; cbn [s_add s_rem s_state s_num s_next]; try lia; try lra|].
    + rewrite qn_S, Eq. ring.
    + split; [lia|]. split; [lia|]. left. repeat split; reflexivity.
  - assert (B' : (s_state s < 0)%Q).
    { apply Qnot_le_lt. intros H. apply Qle_bool_iff in H. congruence. }
    pose proof (rem_room _ I B').
    split; [split; cbn [s_add s_rem s_state s_num s_next]; try lia; try lra|].
    + rewrite qn_S, Eq. ring.
    + split; [lia|]. split; [lia|]. right. repeat split; auto. lra.
Qed.

Lemma sample_inv s s' b : sched_sample s = (s', b) -> inv s -> inv s' /\ s_add s' = s_add s /\ s_rem s' = s_rem s
  /\ (b = [] /\ s' = s \/ b = [SampleTree] /\ (s_next s <= 0)%Q /\ (0 < s_num s)%Z /\ s_next s' = inject_Z (s_num s')).
Proof.
  unfold sched_sample. intros E I.
  destruct (0 <? s_num s)%Z eqn:P; cbn [andb] in E;
    [|inversion E; subst; split; [exact I|]; split; [reflexivity|]; split; [reflexivity|]; left; split; reflexivity].
  destruct (Qle_bool (s_next s) 0) eqn:B; inversion E; subst;
    [|split; [exact I|]; split; [reflexivity|]; split; [reflexivity|]; left; split; reflexivity].
  apply Qle_bool_iff in B. split; [destruct I; split; assumption|]. split; [reflexivity|]. split; [reflexivity|].
  right. split; [reflexivity|]. split; [exact B|]. split; [now apply Z.ltb_lt|reflexivity].
Qed.

Lemma replays_app R l1 R1 l2 R2 : replays N R l1 R1 -> replays N R1 l2 R2 -> replays N R (l1 ++ l2) R2.
Proof.
  induction 1; intros; cbn; auto.
  - apply rp_add; auto.
  - apply rp_remove; auto.
  - apply rp_sample; auto.
Qed.

Lemma step_replays s s' l : inv s -> (s_num s < Z.of_nat N)%Z -> sched_step ids e rate s = (s', l) ->
  inv s' /\ 1 <= s_add s' - s_rem s' /\ s_add s' + s_rem s' = s_add s + s_rem s + 1 /\
  replays N (window (s_rem s) (s_add s)) l (window (s_rem s') (s_add s')) /\
  s_add s' = s_add s + adds l /\ s_rem s' = s_rem s + removes l /\ ((e <= 1)%Q -> removes l = 0).
Proof.
  intros I LT E. rewrite sched_step_pre in E.
  destruct (pre_step s) as [s1 a] eqn:P. destruct (sched_sample s1) as [s2 b] eqn:SS.
  inversion E; subst s2 l; clear E.
  destruct (pre_step_inv _ _ _ I LT P) as (I1 & G1 & T1 & D1).
  destruct (sample_inv _ _ _ SS I1) as (I2 & EA & ER & D2).
  split; [exact I2|]. split; [lia|]. split; [lia|].
  pose proof (i_num _ I) as Hn. pose proof (i_le _ I) as Hle. pose proof (i_cap _ I1) as Hc.
  assert (W1 : window (s_rem s1) (s_add s1) <> []).
  { intros W. apply (f_equal (@length nat)) in W. rewrite window_length in W. cbn in W. lia. }
  assert (HB : replays N (window (s_rem s1) (s_add s1)) b (window (s_rem s') (s_add s'))
               /\ adds b = 0 /\ removes b = 0).
  { rewrite EA, ER. destruct D2 as [(-> & ->)|(-> & _)]; repeat split; try constructor; auto. constructor. }
  destruct HB as (HB & Ab & Rb).
  destruct D1 as [(-> & A1 & R1 & X1)|(-> & A1 & R1 & X1 & G & He1)].
  - split; [|split; [|split]].
    + apply rp_add.
      * apply RG. apply cyc_in. lia.
      * apply window_fresh; lia.
      * rewrite <- window_snoc by lia. rewrite <- A1, <- R1. exact HB.
    + unfold adds in *. cbn. lia.
    + unfold removes in *. cbn. lia.
    + intros _. unfold removes in *. cbn. lia.
  - split; [|split; [|split]].
    + rewrite (window_cons (s_rem s)) by lia.
      rewrite R1, A1 in *.
      apply (rp_remove N [] _ (window (s_rem s + 1) (s_add s))); cbn [app]; auto.
      assert (NDw : NoDup (window (s_rem s) (s_add s))) by (apply window_NoDup; [lia|apply (i_cap _ I)]).
      rewrite window_cons in NDw by lia. now inversion NDw.
    + unfold adds in *. cbn. lia.
    + unfold removes in *. cbn. lia.
    + intros. lra.
Qed.

Lemma filter_app_len {A} (f : A -> bool) l m :
  length (filter f (l ++ m)) = length (filter f l) + length (filter f m).
Proof. now rewrite filter_app, app_length. Qed.

Lemma loop_spec fuel : forall s acts, inv s -> sched_loop fuel ids e rate s = Ok acts ->
  exists s', inv s' /\ s_add s' - s_rem s' = N /\
    replays N (window (s_rem s) (s_add s)) acts (window (s_rem s') (s_add s')) /\
    s_add s' = s_add s + adds acts /\ s_rem s' = s_rem s + removes acts /\
    ((e <= 1)%Q -> removes acts = 0).
Proof.
  induction fuel; intros s acts I E; cbn [sched_loop] in E.
  - destruct (Z.ltb_spec (s_num s) (Z.of_nat N)); [discriminate|]. inversion E; subst.
    exists s. split; [exact I|]. pose proof I as [L Nm C _ _ _]. split; [lia|]. split; [constructor|].
    cbn. auto.
  - destruct (Z.ltb_spec (s_num s) (Z.of_nat N)) as [LT|GE].
    + destruct (sched_step ids e rate s) as [s1 l] eqn:ST.
      destruct (sched_loop fuel ids e rate s1) as [rest|] eqn:LP; cbn in E; [|discriminate].
      inversion E; subst acts; clear E.
      destruct (step_replays _ _ _ I LT ST) as (I1 & _ & _ & RP & A1 & R1 & Z1).
      destruct (IHfuel _ _ I1 LP) as (s' & I' & F & RP' & A' & R' & Z').
      exists s'. split; [exact I'|]. split; [exact F|]. split; [eapply replays_app; eauto|].
      unfold adds, removes in *. rewrite !filter_app_len. split; [lia|]. split; [lia|].
      intros H. specialize (Z1 H). specialize (Z' H). lia.
    + inversion E; subst. exists s. split; [exact I|]. pose proof I as [L Nm C _ _ _]. split; [lia|]. split; [constructor|].
      cbn. auto.
Qed.

Lemma loop_terminates B fuel : (qn N * e <= qn B)%Q -> forall s, inv s -> 2 * B <= fuel + (s_add s + s_rem s) ->
  exists acts, sched_loop fuel ids e rate s = Ok acts.
Proof.
  intros HB. 
  assert (Bd : forall s, inv s -> s_add s + s_rem s <= 2 * B).
  { intros s I. pose proof (inv_adds_hi s I) as H. pose proof (i_le _ I). pose proof (i_cap _ I) as C.
    apply qn_le in C. assert (s_add s <= B); [|lia]. apply qn_le_inv.
    assert ((qn (s_add s - s_rem s) * e <= qn N * e)%Q) by (apply Qmult_le_compat_r; lra). lra. }
  induction fuel; intros s I F; cbn [sched_loop];
    destruct (Z.ltb_spec (s_num s) (Z.of_nat N)) as [LT|GE]; eauto;
    destruct (sched_step ids e rate s) as [s1 l] eqn:ST;
    destruct (step_replays _ _ _ I LT ST) as (I1 & _ & T1 & _);
    pose proof (Bd _ I1).
  - lia.
  - destruct (IHfuel s1 I1) as (acts & ->); [lia|]. cbn. eauto.
Qed.

(** ** Cadence *)
Definition no_sample (l : list action) : Prop := ~ In SampleTree l.

Lemma no_sample_app l m : no_sample (l ++ m) <-> no_sample l /\ no_sample m.
Proof. unfold no_sample. rewrite in_app_iff. tauto. Qed.

Lemma step_shape s s' l : inv s -> (s_num s < Z.of_nat N)%Z -> sched_step ids e rate s = (s', l) ->
  exists a, (l = [a] \/ l = [a; SampleTree]) /\ a <> SampleTree /\
    ((exists r, a = AddRow r) \/ (exists r, a = RemoveRow r)) /\
    let nx := if is_add a then (s_next s - rate)%Q else s_next s in
    (l = [a] -> (s_next s' == nx)%Q /\ (0 < nx)%Q) /\
    (l = [a; SampleTree] -> (nx <= 0)%Q /\ s_next s' = inject_Z (s_num s')).
Proof.
  intros I LT E. rewrite sched_step_pre in E.
  destruct (pre_step s) as [s1 a] eqn:P. destruct (sched_sample s1) as [s2 b] eqn:SS.
  inversion E; subst s2 l; clear E.
  destruct (pre_step_inv _ _ _ I LT P) as (I1 & G1 & T1 & D1).
  assert (NX : (s_next s1 == if is_add a then s_next s - rate else s_next s)%Q).
  { destruct D1 as [(-> & _ & _ & X)|(-> & _ & _ & X & _)]; cbn [is_add]; rewrite X; reflexivity. }
  exists a. pose proof (i_num _ I1) as Hn. pose proof (i_le _ I1).
  assert (PZ : (0 <? s_num s1)%Z = true) by (apply Z.ltb_lt; lia).
  unfold sched_sample in SS. rewrite PZ in SS. cbn [andb] in SS.
  assert (KIND : (exists r, a = AddRow r) \/ (exists r, a = RemoveRow r)).
  { destruct D1 as [(-> & _)|(-> & _)]; eauto. }
  assert (NS : a <> SampleTree) by (destruct KIND as [(? & ->)|(? & ->)]; discriminate).
  destruct (Qle_bool (s_next s1) 0) eqn:B; inversion SS; subst; clear SS.
  - apply Qle_bool_iff in B. split; [now right|]. repeat split; auto; try discriminate. cbn zeta.
    now rewrite <- NX.
  - assert (B' : (0 < s_next s')%Q).
    { apply Qnot_le_lt. intros H'. apply Qle_bool_iff in H'. congruence. }
    split; [now left|]. repeat split; auto; try discriminate. cbn zeta. now rewrite <- NX.
Qed.

(** From a state with [next_batch > 0], the next sample comes directly after
    the first add that makes the rate-weighted number of adds reach [next_batch]. *)
Lemma loop_first fuel : forall s acts, inv s -> (0 < s_next s)%Q -> sched_loop fuel ids e rate s = Ok acts ->
  (forall mid post, acts = mid ++ SampleTree :: post -> no_sample mid ->
     exists mid' r, mid = mid' ++ [AddRow r] /\
       (qn (adds mid') * rate < s_next s)%Q /\ (s_next s <= qn (adds mid) * rate)%Q) /\
  (no_sample acts -> (qn (adds acts) * rate < s_next s)%Q).
Proof.
  induction fuel; intros s acts I P E; cbn [sched_loop] in E.
  { destruct (Z.ltb_spec (s_num s) (Z.of_nat N)); [discriminate|]. inversion E; subst. split.
    - intros [|? ?] post X; discriminate X.
    - intros _. cbn. change (qn (adds [])) with (qn 0). rewrite qn_0. lra. }
  destruct (Z.ltb_spec (s_num s) (Z.of_nat N)) as [LT|GE].
  2:{ inversion E; subst. split.
    - intros [|? ?] post X; discriminate X.
    - intros _. change (qn (adds [])) with (qn 0). rewrite qn_0. lra. }
  destruct (sched_step ids e rate s) as [s1 l] eqn:ST.
  destruct (sched_loop fuel ids e rate s1) as [rest|] eqn:LP; cbn in E; [|discriminate].
  inversion E; subst acts; clear E.
  destruct (step_replays _ _ _ I LT ST) as (I1 & _).
  destruct (step_shape _ _ _ I LT ST) as (a & SH & NS & KIND & HL1 & HL2).
  destruct SH as [-> | ->].
  - destruct (HL1 eq_refl) as (X1 & X2). clear HL1 HL2.
    assert (P1 : (0 < s_next s1)%Q) by (rewrite X1; exact X2).
    destruct (IHfuel s1 rest I1 P1 LP) as (H1 & H2). split.
    + intros mid post EQ NM. destruct mid as [|b mid]; cbn in EQ.
      { congruence. }
      inversion EQ; subst b rest.
      destruct (H1 mid post eq_refl) as (mid' & r & -> & L1 & L2).
      { intros C. apply NM. now right. }
      exists (a :: mid'), r. split; [reflexivity|].
      rewrite X1 in L1, L2.
      destruct KIND as [(r' & ->)|(r' & ->)]; unfold adds in *; cbn [filter is_add length] in *; [|auto].
      rewrite !qn_succ. split; lra.
    + intros NM. cbn [app] in *.
      assert (NR : no_sample rest) by (intros C; apply NM; now right).
      specialize (H2 NR). rewrite X1 in H2.
      destruct KIND as [(r' & ->)|(r' & ->)]; unfold adds in *; cbn [filter is_add length] in *; [|auto].
      rewrite qn_succ. lra.
  - destruct (HL2 eq_refl) as (X1 & X2). clear HL1 HL2. split.
    + intros mid post EQ NM. destruct mid as [|b mid]; cbn in EQ; [congruence|].
      destruct mid as [|c mid].
      2:{ inversion EQ; subst. exfalso. apply NM. right. now left. }
      inversion EQ; subst b. destruct KIND as [(r' & ->)|(r' & ->)]; cbn [is_add] in X1.
      * exists [], r'. split; [reflexivity|]. change (adds []) with 0. change (adds [AddRow r']) with (0 + 1).
        rewrite qn_S, qn_0. split; lra.
      * lra.
    + intros NM. exfalso. apply NM. cbn. auto.
Qed.

(** After a sample, the rest of the schedule is a run from a state whose
    [next_batch] is the number of assigned rows. *)
Lemma loop_after fuel : forall s acts pre rest, inv s -> sched_loop fuel ids e rate s = Ok acts ->
  acts = pre ++ SampleTree :: rest ->
  exists fuel' s', inv s' /\ sched_loop fuel' ids e rate s' = Ok rest /\ s_next s' = inject_Z (s_num s') /\
    s_num s' = (s_num s + Z.of_nat (adds pre) - Z.of_nat (removes pre))%Z /\ (0 < s_num s')%Z.
Proof.
  induction fuel; intros s acts pre rest0 I E EQ; cbn [sched_loop] in E.
  { destruct (Z.ltb_spec (s_num s) (Z.of_nat N)); [discriminate|]. inversion E; subst.
    destruct pre; discriminate. }
  destruct (Z.ltb_spec (s_num s) (Z.of_nat N)) as [LT|GE].
  2:{ inversion E; subst. destruct pre; discriminate. }
  destruct (sched_step ids e rate s) as [s1 l] eqn:ST.
  destruct (sched_loop fuel ids e rate s1) as [rest|] eqn:LP; cbn in E; [|discriminate].
  assert (EQ' : l ++ rest = pre ++ SampleTree :: rest0) by congruence. clear E EQ acts.
  destruct (step_replays _ _ _ I LT ST) as (I1 & G & _ & _ & A1 & R1 & _).
  destruct (step_shape _ _ _ I LT ST) as (a & SH & NS & KIND & HL1 & HL2).
  pose proof (i_num _ I). pose proof (i_num _ I1).
  destruct SH as [-> | ->]; cbn [app] in EQ'.
  - destruct pre as [|b pre]; cbn in EQ'; [congruence|]. inversion EQ'; subst b.
    destruct (IHfuel s1 rest pre rest0 I1 LP H3) as (f' & s' & ? & ? & ? & ? & ?).
    exists f', s'. split; [assumption|]. split; [assumption|]. split; [assumption|]. split; [|assumption].
    unfold adds, removes in *. destruct KIND as [(r & ->)|(r & ->)]; cbn in *; lia.
  - destruct pre as [|b pre]; cbn in EQ'; [congruence|]. inversion EQ'; subst b.
    destruct pre as [|c pre]; cbn in H3; inversion H3; subst.
    + destruct (HL2 eq_refl) as (X1 & X2). exists fuel, s1.
      split; [auto|]. split; [auto|]. split; [auto|].
      unfold adds, removes in *. destruct KIND as [(r & ->)|(r & ->)]; cbn in *; lia.
    + destruct (IHfuel s1 _ pre rest0 I1 LP eq_refl) as (f' & s' & ? & ? & ? & ? & ?).
      exists f', s'. split; [assumption|]. split; [assumption|]. split; [assumption|]. split; [|assumption].
      unfold adds, removes in *. destruct KIND as [(r & ->)|(r & ->)]; cbn in *; lia.
Qed.

End Sched.

Lemma replays_length N R l R' : replays N R l R' -> length R' + removes l = length R + adds l.
Proof.
  unfold adds, removes. induction 1; cbn; rewrite ?app_length in *; cbn in *; lia.
Qed.

Lemma perm_ids N ids : Permutation ids (seq 0 N) -> length ids = N /\ NoDup ids /\ (forall x, In x ids -> x < length ids).
Proof.
  intros P. pose proof (Permutation_length P) as L. rewrite seq_length in L. repeat split; auto.
  - apply Permutation_sym in P. eapply Permutation_NoDup; eauto. apply seq_NoDup.
  - intros x I. eapply Permutation_in in I; eauto. apply in_seq in I. lia.
Qed.

Lemma mas_unfold fuel ids e rate : (1 <= e)%Q -> (1 <= rate)%Q ->
  make_annealing_schedule fuel ids e rate = sched_loop fuel ids e rate (mkSched 0 0 (2 * e) 0 0).
Proof.
  intros A B. unfold make_annealing_schedule.
  now rewrite (proj2 (Qle_bool_iff 1 e) A), (proj2 (Qle_bool_iff 1 rate) B).
Qed.

Lemma mas_enough N ids e rate : Permutation ids (seq 0 N) -> (1 <= e)%Q -> (1 <= rate)%Q ->
  exists acts, make_annealing_schedule (2 * Z.to_nat (Qround.Qceiling (qn (length ids) * e))) ids e rate = Ok acts.
Proof.
  intros P A B. destruct (perm_ids _ _ P) as (L & ND & RG).
  set (K := Z.to_nat (Qround.Qceiling (qn (length ids) * e))).
  rewrite mas_unfold by auto.
  apply (loop_terminates ids e rate A ND RG K).
  - unfold K. unfold qn at 2. pose proof (Qround.Qle_ceiling (qn (length ids) * e)) as C.
    assert (0 <= Qround.Qceiling (qn (length ids) * e))%Z.
    { change 0%Z with (Qround.Qceiling 0). apply Qround.Qceiling_resp_le.
      pose proof (qn_le 0 (length ids) ltac:(lia)) as Z0. rewrite qn_0 in Z0.
      apply Qmult_le_0_compat; lra. }
    rewrite Z2Nat.id by lia. exact C.
  - apply inv_init; auto.
  - cbn. lia.
Qed.

Lemma mas_terminates N ids e rate : Permutation ids (seq 0 N) -> (1 <= e)%Q -> (1 <= rate)%Q ->
  exists fuel acts, make_annealing_schedule fuel ids e rate = Ok acts.
Proof. intros P A B. destruct (mas_enough N ids e rate P A B) as (acts & E). eauto. Qed.

Lemma mas_fuel_more f ids e rate : forall s acts, sched_loop f ids e rate s = Ok acts ->
  forall f', f <= f' -> sched_loop f' ids e rate s = Ok acts.
Proof.
  induction f; intros s acts E f' L; destruct f'; try lia; cbn [sched_loop] in *; auto;
    destruct (s_num s <? Z.of_nat (length ids))%Z; try discriminate; auto.
  destruct (sched_step ids e rate s) as [s' a].
  destruct (sched_loop f ids e rate s') as [r|] eqn:X; [|discriminate].
  rewrite (IHf _ _ X f' ltac:(lia)). exact E.
Qed.

Lemma mas_spec N ids e rate fuel acts : Permutation ids (seq 0 N) -> (1 <= e)%Q -> (1 <= rate)%Q ->
  make_annealing_schedule fuel ids e rate = Ok acts ->
  (exists R, replays N [] acts R /\ Permutation R (seq 0 N)) /\
  ((e == 1)%Q -> removes acts = 0) /\
  (inject_Z (Z.of_nat (adds acts)) <= inject_Z (Z.of_nat N) * e)%Q /\
  (inject_Z (Z.of_nat N) * e - (3 * e - 1) <= inject_Z (Z.of_nat (adds acts)))%Q.
Proof.
  intros P A B E. destruct (perm_ids _ _ P) as (L & ND & RG). rewrite mas_unfold in E by auto.
  destruct (loop_spec ids e rate A ND RG fuel _ _ (inv_init ids e A) E) as (s' & I & F & RP & A' & R' & Z').
  cbn [s_add s_rem] in *. cbn in A', R'. rewrite L in *. split; [|split; [|split]].
  - exists (window ids (s_rem s') (s_add s')). split; [exact RP|].
    apply Permutation_sym, NoDup_Permutation_bis.
    + apply seq_NoDup.
    + rewrite window_length, F, seq_length. lia.
    + assert (IN : incl (window ids (s_rem s') (s_add s')) (seq 0 N)).
      { intros x X. unfold window in X. apply in_map_iff in X. destruct X as (i & <- & X).
        eapply Permutation_in; [exact P|]. apply cyc_in. apply in_seq in X. lia. }
      apply NoDup_length_incl; auto.
      * apply window_NoDup; auto; [apply (i_le _ _ _ I)|lia].
      * rewrite window_length, F, seq_length. lia.
  - intros EE. apply Z'. lra.
  - pose proof (inv_adds_hi _ _ _ I) as H. rewrite F, A' in H. exact H.
  - pose proof (inv_adds_lo _ _ _ I) as H. rewrite F, A' in H. exact H.
Qed.

Lemma mas_cadence N ids e rate fuel acts : Permutation ids (seq 0 N) -> (1 <= e)%Q -> (1 <= rate)%Q ->
  make_annealing_schedule fuel ids e rate = Ok acts ->
  (acts = [] \/ exists r rest, acts = AddRow r :: SampleTree :: rest) /\
  (forall pre mid post, acts = pre ++ SampleTree :: mid ++ SampleTree :: post -> ~ In SampleTree mid ->
     exists mid' r R, mid = mid' ++ [AddRow r] /\ replays N [] pre R /\
       (inject_Z (Z.of_nat (adds mid')) * rate < inject_Z (Z.of_nat (length R)))%Q /\
       (inject_Z (Z.of_nat (length R)) <= inject_Z (Z.of_nat (adds mid)) * rate)%Q) /\
  (forall pre rest, acts = pre ++ SampleTree :: rest -> ~ In SampleTree rest ->
     exists R, replays N [] pre R /\
       (inject_Z (Z.of_nat (adds rest)) * rate < inject_Z (Z.of_nat (length R)))%Q).
Proof.
  intros P A B E. pose proof (mas_spec _ _ _ _ _ _ P A B E) as ((Rf & RPf & _) & _).
  destruct (perm_ids _ _ P) as (L & ND & RG). rewrite mas_unfold in E by auto.
  assert (PRE : forall pre rest, acts = pre ++ rest -> exists R, replays N [] pre R).
  { intros pre rest ->. clear - RPf. revert RPf. generalize (@nil nat). induction pre as [|a pre IH]; intros R0 RP; cbn in *.
    - eexists; constructor.
    - inversion RP; subst;
        match goal with H : replays N _ (pre ++ rest) _ |- _ => destruct (IH _ H) as (R & HR) end;
        exists R; now constructor. }
  split; [|split].
  - destruct fuel as [|f]; cbn [sched_loop] in E.
    { destruct (_ <? _)%Z; [discriminate|]. left. congruence. }
    destruct (_ <? _)%Z; [|left; congruence]. right.
    unfold sched_step in E. cbn [s_state] in E.
    rewrite (proj2 (Qle_bool_iff 0 (2 * e))) in E by lra.
    cbn [s_add s_rem s_state s_num s_next] in E.
    unfold sched_sample in E. cbn [s_add s_rem s_state s_num s_next] in E.
    rewrite (proj2 (Qle_bool_iff (0 - rate) 0)) in E by lra. cbn [Z.add Z.ltb Z.compare andb] in E.
    match type of E with bind ?x _ = _ => destruct x as [rest|] end; [|discriminate]. cbn in E.
    exists (cycle_next ids 0), rest. congruence.
  - intros pre mid post EQ NM.
    destruct (loop_after ids e rate A ND RG fuel _ _ pre (mid ++ SampleTree :: post) (inv_init ids e A) E EQ)
      as (f' & s' & I' & E' & X & Y & Z0).
    cbn [s_num] in Y.
    assert (X0 : (0 < s_next s')%Q). { rewrite X. change 0%Q with (inject_Z 0). now rewrite <- Zlt_Qlt. }
    destruct (loop_first ids e rate A ND RG f' s' _ I' X0 E') as (H1 & _).
    destruct (H1 mid post eq_refl NM) as (mid' & r & -> & L1 & L2).
    destruct (PRE _ _ EQ) as (R & HR). exists mid', r, R.
    split; [reflexivity|]. split; [exact HR|]. rewrite X in L1, L2.
    assert (s_num s' = Z.of_nat (length R)).
    { pose proof (replays_length _ _ _ _ HR) as HL. cbn in HL. lia. }
    rewrite H in L1, L2. auto.
  - intros pre rest EQ NM.
    destruct (loop_after ids e rate A ND RG fuel _ _ pre rest (inv_init ids e A) E EQ)
      as (f' & s' & I' & E' & X & Y & Z0).
    cbn [s_num] in Y.
    assert (X0 : (0 < s_next s')%Q). { rewrite X. change 0%Q with (inject_Z 0). now rewrite <- Zlt_Qlt. }
    destruct (loop_first ids e rate A ND RG f' s' _ I' X0 E') as (_ & H2).
    specialize (H2 NM). destruct (PRE _ _ EQ) as (R & HR). exists R. split; [exact HR|].
    rewrite X in H2. assert (s_num s' = Z.of_nat (length R)).
    { pose proof (replays_length _ _ _ _ HR) as HL. cbn in HL. lia. }
    rewrite H in H2. exact H2.
Qed.

Lemma mas_terminates_more N ids e rate : Permutation ids (seq 0 N) -> (1 <= e)%Q -> (1 <= rate)%Q ->
  exists fuel acts, forall fuel', fuel <= fuel' -> make_annealing_schedule fuel' ids e rate = Ok acts.
Proof.
  intros P A B. destruct (mas_terminates N ids e rate P A B) as (f & acts & E).
  exists f, acts. intros f' L. rewrite mas_unfold in * by auto. eapply mas_fuel_more; eauto.
Qed.

Lemma mas_rejects ids e rate fuel : ~ ((1 <= e)%Q /\ (1 <= rate)%Q) ->
  make_annealing_schedule fuel ids e rate = Raise AssertionError.
Proof.
  intros H. unfold make_annealing_schedule.
  destruct (Qle_bool 1 e) eqn:A; [|reflexivity].
  destruct (Qle_bool 1 rate) eqn:B; [|reflexivity].
  exfalso. apply H. split; now apply Qle_bool_iff.
Qed.
