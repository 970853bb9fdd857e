(** Every interleaving of the parallel edge scoring computes the sequential result. *)
From Coq Require Import List Arith Bool Reals Lia Lra.
From Verif Require Import Base L_Base L_Pairing M_Structure M_Array M_Training M_Parallel.
Import ListNotations.
Open Scope nat_scope.

Section Par.
Variables (lg : R -> R) (N M V : nat) (grid : list triple) (rows : list (nat -> nat)) (vl : nat -> R).
Notation K := (length grid).
Notation step := (thread_step lg N M V grid rows vl).

Definition count_step := (fun counts '(a1, a2) => (_ <- check ((a1 <? M) && (a2 <? M)) ;;
              Ok (set2 counts a1 a2 (counts a1 a2 + 1)))%res).
Definition inner (counts : nat -> nat -> nat) (m1 : nat) (ms : list nat) (acc : R) : result R :=
  foldM (fun acc m2 => (x <- gammaln_table lg N M (counts m1 m2) ;; Ok (acc + x)%R)%res) ms acc.
Definition outer (counts : nat -> nat -> nat) (ms : list nat) (acc : R) : result R :=
  foldM (fun acc m1 => inner counts m1 (seq 0 M) acc) ms acc.
Definition fin (v1 v2 : nat) (x : R) : R := (x - vl v1 - vl v2)%R.

(** What remains of an iteration, run to its end. *)
Definition finish (k : nat) (t : thread) : result R :=
  match t with
  | PStart => (col <- get OutOfBounds grid k ;; edge_logit_of lg N M V rows vl col)%res
  | PCount v1 v2 n counts =>
    (c <- foldM count_step (map (fun a : nat -> nat => (a v1, a v2)) (skipn n rows)) counts ;;
     x <- outer c (seq 0 M) 0%R ;; Ok (fin v1 v2 x))%res
  | PSum v1 v2 counts m1 m2 acc =>
    (x <- (if m1 <? M then (a <- inner counts m1 (seq m2 (M - m2)) acc ;; outer counts (seq (S m1) (M - S m1)) a)%res else Ok acc) ;;
     Ok (fin v1 v2 x))%res
  | PWrite v1 v2 x => Ok (fin v1 v2 x)
  | PDone => Raise OutOfFuel
  end.

Definition twf (t : thread) : Prop :=
  match t with PSum _ _ _ m1 m2 _ => m2 <= M | PCount _ _ n _ => n <= length rows | _ => True end.

Definition remaining (t : thread) : nat :=
  match t with
  | PStart => length rows + M * (M + 1) + 4
  | PCount _ _ n _ => length rows - n + M * (M + 1) + 3
  | PSum _ _ _ m1 m2 _ => if m1 <? M then (M - m1) * (M + 1) - m2 + 2 else 2
  | PWrite _ _ _ => 1
  | PDone => 0
  end.

Lemma seq_split_first m : m < M -> seq m (M - m) = m :: seq (S m) (M - S m).
Proof. intros. replace (M - m) with (S (M - S m)) by lia. reflexivity. Qed.

Lemma step_ok k t mem x : k < K -> length mem = K -> twf t -> t <> PDone -> finish k t = Ok x ->
  exists t' mem', step k t mem = Ok (t', mem') /\ twf t' /\ remaining t' < remaining t /\
    ((t' <> PDone /\ mem' = mem /\ finish k t' = Ok x) \/ (t' = PDone /\ mem' = upd mem k x)).
Proof.
  intros Hk LM W ND F. destruct t as [|v1 v2 n counts|v1 v2 counts m1 m2 acc|v1 v2 y|]; [| | | |congruence].
  - cbn [finish] in F. cbn [thread_step]. destruct (get OutOfBounds grid k) as [[[e v1] v2]|]; cbn [bind] in *; [|discriminate].
    unfold edge_logit_of in F. destruct ((v1 <? V) && (v2 <? V)); cbn [check bind] in *; [|discriminate].
    eexists _, _. split; [reflexivity|]. split; [cbn; lia|]. split; [cbn; lia|]. left. split; [discriminate|]. split; [reflexivity|].
    cbn [finish skipn]. unfold treecat_compute_edge_logit in F.
    change (fun counts '(a1, a2) => (_ <- check ((a1 <? M) && (a2 <? M)) ;; Ok (set2 counts a1 a2 (counts a1 a2 + 1)))%res) with count_step in F.
    destruct (foldM count_step _ _) as [c|]; cbn [bind] in *; [|discriminate].
    unfold outer, inner. destruct (foldM _ (seq 0 M) 0%R) as [y|]; cbn [bind] in *; [|discriminate]. exact F.
  - cbn [finish] in F. cbn [thread_step]. cbn [twf] in W.
    destruct (nth_error rows n) as [a|] eqn:E.
    + assert (Hn : n < length rows) by (apply nth_error_Some; congruence).
      assert (SK : skipn n rows = a :: skipn (S n) rows).
      { clear -E. revert n E. induction rows as [|r l IH]; intros [|n] E; cbn in *; try discriminate; [congruence|]. now apply IH. }
      rewrite SK in F. cbn [map foldM] in F. unfold count_step at 1 in F.
      destruct ((a v1 <? M) && (a v2 <? M)); cbn [check bind] in *; [|discriminate].
      eexists _, _. split; [reflexivity|]. split; [cbn; lia|]. split; [cbn; lia|]. left. split; [discriminate|]. split; [reflexivity|]. exact F.
    + assert (Hn : length rows <= n) by now apply nth_error_None.
      rewrite skipn_all2 in F by auto. cbn [map foldM bind] in F.
      eexists _, _. split; [reflexivity|]. split; [cbn; lia|]. split.
      { cbn [remaining]. destruct (0 <? M); nia. }
      left. split; [discriminate|]. split; [reflexivity|]. cbn [finish]. destruct (Nat.ltb_spec 0 M) as [H|H].
      * rewrite <- F. assert (SP : seq 0 M = 0 :: seq 1 (M - 1)) by (pose proof (seq_split_first 0 H) as Q; now rewrite Nat.sub_0_r in Q).
        rewrite Nat.sub_0_r. unfold outer at 2. rewrite SP at 2. cbn [foldM]. reflexivity.
      * rewrite <- F. unfold outer. replace (seq 0 M) with (@nil nat) by (replace M with 0 by lia; reflexivity). reflexivity.
  - cbn [finish] in F. cbn [thread_step]. cbn [twf] in W. destruct (Nat.ltb_spec m1 M) as [H1|H1].
    + destruct (Nat.ltb_spec m2 M) as [H2|H2].
      * rewrite seq_split_first in F by auto. unfold inner in F at 1. cbn [foldM] in F.
        destruct (gammaln_table lg N M (counts m1 m2)) as [y|]; cbn [bind] in *; [|discriminate].
        eexists _, _. split; [reflexivity|]. split; [cbn; lia|]. split.
        { cbn [remaining]. rewrite (proj2 (Nat.ltb_lt m1 M) H1). nia. }
        left. split; [discriminate|]. split; [reflexivity|]. cbn [finish]. rewrite (proj2 (Nat.ltb_lt m1 M) H1). exact F.
      * eexists _, _. split; [reflexivity|]. split; [cbn; lia|]. split.
        { cbn [remaining]. rewrite (proj2 (Nat.ltb_lt m1 M) H1). destruct (S m1 <? M) eqn:E; [apply Nat.ltb_lt in E|]; nia. }
        left. split; [discriminate|]. split; [reflexivity|].
        replace (M - m2) with 0 in F by lia. unfold inner in F at 1. cbn [seq foldM bind] in F. cbn [finish].
        destruct (Nat.ltb_spec (S m1) M) as [H3|H3].
        -- rewrite (seq_split_first (S m1)) in F by auto. unfold outer in F at 1. cbn [foldM] in F. rewrite Nat.sub_0_r. exact F.
        -- replace (M - S m1) with 0 in F by lia. unfold outer in F. cbn [seq foldM bind] in F. exact F.
    + cbn [bind] in F. eexists _, _. split; [reflexivity|]. split; [cbn; auto|]. split.
      { cbn [remaining]. destruct (Nat.ltb_spec m1 M); lia. }
      left. split; [discriminate|]. split; [reflexivity|]. exact F.
  - cbn [finish] in F. cbn [thread_step]. rewrite put_Ok by lia. cbn [bind]. inversion F; subst.
    eexists _, _. split; [reflexivity|]. split; [cbn; auto|]. split; [cbn; lia|]. right. auto.
Qed.

Variable logits : list R.
Hypothesis SEQ : compute_edge_logits_seq lg N M V grid rows vl = Ok logits.

Lemma mapM_nth {A B} (f : A -> result B) : forall l bs, mapM f l = Ok bs ->
  length bs = length l /\ forall k a, nth_error l k = Some a -> exists b, f a = Ok b /\ nth_error bs k = Some b.
Proof.
  induction l as [|a l IH]; intros bs E; cbn [mapM] in E.
  - inversion E. split; [reflexivity|]. intros [|k] a' H; discriminate.
  - destruct (f a) as [b|] eqn:Ea; cbn [bind] in E; [|discriminate].
    destruct (mapM f l) as [bs'|] eqn:Eb; cbn [bind] in E; [|discriminate]. inversion E; subst.
    destruct (IH _ eq_refl) as (L & H). split; [cbn; lia|]. intros [|k] a' Hk; cbn in Hk |- *.
    + inversion Hk; subst. eauto.
    + eauto.
Qed.

Lemma logits_len : length logits = K.
Proof. apply (mapM_nth _ _ _ SEQ). Qed.

Lemma start_finish k : k < K -> finish k PStart = Ok (nth k logits 0%R).
Proof.
  intros Hk. destruct (mapM_nth _ _ _ SEQ) as (L & H). cbn [finish].
  destruct (nth_error grid k) as [col|] eqn:E; [|apply nth_error_None in E; lia].
  unfold get. rewrite E. cbn [bind]. destruct (H _ _ E) as (b & Eb & En). rewrite Eb. f_equal. symmetry. now apply nth_error_nth.
Qed.

(** Invariant of the interleaving, [cnt k] being the steps taken by [k]. *)
Definition inv (cnt : nat -> nat) (st : list thread * list R) : Prop :=
  let '(ths, mem) := st in
  length ths = K /\ length mem = K /\
  forall k, k < K ->
    let t := nth k ths PDone in
    twf t /\ remaining t <= remaining PStart - cnt k /\
    (t <> PDone -> finish k t = Ok (nth k logits 0%R)) /\ (t = PDone -> nth k mem 0%R = nth k logits 0%R).

Lemma inv_init : inv (fun _ => 0) (repeat PStart K, repeat 0%R K).
Proof.
  cbn [inv]. rewrite !repeat_length. split; [reflexivity|]. split; [reflexivity|]. intros k Hk.
  assert (E : nth k (repeat PStart K) PDone = PStart).
  { apply nth_error_nth. rewrite nth_error_repeat; auto. }
  rewrite E. cbv zeta. split; [exact Logic.I|]. split; [lia|]. split; [intros _; now apply start_finish|discriminate].
Qed.

Lemma inv_step cnt st k : inv cnt st -> k < K ->
  exists st', sched_step lg N M V grid rows vl st k = Ok st' /\ inv (fun j => if j =? k then S (cnt j) else cnt j) st'.
Proof.
  destruct st as [ths mem]. intros (LT & LM & H) Hk. unfold sched_step.
  rewrite (get_Ok _ _ _ _ PDone) by lia. cbn [bind]. destruct (H k Hk) as (W & RM & F & D). cbv zeta in *.
  set (t := nth k ths PDone) in *.
  assert (CASE : t = PDone \/ t <> PDone) by (destruct t; (now left) || (right; discriminate)).
  destruct CASE as [E|E].
  - rewrite E. cbn [thread_step bind]. eexists. split; [reflexivity|]. cbn [inv]. rewrite upd_length. split; [exact LT|]. split; [exact LM|].
    intros j Hj. cbv zeta. destruct (Nat.eqb_spec j k) as [->|N'].
    + rewrite nth_upd_same by lia. split; [exact Logic.I|]. split; [cbn; lia|]. split; [congruence|]. intros _. now apply D.
    + rewrite nth_upd_other by auto. now apply H.
  - destruct (step_ok k t mem _ Hk LM W E (F E)) as (t' & mem' & ES & W' & R' & C). rewrite ES. cbn [bind].
    eexists. split; [reflexivity|]. cbn [inv]. rewrite upd_length. split; [exact LT|].
    destruct C as [(E' & -> & F')|(-> & ->)].
    + split; [exact LM|]. intros j Hj. cbv zeta. destruct (Nat.eqb_spec j k) as [->|N'].
      * rewrite nth_upd_same by lia. split; [exact W'|]. split; [lia|]. split; [auto|]. congruence.
      * rewrite nth_upd_other by auto. now apply H.
    + rewrite upd_length. split; [exact LM|]. intros j Hj. cbv zeta. destruct (Nat.eqb_spec j k) as [->|N'].
      * rewrite !nth_upd_same by lia. split; [exact Logic.I|]. split; [cbn; lia|]. split; [congruence|]. auto.
      * rewrite !nth_upd_other by auto. now apply H.
Qed.

Lemma inv_run : forall sched cnt st, inv cnt st -> Forall (fun k => k < K) sched ->
  exists st', foldM (sched_step lg N M V grid rows vl) sched st = Ok st' /\
    inv (fun j => count_occ Nat.eq_dec sched j + cnt j) st'.
Proof.
  induction sched as [|k sched IH]; intros cnt st I F; cbn [foldM count_occ].
  - exists st. split; [reflexivity|]. exact I.
  - inversion F; subst. destruct (inv_step cnt st k I ltac:(auto)) as (st1 & E1 & I1). rewrite E1. cbn [bind].
    destruct (IH _ _ I1 ltac:(auto)) as (st2 & E2 & I2). exists st2. split; [exact E2|].
    destruct st2 as [ths mem]. destruct I2 as (A & B & C). split; [exact A|]. split; [exact B|]. intros j Hj.
    destruct (C j Hj) as (C1 & C2 & C3). split; [exact C1|]. split; [|exact C3].
    destruct (Nat.eq_dec k j) as [->|NE]; [rewrite Nat.eqb_refl in C2; lia|].
    rewrite (proj2 (Nat.eqb_neq j k)) in C2 by auto. lia.
Qed.

Lemma parallel_result : forall sched, Forall (fun k => k < K) sched ->
  exists ths mem, run_schedule lg N M V grid rows vl sched = Ok (ths, mem) /\ length ths = K /\ length mem = K /\
    (forall k, nth_error ths k = Some PDone -> nth_error mem k = nth_error logits k) /\
    (Forall (eq PDone) ths -> mem = logits) /\
    ((forall k, k < K -> length rows + M * (M + 1) + 4 <= count_occ Nat.eq_dec sched k) -> Forall (eq PDone) ths).
Proof.
  intros sched F. destruct (inv_run sched _ _ inv_init F) as ([ths mem] & E & LT & LM & H).
  exists ths, mem. split; [exact E|]. split; [exact LT|]. split; [exact LM|].
  assert (P : forall k, nth_error ths k = Some PDone -> nth_error mem k = nth_error logits k).
  { intros k Hk. assert (k < K) by (rewrite <- LT; apply nth_error_Some; congruence).
    destruct (H k) as (_ & _ & _ & D); auto. apply nth_error_nth with (d := PDone) in Hk.
    rewrite (nth_error_nth' mem 0%R), (nth_error_nth' logits 0%R); [|rewrite logits_len; auto|lia]. f_equal. auto. }
  split; [exact P|]. split.
  - intros AD. apply nth_error_ext. intros k. destruct (nth_error ths k) as [t|] eqn:Ek.
    + apply P. rewrite Ek. f_equal. symmetry. eapply Forall_forall in AD; [exact AD|]. now apply nth_error_In in Ek.
    + apply nth_error_None in Ek. rewrite (proj2 (nth_error_None mem k)), (proj2 (nth_error_None logits k)); auto; [rewrite logits_len|]; lia.
  - intros CN. apply Forall_forall. intros t I. apply In_nth with (d := PDone) in I. destruct I as (k & Hk & <-).
    destruct (H k) as (_ & RM & _); [lia|]. specialize (CN k ltac:(lia)). cbn [remaining] in RM.
    destruct (nth k ths PDone) as [| | |?|]; cbn [remaining] in RM; try (destruct (_ <? _) in RM); try lia; reflexivity.
Qed.
End Par.
