(** [sample_tree] in float32 follows the exact sampler. *)
From Coq Require Import List Arith Bool ZArith Reals Lra Lia Permutation.
From Flocq Require Import Core IEEE754.BinarySingleNaN.
From Verif Require Import Base L_Base Spec_Sum L_Sum Spec_Graph Spec_Trees M_Structure M_Rand L_Rand M_SampleTree L_Pairing L_MakeTree L_SampleTree L_AllTrees M_Float32 M_Train32 Spec_Float32 L_Float32 L_Sample32 Spec_Serving32 Spec_Law L_Grid L_Grid2 M_SampleTree32 Spec_Tree32 L_Tree32a L_Tree32b.
Import ListNotations.
Open Scope R_scope.

Lemma put_len {A} e (l : list A) i x l' : put e l i x = Ok l' -> length l' = length l.
Proof. intros H. apply put_inv in H. destruct H as (_ & ->). apply upd_length. Qed.
Lemma foldM_inv {A S} (P : S -> Prop) (f : S -> A -> result S) l : (forall s x s', P s -> f s x = Ok s' -> P s') -> forall s s', P s -> foldM f l s = Ok s' -> P s'.
Proof. intros H. induction l as [|x l IH]; intros s s' HP E; cbn in E; [inversion E; now subst|]. destruct (f s x) as [s1|] eqn:E1; [|discriminate]. cbn in E. apply (IH s1); [exact (H s x s1 HP E1)|exact E]. Qed.
Lemma find_valid_len comp buf n buf' : find_valid_edges comp buf = Ok (n, buf') -> length buf' = length buf.
Proof.
  unfold find_valid_edges. destruct (foldM _ _ _) as [((k, fin), b)|] eqn:E; [|discriminate]. cbn. intros H. inversion H; subst.
  change ((fun st : nat * nat * list nat => length (snd st) = length buf) (k, n, buf')). refine (foldM_inv (fun st : nat * nat * list nat => length (snd st) = length buf) _ _ _ (0%nat, 0%nat, buf) _ eq_refl E).
  intros ((k0, f0), b0) (v1, v2) s' HP Q. cbn in HP. unfold valid_step in Q. destruct (get OutOfBounds comp v2) as [c2|]; [|discriminate]. cbn in Q. destruct (get OutOfBounds comp v1) as [c1|]; [|discriminate]. cbn in Q.
  destruct (xorb c2 c1); [|inversion Q; subst; exact HP]. destruct (put OutOfBounds b0 f0 k0) as [b1|] eqn:EP; [|discriminate]. inversion Q; subst. cbn. rewrite (put_len _ _ _ _ _ EP). exact HP.
Qed.
Lemma get_map {A B} (f : A -> B) e l i : get e (map f l) i = match get e l i with Ok a => Ok (f a) | Raise x => Raise x end.
Proof. unfold get. rewrite nth_error_map. destruct (nth_error l i); reflexivity. Qed.
Lemma mapM_get_map {A B} (f : A -> B) e l ks : mapM (get e (map f l)) ks = match mapM (get e l) ks with Ok a => Ok (map f a) | Raise x => Raise x end.
Proof.
  induction ks as [|k ks IH]; [reflexivity|]. cbn [mapM]. rewrite get_map. destruct (get e l k) as [a|]; [|reflexivity]. cbn [bind]. rewrite IH. destruct (mapM (get e l) ks) as [q|]; reflexivity.
Qed.
Lemma get_In {A} e (l : list A) i a : get e l i = Ok a -> In a l.
Proof. intros H. apply get_inv in H. destruct H as (H1 & H2). rewrite <- (H2 a). now apply nth_In. Qed.
Lemma mapM_get_good {A} (P : A -> Prop) e l ks q : Forall P l -> mapM (get e l) ks = Ok q -> Forall P q /\ length q = length ks.
Proof.
  intros F. revert q. induction ks as [|k ks IH]; intros q H; cbn [mapM] in H; [inversion H; split; [constructor|reflexivity]|].
  destruct (get e l k) as [a|] eqn:E; [|discriminate]. cbn [bind] in H. destruct (mapM (get e l) ks) as [q'|] eqn:E'; [|discriminate]. inversion H; subst.
  destruct (IH q' eq_refl) as (I1 & I2). split; [constructor; auto; rewrite Forall_forall in F; apply F; eapply get_In; eauto|cbn; now rewrite I2].
Qed.

Lemma lift_assoc {A B C} (r : result A) (f : A -> rprog B) (g : B -> rprog C) : rbind (rbind (lift r) f) g = rbind (lift r) (fun a => rbind (f a) g).
Proof. destruct r; reflexivity. Qed.

Section T.
Variables (exp32 : f32 -> f32) (sum : list f32 -> f32) (eta : R).
Hypothesis EX : exp_ok eta exp32.
Hypothesis SM : sum_ok sum.
Hypothesis ET : 0 <= eta <= 1.
Variables (grid : list triple) (logits : list f32) (K : nat).
Hypothesis GL : Forall good_logit logits.
Hypothesis KB : (Z.of_nat K <= 2 ^ 16)%Z.
Notation th := (2 * INR K * (eta + bp (-22))).

Lemma th_pos : 0 <= th.
Proof. pose proof (pos_INR K). pose proof (bp_pos (-22)). apply Rmult_le_pos; [|lra]. lra. Qed.

Definition J (st : st_state) : Prop := let '(_, _, _, buf) := st in length buf = K.

Lemma step_sim st e : J st -> sim K th 1 (st_step32 exp32 sum grid logits st e) (st_step grid (map logit_of logits) st e).
Proof.
  destruct st as (((e2k, nb), comp), buf). intros HJ. cbn in HJ. unfold st_step32, st_step.
  apply sim_lift. intros ((k1, nb1), comp1) _. apply sim_lift. intros (n, buf1) EF. apply find_valid_len in EF.
  rewrite mapM_get_map. destruct (mapM (get IndexError logits) (firstn n buf1)) as [lp|er] eqn:EM; [|cbn; constructor]. cbn [flift lift fbind rbind].
  destruct (mapM_get_good _ _ _ _ _ GL EM) as (GP & LP). assert (LK : (length lp <= K)%nat) by (rewrite LP, firstn_length; lia).
  destruct lp as [|x l]; [cbn; constructor|]. cbn [valid_probs32 flift fbind]. 
  assert (HT : sim K th 1 (choose_edge32 sum (map (fun y => exp32 (fsub y (fmax x l))) (x :: l)) buf1 k1)
     (rbind (lift (valid_probs (map logit_of (x :: l)))) (fun w => choose_edge w buf1 k1))).
  { pose proof (weights_sim exp32 sum eta EX SM ET K x l (fun i => flift (get IndexError buf1 i)) (fun i => lift (get IndexError buf1 i)) k1 th GP) as W.
    unfold choose_edge32. cbv zeta in W |- *. unfold valid_probs. 
    assert (SS : forall i, sim K th 0 (flift (get IndexError buf1 i)) (lift (get IndexError buf1 i))) by (intros i; destruct (get IndexError buf1 i); constructor).
    specialize (W ltac:(lia) LK ltac:(lra) SS). cbn [map] in W |- *. 
    destruct (emax (logit_of x :: map logit_of l)) as [m|]; cbn [lift rbind choose_edge]; exact W. }
  rewrite <- lift_assoc. apply (sim_bind K th (fun _ => True) 1 0); [exact HT|apply frets_true|].
  intros k2 _. apply sim_lift. intros ((a, b), c) _. constructor.
Qed.
Lemma step_frets st e : J st -> frets J (st_step32 exp32 sum grid logits st e).
Proof.
  destruct st as (((e2k, nb), comp), buf). intros HJ. cbn in HJ. unfold st_step32.
  apply frets_lift. intros ((k1, nb1), comp1) _. apply frets_lift. intros (n, buf1) EF. apply find_valid_len in EF.
  apply frets_lift. intros lp _. apply frets_lift. intros w _. apply (frets_bind (fun _ => True)); [apply frets_true|]. intros k2 _. apply frets_lift. intros ((a, b), c) _. cbn. congruence.
Qed.

Lemma tree_sim edges order : K = ((length edges + 1) * (length edges + 1 - 1) / 2)%nat -> length order = length edges -> (2 <= length edges)%nat ->
  exists q, sim K th (length edges) (sample_tree32 exp32 sum grid logits edges order) q /\ 
    q = (' (e2k, nb) <~ lift (st_init (length edges + 1) edges) ;;
         ' (e2k, nb, comp, buf) <~ rfold (st_step grid (map logit_of logits)) order (e2k, nb, repeat false (length edges + 1), repeat 0%nat K) ;;
         es <~ lift (st_edges grid e2k) ;;
         _ <~ lift (assert_ (length es =? length edges)%nat) ;; Ret es)%rp.
Proof.
  intros HK LO LE. eexists. split; [|reflexivity]. unfold sample_tree32. destruct (Nat.leb_spec (length edges) 1); [lia|]. rewrite <- HK.
  apply sim_lift. intros (e2k, nb) _. replace (length edges) with (length order * 1 + 0)%nat at 1 by lia.
  apply (sim_bind K th J).
  - apply sim_fold with (J := J). intros s x HJ. split; [now apply step_sim|now apply step_frets]. cbn. apply repeat_length.
  - assert (FJ : forall l s, J s -> frets J (ffold (st_step32 exp32 sum grid logits) l s)).
    { induction l as [|x l IH]; intros s HJ; cbn [ffold]; [exact HJ|]. apply (frets_bind J); [now apply step_frets|exact IH]. }
    apply FJ. cbn. apply repeat_length.
  - intros (((a, b), c), d) _. apply sim_lift. intros es _. apply sim_lift. intros [] _. constructor.
Qed.
End T.

Definition tree_law exp32 sum eta : Prop := forall V grid logits edges b, make_complete_graph V = Ok grid -> spanning_tree V edges ->
  length logits = length grid -> Forall good_logit logits -> (Z.of_nat (length grid) <= 2 ^ 16)%Z ->
  (forall order, Permutation order (seq 0 (length edges)) -> draws_usable (spanning_tree V) (sample_tree32 exp32 sum grid logits edges order)) /\
  Rabs (tree_prob32 exp32 sum grid logits edges b - prob (sample_tree grid (map logit_of logits) edges) b) <= INR (length edges) * INR (length grid) * (2 * eta + bpow radix2 (-20)).

Lemma tree_law_holds exp32 sum eta : exp_ok eta exp32 -> sum_ok sum -> 0 <= eta <= 1 -> tree_law exp32 sum eta.
Proof.
  intros EX SM ET V grid logits edges b MG ST LL GL KB.
  assert (AL : always (spanning_tree V) (sample_tree grid (map logit_of logits) edges)).
  { eapply always_mono; [|apply (C05_proof V grid); auto; rewrite map_length; exact LL]. intros T H. apply H. }
  assert (LG : length grid = tri V) by (rewrite make_complete_graph_Ok in MG; inversion MG; apply complete_grid_length).
  assert (EV : V = (length edges + 1)%nat) by (destruct ST as (E1 & _); lia).
  pose proof (th_pos eta ET (length grid)) as TP. pose proof (bp_pos (-21)) as P21. set (K := length grid) in *. set (th := 2 * INR K * (eta + bp (-22))) in *.
  assert (EK : K = ((length edges + 1) * (length edges + 1 - 1) / 2)%nat) by (rewrite LG; unfold tri; now rewrite EV).
  assert (SIM : forall order, length order = length edges -> exists q, sim K th (length edges) (sample_tree32 exp32 sum grid logits edges order) q /\
     ((length edges <= 1)%nat -> q = Ret edges) /\
     ((2 <= length edges)%nat ->     q = (' (e2k, nb) <~ lift (st_init (length edges + 1) edges) ;;
         ' (e2k, nb, comp, buf) <~ rfold (st_step grid (map logit_of logits)) order (e2k, nb, repeat false (length edges + 1), repeat 0%nat K) ;;
         es <~ lift (st_edges grid e2k) ;;
         _ <~ lift (assert_ (length es =? length edges)%nat) ;; Ret es)%rp)).
  { intros order LO. destruct (le_lt_dec 2 (length edges)) as [L2|L2].
    - destruct (tree_sim exp32 sum eta EX SM ET grid logits K GL KB edges order) as (q & Q1 & Q2); auto.
      + exists q. split; [exact Q1|]. split; [lia|auto].
    - exists (Ret edges). split; [|split; [auto|lia]]. unfold sample_tree32. destruct (Nat.leb_spec (length edges) 1); [constructor|lia]. }
  assert (PN : forall order, Permutation order (seq 0 (length edges)) -> exists q, draws_usable (spanning_tree V) (sample_tree32 exp32 sum grid logits edges order) /\
     Rabs (run_prob (length edges) (sample_tree32 exp32 sum grid logits edges order) b - prob q b) <= INR (length edges) * INR K * (2 * eta + bp (-20)) /\
     ((length edges <= 1)%nat -> q = Ret edges) /\
     ((2 <= length edges)%nat ->     q = (' (e2k, nb) <~ lift (st_init (length edges + 1) edges) ;;
         ' (e2k, nb, comp, buf) <~ rfold (st_step grid (map logit_of logits)) order (e2k, nb, repeat false (length edges + 1), repeat 0%nat K) ;;
         es <~ lift (st_edges grid e2k) ;;
         _ <~ lift (assert_ (length es =? length edges)%nat) ;; Ret es)%rp)).
  { intros order PO. destruct (SIM order) as (q & Q1 & Q2 & Q3); [rewrite (Permutation_length PO); apply seq_length|]. exists q.
    assert (AQ : always (spanning_tree V) q).
    { unfold sample_tree in AL. destruct (Nat.leb_spec (length edges) 1) as [L|L]; [rewrite Q2 by exact L; exact AL|]. rewrite Q3 by lia.
      destruct (st_init (length edges + 1) edges) as [(e2k, nb)|er]; cbn [lift rbind always] in AL |- *; [|exact AL]. 
      specialize (AL order PO). rewrite EK. exact AL. }
    assert (DU : draws_usable (spanning_tree V) (sample_tree32 exp32 sum grid logits edges order)) by (eapply sim_draws; [exact Q1|exact AQ]).
    split; [exact DU|]. split; [|split; assumption].
    pose proof (run_near _ K b _ DU (length edges) (sim_shape _ _ _ _ _ Q1)) as R1. destruct (sim_prob K th TP _ _ _ b Q1) as (_ & R2).
    set (A := run_prob _ _ b) in *. set (C := prob (ideal _) b) in *. replace (A - prob q b) with ((A - C) + (C - prob q b)) by ring.
    eapply Rle_trans; [apply Rabs_triang|]. eapply Rle_trans; [apply Rplus_le_compat; [exact R1|exact R2]|]. unfold th.
    assert (B20 : bp (-20) = 2 * bp (-21)) by (change (-20)%Z with (1 + -21)%Z; rewrite bpow_plus; reflexivity).
    assert (B21 : bp (-21) = 2 * bp (-22)) by (change (-21)%Z with (1 + -22)%Z; rewrite bpow_plus; reflexivity).
    rewrite B20, B21. right. ring. }
  split; [intros order PO; destruct (PN order PO) as (q & H & _); exact H|].
  unfold tree_prob32. set (orders := perms (seq 0 (length edges))) in *.
  assert (NP : 0 < INR (length orders)) by apply perms_length_pos.
  assert (AVG : exists f, prob (sample_tree grid (map logit_of logits) edges) b = sumf orders f / INR (length orders) /\
    forall order, In order orders -> Rabs (run_prob (length edges) (sample_tree32 exp32 sum grid logits edges order) b - f order) <= INR (length edges) * INR K * (2 * eta + bp (-20))).
  { destruct (le_lt_dec (length edges) 1) as [L|L].
    - exists (fun _ => prob (Ret edges) b). split.
      + unfold sample_tree. destruct (Nat.leb_spec (length edges) 1); [|lia]. rewrite sumf_const. field. lra.
      + intros order I. apply perms_Permutation in I. destruct (PN order I) as (q & _ & H & Q2 & _). rewrite (Q2 L) in H. exact H.
    - exists (fun order => prob (' (e2k, nb) <~ lift (st_init (length edges + 1) edges) ;;
         ' (e2k, nb, comp, buf) <~ rfold (st_step grid (map logit_of logits)) order (e2k, nb, repeat false (length edges + 1), repeat 0%nat K) ;;
         es <~ lift (st_edges grid e2k) ;;
         _ <~ lift (assert_ (length es =? length edges)%nat) ;; Ret es)%rp b). split.
      + unfold sample_tree. destruct (Nat.leb_spec (length edges) 1); [lia|]. unfold prob. rewrite EK.
        destruct (st_init (length edges + 1) edges) as [(e2k, nb)|er]; cbn [lift rbind expect]; [reflexivity|]. rewrite sumf_const. field. lra.
      + intros order I. apply perms_Permutation in I. destruct (PN order I) as (q & _ & H & _ & Q3). rewrite Q3 in H by lia. exact H. }
  destruct AVG as (f & -> & Hf). set (g := fun order => run_prob _ _ b).
  replace (sumf orders g / INR (length orders) - sumf orders f / INR (length orders)) with (sumf orders (fun o => g o - f o) / INR (length orders)) by (rewrite sumf_minus; field; lra).
  unfold Rdiv. rewrite Rabs_mult, (Rabs_pos_eq (/ _)) by (left; now apply Rinv_0_lt_compat).
  apply Rmult_le_reg_r with (INR (length orders)); [exact NP|]. rewrite Rmult_assoc, Rinv_l, Rmult_1_r by lra.
  eapply Rle_trans; [apply sumf_abs|]. eapply Rle_trans; [apply sumf_le; intros o I; apply (Hf o I)|]. rewrite sumf_const. lra.
Qed.
