(** The tree moves of the float32 trainer, and their law. *)
From Coq Require Import List Arith Bool ZArith Reals Lra Lia Permutation.
From Flocq Require Import Core IEEE754.BinarySingleNaN.
From Verif Require Import Base L_Base Spec_Graph L_Graph Spec_Sum L_Sum Spec_Ragged Spec_Trees M_Structure L_Pairing L_Prop1 L_MakeTree M_Array M_Util M_Rand L_Rand M_SampleTree L_SampleTree Spec_Joint M_Training Spec_Stats L_Asg L_Stats L_Trainer Spec_Conditional
  Spec_EdgeLogits L_EdgeLogits Spec_Gibbs L_Gibbs L_Train Spec_Epoch L_Epoch L_Shuffle L_Converge L_Converge2
  M_Float32 M_Train32 Spec_Float32 L_Float32 L_Train32e L_Train32f L_Train32h Spec_Law Spec_Serving32 M_SampleTree32 Spec_Tree32 L_Tree32a L_Tree32c M_Logits32 Spec_Logits32 L_Logits32c
  M_Run32 Spec_Run32 L_Run32a L_Run32b Spec_RunLaw32 L_RunLaw32a L_RunLaw32b L_Conditional.
Import ListNotations.
Open Scope R_scope.

Lemma tree_shape exp32 sum eta grid logits edges order : exp_ok eta exp32 -> sum_ok sum -> 0 <= eta <= 1 -> Forall good_logit logits ->
  (BinInt.Z.of_nat (length grid) <= 2 ^ 16)%Z -> length grid = ((length edges + 1) * (length edges + 1 - 1) / 2)%nat -> length order = length edges ->
  shape (length grid) (length edges) (sample_tree32 exp32 sum grid logits edges order).
Proof.
  intros EX SM ET GL KB EK LO. destruct (le_lt_dec 2 (length edges)) as [L2|L2].
  - destruct (tree_sim exp32 sum eta EX SM ET grid logits (length grid) GL KB edges order EK LO L2) as (q & Q1 & _). exact (sim_shape _ _ _ _ _ Q1).
  - unfold sample_tree32. destruct (Nat.leb_spec (length edges) 1); [exact Logic.I|lia].
Qed.

Section Tree.
Variables (dot : list f32 -> list f32 -> f32) (g32 exp32 : f32 -> f32) (sum : list f32 -> f32).
Variables (ws : list nat) (tb : table) (prior : list f32) (M : nat) (A : BinNums.Z) (lg : R -> R) (delta eta G P : R).
Notation RP := (map (fun p : f32 => val p) prior).
Notation reach := (reachable32 dot tb RP M).
Hypothesis RI : forall t, reach t -> inv32 ws tb M t.
Hypothesis TK : table_ok ws tb.
Hypothesis HM : (1 <= M <= 128)%nat.
Hypothesis HA : (1 <= A <= 16)%Z.
Hypothesis HN : ((BinInt.Z.of_nat (num_rows tb) + 1) * 1 < 2 ^ A)%Z.
Notation V := (num_cols tb).
Notation N := (num_rows tb).
Hypothesis GO : gammaln_ok delta N M lg g32.
Hypothesis SN : sum_near sum.
Hypothesis SO : sum_ok sum.
Hypothesis EX : exp_ok eta exp32.
Hypothesis HD : 0 <= delta <= 1.
Hypothesis HE : 0 <= eta <= 1.
Hypothesis GB : gammaln_below G N M lg.
Notation W := (INR (M * M + 2 * M) * G + P).
Hypothesis HW : W <= bp 59.
Hypothesis HP : 0 <= P.
Hypothesis GP : Forall (fun p => fin32 p = true /\ Rabs (val p) <= P) prior.
Hypothesis LP : length prior = tri V.
Hypothesis KB : (BinInt.Z.of_nat (tri V) <= 2 ^ 16)%Z.
Variable TT : list (list edge).
Hypothesis ET : enumerates_trees V TT.
Notation gf := (fun T A s => gfull ws tb M (with_tree tb T) A s).
Notation "'mats'" := (matrices N V M).
Variable St : list edge -> list (list nat) -> tstate.
Hypothesis SG : forall T A, In T TT -> In A mats -> gf T A (St T A).
Notation eps := (logit_error M delta W).
Notation e2 := (INR (V - 1) * INR (tri V) * (2 * eta + bp (-20)) + (exp (2 * eps * INR (V - 1)) - 1)).

Lemma HMt : (1 <= M)%nat. Proof. clear - HM. lia. Qed.
Lemma LPR : length RP = tri V. Proof. now rewrite map_length. Qed.
Lemma GP' : Forall (fun p => (fin32 p = true /\ Rabs (val p) <= P) \/ p = B754_infinity true) prior.
Proof. eapply Forall_impl; [|exact GP]. intros; now left. Qed.
Lemma GP2 : Forall (fun p => fin32 p = true \/ p = B754_infinity true) prior.
Proof. eapply Forall_impl; [|exact GP]. intros p (F & _); now left. Qed.
Lemma HW60t : W <= bp 60. Proof. eapply Rle_trans; [exact HW|]. apply bpow_le. clear; lia. Qed.
Lemma eps_pos : 0 <= eps. Proof. exact (proj1 (eps_small tb prior M A lg delta G P HM HD GB HW HP LP)). Qed.

(** The logits are finite and near the exact ones. *)
Lemma logits32 T B s : gf T B s -> exists l le, compute_edge_logits32 g32 sum tb prior M s = Ok l /\ length l = tri V /\ Forall good_logit l /\
  compute_edge_logits lg tb RP M s = Ok le /\ length le = tri V /\ map logit_of l = map Some (map (fun x : f32 => val x) l) /\
  forall k, Rabs (nth k (map (fun x : f32 => val x) l) 0 - nth k le 0) <= eps.
Proof.
  intros GF. pose proof GF as (TI & _ & LA & _). destruct (gf_logits lg ws tb RP M HMt LPR T B s GF) as (le & EL & LL & HLe).
  assert (RD : length (s_added s) <> V \/ length (s_added s) = num_rows tb) by (right; exact LA).
  destruct (logits_near ws tb prior M HM g32 sum lg delta GO SN HD s TI RD LP GP2) as (l & E32 & LL32 & GL & NS).
  { intros a b. apply (SZ_holds ws tb prior M HM lg G P GB HW60t HP GP' LP s TI). }
  exists l, le. split; [exact E32|]. split; [exact LL32|]. split; [exact GL|]. split; [exact EL|]. split; [exact LL|].
  assert (AT : forall k, (k < tri V)%nat -> exists x, nth_error l k = Some x /\ fin32 x = true /\ Rabs (val x - nth k le 0) <= eps).
  { intros k Hk. destruct (nth_error (complete_grid V) k) as [[[j a] b]|] eqn:EG.
    2:{ apply nth_error_None in EG. rewrite complete_grid_length in EG. lia. }
    apply complete_grid_nth in EG. destruct EG as (_ & Hab & Hb & Ek). destruct (NS a b Hab Hb) as (x & p & Ex & Ep & H).
    rewrite Ek in Ex, Ep. exists x. split; [exact Ex|].
    assert (GPp : fin32 p = true /\ Rabs (val p) <= P) by (rewrite Forall_forall in GP; apply GP; eapply nth_error_In; exact Ep).
    destruct H as [(_ & Fx & NR)|(-> & _)]; [|destruct GPp; discriminate]. split; [exact Fx|].
    specialize (HLe a b Hab Hb). rewrite Ek in HLe. rewrite (nth_error_nth _ _ 0 HLe).
    replace (nth k RP 0) with (val p).
    - eapply Rle_trans; [exact NR|]. apply eps_mono. pose proof (score_size_le ws tb prior M HM lg G GB LP s TI a b). destruct GPp. lra.
    - symmetry. apply nth_error_nth. rewrite nth_error_map, Ep. reflexivity. }
  split.
  - rewrite map_map. apply map_ext_in. intros x I. apply In_nth_error in I. destruct I as (k & Ex).
    assert (Hk : (k < tri V)%nat) by (rewrite <- LL32; apply nth_error_Some; congruence). destruct (AT k Hk) as (y & Ey & Fy & _). rewrite Ex in Ey. inversion Ey; subst. unfold logit_of. now rewrite Fy.
  - intros k. destruct (le_lt_dec (tri V) k) as [H|H].
    + rewrite !nth_overflow by (rewrite ?map_length; lia). rewrite Rminus_eq_0, Rabs_R0. exact eps_pos.
    + destruct (AT k H) as (x & Ex & _ & NR). rewrite (nth_error_nth (map (fun x : f32 => val x) l) k 0 (x := val x)); [exact NR|]. rewrite nth_error_map, Ex. reflexivity.
Qed.

Definition canon (E : list edge) : list edge := ts_get_edges (TS V (make_tree E)).
Definition at_tree (T' : list edge) (E : list edge) : bool := if edge_list_eq_dec (canon E) T' then true else false.
Definition in_trees (l : list (list edge)) (E : list edge) : bool := if in_dec edge_list_eq_dec (canon E) l then true else false.
Lemma in_trees_split l E : NoDup l -> (if in_trees l E then 1 else 0) = sumf l (fun T' => if at_tree T' E then 1 else 0).
Proof.
  unfold in_trees, at_tree. generalize (canon E). clear. intros x NZ. induction NZ as [|X Xs NI NZ IH]; [reflexivity|]. rewrite sumf_cons, <- IH.
  destruct (in_dec _ x (X :: Xs)) as [I1|I1], (edge_list_eq_dec x X) as [->|N1], (in_dec _ _ Xs) as [I2|I2]; try lra; try (exfalso; cbn in I1; tauto).
  - destruct I1 as [<-|I1]; tauto.
Qed.
Lemma canon_in T : In T TT -> canon T = T.
Proof. intros I. apply canonical_edges. now apply ET. Qed.

Lemma set_edges_run T B t E : reach t -> gf T B (t_state t) -> spanning_tree V E ->
  exists t', unless_raised32 (glift (set_edges32 M t E)) = GRet t' /\ reach t' /\ In (canon E) TT /\ gf (canon E) B (t_state t').
Proof.
  intros RT GF SE. pose proof (set_edges_safe ws tb M A HM HA HN t E (RI t RT) SE) as S.
  destruct (set_edges32 M t E) as [[t' x]|e] eqn:E32; [|destruct S]. unfold unless_raised32 in *. cbn [glift gbind] in *. destruct x as [e|]; [destruct S|]. cbn [gsafe] in S.
  destruct S as (I' & EA & EAs & ETr). exists t'. split; [reflexivity|].
  split; [eapply r32_edges; [exact RT|left; exact SE|exact E32]|].
  destruct (tinv_canonical ws tb M _ (proj1 I')) as (CT & EW). rewrite ETr in CT, EW. fold (canon E) in CT, EW.
  split; [now apply ET|]. destruct GF as (_ & _ & LA & CB).
  split; [apply I'|]. split; [rewrite ETr; exact EW|]. split; [now rewrite EA|]. unfold class_matrix, classes_of. rewrite EAs. exact CB.
Qed.

Lemma tree_step T B t F g : In T TT -> gf T B (t_state t) -> reach t ->
  (forall t' T', In T' TT -> reach t' -> gf T' B (t_state t') -> F t' = g T') -> (forall T', 0 <= g T' <= 1) ->
  gok (fun t' => reach t' /\ exists T', In T' TT /\ gf T' B (t_state t')) (resample_tree32 g32 exp32 sum tb prior M t) /\
  Rabs (gexpect (resample_tree32 g32 exp32 sum tb prior M t) F - sumf TT (fun T' => tk lg tb RP M St B T T' * g T')) <= e2.
Proof.
  intros IT GF RT HF Hg. pose proof GF as (TI & ETs & LA & CB). destruct (tinv_tree ws tb M _ TI) as (EV & ST).
  assert (EE : ts_get_edges (s_tree (t_state t)) = T) by (rewrite ETs; apply canon_in, IT).
  assert (LT : length T = (V - 1)%nat) by (rewrite <- EE; destruct ST; lia).
  destruct (logits32 T B _ GF) as (l & le & E32 & LL & GL & EL & LLe & ML & NR).
  assert (RD : length (s_added (t_state t)) <> V \/ length (s_added (t_state t)) = num_rows tb) by (right; exact LA).
  assert (SZ : forall a b, (a < b)%nat -> (b < V)%nat -> score_size lg M (t_state t) a b + Rabs (val (nth (find_complete_edge a b) prior fzero)) <= bp 60).
  { intros a b. apply (SZ_holds ws tb prior M HM lg G P GB HW60t HP GP' LP _ TI). }
  assert (RL := fun bset => resample_law ws tb prior M HM g32 sum lg delta GO SN HD _ TI RD LP GP2 SZ exp32 eta bset l EX SO HE KB E32).
  assert (US : forall order, Permutation order (seq 0 (V - 1)) -> draws_usable (spanning_tree V) (trainer_sample_tree32 g32 sum exp32 tb prior M (t_state t) order)) by apply (RL (fun _ => true)).
  set (p := fun order => trainer_sample_tree32 g32 sum exp32 tb prior M (t_state t) order) in *.
  assert (SH : forall order, Permutation order (seq 0 (V - 1)) -> shape (tri V) (V - 1) (p order)).
  { intros order PO. unfold p, trainer_sample_tree32. rewrite EV, make_complete_graph_Ok, E32. cbn [flift fbind]. rewrite LL, complete_grid_length, Nat.eqb_refl. cbn [assert_ flift fbind].
    rewrite EE, <- (complete_grid_length V), <- LT. apply (tree_shape exp32 sum eta); auto.
    - now rewrite complete_grid_length.
    - rewrite complete_grid_length, LT. unfold tri. f_equal. destruct ST as (HV & _). assert (V - 1 + 1 = V)%nat as -> by lia. reflexivity.
    - rewrite (Permutation_length PO), seq_length. now rewrite LT. }
  assert (GQ : forall order, Permutation order (seq 0 (V - 1)) -> gok (spanning_tree V) (of_f (p order))).
  { intros order PO. eapply gok_mono; [|apply gok_of_f, US, PO]. intros E (H & _). exact H. }
  unfold resample_tree32. rewrite EE, LT. split.
  { cbn [gok]. intros order PO. apply gok_bind. eapply gok_mono; [|exact (GQ order PO)]. intros E SE. destruct (set_edges_run T B t E RT GF SE) as (t' & -> & R' & IT' & GF'). cbn [gok]. eauto. }
  cbn [gexpect]. set (orders := perms (seq 0 (V - 1))) in *. assert (NP : 0 < INR (length orders)) by apply perms_length_pos.
  set (q := fun T' => sumf orders (fun order => gprob (of_f (p order)) (at_tree T')) / INR (length orders)).
  assert (E1 : sumf orders (fun order => gexpect (gbind (of_f (p order)) (fun edges => unless_raised32 (glift (set_edges32 M t edges)))) F) / INR (length orders) = sumf TT (fun T' => q T' * g T')).
  { rewrite (sumf_ext orders _ (fun order => sumf TT (fun T' => gprob (of_f (p order)) (at_tree T') * g T'))).
    - rewrite (sumf_swap _ _ orders TT). rewrite <- sumf_div. apply sumf_ext. intros T' _. unfold q. rewrite sumf_scal_r. field. lra.
    - intros order PO. apply perms_Permutation in PO. rewrite gexpect_bind.
      rewrite (gexpect_same (spanning_tree V) _ _ (fun E => sumf TT (fun T' => g T' * (if at_tree T' E then 1 else 0))) (GQ order PO)).
      + rewrite gexpect_sum. apply sumf_ext. intros T' _. rewrite gexpect_scal. unfold gprob. ring.
      + intros E SE. destruct (set_edges_run T B t E RT GF SE) as (t' & -> & R' & IT' & GF'). cbn [gexpect]. rewrite (HF t' (canon E) IT' R' GF').
        rewrite (sumf_single _ _ (canon E)).
        * unfold at_tree. destruct (edge_list_eq_dec _ _); [ring|congruence].
        * apply ET.
        * exact IT'.
        * intros T' _ NE. unfold at_tree. destruct (edge_list_eq_dec _ _); [congruence|ring]. }
  match goal with |- Rabs (?x - _) <= _ => change x with (sumf orders (fun order => gexpect (gbind (of_f (p order)) (fun edges => unless_raised32 (glift (set_edges32 M t edges)))) F) / INR (length orders)) end.
  rewrite E1. set (rl := map (fun x : f32 => val x) l) in *.
  assert (HV1 : (1 <= V)%nat) by (destruct ST; lia).
  assert (LRL : length (map Some rl) = tri V) by (unfold rl; rewrite !map_length; exact LL).
  set (q' := fun T' => prob (sample_tree (complete_grid V) (map Some rl) T) (at_tree T')).
  assert (S1 : Rabs (sumf TT (fun T' => q T' * g T') - sumf TT (fun T' => q' T' * g T')) <= INR (V - 1) * INR (tri V) * (2 * eta + bp (-20))).
  { apply sets_to_functions; [apply ET| |intros; apply Hg]. intros l' ND' IN'.
    destruct (RL (in_trees l')) as (_ & H). rewrite EE, ML in H. fold rl in H.
    replace (sumf l' q) with (resample_prob32 g32 sum exp32 tb prior M (t_state t) (in_trees l')).
    - replace (sumf l' q') with (prob (sample_tree (complete_grid V) (map Some rl) T) (in_trees l')); [exact H|].
      unfold q', prob. rewrite <- expect_sum. apply expect_ext. intros [E|e]; [now apply in_trees_split|symmetry; apply sumf_zero; auto].
    - unfold resample_prob32, q. fold orders. rewrite sumf_div. f_equal. rewrite (sumf_swap _ _ l' orders). apply sumf_ext. intros order PO. apply perms_Permutation in PO.
      rewrite <- (gprob_of_f _ (tri V) _ _ (US order PO) (V - 1) (SH order PO)). unfold gprob. rewrite <- gexpect_sum.
      apply (gexpect_same (spanning_tree V)); [exact (GQ order PO)|]. intros E _. now apply in_trees_split. }
  assert (S2 : sumf TT (fun T' => q' T' * g T') = expect (sample_tree (complete_grid V) (map Some rl) T) (fun r => match r with Ok T' => g T' | Raise _ => 0 end)).
  { rewrite (sample_tree_expect_ext V (map Some rl) TT T _ (fun r => sumf TT (fun T' => g T' * (match r with Ok E => if at_tree T' E then 1 else 0 | Raise _ => 0 end)))); auto.
    - rewrite expect_sum. apply sumf_ext. intros T' _. rewrite expect_scal. unfold q', prob. rewrite Rmult_comm. reflexivity.
    - intros T' IT'. rewrite (sumf_single _ _ T').
      + unfold at_tree. rewrite canon_in by exact IT'. destruct (edge_list_eq_dec T' T'); [ring|congruence].
      + apply ET.
      + exact IT'.
      + intros T2 _ NE. unfold at_tree. rewrite canon_in by exact IT'. destruct (edge_list_eq_dec T' T2); [congruence|ring]. }
  assert (IB : In B mats) by (refine (gfull_in ws tb M HMt (with_tree tb T) B (t_state t) GF)).
  assert (EL' : compute_edge_logits lg tb RP M (St T B) = Ok le) by (rewrite <- EL; apply (same_logits lg ws tb RP M TK HMt LPR T T B); [now apply SG|exact GF]).
  rewrite <- (tk_sum lg ws tb RP M HMt LPR TT ET St SG B T le g IT IB EL').
  pose proof (sample_tree_law_near V rl le eps T g (TT_can tb TT ET T IT) ltac:(rewrite map_length in LRL; exact LRL) LLe eps_pos NR Hg) as S3.
  rewrite <- S2 in S3.
  match goal with |- Rabs (?x - ?z) <= _ => match type of S1 with Rabs (_ - ?y) <= _ => replace (x - z) with ((x - y) + (y - z)) by ring end end.
  eapply Rle_trans; [apply Rabs_triang|]. lra.
Qed.
End Tree.
