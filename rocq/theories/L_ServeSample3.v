(** A float32 sample drawn from NaNs. *)
From Coq Require Import List Arith Bool ZArith Reals Lra Lia.
From Flocq Require Import Core IEEE754.BinarySingleNaN.
From Verif Require Import Base L_Base Spec_Graph L_Graph Spec_Sum L_Sum M_Structure L_Pairing L_MakeTree L_Program L_ProgramValid Spec_Program L_Center L_Prop1 M_Util L_Quantize Spec_Ragged L_Ragged M_Array M_Training Spec_Stats L_Stats L_Trainer L_SampleTree Spec_Conditional L_Asg L_BP L_BPVec L_AddRow
  M_Float32 M_Train32 Spec_Float32 L_Float32 L_Sample32 L_Train32 L_Train32c L_Train32d L_Train32i M_Serving Spec_Serving L_Server L_Serve1 M_Serving32 Spec_Serving32 L_Serving32a L_Serving32b L_Serving32c L_Serving32d L_Serving32e L_Serving32f M_Sample32 L_ServeSample L_ServeSample2.
Import ListNotations.
Open Scope R_scope.

Notation nan := (@B754_nan 24 128).

(** ** NaN is absorbing *)
Lemma fmul_nan_l x : fmul nan x = nan.
Proof. destruct x; reflexivity. Qed.
Lemma fmul_nan_r x : fmul x nan = nan.
Proof. destruct x; reflexivity. Qed.
Lemma fdiv_nan_r x : fdiv x nan = nan.
Proof. destruct x; reflexivity. Qed.
Lemma fadd_nan_r x : fadd x nan = nan.
Proof. destruct x; reflexivity. Qed.
Lemma fmax2_nan_r x : fmax2 x nan = nan.
Proof. destruct x; reflexivity. Qed.
Lemma fmax_nan l : forall x, In nan (x :: l) -> fmax x l = nan.
Proof.
  induction l as [|y l IH]; intros x H; cbn [fmax].
  - destruct H as [->|[]]. reflexivity.
  - apply IH. destruct H as [->|[->|H]]; [left; reflexivity|left; apply fmax2_nan_r|now right].
Qed.

Lemma fcumsum_nan l : forall acc, Forall (eq nan) l -> Forall (eq nan) (fcumsum acc l).
Proof.
  induction l as [|x l IH]; intros acc H; cbn [fcumsum]; [constructor|]. apply Forall_cons_iff in H. destruct H as (<- & H). rewrite fadd_nan_r. constructor; auto.
Qed.

Lemma nan_draw u w : w <> [] -> Forall (eq nan) w -> sample_from_probs32 u w = Ok 0%nat.
Proof.
  intros NE F. unfold sample_from_probs32. destruct w as [|x w]; [congruence|].
  pose proof (fcumsum_nan (x :: w) fzero F) as G. set (cdf := fcumsum fzero (x :: w)) in *.
  assert (K : forall t i, first_below t cdf i = None).
  { intros t. revert G. generalize cdf. induction cdf0 as [|y l IH]; intros G i; [reflexivity|]. apply Forall_cons_iff in G. destruct G as (<- & G).
    cbn [first_below]. assert (E : dltb t (to64 nan) = false) by (destruct t; reflexivity). rewrite E. now apply IH. }
  rewrite K. reflexivity.
Qed.

(** ** Programs start with their inward pass *)
Lemma order_once {T} (l : list T) x y : NoDup l -> precedes l x y -> precedes l y x -> False.
Proof.
  intros ND (a & b & c & E) P. rewrite E in ND, P. replace (a ++ x :: b ++ y :: c) with ((a ++ x :: b) ++ y :: c) in ND, P by (rewrite <- app_assoc; reflexivity).
  destruct P as (a' & b' & c' & E'). destruct (split_unique _ _ _ _ _ ND E') as (<- & E2).
  assert (In x c) by (rewrite E2; apply in_app_iff; right; now left).
  rewrite <- app_assoc in ND. cbn [app] in ND. apply NoDup_remove_2 in ND. apply ND. rewrite !in_app_iff. right. right. now right.
Qed.

Lemma inward_prefix V es root prog : spanning_tree V es -> (root < V)%nat -> valid_program V es root prog ->
  exists pre suf, prog = pre ++ I OP_ROOT root 0 0 :: I OP_DOWN root 0 0 :: suf /\
    forall op v a e, In (I op v a e) pre -> op = OP_UP \/ op = OP_IN.
Proof.
  intros ST Hr VP. destruct (vp_down_root _ _ _ _ VP) as (pre & suf & E). exists pre, suf. split; [exact E|].
  pose proof (vp_nodup _ _ _ _ VP) as ND.
  assert (BEF : forall i, In i pre -> precedes prog i (I OP_ROOT root 0 0)).
  { intros i Ii. apply in_split in Ii. destruct Ii as (l1 & l2 & ->). exists l1, l2, (I OP_DOWN root 0 0 :: suf). rewrite E, <- app_assoc. reflexivity. }
  intros op v a e Ii. assert (IP : In (I op v a e) prog) by (rewrite E; apply in_app_iff; now left). destruct op; auto; exfalso.
  - destruct (proj1 (vp_root _ _ _ _ VP v a e) IP) as (-> & -> & ->). rewrite E in ND. apply NoDup_remove_2 in ND. apply ND. apply in_app_iff. now left.
  - exact (order_once _ _ _ ND (vp_out_root _ _ _ _ VP _ _ _ IP) (BEF _ Ii)).
  - destruct (proj1 (vp_down _ _ _ _ VP v a e) IP) as (Hv & -> & ->). destruct (Nat.eq_dec v root) as [->|NR].
    + rewrite E in ND. replace (pre ++ I OP_ROOT root 0 0 :: I OP_DOWN root 0 0 :: suf) with ((pre ++ [I OP_ROOT root 0 0]) ++ I OP_DOWN root 0 0 :: suf) in ND by (rewrite <- app_assoc; reflexivity).
      apply NoDup_remove_2 in ND. apply ND. rewrite !in_app_iff. auto.
    + destruct ST as (_ & _ & CN). destruct (dist_exists es root v (CN _ _ Hr Hv)) as (d & D).
      destruct d as [|d]; [destruct D as (W & _); inversion W; congruence|].
      destruct (dist_pred _ _ _ _ D) as (p & AD & DP).
      assert (X : exists f e, nth_error es e = Some f /\ same_edge (p, v) f).
      { destruct AD as [K|K]; apply In_nth_error in K; destruct K as (e & Ee).
        - exists (p, v), e. split; [exact Ee|now left].
        - exists (v, p), e. split; [exact Ee|]. right. cbn. auto. }
      destruct X as (f & e & Ee & SE).
      assert (IO : In (I OP_OUT v p e) prog) by (apply (vp_out _ _ _ _ VP); split; [exists f; auto|exists d; auto]).
      destruct (vp_down_out _ _ _ _ VP _ _ _ IO) as (l1 & l2 & E2).
      apply in_split in Ii. destruct Ii as (p1 & p2 & ->). rewrite <- app_assoc in E. cbn [app] in E.
      assert (ND1 := ND). rewrite E in ND1. rewrite E in E2.
      replace (l1 ++ I OP_OUT v p e :: I OP_DOWN v 0 0 :: l2) with ((l1 ++ [I OP_OUT v p e]) ++ I OP_DOWN v 0 0 :: l2) in E2 by (rewrite <- app_assoc; reflexivity).
      destruct (split_unique _ _ _ _ _ ND1 E2) as (EP & _).
      assert (IO' : In (I OP_OUT v p e) (p1 ++ I OP_DOWN v 0 0 :: p2)) by (rewrite EP, !in_app_iff; left; right; now left).
      exact (order_once _ _ _ ND (vp_out_root _ _ _ _ VP _ _ _ IO) (BEF _ IO')).
Qed.

Section DEAD.
Variables (lib : numlib) (V M N0 : nat) (m : smodel) (s : server32) (N : nat) (counts : list Z).
Hypothesis LIB : lib_ok lib.
Hypothesis DN : dot_nan (l_dot lib).
Hypothesis C : consistent (twos V) V M N0 m.
Hypothesis TB : tables32 (twos V) V M 16 m s.
Notation row := (middle V).
Notation STEP := (sample_instr32_with lib (observe_nonzero32 lib) s N counts row).

Let HM : (1 <= M <= 128)%nat.
Proof. apply (cm_M _ _ _ _ _ C). Qed.

Lemma nonzero_middle v f : (v < V)%nat -> observe_nonzero32 lib s row v f = observe32 lib s row v f.
Proof.
  intros Hv. rewrite (observe_middle lib V M N0 m s C TB v f Hv).
  unfold observe_nonzero32. rewrite (t3_ri _ _ _ _ _ _ TB). rewrite !mri_get by (rewrite twos_length; lia). cbn [bind].
  rewrite !twos_first by lia. replace (2 * (v + 1) - 2 * v)%nat with 2%nat by lia. cbn [seq foldM].
  destruct (middle_nth v V Hv) as (E1 & E2). unfold get. rewrite E1. cbn [bind]. replace (Datatypes.S (2 * v)) with (2 * v + 1)%nat by lia. rewrite E2. cbn [bind]. reflexivity.
Qed.

Definition allnan (f : nat -> f32) : Prop := forall k, (k < M)%nat -> f k = nan.

Lemma rescaled_nan f : allnan f -> allnan (rescaled M f).
Proof.
  intros F k Hk. unfold rescaled. destruct (vec M f) as [|x l] eqn:E; [pose proof (len_vec M f) as Q; rewrite E in Q; cbn in Q; lia|].
  rewrite fmax_nan; [apply fdiv_nan_r|]. rewrite <- E. rewrite <- (F 0%nat) by lia. apply In_vec; auto; lia.
Qed.

Lemma fmax_zero l : forall x, (exists sg, x = B754_zero sg) -> Forall (fun y => exists sg, y = B754_zero sg) l -> exists sg, fmax x l = B754_zero sg.
Proof.
  induction l as [|y l IH]; intros x Hx HF; [exact Hx|]. apply Forall_cons_iff in HF. destruct HF as ((sy & ->) & HF). destruct Hx as (sx & ->).
  cbn [fmax]. apply IH; [|exact HF]. destruct sx, sy; cbn; eauto.
Qed.

Lemma rescaled_zero f : (forall k, (k < M)%nat -> fin32 (f k) = true /\ val (f k) = 0) -> allnan (rescaled M f).
Proof.
  intros F k Hk. unfold rescaled. rewrite nth_vec_lt by auto. destruct (F k Hk) as (F1 & F2). destruct (zero_form _ F1 F2) as (sk & ->).
  assert (FZ : Forall (fun y => exists sg, y = B754_zero sg) (vec M f)).
  { apply Forall_forall. intros y Iy. apply vec_In in Iy; [|exact HM]. destruct Iy as (j & Hj & ->). destruct (F j Hj) as (G1 & G2). now apply zero_form. }
  destruct (vec M f) as [|x l] eqn:E; [pose proof (len_vec M f) as Q; rewrite E in Q; cbn in Q; lia|].
  apply Forall_cons_iff in FZ. destruct FZ as (Zx & Zl). destruct (fmax_zero l x Zx Zl) as (sg & ->). destruct sk, sg; reflexivity.
Qed.

Notation tiny := (tiny M).

Lemma in_nan (c : bool) e f g : (e < V - 1)%nat -> (tiny f \/ allnan f) -> (tiny g \/ allnan g) ->
  allnan (rescaled M (fun k => fmul (f k) (l_dot lib (vec M ((if c then transpose (s3_trans s e) else s3_trans s e) k)) (vec M g)))).
Proof.
  intros He [TF|NF] HG; [destruct HG as [TG|NG]|].
  - apply rescaled_zero. set (trans := if c then transpose (s3_trans s e) else s3_trans s e).
    assert (TR : forall k j, (k < M)%nat -> (j < M)%nat -> fin32 (trans k j) = true /\ bp (- (16 + 11)) <= val (trans k j) <= bp (2 * 16 + 6)).
    { intros k j Hk Hj. unfold trans. destruct c; [unfold transpose|]; apply (t3_trans _ _ _ _ _ _ TB); auto. }
    intros k Hk. destruct (proj1 LIB (vec M (trans k)) (vec M g) (2 * 16 + 6)%Z (-120)%Z 7%Z) as (D1 & D2 & _); try lia.
    + now rewrite !len_vec.
    + rewrite len_vec. change (2 ^ 7)%Z with 128%Z. lia.
    + apply Forall_forall. intros x Ix. apply vec_In in Ix; [|exact HM]. destruct Ix as (j & Hj & ->). destruct (TR k j Hk Hj) as (T1 & T2). split; [exact T1|].
      pose proof (bp_pos (- (16 + 11))). lra.
    + apply Forall_forall. intros x Ix. apply vec_In in Ix; [|exact HM]. destruct Ix as (j & Hj & ->). exact (TG j Hj).
    + destruct (TF k Hk) as (f1 & f2). apply fmul_tiny; auto. split; [apply Rmult_le_pos; tauto|].
      apply Rle_trans with (bp (-120) * bp (2 * 16 + 6 + -120 + 7)); [apply Rmult_le_compat; tauto|]. rewrite <- bpow_plus. apply bpow_le. lia.
  - apply rescaled_nan. intros k Hk. rewrite DN; [apply fmul_nan_r|now rewrite !len_vec|]. rewrite <- (NG 0%nat) by lia. apply In_vec; auto; lia.
  - apply rescaled_nan. intros k Hk. rewrite NF by auto. apply fmul_nan_l.
Qed.

Section LOOP.
Variables (es : list (nat * nat)) (root : nat).
Hypothesis VPG : valid_program V es root (s3_prog s).
Hypothesis PB : forall op v a e, In (I op v a e) (s3_prog s) -> (v < V)%nat /\ match op with OP_IN | OP_OUT => (a < V)%nat /\ (e < V - 1)%nat | _ => True end.

Definition KJ (pre : list instr) (min : nat -> nat -> f32) : Prop :=
  forall v, (v < V)%nat -> (In (I OP_UP v 0 0) pre -> tiny (min v) \/ allnan (min v)) /\ (~ In (I OP_UP v 0 0) pre -> min v = s3_vert s v) /\
    forall a e, In (I OP_IN v a e) pre -> allnan (min v).

Lemma inward_nan mout vs fs l : forall pre suf min, s3_prog s = pre ++ l ++ suf -> (forall op v a e, In (I op v a e) l -> op = OP_UP \/ op = OP_IN) ->
  KJ pre min -> exists min', ffold STEP l (min, mout, vs, fs) = FRet (min', mout, vs, fs) /\ KJ (pre ++ l) min'.
Proof.
  induction l as [|[op v a e] l IH]; intros pre suf min E HO J0.
  - exists min. split; [reflexivity|]. now rewrite app_nil_r.
  - assert (IN : In (I op v a e) (s3_prog s)) by (rewrite E; apply in_app_iff; right; now left).
    assert (E' : s3_prog s = (pre ++ [I op v a e]) ++ l ++ suf) by (rewrite E, <- app_assoc; reflexivity).
    assert (HO' : forall op v a e, In (I op v a e) l -> op = OP_UP \/ op = OP_IN) by (intros; eapply HO; right; eauto).
    destruct (PB _ _ _ _ IN) as (Hv & HB). pose proof (vp_nodup _ _ _ _ VPG) as NDP. cbn [app] in E.
    cbn [ffold sample_instr32_with]. rewrite (t3_V _ _ _ _ _ _ TB), (t3_M _ _ _ _ _ _ TB). unfold index at 1. rewrite (proj2 (Nat.ltb_lt v V) Hv). cbn [flift fbind].
    replace (pre ++ I op v a e :: l) with ((pre ++ [I op v a e]) ++ l) by (rewrite <- app_assoc; reflexivity).
    destruct (HO op v a e (or_introl eq_refl)) as [-> | ->].
    + destruct (proj1 (vp_up _ _ _ _ VPG v a e) IN) as (_ & -> & ->).
      assert (NP : ~ In (I OP_UP v 0 0) pre).
      { rewrite E in NDP. apply NoDup_remove_2 in NDP. intros H. apply NDP. apply in_app_iff. now left. }
      destruct (J0 v Hv) as (_ & Fv & _). rewrite (Fv NP), nonzero_middle, (observe_middle lib V M N0 m s C TB) by auto. cbn [flift fbind].
      apply (IH (pre ++ [I OP_UP v 0 0]) suf); auto. intros u Hu. destruct (J0 u Hu) as (K1 & K2 & K3).
      destruct (Nat.eq_dec u v) as [->|NE].
      * rewrite set1_same. split; [intros _; left; now apply (observe_tiny lib V M N0 m s LIB C TB)|]. split; [intros H; destruct H; apply in_app_iff; right; now left|].
        intros a e H. exfalso. apply in_app_iff in H. destruct H as [H|[H|[]]]; [|discriminate].
        assert (H2 : In (I OP_IN v a e) (s3_prog s)) by (rewrite E; apply in_app_iff; now left).
        destruct (vp_in_up _ _ _ _ VPG _ _ _ H2) as (_ & P1).
        apply in_split in H. destruct H as (q1 & q2 & ->).
        assert (P2 : precedes (s3_prog s) (I OP_IN v a e) (I OP_UP v 0 0)) by (exists q1, q2, (l ++ suf); rewrite E, <- app_assoc; reflexivity).
        exact (order_once _ _ _ NDP P1 P2).
      * rewrite set1_other by auto. split; [|split].
        -- intros H. apply K1. apply in_app_iff in H. destruct H as [H|[H|[]]]; [exact H|inversion H; congruence].
        -- intros H. apply K2. intros H'. apply H. apply in_app_iff. now left.
        -- intros a e H. apply (K3 a e). apply in_app_iff in H. destruct H as [H|[H|[]]]; [exact H|discriminate].
    + destruct HB as (Ha & He). rewrite (proj2 (Nat.ltb_lt a V) Ha), (proj2 (Nat.ltb_lt e (V - 1)) He). cbn [andb index flift fbind].
      destruct (vp_in_up _ _ _ _ VPG _ _ _ IN) as (U1 & U2). rewrite E in NDP, U1, U2. apply before_in in U1; auto. apply before_in in U2; auto.
      apply (IH (pre ++ [I OP_IN v a e]) suf); auto. intros u Hu. destruct (J0 u Hu) as (K1 & K2 & K3).
      assert (NN : allnan (rescaled M (fun k => fmul (min v k) (l_dot lib (vec M ((if (a <? v)%nat then transpose (s3_trans s e) else s3_trans s e) k)) (vec M (min a)))))).
      { apply in_nan; auto; [apply (proj1 (J0 v Hv)); exact U2|apply (proj1 (J0 a Ha)); exact U1]. }
      destruct (Nat.eq_dec u v) as [->|NE].
      * rewrite set1_same. split; [intros _; right; exact NN|]. split; [|intros a' e' _; exact NN].
        intros H. destruct H. apply in_app_iff. now left.
      * rewrite set1_other by auto. split; [|split].
        -- intros H. apply K1. apply in_app_iff in H. destruct H as [H|[H|[]]]; [exact H|discriminate].
        -- intros H. apply K2. intros H'. apply H. apply in_app_iff. now left.
        -- intros a' e' H. apply (K3 a' e'). apply in_app_iff in H. destruct H as [H|[H|[]]]; [exact H|inversion H; congruence].
Qed.
End LOOP.
End DEAD.

Lemma ffold_prefix {A T} (f : T -> A -> fprog T) l1 l2 : forall s t, ffold f l1 s = FRet t -> ffold f (l1 ++ l2) s = ffold f l2 t.
Proof.
  induction l1 as [|x l1 IH]; intros s t H; cbn [app ffold] in *; [now inversion H|].
  destruct (f s x) as [a|e|w k]; cbn [fbind] in *; try discriminate. now apply IH.
Qed.

Lemma sample_from_nan lib V M N m n counts : lib_ok lib -> dot_nan (l_dot lib) -> (2 <= V)%nat -> consistent (repeat 2%nat V) V M N m -> counts_below 16 (repeat 2%nat V) N m ->
  (1 <= n)%nat -> length counts = V ->
  exists s w k, tree_server32 lib m = Ok s /\ sample32 lib s n counts (Some (concat (repeat [64; 63]%Z V))) = FCat w k /\
    length w = M /\ Forall (eq nan) w /\ forall u, sample_from_probs32 u w = Ok 0%nat.
Proof.
  intros LIB DN HV C CB Hn CL. destruct n as [|n]; [lia|]. change (repeat 2%nat V) with (twos V) in *. change (concat (repeat [64; 63]%Z V)) with (middle V).
  pose proof (proj2 (cm_M _ _ _ _ _ C)) as HM.
  destruct (build32 lib (twos V) V M N m 16 LIB C CB ltac:(lia)) as (s & E & TB). exists s.
  destruct (cm_tree _ _ _ _ _ C) as (es & T & ET). pose proof (t3_prog _ _ _ _ _ _ TB) as EP. rewrite ET in EP. cbn [ts_grid] in EP.
  pose proof (prog_bounds V es _ T EP) as PB.
  destruct (find_center_Ok V es T) as (ctr & EC & CC). destruct (make_program_valid V es ctr T (proj1 CC)) as (prog & E1 & VP).
  assert (EQ : s3_prog s = prog).
  { unfold make_propagation_program in EP, E1. rewrite EC in EP. cbn [bind] in EP, E1. rewrite EP in E1. now inversion E1. }
  rewrite <- EQ in VP. pose proof (make_tree_spanning _ _ T) as ST.
  destruct (inward_prefix V _ ctr (s3_prog s) ST (proj1 CC) VP) as (pre & suf & ESP & HO).
  destruct (inward_nan lib V M N m s (Datatypes.S n) counts LIB DN C TB _ ctr VP PB (fun v _ m => s3_vert s v m) (fun _ _ => 0%nat) (fun _ _ => 0%Z) pre [] (I OP_ROOT ctr 0 0 :: I OP_DOWN ctr 0 0 :: suf) (s3_vert s)) as (min' & ER & J1); auto.
  { intros v Hv. split; [intros []|]. split; [auto|intros a e []]. }
  assert (NR : allnan M (min' ctr)).
  { set (k := if (ctr =? 0)%nat then 1%nat else 0%nat).
    assert (Hk : (k < V)%nat /\ k <> ctr) by (unfold k; destruct (Nat.eqb_spec ctr 0); lia). destruct Hk as (Hk & NE).
    destruct ST as (_ & _ & CN).
    assert (X : exists c e, In (I OP_IN ctr c e) (s3_prog s)).
    { destruct (dist_exists (grid_edges (make_tree es)) ctr k (CN _ _ (proj1 CC) Hk)) as (d & D).
      assert (G : forall d k, dist (grid_edges (make_tree es)) ctr k (Datatypes.S d) -> exists c, dist (grid_edges (make_tree es)) ctr c 1).
      { clear. induction d as [|d IH]; intros k D; [eauto|]. destruct (dist_pred _ _ _ _ D) as (p & _ & DP). eauto. }
      destruct d as [|d]; [destruct D as (W & _); inversion W; congruence|].
      destruct (G d k D) as (c & D1). destruct (dist_pred _ _ _ _ D1) as (p & AD & DP).
      assert (p = ctr) as -> by (destruct DP as (W & _); inversion W; reflexivity).
      assert (X : exists f e, nth_error (grid_edges (make_tree es)) e = Some f /\ same_edge (ctr, c) f).
      { destruct AD as [K|K]; apply In_nth_error in K; destruct K as (e & Ee).
        - exists (ctr, c), e. split; [exact Ee|now left].
        - exists (c, ctr), e. split; [exact Ee|]. right. cbn. auto. }
      destruct X as (f & e & Ee & SE). exists c, e. apply (vp_in _ _ _ _ VP). split; [exists f; auto|]. exists 0%nat. auto. }
    destruct X as (c & e & IX). apply (proj2 (proj2 (J1 ctr (proj1 CC))) c e). cbn [app].
    pose proof (vp_root_after_in _ _ _ _ VP _ _ _ IX) as R1. pose proof (vp_nodup _ _ _ _ VP) as ND. rewrite ESP in R1, ND. now apply before_in in R1. }
  exists (vec M (fun k => min' ctr k)). eexists. split; [exact E|].
  assert (FN : Forall (eq nan) (vec M (fun k => min' ctr k))).
  { apply Forall_forall. intros x Ix. apply vec_In in Ix; [|exact HM]. destruct Ix as (j & Hj & ->). symmetry. now apply NR. }
  split; [|split; [apply len_vec|split; [exact FN|intros u; apply nan_draw; auto]]].
  - unfold sample32, sample32_with. rewrite (t3_R _ _ _ _ _ _ TB), (t3_V _ _ _ _ _ _ TB), middle_length, twos_sum, CL, !Nat.eqb_refl. cbn [assert_ flift fbind].
    rewrite ESP at 1. rewrite (ffold_prefix _ pre _ _ _ ER). cbn [ffold].
    unfold sample_instr32_with at 1. rewrite (t3_V _ _ _ _ _ _ TB), (proj2 (Nat.ltb_lt ctr V) (proj1 CC)). cbn [index flift fbind ffold].
    unfold sample_instr32_with at 1. rewrite (t3_V _ _ _ _ _ _ TB), (t3_M _ _ _ _ _ _ TB), (proj2 (Nat.ltb_lt ctr V) (proj1 CC)). cbn [index flift fbind].
    unfold draw_classes32. cbn [seq ffold fbind]. rewrite set1_same. reflexivity.
  - intros X. pose proof (len_vec M (fun k => min' ctr k)) as Q. rewrite X in Q. cbn in Q. lia.
Qed.

(** ** Running the program on random numbers *)
Lemma frun_enough A (Q : A -> Prop) p : draws_usable Q p ->
  exists K, forall us, Forall uniform01 us -> (K <= length us)%nat -> exists a, frun us p = Ok a /\ Q a.
Proof.
  induction p as [a|e|w k IH]; cbn [draws_usable frun]; intros H.
  - exists 0%nat. intros. eauto.
  - destruct H.
  - destruct H as (U & H).
    assert (B : forall j, (j <= length w)%nat -> exists K, forall i, (i < j)%nat -> 0 < B2R (nth i w fzero) ->
      forall us, Forall uniform01 us -> (K <= length us)%nat -> exists a, frun us (k i) = Ok a /\ Q a).
    { induction j as [|j IHj]; intros Hj; [exists 0%nat; intros; lia|]. destruct IHj as (K & HK); [lia|].
      destruct (Rlt_dec 0 (B2R (nth j w fzero))) as [P|P].
      - destruct (IH j (H j ltac:(lia) P)) as (K' & HK'). exists (K + K')%nat. intros i Hi Pi us Hu HL.
        destruct (Nat.eq_dec i j) as [-> | N]; [apply HK'; auto; lia|apply HK; auto; lia].
      - exists K. intros i Hi Pi us Hu HL. destruct (Nat.eq_dec i j) as [-> | N]; [contradiction|apply HK; auto; lia]. }
    destruct (B (length w) (le_n _)) as (K & HK). exists (Datatypes.S K). intros us Hu HL. destruct Hu as [|u us Hu Hus]; [cbn in HL; lia|].
    destruct (sample_usable u w Hu U) as (i & E & Hi & Pi). rewrite E. cbn [bind]. apply HK; auto. cbn in HL. lia.
Qed.

Lemma sample_rows32 lib ws V M N m n counts row : lib_ok lib -> consistent ws V M N m -> counts_below 16 ws N m ->
  length counts = V -> (forall v, (v < V)%nat -> (0 <= nth v counts 0 <= 127)%Z) ->
  (forall v, (v < V)%nat -> (0 < nth v counts 0%Z)%Z -> (1 <= nth v ws 0)%nat) ->
  length row = list_sum ws -> Forall (fun x => (0 <= x)%Z) row ->
  (forall v, (v < V)%nat -> (block_sum ws row v <= 1)%Z) ->
  exists s K, tree_server32 lib m = Ok s /\ forall us, Forall uniform01 us -> (K <= length us)%nat ->
    exists rows, frun us (sample32 lib s n counts (Some row)) = Ok rows /\ length rows = n /\ forall x, In x rows -> legal_row ws counts x.
Proof.
  intros LIB C CB CL C1 C2 RL RN RC. destruct (sample_usable32_one lib ws V M N m n counts row LIB C CB CL C1 C2 RL RN RC) as (s & E & D).
  destruct (frun_enough _ _ _ D) as (K & HK). exists s, K. split; [exact E|]. intros us Hu HL. exact (HK us Hu HL).
Qed.

(** ** The cases *)
Lemma fdot_nan l : forall acc, acc = nan -> fdot acc l = nan.
Proof. induction l as [|[x y] l IH]; intros acc ->; cbn [fdot]; [reflexivity|]. apply IH. reflexivity. Qed.

Lemma seq_dot_nan : dot_nan seq_dot.
Proof.
  intros x y L H. unfold seq_dot. generalize fzero. revert y L H. induction x as [|a x IH]; intros [|b y] L H acc; try discriminate; [destruct H|].
  cbn [combine fdot]. destruct H as [->|H]; [apply fdot_nan; rewrite fmul_nan_r; apply fadd_nan_r|]. apply IH; auto.
Qed.

Lemma ex_case_sample : lib_ok lib0 /\ consistent [2; 1; 3]%nat 3 2 2 ex_model /\ counts_below 6 [2; 1; 3]%nat 2 ex_model /\
  (2 * (6 + 3 + (6 + 13) * 2) + 6 + 11 <= 149)%Z /\
  length [2; 0; 1]%Z = 3%nat /\ (forall v, (v < 3)%nat -> (0 <= nth v [2; 0; 1] 0 <= 127)%Z) /\
  (forall v, (v < 3)%nat -> (0 < nth v [2; 0; 1] 0%Z)%Z -> (1 <= nth v [2; 1; 3] 0)%nat) /\
  length [1; 0; 0; 1; 1; 0]%Z = list_sum [2; 1; 3]%nat /\ Forall (fun x => (0 <= x)%Z) [1; 0; 0; 1; 1; 0]%Z /\
  (forall v, (v < 3)%nat -> (block_sum [2; 1; 3]%nat [1; 0; 0; 1; 1; 0] v <= 2)%Z).
Proof.
  destruct ex_case_finite as (H1 & H2 & H3 & H4 & H5 & H6 & H7). do 5 (split; [assumption||reflexivity|]).
  split; [intros [|[|[|v]]] Hv; cbn; lia|]. split; [intros [|[|[|v]]] Hv; cbn; lia|]. auto.
Qed.

Lemma ex_case_sample_one : lib_ok lib0 /\ consistent [2; 1; 3]%nat 3 2 2 ex_model /\ counts_below 16 [2; 1; 3]%nat 2 ex_model /\
  length [2; 0; 1]%Z = 3%nat /\ (forall v, (v < 3)%nat -> (0 <= nth v [2; 0; 1] 0 <= 127)%Z) /\
  (forall v, (v < 3)%nat -> (0 < nth v [2; 0; 1] 0%Z)%Z -> (1 <= nth v [2; 1; 3] 0)%nat) /\
  length [1; 0; 0; 0; 1; 0]%Z = list_sum [2; 1; 3]%nat /\ Forall (fun x => (0 <= x)%Z) [1; 0; 0; 0; 1; 0]%Z /\
  (forall v, (v < 3)%nat -> (block_sum [2; 1; 3]%nat [1; 0; 0; 0; 1; 0] v <= 1)%Z).
Proof.
  destruct ex_case_sample as (H1 & H2 & H3 & H4 & H5 & H6 & H7 & _). split; [exact H1|]. split; [exact H2|]. split.
  - destruct H3 as (B1 & B2). change (2 ^ 6)%Z with 64%Z in *. change (2 ^ 16)%Z with 65536%Z. split; [change (2 ^ 16)%Z with 65536%Z; lia|].
    intros v c Hv Hc. destruct (B2 v c Hv Hc). change (2 ^ 6)%Z with 64%Z in *. change (2 ^ 16)%Z with 65536%Z. lia.
  - do 3 (split; [assumption|]). split; [reflexivity|]. split; [repeat constructor; lia|]. intros [|[|[|v]]] Hv; cbn; lia.
Qed.
