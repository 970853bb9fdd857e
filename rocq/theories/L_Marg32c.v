(** Float32 marginals of deep trees are NaN. *)
From Coq Require Import List Arith Bool ZArith Reals Lra Lia.
From Flocq Require Import Core IEEE754.BinarySingleNaN.
From Verif Require Import Base L_Base Spec_Graph L_Graph Spec_Sum L_Sum M_Structure L_Pairing L_MakeTree L_Program L_ProgramValid Spec_Program L_Center L_Prop1 M_Util L_Quantize Spec_Ragged L_Ragged M_Array M_Training Spec_Stats L_Stats L_Trainer Spec_Conditional L_Asg L_BP L_BPVec L_AddRow
  M_Float32 M_Train32 Spec_Float32 L_Float32 L_Sample32 L_Train32 L_Train32c L_Train32d L_Train32i M_Serving Spec_Serving L_Server M_Serving32 Spec_Serving32 L_Serving32a L_Serving32b L_Serving32c L_Serving32d L_Serving32e L_Serving32f M_Sample32 M_Marg32 Spec_Marg32 L_Marg32 L_Marg32b L_Serve1.
Import ListNotations.
Open Scope R_scope.

(** ** Products that vanish *)
Lemma tiny_zero' z : 0 <= z <= bp (-151) -> rnd 24 128 z = 0.
Proof.
  intros B. assert (U : rnd 24 128 (bp (-151)) = 0).
  { pose proof (Bmult_correct 24 128 p24 e128 mode_NE (f32_of 1 (-75)) (f32_of 1 (-76))) as C. cbn [round_mode] in C.
    assert (E1 : val (f32_of 1 (-75)) = bp (-75)) by (vm_compute; lra). assert (E2 : val (f32_of 1 (-76)) = bp (-76)) by (vm_compute; lra).
    rewrite E1, E2, <- bpow_plus in C. change (-75 + -76)%Z with (-151)%Z in C.
    fold (rnd 24 128 (bp (-151))) in C.
    rewrite (small 24 128 p24 0 (bp (-149)) (bp (-151))) in C; [|apply (fmt_0 24 128)|apply fmtb; lia| | |apply bpow_lt; lia].
    - destruct C as (C & _). rewrite <- C. vm_compute. reflexivity.
    - split; [apply bpow_ge_0|apply bpow_le; lia].
    - pose proof (bp_pos 128). lra. }
  assert (Z : rnd 24 128 0 = 0) by (unfold rnd; apply round_0, valid_rnd_N).
  pose proof (mono32 0 z ltac:(lra)). pose proof (mono32 z (bp (-151)) ltac:(lra)). lra.
Qed.

Lemma fmul_tiny' (x y : f32) : fin32 x = true -> fin32 y = true -> 0 <= val x * val y <= bp (-151) -> fin32 (fmul x y) = true /\ val (fmul x y) = 0.
Proof.
  intros Fx Fy B. pose proof (Bmult_correct 24 128 p24 e128 mode_NE x y) as C. cbn [round_mode] in C. fold (rnd 24 128 (val x * val y)) in C.
  rewrite (tiny_zero' _ B) in C. rewrite Rabs_R0, Rlt_bool_true in C by apply bpow_gt_0. destruct C as (C1 & C2 & _).
  unfold fmul. rewrite C1, C2, Fx, Fy. auto.
Qed.

Definition is_zero (x : f32) : Prop := fin32 x = true /\ val x = 0.
Definition dead (x : f32) : Prop := is_zero x \/ x = B754_nan.

Lemma fmul_zero (x y : f32) : is_zero y -> (fin32 x = true -> is_zero (fmul x y)) /\ dead (fmul x y).
Proof.
  intros (F & E). destruct (zero_form y F E) as (sg & ->).
  destruct x as [sx|sx| |sx p e H]; cbn; (split; [intros D; try discriminate D; split; reflexivity|]); try (left; split; reflexivity); now right.
Qed.

Lemma seq_dot_zero : dot_zero seq_dot.
Proof.
  intros x y L FX FY. unfold seq_dot.
  assert (G : forall x y acc, length x = length y -> Forall (fun z => fin32 z = true) x -> Forall (fun z => fin32 z = true /\ val z = 0) y -> is_zero acc -> is_zero (fdot acc (combine x y))).
  { clear. induction x as [|a x IH]; intros [|b y] acc L FX FY Z; try discriminate; [exact Z|]. cbn [combine fdot]. inversion FX; subst. inversion FY; subst.
    apply IH; auto. destruct (fmul_zero a b H3) as (K & _). destruct (K H1) as (K1 & K2).
    destruct (zero_form acc (proj1 Z) (proj2 Z)) as (s1 & ->). destruct (zero_form _ K1 K2) as (s2 & ->). destruct s1, s2; split; reflexivity. }
  apply G; auto. split; reflexivity.
Qed.

Section DEEP.
Variables (lib : numlib) (ws : list nat) (V M N0 : nat) (m : smodel) (s : server32) (row : list Z).
Hypothesis LIB : lib_ok lib.
Hypothesis DZ : dot_zero (l_dot lib).
Hypothesis DN : dot_nan (l_dot lib).
Hypothesis C : consistent ws V M N0 m.
Hypothesis CBL : counts_below 16 ws N0 m.
Hypothesis TB : tables32 ws V M 16 m s.
Let HM : (1 <= M <= 128)%nat.
Proof. apply (cm_M _ _ _ _ _ C). Qed.
Notation off v := (list_sum (firstn v ws)).

Definition vle (q : Z) (f : nat -> f32) : Prop := forall k, (k < M)%nat -> fin32 (f k) = true /\ 0 <= val (f k) <= bp q.
Definition vzero (f : nat -> f32) : Prop := forall k, (k < M)%nat -> is_zero (f k).
Definition vdead (f : nat -> f32) : Prop := forall k, (k < M)%nat -> dead (f k).

(** The message outward of a feature at depth [d]. *)
Definition fades (d : nat) (f : nat -> f32) : Prop :=
  (forall k, (k < M)%nat -> fin32 (f k) = true) /\ ((d <= 7)%nat -> vle (-57 - 12 * Z.of_nat d) f) /\ ((8 <= d)%nat -> vzero f).

Notation tr c e := (if c then transpose (s3_trans s e) else s3_trans s e).
Notation step c e f g := (fun k : nat => fmul (f k) (l_dot lib (vec M (tr c e k)) (vec M g))).

Lemma tr_range (c : bool) e k j : (e < V - 1)%nat -> (k < M)%nat -> (j < M)%nat -> fin32 (tr c e k j) = true /\ 0 <= val (tr c e k j) <= bp 38.
Proof.
  intros He Hk Hj. pose proof (bp_pos (- (16 + 11))).
  destruct c; unfold transpose; [destruct (t3_trans _ _ _ _ _ _ TB e j k He Hj Hk) as (F & B)|destruct (t3_trans _ _ _ _ _ _ TB e k j He Hk Hj) as (F & B)];
    (split; [exact F|]); change (2 * 16 + 6)%Z with 38%Z in B; lra.
Qed.

Lemma dot_fades (c : bool) e k q g : (e < V - 1)%nat -> (k < M)%nat -> (-187 <= q <= 80)%Z -> vle q g ->
  fin32 (l_dot lib (vec M (tr c e k)) (vec M g)) = true /\ 0 <= val (l_dot lib (vec M (tr c e k)) (vec M g)) <= bp (q + 45).
Proof.
  intros He Hk Hq G. destruct (proj1 LIB (vec M (tr c e k)) (vec M g) 38%Z q 7%Z) as (D1 & D2 & _); try lia.
  - now rewrite !len_vec.
  - rewrite len_vec. change (2 ^ 7)%Z with 128%Z. lia.
  - apply Forall_forall. intros x Ix. apply vec_In in Ix; [|exact HM]. destruct Ix as (j & Hj & ->). now apply tr_range.
  - apply Forall_forall. intros x Ix. apply vec_In in Ix; [|exact HM]. destruct Ix as (j & Hj & ->). exact (G j Hj).
  - replace (q + 45)%Z with (38 + q + 7)%Z by lia. auto.
Qed.

Lemma dot_vanishes (c : bool) e k g : (e < V - 1)%nat -> (k < M)%nat -> vzero g -> is_zero (l_dot lib (vec M (tr c e k)) (vec M g)).
Proof.
  intros He Hk G. apply DZ.
  - now rewrite !len_vec.
  - apply Forall_forall. intros x Ix. apply vec_In in Ix; [|exact HM]. destruct Ix as (j & Hj & ->). now apply tr_range.
  - apply Forall_forall. intros x Ix. apply vec_In in Ix; [|exact HM]. destruct Ix as (j & Hj & ->). exact (G j Hj).
Qed.

Lemma step_fades (c : bool) e d f g : (e < V - 1)%nat -> vle (-57) f -> fades d g -> fades (Datatypes.S d) (step c e f g).
Proof.
  intros He F (G0 & G1 & G2).
  assert (ZZ : (8 <= d)%nat -> vzero (step c e f g)).
  { intros Hd k Hk. apply fmul_zero; [apply dot_vanishes; auto|]. apply (F k Hk). }
  assert (Z8 : (7 <= d)%nat -> vzero (step c e f g)).
  { intros Hd. destruct (Nat.eq_dec d 7) as [-> | N]; [|apply ZZ; lia]. intros k Hk. specialize (G1 ltac:(lia)). change (-57 - 12 * Z.of_nat 7)%Z with (-141)%Z in G1.
    destruct (dot_fades c e k (-141) g He Hk ltac:(lia) G1) as (D1 & D2). destruct (F k Hk) as (F1 & F2). apply fmul_tiny'; auto.
    split; [apply Rmult_le_pos; lra|]. replace (-151)%Z with (-57 + -94)%Z by lia. rewrite bpow_plus. pose proof (bp_pos (-57)). apply Rmult_le_compat; try tauto.
    eapply Rle_trans; [apply D2|]. apply bpow_le. lia. }
  assert (LE : (d <= 6)%nat -> vle (-57 - 12 * Z.of_nat (Datatypes.S d)) (step c e f g)).
  { intros Hd k Hk. specialize (G1 ltac:(lia)). destruct (dot_fades c e k (-57 - 12 * Z.of_nat d)%Z g He Hk ltac:(lia) G1) as (D1 & D2). destruct (F k Hk) as (F1 & F2).
    destruct (mul_pow M HM (f k) (l_dot lib (vec M (tr c e k)) (vec M g)) (-57) (-57 - 12 * Z.of_nat d + 45) 0 0 F1 D1 F2 D2 ltac:(lia)) as (x1 & x2 & _).
    replace (-57 - 12 * Z.of_nat (Datatypes.S d))%Z with (-57 + (-57 - 12 * Z.of_nat d + 45))%Z by lia. auto. }
  split; [|split].
  - intros k Hk. destruct (le_dec d 6) as [D|D]; [apply (LE D k Hk)|apply (Z8 ltac:(lia) k Hk)].
  - intros Hd. apply LE. lia.
  - intros Hd. apply Z8. lia.
Qed.

Lemma step_dead (c : bool) e f g : (e < V - 1)%nat -> vzero g -> vdead (step c e f g).
Proof. intros He G k Hk. apply fmul_zero. now apply dot_vanishes. Qed.

Lemma lenws'' : length ws = V.
Proof. apply (cm_width _ _ _ _ _ C). Qed.

(** ** The marginals of a vanished message *)
Lemma down_nan v f q : (v < V)%nat -> vdead f -> In q (block ws v) ->
  let marginal := fun r => l_dot lib (vec M (s3_feat s r)) (vec M f) in
  fdiv (marginal q) (l_sum lib (map marginal (block ws v))) = B754_nan.
Proof.
  intros Hv D Iq marginal.
  assert (X : (exists k, (k < M)%nat /\ f k = B754_nan) \/ vzero f).
  { assert (Y : forall n, (n <= M)%nat -> (exists k, (k < n)%nat /\ f k = B754_nan) \/ forall k, (k < n)%nat -> is_zero (f k)).
    { induction n as [|n IH]; intros Hn; [right; intros; lia|]. destruct IH as [(k & Hk & E)|Z]; [lia|left; exists k; split; [lia|exact E]|].
      destruct (D n ltac:(lia)) as [Zn|E]; [|left; exists n; split; [lia|exact E]]. right. intros k Hk. destruct (Nat.eq_dec k n) as [-> | N]; [exact Zn|apply Z; lia]. }
    destruct (Y M (le_n M)) as [(k & Hk & E)|Z]; [left; eauto|right; exact Z]. }
  destruct X as [(k & Hk & E)|Z].
  - assert (E1 : marginal q = B754_nan).
    { apply DN; [now rewrite !len_vec|]. rewrite <- E. now apply In_vec. }
    rewrite E1. reflexivity.
  - assert (Z1 : forall r, In r (block ws v) -> is_zero (marginal r)).
    { intros r Ir. apply DZ; [now rewrite !len_vec| |].
      - apply Forall_forall. intros x Ix. apply vec_In in Ix; [|exact HM]. destruct Ix as (j & Hj & ->). apply (t3_feat _ _ _ _ _ _ TB v r j Hv Ir Hj).
      - apply Forall_forall. intros x Ix. apply vec_In in Ix; [|exact HM]. destruct Ix as (j & Hj & ->). exact (Z j Hj). }
    assert (RZ : rsum (map (@B2R 24 128) (map marginal (block ws v))) = 0).
    { unfold rsum. rewrite !sumf_map. rewrite (sumf_ext _ _ (fun _ => 0)); [|intros r Ir; apply Z1; exact Ir]. rewrite sumf_const. ring. }
    destruct LIB as (_ & SO & _).
    destruct (proj1 SO (map marginal (block ws v))) as (S1 & S2 & _).
    + rewrite map_length. unfold block. rewrite seq_length. destruct CBL as (_ & K).
      destruct (K v 0%nat) as (K1 & _); [rewrite lenws''; exact Hv|rewrite (proj1 (cm_M _ _ _ _ _ C)); lia|]. lia.
    + apply Forall_forall. intros x Ix. apply in_map_iff in Ix. destruct Ix as (r & <- & Ir). destruct (Z1 r Ir) as (z1 & z2). split; [exact z1|]. rewrite z2. lra.
    + rewrite RZ. apply Rlt_le, bp_pos.
    + rewrite RZ in S2. destruct (zero_form (l_sum lib (map marginal (block ws v))) S1 ltac:(lra)) as (s1 & ->).
      destruct (Z1 q Iq) as (z1 & z2). destruct (zero_form _ z1 z2) as (s2 & ->). destruct s1, s2; reflexivity.
Qed.

(** ** The program *)
Hypothesis OBS : forall v, (v < V)%nat -> exists msg', observe32 lib s row v (s3_vert s v) = Ok msg' /\ vle (-57) msg'.

Section LOOP.
Variables (edges : list (nat * nat)) (r : nat) (par dep : nat -> nat).
Notation es := (grid_edges (make_tree edges)).
Hypothesis RT : rooted V es r par dep.
Hypothesis VPG : valid_program V es r (s3_prog s).
Hypothesis PB : forall op v a e, In (I op v a e) (s3_prog s) -> (v < V)%nat /\ match op with OP_IN | OP_OUT => (a < V)%nat /\ (e < V - 1)%nat | _ => True end.

Definition DJ (pre : list instr) (st : mstate32) : Prop :=
  let '(min, mout, res) := st in
  (forall v, (v < V)%nat -> ~ moved pre v -> (~ In (I OP_UP v 0 0) pre -> min v = s3_vert s v) /\ (In (I OP_UP v 0 0) pre -> vle (-57) (mout v))) /\
  (forall v, (v < V)%nat -> moved pre v -> fades (dep v) (mout v) /\ ((9 <= dep v)%nat -> vdead (min v))) /\
  (forall v q, (v < V)%nat -> In (I OP_DOWN v 0 0) pre -> (9 <= dep v)%nat -> In q (block ws v) -> res q = B754_nan).

Lemma off_block'' v : (v < V)%nat -> seq (off v) (off (v + 1) - off v) = block ws v.
Proof. intros Hv. pose proof lenws''. unfold block. rewrite Nat.add_1_r, sum_firstn_S by lia. f_equal. lia. Qed.

Lemma dstep_ok pre i suf st : s3_prog s = pre ++ i :: suf -> DJ pre st ->
  exists st', marginals_instr32_with lib (observe32 lib) (fun _ message => message) s row st i = Ok st' /\ DJ (pre ++ [i]) st'.
Proof.
  destruct st as [[min mout] res]. destruct i as [op v a e]. intros E (J1 & J2 & J3).
  assert (IN : In (I op v a e) (s3_prog s)) by (rewrite E; apply in_app_iff; right; now left).
  pose proof (vp_nodup _ _ _ _ VPG) as NDP.
  assert (NEW : ~ In (I op v a e) pre).
  { rewrite E in NDP. apply NoDup_remove_2 in NDP. intros K. apply NDP. apply in_app_iff. now left. }
  assert (BEF : forall x, precedes (s3_prog s) x (I op v a e) -> In x pre) by (intros x K; rewrite E in K, NDP; now apply before_in in K).
  assert (IP : forall i, In i pre -> In i (s3_prog s)) by (intros i K; rewrite E; apply in_app_iff; now left).
  assert (AFT : forall x, In x pre -> ~ precedes (s3_prog s) (I op v a e) x).
  { intros x Ix K. apply NEW. apply in_split in Ix. destruct Ix as (p1 & p2 & ->).
    rewrite E in K, NDP. rewrite <- app_assoc in K, NDP. cbn [app] in K, NDP. apply before_in in K; [|exact NDP]. apply in_app_iff. now left. }
  assert (KEEP : forall o u b c, o <> op -> (In (I o u b c) (pre ++ [I op v a e]) <-> In (I o u b c) pre)).
  { intros o u b c NE. rewrite in_app_iff. split; [intros [K|[K|[]]]; [exact K|inversion K; congruence]|now left]. }
  assert (KM : op <> OP_OUT -> forall u, moved (pre ++ [I op v a e]) u <-> moved pre u).
  { intros NE u. split; intros (b & c & K); exists b, c; [apply KEEP in K; auto|apply KEEP; auto]. }
  assert (MR : forall u, (u < V)%nat -> moved pre u -> u <> r).
  { intros u Hu (b & c & K). apply IP in K. apply (vp_out _ _ _ _ VPG) in K. apply (parent_edge_iff V edges r par dep RT) in K. tauto. }
  assert (OUTS : forall u, (u < V)%nat -> moved pre u -> In (I OP_ROOT r 0 0) pre).
  { intros u Hu (b & c & K). pose proof (vp_out_root _ _ _ _ VPG _ _ _ (IP _ K)) as PR. apply in_split in K. destruct K as (p1 & p2 & EP).
    rewrite E, EP, <- app_assoc in PR, NDP. cbn [app] in PR, NDP. apply before_in in PR; [|exact NDP]. rewrite EP. apply in_app_iff. now left. }
  destruct (PB _ _ _ _ IN) as (Hv & HB). cbn [marginals_instr32_with]. rewrite (t3_V _ _ _ _ _ _ TB), (t3_M _ _ _ _ _ _ TB).
  unfold index at 1. rewrite (proj2 (Nat.ltb_lt v V) Hv). cbn [bind]. destruct op.
  - (* UP *)
    destruct (proj1 (vp_up _ _ _ _ VPG v a e) IN) as (_ & -> & ->).
    assert (NM : ~ moved pre v).
    { intros K. apply (AFT _ (OUTS v Hv K)). now apply (vp_root_after _ _ _ _ VPG). }
    destruct (J1 v Hv NM) as (Fv & _). rewrite (Fv NEW).
    destruct (OBS v Hv) as (msg' & EO & GO). rewrite EO. cbn [bind]. eexists. split; [reflexivity|]. split; [|split].
    + intros u Hu N. rewrite KM in N by discriminate. destruct (Nat.eq_dec u v) as [->|NE].
      * rewrite !set1_same. split; [|auto]. intros K. destruct K. apply in_app_iff. right. now left.
      * rewrite !set1_other by auto. destruct (J1 u Hu N) as (K2 & K3). split.
        -- intros K. apply K2. intros K'. apply K. apply in_app_iff. now left.
        -- intros K. apply K3. apply in_app_iff in K. destruct K as [K|[K|[]]]; [exact K|inversion K; congruence].
    + intros u Hu N. rewrite KM in N by discriminate. destruct (Nat.eq_dec u v) as [->|NE]; [contradiction|]. rewrite !set1_other by auto. auto.
    + intros u q Hu K. apply KEEP in K; [|discriminate]. apply (J3 u q Hu K).
  - (* IN *)
    destruct HB as (Ha & He). unfold index. rewrite (proj2 (Nat.ltb_lt a V) Ha), (proj2 (Nat.ltb_lt e (V - 1)) He). cbn [andb bind]. eexists. split; [reflexivity|].
    assert (NM : forall u, (u < V)%nat -> ~ moved pre u).
    { intros u Hu K. apply (AFT _ (OUTS u Hu K)). now apply (vp_root_after_in _ _ _ _ VPG). }
    split; [|split].
    + intros u Hu _. destruct (J1 u Hu (NM u Hu)) as (K2 & K3). split; [|rewrite KEEP by discriminate; exact K3]. intros K.
      destruct (Nat.eq_dec u v) as [->|NE].
      * destruct K. apply KEEP; [discriminate|]. apply BEF. now apply (vp_in_up _ _ _ _ VPG).
      * rewrite set1_other by auto. apply K2. rewrite KEEP in K by discriminate. exact K.
    + intros u Hu K. rewrite KM in K by discriminate. now apply NM in K.
    + intros u q Hu K. apply KEEP in K; [|discriminate]. apply (J3 u q Hu K).
  - (* ROOT *)
    eexists. split; [reflexivity|]. split; [|split].
    + intros u Hu N. rewrite KM in N by discriminate. rewrite KEEP by discriminate. auto.
    + intros u Hu K. rewrite KM in K by discriminate. auto.
    + intros u q Hu K. apply KEEP in K; [|discriminate]. apply (J3 u q Hu K).
  - (* OUT *)
    destruct HB as (Ha & He). unfold index. rewrite (proj2 (Nat.ltb_lt a V) Ha), (proj2 (Nat.ltb_lt e (V - 1)) He). cbn [andb bind]. eexists. split; [reflexivity|].
    pose proof (proj1 (vp_out _ _ _ _ VPG v a e) IN) as PE. apply (parent_edge_iff V edges r par dep RT) in PE. destruct PE as (_ & NR & Ea & Ee).
    pose proof (rt_par _ _ _ _ _ RT v Hv NR) as (_ & Dv & _). rewrite <- Ea in Dv.
    assert (AUP : forall u, (u < V)%nat -> In (I OP_UP u 0 0) pre).
    { intros u Hu. assert (R1 : In (I OP_ROOT r 0 0) pre) by (apply BEF; now apply (vp_out_root _ _ _ _ VPG)).
      pose proof (vp_root_after _ _ _ _ VPG u Hu) as PR. apply in_split in R1. destruct R1 as (p1 & p2 & EP).
      rewrite E, EP, <- app_assoc in PR, NDP. cbn [app] in PR, NDP. apply before_in in PR; [|exact NDP]. rewrite EP. apply in_app_iff. now left. }
    assert (MA : fades (dep a) (mout a)).
    { destruct (Nat.eq_dec a r) as [ER|NAR].
      - rewrite ER, (rt_dep _ _ _ _ _ RT). rewrite <- ER. assert (LE : vle (-57) (mout a)) by (apply (J1 a Ha); [intros K; now apply (MR a Ha K)|now apply AUP]).
        split; [intros k Hk; apply (LE k Hk)|]. split; [intros _; exact LE|lia].
      - apply (J2 a Ha).
        assert (OA : In (I OP_OUT a (par a) (eidx edges par a)) (s3_prog s)) by (apply (vp_out _ _ _ _ VPG); apply (parent_edge_iff V edges r par dep RT); auto).
        pose proof (BEF _ (vp_out_down _ _ _ _ VPG _ _ _ IN)) as DA. exists (par a), (eidx edges par a).
        pose proof (vp_down_out _ _ _ _ VPG _ _ _ OA) as (l1 & l2 & EF).
        assert (PR : precedes (s3_prog s) (I OP_OUT a (par a) (eidx edges par a)) (I OP_DOWN a 0 0)) by (exists l1, [], l2; exact EF).
        apply in_split in DA. destruct DA as (p1 & p2 & EP). rewrite E, EP, <- app_assoc in PR, NDP. cbn [app] in PR, NDP. apply before_in in PR; [|exact NDP].
        rewrite EP. apply in_app_iff. now left. }
    assert (NM : ~ moved pre v).
    { intros (b & c & K). pose proof (proj1 (vp_out _ _ _ _ VPG v b c) (IP _ K)) as PE. apply (parent_edge_iff V edges r par dep RT) in PE. destruct PE as (_ & _ & -> & ->).
      apply NEW. subst. exact K. }
    destruct (J1 v Hv NM) as (_ & G2). specialize (G2 (AUP v Hv)).
    assert (US : forall u, moved (pre ++ [I OP_OUT v a e]) u <-> moved pre u \/ u = v).
    { intros u. split.
      - intros (b & c & K). apply in_app_iff in K. destruct K as [K|[K|[]]]; [left; now exists b, c|right; now inversion K].
      - intros [(b & c & K) | ->]; [exists b, c; apply in_app_iff; now left|exists a, e; apply in_app_iff; right; now left]. }
    split; [|split].
    + intros u Hu N. rewrite US in N. assert (u <> v /\ ~ moved pre u) as (N1 & N2) by tauto. rewrite !set1_other by auto. rewrite KEEP by discriminate. auto.
    + intros u Hu K. rewrite US in K. destruct (Nat.eq_dec u v) as [->|NE].
      * rewrite !set1_same. rewrite Dv. split; [apply (step_fades (a <? v)%nat e (dep a) (mout v) (mout a)); auto|].
        intros D9. apply (step_dead (a <? v)%nat e (min v) (mout a) He). apply MA. lia.
      * rewrite !set1_other by auto. apply J2; auto. destruct K; [auto|contradiction].
    + intros u q Hu K. apply KEEP in K; [|discriminate]. apply (J3 u q Hu K).
  - (* DOWN *)
    destruct (proj1 (vp_down _ _ _ _ VPG v a e) IN) as (_ & -> & ->).
    rewrite (t3_ri _ _ _ _ _ _ TB). pose proof lenws'' as LW. rewrite !mri_get by lia. cbn [bind]. rewrite off_block'' by auto. eexists. split; [reflexivity|].
    assert (BLK : forall q, ((off v <=? q) && (q <? off (v + 1)))%nat = true <-> In q (block ws v)).
    { intros q. unfold block. rewrite in_seq, andb_true_iff, Nat.leb_le, Nat.ltb_lt, Nat.add_1_r, sum_firstn_S by lia. lia. }
    split; [|split].
    + intros u Hu N. rewrite KM in N by discriminate. rewrite KEEP by discriminate. auto.
    + intros u Hu K. rewrite KM in K by discriminate. auto.
    + intros u q Hu K D9 Iq. destruct (Nat.eq_dec u v) as [->|NE].
      * rewrite (proj2 (BLK q) Iq). apply (down_nan v (min v) q Hv); auto.
        assert (NR : v <> r) by (intros ->; rewrite (rt_dep _ _ _ _ _ RT) in D9; lia). apply (J2 v Hv); auto.
        assert (OA : In (I OP_OUT v (par v) (eidx edges par v)) (s3_prog s)) by (apply (vp_out _ _ _ _ VPG); apply (parent_edge_iff V edges r par dep RT); auto).
        exists (par v), (eidx edges par v). apply BEF. pose proof (vp_down_out _ _ _ _ VPG _ _ _ OA) as (l1 & l2 & EF). exists l1, [], l2. exact EF.
      * assert (KD : In (I OP_DOWN u 0 0) pre) by (apply in_app_iff in K; destruct K as [K|[K|[]]]; [exact K|inversion K; congruence]).
        assert (DF : ((off v <=? q) && (q <? off (v + 1)))%nat = false).
        { destruct ((off v <=? q) && (q <? off (v + 1)))%nat eqn:EQ; [|reflexivity]. apply BLK in EQ. exfalso. apply NE.
          unfold block in Iq, EQ. apply in_seq in Iq, EQ. apply (owns_unique ws u v q); split; lia. }
        rewrite DF. now apply (J3 u q).
Qed.

Hypothesis DL : length row = list_sum ws.

Lemma deep_nan junk : exists x, marginals_row32 lib s junk row = Ok x /\
  forall v q, (v < V)%nat -> (9 <= dep v)%nat -> In q (block ws v) -> nth q x fzero = B754_nan /\ (q < length x)%nat.
Proof.
  unfold marginals_row32, marginals_row32_with. pose proof lenws'' as LW. rewrite (t3_R _ _ _ _ _ _ TB), DL, Nat.eqb_refl. cbn [assert_ bind].
  assert (G : forall suf pre st, s3_prog s = pre ++ suf -> DJ pre st ->
    exists st', foldM (marginals_instr32_with lib (observe32 lib) (fun _ message => message) s row) suf st = Ok st' /\ DJ (s3_prog s) st').
  { induction suf as [|i suf IH]; intros pre st E J.
    - exists st. split; [reflexivity|]. now rewrite E, app_nil_r.
    - destruct (dstep_ok pre i suf st E J) as (st' & E1 & J'). cbn [foldM]. rewrite E1. cbn [bind]. apply (IH (pre ++ [i])); [now rewrite <- app_assoc|exact J']. }
  destruct (G (s3_prog s) [] (s3_vert s, junk, fun _ => fzero) eq_refl) as ([[mi mo] res] & E & (_ & _ & J3)).
  { split; [|split]; [|intros v Hv (b & c & [])|intros v q Hv []]. intros v Hv _. split; [auto|intros []]. }
  rewrite E. cbn [bind]. eexists. split; [reflexivity|].
  assert (NTH : forall q, (q < list_sum ws)%nat -> nth q (map res (seq 0 (list_sum ws))) fzero = res q).
  { intros q Hq. rewrite nth_indep with (d' := res 0%nat) by (rewrite map_length, seq_length; lia). rewrite map_nth, seq_nth by lia. reflexivity. }
  intros v q Hv D9 Iq. assert (LT : (q < list_sum ws)%nat) by (now apply (block_lt ws V M N0 m C v q)).
  rewrite NTH by auto. split; [|now rewrite map_length, seq_length]. apply (J3 v q Hv); auto. apply (vp_down _ _ _ _ VPG); auto.
Qed.
End LOOP.
End DEEP.

(** ** Features of 64 levels *)
Definition halves (V : nat) : list Z := concat (repeat [32; 31]%Z V).

Lemma halves_length V : length (halves V) = (2 * V)%nat.
Proof. unfold halves. induction V; [reflexivity|]. cbn [repeat concat app length]. rewrite IHV. lia. Qed.
Lemma halves_nth v : forall V, (v < V)%nat -> nth_error (halves V) (2 * v) = Some 32%Z /\ nth_error (halves V) (2 * v + 1) = Some 31%Z.
Proof.
  induction v; intros V H; (destruct V; [lia|]); unfold halves; cbn [repeat concat app]; fold (halves V).
  - split; reflexivity.
  - replace (2 * Datatypes.S v)%nat with (Datatypes.S (Datatypes.S (2 * v))) by lia. cbn [nth_error]. apply IHv. lia.
Qed.

Lemma powers_small' x y : 0 <= x <= 1 -> 0 <= y -> x + y <= 65 / 64 -> x ^ 32 * y ^ 31 <= bp (-60).
Proof.
  intros Hx Hy H.
  assert (P : 0 <= x * y <= 4225 / 16384).
  { split; [apply Rmult_le_pos; lra|]. pose proof (Rle_0_sqr (x - y)) as Q. unfold Rsqr in Q.
    assert (Q2 : (x + y) * (x + y) <= 65 / 64 * (65 / 64)) by (apply Rmult_le_compat; lra). lra. }
  assert (E : x ^ 32 * y ^ 31 = x * (x * y) ^ 31) by (rewrite Rpow_mult_distr; change 32%nat with (1 + 31)%nat at 1; rewrite pow_add; ring).
  rewrite E. apply Rle_trans with (1 * (4225 / 16384) ^ 31).
  - apply Rmult_le_compat; try tauto; [apply pow_le; tauto|apply pow_incr; exact P].
  - rewrite Rmult_1_l. assert (Q : (4225 / 16384) ^ 31 <= bp (-60)).
    { replace (4225 / 16384) with (4225 * / 16384) by lra. rewrite Rpow_mult_distr. change (bp (-60)) with (/ IZR (2 ^ 60)).
      rewrite pow_inv by lra. change 4225 with (IZR 4225). change 16384 with (IZR 16384). rewrite !pow_IZR.
      apply Rmult_le_reg_r with (IZR (16384 ^ Z.of_nat 31)); [apply IZR_lt; reflexivity|].
      rewrite Rmult_assoc, Rinv_l by (apply Rgt_not_eq, IZR_lt; reflexivity). rewrite Rmult_1_r.
      apply Rmult_le_reg_l with (IZR (2 ^ 60)); [apply IZR_lt; reflexivity|]. rewrite <- Rmult_assoc, Rinv_r by (apply Rgt_not_eq, IZR_lt; reflexivity).
      rewrite Rmult_1_l, <- mult_IZR. apply IZR_le. apply Z.leb_le. vm_compute. reflexivity. }
    exact Q.
Qed.

Lemma observe_halves lib V M N m s v : lib_ok lib -> consistent (twos V) V M N m -> tables32 (twos V) V M 16 m s -> (v < V)%nat ->
  exists msg', observe32 lib s (halves V) v (s3_vert s v) = Ok msg' /\ vle M (-57) msg'.
Proof.
  intros LIB C TB Hv. eexists. split.
  { unfold observe32. rewrite (t3_ri _ _ _ _ _ _ TB). rewrite !mri_get by (rewrite twos_length; lia). cbn [bind].
    rewrite !twos_first by lia. replace (2 * (v + 1) - 2 * v)%nat with 2%nat by lia. cbn [seq foldM].
    destruct (halves_nth v V Hv) as (E1 & E2). unfold get. rewrite E1. cbn [bind]. replace (Datatypes.S (2 * v)) with (2 * v + 1)%nat by lia. rewrite E2. cbn [bind]. reflexivity. }
  intros k Hk.
  destruct (t3_vert _ _ _ _ _ _ TB v k Hv Hk) as (F & B). pose proof (bp_pos (- (16 + 3))) as P19.
  destruct (t3_feat _ _ _ _ _ _ TB v (2 * v) k Hv) as (F0 & B0 & _); auto; [rewrite twos_block by auto; now left|].
  destruct (t3_feat _ _ _ _ _ _ TB v (2 * v + 1) k Hv) as (F1 & B1 & _); auto; [rewrite twos_block by auto; right; now left|].
  pose proof (t3_fsum _ _ _ _ _ _ TB v k Hv Hk) as FS. rewrite twos_block in FS by auto. unfold sumf in FS. cbn [map fold_right] in FS.
  destruct LIB as (_ & _ & PW & _).
  destruct (PW (s3_feat s (2 * v) k) 32%Z F0 B0 ltac:(lia)) as (X1 & X2 & _ & X3 & _).
  destruct (PW (s3_feat s (2 * v + 1) k) 31%Z F1 B1 ltac:(lia)) as (Y1 & Y2 & _ & Y3 & _).
  set (x := val (s3_feat s (2 * v) k)) in *. set (y := val (s3_feat s (2 * v + 1) k)) in *.
  set (px := l_pow lib (s3_feat s (2 * v) k) 32) in *. set (py := l_pow lib (s3_feat s (2 * v + 1) k) 31) in *.
  change (Z.to_nat 32) with 32%nat in X3. change (Z.to_nat 31) with 31%nat in Y3.
  assert (XY : x ^ 32 * y ^ 31 <= bp (-60)) by (apply powers_small'; lra).
  pose proof (pow_le1 x 32 ltac:(lra)) as Qx. pose proof (pow_le1 y 31 ltac:(lra)) as Qy.
  assert (PP : 0 <= val px * val py <= bp (-57)).
  { split; [apply Rmult_le_pos; tauto|].
    apply Rle_trans with ((2 * x ^ 32 + bp (-149)) * (2 * y ^ 31 + bp (-149))); [apply Rmult_le_compat; tauto|].
    assert (E : bp (-149) <= bp (-60) / 16).
    { replace (bp (-60) / 16) with (bp (-64)); [apply bpow_le; lia|]. change (-64)%Z with (-60 + -4)%Z. rewrite bpow_plus. change (bp (-4)) with (/ 16). reflexivity. }
    replace (bp (-57)) with (8 * bp (-60)) by (change 8 with (bp 3); rewrite <- bpow_plus; reflexivity).
    pose proof (bp_pos (-149)) as P149. pose proof (bp_pos (-60)) as P60.
    assert (S1 : bp (-149) <= 1) by (change 1 with (bp 0); apply bpow_le; lia).
    set (a := x ^ 32) in *. set (b := y ^ 31) in *. set (ep := bp (-149)) in *. nra. }
  assert (Bx : val px < bp 128) by (apply Rle_lt_trans with (bp 0); [cbn; lra|apply bpow_lt; lia]).
  destruct (fmul_bounds (s3_vert s v k) px 0 (val px)) as (Z1 & Z2); auto; [apply (fmt_0 24 128)|apply fmt_B2R|nra|lra|].
  assert (BB : bp (-57) < bp 128) by (apply bpow_lt; lia).
  destruct (fmul_bounds (fmul (s3_vert s v k) px) py 0 (bp (-57))) as (W1 & W2); auto; [apply (fmt_0 24 128)|apply fmtb; lia| |lra].
  split; [apply Rmult_le_pos; lra|]. apply Rle_trans with (val px * val py); [apply Rmult_le_compat_r; lra|tauto].
Qed.

Lemma marginals_underflow lib V M N m : lib_ok lib -> dot_zero (l_dot lib) -> dot_nan (l_dot lib) ->
  consistent (repeat 2%nat V) V M N m -> counts_below 16 (repeat 2%nat V) N m -> ~ within V (ts_get_edges (d_tree m)) 8 ->
  exists s, tree_server32 lib m = Ok s /\ forall junk, exists x, marginals_row32 lib s junk (concat (repeat [32; 31]%Z V)) = Ok x /\ In B754_nan x.
Proof.
  intros LIB DZ DN C CB NW. change (repeat 2%nat V) with (twos V) in *. change (concat (repeat [32; 31]%Z V)) with (halves V).
  destruct (build32 lib (twos V) V M N m 16 LIB C CB ltac:(lia)) as (s & E & TB). exists s. split; [exact E|]. intros junk.
  destruct (cm_tree _ _ _ _ _ C) as (es & T & ET). pose proof (t3_prog _ _ _ _ _ _ TB) as EP. rewrite ET in EP, NW. cbn [ts_grid] in EP.
  change (ts_get_edges (TS V (make_tree es))) with (grid_edges (make_tree es)) in NW.
  pose proof (prog_bounds V es _ T EP) as PB.
  destruct (find_center_Ok V es T) as (ctr & EC & CC). destruct (make_program_valid V es ctr T (proj1 CC)) as (prog & E1 & VP).
  assert (EQ : s3_prog s = prog).
  { unfold make_propagation_program in EP, E1. rewrite EC in EP. cbn [bind] in EP, E1. rewrite EP in E1. now inversion E1. }
  rewrite <- EQ in VP. pose proof (proj1 CC) as Hc. destruct (tree_rooted V _ ctr (make_tree_spanning _ _ T) Hc) as (par & dep & RT).
  destruct (max_exists dep (V - 1)%nat) as (k & Hk & K).
  assert (D9 : (9 <= dep k)%nat).
  { destruct (le_dec 9 (dep k)) as [D|D]; [exact D|]. exfalso. apply NW. exists ctr. split; [exact Hc|]. intros u Hu. exists (dep u).
    split; [specialize (K u ltac:(lia)); lia|]. apply (rt_dist _ _ _ _ _ RT u Hu). }
  destruct (deep_nan lib (twos V) V M N m s (halves V) LIB DZ DN C CB TB) with (edges := es) (r := ctr) (par := par) (dep := dep) (junk := junk) as (x & EX & NX); auto.
  - intros v Hv. now apply (observe_halves lib V M N m s v).
  - rewrite halves_length, twos_sum. reflexivity.
  - exists x. split; [exact EX|]. destruct (NX k (2 * k)%nat ltac:(lia) D9) as (N1 & N2); [rewrite twos_block by lia; now left|].
    rewrite <- N1. now apply nth_In.
Qed.

(** ** A case: a path of features, two classes, two rows of class 0 *)
Definition path (V : nat) : list (nat * nat) := map (fun n => (n, n + 1)%nat) (seq 0 (V - 1)).

Definition path_model (V : nat) : smodel :=
  SModel (TS V (make_tree (path V))) (make_ragged_index (repeat 2%nat V))
    (fun _ c => nth c [2; 0] 0)%Z
    (fun _ c1 c2 => nth c2 (nth c1 [[2; 0]; [0; 0]] []) 0)%Z
    (fun q c => nth c [64; 0] 0)%Z
    2 (repeat 0 (V * (V - 1) / 2)).

Lemma path_consistent V : (1 <= V)%nat -> consistent (repeat 2%nat V) V 2 2 (path_model V).
Proof.
  intros HV. assert (LE : forall v n, (v < n)%nat -> In v (seq 0 n)) by (intros; apply in_seq; lia).
  constructor; cbn [path_model d_ri d_M d_tree d_vert d_edge d_feat d_logits]; auto.
  - apply repeat_length.
  - split; [reflexivity|lia].
  - exists (path V). split; [|reflexivity]. exact (path_spanning V HV).
  - intros e v1 v2 c He Hc. apply LE in Hc. cbn [seq In] in Hc. destruct Hc as [<-|[<-|[]]]; split; reflexivity.
  - intros v c Hv Hc. apply LE in Hc. cbn [seq In] in Hc. destruct Hc as [<-|[<-|[]]]; cbn; lia.
  - intros e c1 c2 He H1 H2. apply LE in H1, H2. cbn [seq In Nat.sub] in H1, H2.
    destruct H1 as [<-|[<-|[]]], H2 as [<-|[<-|[]]]; cbn; lia.
  - intros q c Hq Hc. apply LE in Hc. cbn [seq In] in Hc. destruct Hc as [<-|[<-|[]]]; cbn; lia.
  - apply repeat_length.
Qed.

Lemma path_below V : counts_below 16 (repeat 2%nat V) 2 (path_model V).
Proof.
  assert (LE : forall v n, (v < n)%nat -> In v (seq 0 n)) by (intros; apply in_seq; lia).
  split; [reflexivity|]. intros v c Hv Hc. rewrite repeat_length in Hv. change (repeat 2%nat V) with (twos V). rewrite twos_nth, twos_block by auto.
  cbn [path_model d_M] in Hc. apply LE in Hc. cbn [seq In] in Hc. destruct Hc as [<-|[<-|[]]]; split; reflexivity.
Qed.

Lemma path_far V : (18 <= V)%nat -> ~ within V (ts_get_edges (d_tree (path_model V))) 8.
Proof.
  intros HV (c & Hc & W). cbn [path_model d_tree] in W. change (ts_get_edges (TS V (make_tree (path V)))) with (grid_edges (make_tree (path V))) in W.
  assert (G : forall u v n, walk (path V) u v n -> (u <= v + n /\ v <= u + n)%nat).
  { intros u v n H. induction H as [v|u v w n A _ IH]; [lia|].
    assert (B : (v = u + 1 \/ u = v + 1)%nat).
    { unfold path in A. destruct A as [A|A]; apply in_map_iff in A; destruct A as (k & E & _); inversion E; lia. }
    lia. }
  destruct (le_dec 9 c) as [D|D].
  - destruct (W 0%nat ltac:(lia)) as (d & Hd & WD). apply (proj1 (tree_walks _ _ _ _)) in WD. apply G in WD. lia.
  - destruct (W 17%nat ltac:(lia)) as (d & Hd & WD). apply (proj1 (tree_walks _ _ _ _)) in WD. apply G in WD. lia.
Qed.

Lemma ex_within : within 3 (ts_get_edges (d_tree ex_model)) 1.
Proof.
  exists 1%nat. split; [lia|]. intros [|[|[|u]]] Hu; [| | |lia].
  - exists 1%nat. split; [lia|]. econstructor; [|constructor]. vm_compute. auto.
  - exists 0%nat. split; [lia|constructor].
  - exists 1%nat. split; [lia|]. econstructor; [|constructor]. vm_compute. auto.
Qed.

Lemma ex_case_marginals : lib_ok lib0 /\ consistent [2; 1; 3]%nat 3 2 2 ex_model /\ counts_below 6 [2; 1; 3]%nat 2 ex_model /\
  within 3 (ts_get_edges (d_tree ex_model)) 1 /\
  (2 * (6 + 3 + (6 + 13) * 2) + 6 + 11 <= 149)%Z /\
  ((6 + 3 + (6 + 13) * 2) + 1 * (6 + 3 + (6 + 13) * 2 + 6 + 11) + 6 + 12 <= 149)%Z /\ (1 * (2 * 6 + 13) <= 90)%Z /\
  length [1; 0; 0; 1; 1; 0]%Z = list_sum [2; 1; 3]%nat /\ Forall (fun x => (0 <= x)%Z) [1; 0; 0; 1; 1; 0]%Z /\
  (forall v, (v < 3)%nat -> (block_sum [2; 1; 3]%nat [1; 0; 0; 1; 1; 0] v <= 2)%Z).
Proof.
  destruct ex_case_finite as (H1 & H2 & H3 & H4 & H5 & H6 & H7). do 3 (split; [assumption|]). split; [exact ex_within|]. do 4 (split; [assumption || lia|]). auto.
Qed.
