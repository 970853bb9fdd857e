(** Rescaling after every observation does not change what [sample] draws. *)
From Coq Require Import List Arith Lia Bool ZArith Reals Lra.
From Verif Require Import Base L_Base Spec_Graph L_Graph Spec_Sum L_Sum L_Asg M_Structure L_MakeTree L_Program Spec_Program M_Rand L_Rand M_Util Spec_Ragged L_Ragged M_Array Spec_Trees Spec_MST M_Training Spec_Stats L_Stats Spec_Joint Spec_Conditional L_AddRow M_Serving Spec_Serving L_Server L_Inward L_Logprob L_Serve1 L_Serve2 M_Float32 M_Train32 M_Serving32 M_Sample32 M_Repaired9 L_Repair7.
Import ListNotations.
Open Scope R_scope.

Lemma prel_fold_in {A S T} (Q : S -> T -> Prop) (f : S -> A -> rprog S) (g : T -> A -> rprog T) l :
  (forall s t a, In a l -> Q s t -> prel Q (f s a) (g t a)) -> forall s t, Q s t -> prel Q (rfold f l s) (rfold g l t).
Proof.
  induction l as [|a l IH]; intros H s t HQ; cbn [rfold]; [now constructor|]. eapply prel_bind; [apply H; [now left|exact HQ]|].
  intros. apply IH; auto. intros. apply H; auto. now right.
Qed.

(** Programs that only draw classes. *)
Fixpoint only_cat {A} (p : rprog A) : Prop :=
  match p with Ret _ => True | Fail _ => True | Cat _ k => forall i, only_cat (k i) | Perm _ _ => False end.

Lemma prel_eq {A} (p : rprog A) : only_cat p -> prel eq p p.
Proof.
  induction p as [a|e|w k IH|n k IH]; intros H; [now constructor|constructor| |contradiction]. apply (pr_cat _ _ _ _ _ 1); [lra| |intros; now apply IH].
  rewrite <- (map_id w) at 1. apply map_ext. intros. ring.
Qed.

Lemma only_bind {A B} (p : rprog A) (f : A -> rprog B) : only_cat p -> (forall a, only_cat (f a)) -> only_cat (rbind p f).
Proof. intros H F. induction p; cbn [rbind]; cbn in *; auto. Qed.

Lemma only_fold {A S} (f : S -> A -> rprog S) l : (forall s a, only_cat (f s a)) -> forall s, only_cat (rfold f l s).
Proof. intros F. induction l as [|a l IH]; intros s; cbn [rfold]; [exact Logic.I|]. apply only_bind; auto. Qed.

Section KEEP.
Variables (ws : list nat) (V M : nat) (edges : list (nat * nat)) (s : server) (N : nat) (counts data : list Z).
Hypothesis SF : sfacts ws V M edges s.
Hypothesis TP : forall e m m', (e < V - 1)%nat -> (m < M)%nat -> (m' < M)%nat -> 0 < sv_trans s e m m'.
Hypothesis DL : length data = list_sum ws.
Hypothesis DN : Forall (fun x => (0 <= x)%Z) data.

Let HM : (1 <= M)%nat.
Proof. apply (sf_M _ _ _ _ _ SF). Qed.

(** One observation. *)
Definition rstep (q : nat) (message : nat -> R) : nat -> R := fun m => message m * sv_feat s q m / rmax (vec M (fun m => message m * sv_feat s q m)).

Lemma iter_prop v q n f g : (v < V)%nat -> In q (block ws v) -> vpos M f -> vpos M g -> prop_to M f g ->
  vpos M (Nat.iter n (rstep q) g) /\ prop_to M (fun m => f m * sv_feat s q m ^ n) (Nat.iter n (rstep q) g).
Proof.
  intros Hv Iq Pf Pg (c & Hc & E). induction n as [|n IH].
  - split; [exact Pg|]. exists c. split; [exact Hc|]. intros m Hm. cbn. rewrite E by auto. ring.
  - destruct IH as (P & d & Hd & Ed). change (Nat.iter (Datatypes.S n) (rstep q) g) with (rstep q (Nat.iter n (rstep q) g)).
    set (h := Nat.iter n (rstep q) g) in *.
    assert (Q : vpos M (fun m => h m * sv_feat s q m)) by (intros m Hm; apply Rmult_lt_0_compat; [now apply P|apply (sf_feat _ _ _ _ _ SF v); auto]).
    pose proof (rmax_pos M HM _ Q) as TPs. unfold rstep. set (t := rmax (vec M (fun m => h m * sv_feat s q m))) in *. split.
    + intros m Hm. apply Rdiv_lt_0_compat; [exact (Q m Hm)|exact TPs].
    + exists (d / t). split; [now apply Rdiv_lt_0_compat|]. intros m Hm. rewrite (Ed m Hm). cbn [pow]. field. lra.
Qed.

Lemma fold_prop v : (v < V)%nat -> forall l f g, incl l (block ws v) -> vpos M f -> vpos M g -> prop_to M f g ->
  exists f' g', foldM (fun message r => power <- get IndexError data r ;; Ok (if (power =? 0)%Z then message else fun m => message m * powerRZ (sv_feat s r m) power)) l f = Ok f' /\
    foldM (fun message r => power <- get IndexError data r ;;
      Ok (Nat.iter (Z.to_nat power) (rstep r) message)) l g = Ok g' /\
    vpos M f' /\ vpos M g' /\ prop_to M f' g'.
Proof.
  intros Hv. induction l as [|q l IH]; intros f g IL Pf Pg PR; [exists f, g; auto|].
  assert (Iq : In q (block ws v)) by (apply IL; now left).
  assert (Q : (q < length data)%nat) by (rewrite DL; now apply (in_block_lt ws V M edges s SF v)).
  assert (NN : (0 <= nth q data 0)%Z) by (rewrite Forall_forall in DN; apply DN, nth_In, Q).
  cbn [foldM]. rewrite (get_Ok _ IndexError data q 0%Z) by exact Q. cbn [bind].
  set (n := nth q data 0%Z) in *. destruct (iter_prop v q (Z.to_nat n) f g Hv Iq Pf Pg PR) as (P1 & P2).
  assert (PW : forall m, powerRZ (sv_feat s q m) n = sv_feat s q m ^ Z.to_nat n) by (intros m; rewrite <- (Z2Nat.id n) at 1 by lia; symmetry; apply pow_powerRZ).
  apply IH; [intros k Ik; apply IL; now right| |exact P1|].
  - destruct (n =? 0)%Z; [exact Pf|]. intros m Hm. apply Rmult_lt_0_compat; [now apply Pf|]. apply powerRZ_pos. apply (sf_feat _ _ _ _ _ SF v); auto.
  - destruct P2 as (d & Hd & Ed). exists d. split; [exact Hd|]. intros m Hm. rewrite (Ed m Hm). f_equal.
    destruct (Z.eqb_spec n 0) as [E0|_]; [rewrite E0; cbn; ring|]. now rewrite PW.
Qed.

Lemma observe_prop v f g : (v < V)%nat -> vpos M f -> vpos M g -> prop_to M f g ->
  exists f' g', observe_nonzero s data v f = Ok f' /\ repaired_observe_max s data v g = Ok g' /\ vpos M f' /\ vpos M g' /\ prop_to M f' g'.
Proof.
  intros Hv Pf Pg PR. unfold observe_nonzero, repaired_observe_max. rewrite !(sri_get ws V M edges s SF) by lia. cbn [bind].
  rewrite (block_width ws V M edges s SF) by auto. rewrite (proj1 (sf_M _ _ _ _ _ SF)). apply (fold_prop v); auto. apply incl_refl.
Qed.

(** States whose messages are proportional. *)
Definition mrel (st st' : sstate) : Prop :=
  let '(f, o, vs, fs) := st in let '(f', o', vs', fs') := st' in
  vs' = vs /\ fs' = fs /\ (forall v, (v < V)%nat -> vpos M (f v) /\ vpos M (f' v) /\ prop_to M (f v) (f' v)) /\
  forall v n, (v < V)%nat -> (n < N)%nat -> vpos M (o v n) /\ vpos M (o' v n) /\ prop_to M (o v n) (o' v n).

Lemma oriented_pos e (b : bool) m m' : (e < V - 1)%nat -> (m < M)%nat -> (m' < M)%nat -> 0 < oriented s e b m m'.
Proof. intros He H1 H2. unfold oriented. destruct b; [unfold transpose|]; now apply TP. Qed.

Lemma instr_keep st st' i : mrel st st' -> prel mrel (sample_instr s N counts data st i) (repaired_sample_instr s N counts data st' i).
Proof.
  pose proof (sv_V_eq ws V M edges s SF) as EV. pose proof (sv_M_eq ws V M edges s SF) as EM.
  destruct st as [[[f o] vs] fs], st' as [[[f' o'] vs'] fs'], i as [op v v2 e]. intros (-> & -> & H & HO).
  assert (CK : forall b (X Y : rprog sstate), (b = true -> prel mrel X Y) -> prel mrel (rbind (lift (index b)) (fun _ => X)) (rbind (lift (index b)) (fun _ => Y))).
  { intros [] X Y K; cbn [index lift rbind]; [auto|constructor]. }
  destruct op; cbn [repaired_sample_instr sample_instr]; rewrite EV, ?EM; apply CK; intros Hv; apply Nat.ltb_lt in Hv; destruct (H v Hv) as (Pv & Pv' & PRv).
  - destruct (observe_prop v (f v) (f' v) Hv Pv Pv' PRv) as (a & b & Ea & Eb & Q1 & Q2 & Q3). rewrite Ea, Eb. cbn [lift rbind]. constructor.
    split; [reflexivity|]. split; [reflexivity|]. split; [|exact HO]. intros u Hu. unfold set1. destruct (u =? v)%nat; auto.
  - apply CK. intros B. apply andb_true_iff in B. destruct B as (B1 & B2). apply Nat.ltb_lt in B1, B2.
    destruct (H v2 B1) as (P2 & P2' & PR2). constructor. set (tr := oriented s e (v2 <? v)%nat).
    assert (TR : forall m m2, (m < M)%nat -> (m2 < M)%nat -> 0 < tr m m2) by (intros; now apply oriented_pos).
    assert (DP : forall g, vpos M g -> forall m, (m < M)%nat -> 0 < dot M tr g m).
    { intros g Pg m Hm. unfold dot. rewrite rsum_vec. apply sumf_pos'; [destruct M; [lia|discriminate]|]. intros m2 I2. apply in_seq in I2. assert (Hm2 : (m2 < M)%nat) by lia. apply Rmult_lt_0_compat; auto. }
    assert (Q1 : vpos M (fun m => f v m * dot M tr (f v2) m)) by (intros m Hm; apply Rmult_lt_0_compat; auto).
    assert (Q2 : vpos M (fun m => f' v m * dot M tr (f' v2) m)) by (intros m Hm; apply Rmult_lt_0_compat; auto).
    pose proof (rmax_pos M HM _ Q1) as T1. pose proof (rmax_pos M HM _ Q2) as T2.
    assert (PP : prop_to M (fun m => f v m * dot M tr (f v2) m) (fun m => f' v m * dot M tr (f' v2) m)).
    { destruct PRv as (c & Hc & E1). destruct PR2 as (d & Hd & E2). exists (c * d). split; [now apply Rmult_lt_0_compat|].
      intros m Hm. rewrite (E1 m Hm). assert (ED : dot M tr (f' v2) m = d * dot M tr (f v2) m).
      { unfold dot. rewrite !rsum_vec, <- sumf_scal. apply sumf_ext. intros m2 I2. apply in_seq in I2. rewrite (E2 m2) by lia. ring. }
      rewrite ED. ring. }
    split; [reflexivity|]. split; [reflexivity|]. split; [|exact HO]. intros u Hu. unfold set1. destruct (u =? v)%nat; [|auto].
    split; [intros m Hm; apply Rdiv_lt_0_compat; [now apply Q1|exact T1]|]. split; [intros m Hm; apply Rdiv_lt_0_compat; [now apply Q2|exact T2]|].
    exact (prop_div M _ _ _ _ T1 T2 PP).
  - constructor. split; [reflexivity|]. split; [reflexivity|]. split; [exact H|]. intros u n Hu Hn. unfold set1. destruct (u =? v)%nat; auto.
  - apply CK. intros B. apply andb_true_iff in B. destruct B as (B & B3). apply andb_true_iff in B. destruct B as (B1 & B2). apply Nat.ltb_lt in B1, B2.
    rewrite forallb_forall in B3. set (tr := oriented s e (v <? v2)%nat).
    assert (TR : forall m m2, (m < M)%nat -> (m2 < M)%nat -> 0 < tr m m2) by (intros; now apply oriented_pos).
    constructor. split; [reflexivity|]. split; [reflexivity|]. split; [exact H|]. intros u n Hu Hn. unfold set1. destruct (u =? v)%nat; [|auto].
    assert (Hz : (vs v2 n < M)%nat) by (apply Nat.ltb_lt, B3, in_seq; lia).
    assert (Q1 : vpos M (fun m => f v m * tr (vs v2 n) m)) by (intros m Hm; apply Rmult_lt_0_compat; auto).
    assert (Q2 : vpos M (fun m => f' v m * tr (vs v2 n) m)) by (intros m Hm; apply Rmult_lt_0_compat; auto).
    pose proof (rmax_pos M HM _ Q1) as T1. pose proof (rmax_pos M HM _ Q2) as T2.
    split; [intros m Hm; apply Rdiv_lt_0_compat; [now apply Q1|exact T1]|]. split; [intros m Hm; apply Rdiv_lt_0_compat; [now apply Q2|exact T2]|].
    apply (prop_div M (fun m => f v m * tr (vs v2 n) m) (fun m => f' v m * tr (vs v2 n) m) _ _ T1 T2).
    destruct PRv as (c & Hc & E1). exists c. split; [exact Hc|]. intros m Hm. rewrite (E1 m Hm). ring.
  - eapply (prel_bind eq).
    + unfold draw_classes. apply prel_fold_in; [|reflexivity]. intros vs1 vs2 n In' ->. apply in_seq in In'.
      destruct (HO v n Hv ltac:(lia)) as (_ & _ & c & Hc & E1). eapply (pr_cat _ _ _ _ _ c Hc); [apply (vec_scale M HM); exact E1|].
      intros. now constructor.
    + intros vs1 vs2 <-. destruct (get IndexError (sv_ri s) v) as [beg|]; cbn [lift rbind]; [|constructor].
      destruct (get IndexError (sv_ri s) (v + 1)) as [fin|]; cbn [lift rbind]; [|constructor].
      destruct (get IndexError counts v) as [cnt|]; cbn [lift rbind]; [|constructor]. apply CK. intros _.
      eapply (prel_bind eq); [apply prel_eq, only_fold; intros; unfold draw_cells; apply only_fold; intros; cbn; auto|]. intros fs1 fs2 <-. constructor.
      split; [reflexivity|]. split; [reflexivity|]. split; [exact H|exact HO].
Qed.

Lemma sample_keep : prel eq (sample s N counts (Some data)) (repaired_sample s N counts (Some data)).
Proof.
  unfold sample, repaired_sample. destruct (assert_ (length data =? sv_R s)%nat); cbn [lift rbind]; [|constructor].
  destruct (assert_ (length counts =? sv_V s)%nat); cbn [lift rbind]; [|constructor].
  eapply (prel_bind mrel).
  - apply prel_fold; [intros st st' i; apply instr_keep|]. split; [reflexivity|]. split; [reflexivity|].
    assert (P : forall v, (v < V)%nat -> vpos M (sv_vert s v)) by (intros v Hv m Hm; apply (sf_vert _ _ _ _ _ SF); auto).
    split; intros v; [|intros n]; intros Hv; [|intros Hn]; (split; [now apply P|split; [now apply P|apply prop_refl]]).
  - intros [[[f1 f2] f3] f4] [[[g1 g2] g3] g4] (-> & -> & _). now constructor.
Qed.
End KEEP.

Lemma repaired_sample_keeps ws V M N m mst s n counts data f : consistent ws V M N m -> mst_contract mst -> tree_server mst m = Ok s ->
  (forall d, data = Some d -> length d = list_sum ws /\ Forall (fun x => (0 <= x)%Z) d) ->
  expect (repaired_sample s n counts data) f = expect (sample s n counts data) f.
Proof.
  intros C MC E DL. symmetry. apply prel_expect.
  destruct (build_server ws V M N m C mst MC) as (s' & edges & E' & SF & _ & _ & _ & _ & _ & _ & EP). rewrite E in E'. inversion E'; subst s'.
  destruct (sf_tree _ _ _ _ _ SF) as (ET & T). rewrite ET in EP. cbn [ts_grid] in EP.
  destruct (prog_shape V edges None (sv_prog s) T ltac:(discriminate) EP) as (r & par & dep & np & RT & BL & EQ).
  assert (X : forall d, length d = list_sum ws -> Forall (fun x => (0 <= x)%Z) d -> prel eq (sample s n counts (Some d)) (repaired_sample s n counts (Some d))).
  { intros d D1 D2. apply (sample_keep ws V M edges s n counts d SF); auto. intros. eapply (trans_pos ws V M edges s SF); eauto. }
  destruct data as [d|].
  - destruct (DL d eq_refl). now apply X.
  - replace (sample s n counts None) with (sample s n counts (Some (repeat 0%Z (list_sum ws)))) by (unfold sample; now rewrite (sf_R _ _ _ _ _ SF)).
    replace (repaired_sample s n counts None) with (repaired_sample s n counts (Some (repeat 0%Z (list_sum ws)))) by (unfold repaired_sample; now rewrite (sf_R _ _ _ _ _ SF)).
    apply X; [apply repeat_length|]. apply Forall_forall. intros x Ix. apply repeat_spec in Ix. lia.
Qed.
