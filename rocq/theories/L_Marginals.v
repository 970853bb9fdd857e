(** TreeCatServer.marginals. *)
From Coq Require Import List Arith Lia Bool ZArith Reals Lra Permutation FunctionalExtensionality.
From Verif Require Import Base L_Base Spec_Graph L_Graph Spec_Sum L_Sum M_Structure L_Pairing L_MakeTree L_Program L_ProgramValid Spec_Program L_Center L_Prop1 M_Rand L_Rand M_Util Spec_Ragged L_Ragged M_Array M_Training Spec_Stats L_Stats L_Trainer Spec_Joint Spec_Conditional L_Asg L_BP L_BPVec L_AddRow M_Serving Spec_Serving L_Server L_Inward L_Logprob L_Path.
Import ListNotations.
Open Scope R_scope.

Section Marg.
Variables (ws : list nat) (V M : nat) (edges : list (nat * nat)) (s : server).
Hypothesis SF : sfacts ws V M edges s.
Notation es := (grid_edges (make_tree edges)).
Variables (r : nat) (par dep : nat -> nat).
Hypothesis RT : rooted V es r par dep.
Variable np : list (nat * option nat * list nat).
Hypothesis BL : bfs_list V r par np.
Notation PSI := (opair edges par (sv_trans s)).
Variable row : list Z.
Hypothesis RL : length row = list_sum ws.
Notation MI := (marginals_instr s row).
Notation nod := (node ws s row).
Notation off v := (list_sum (firstn v ws)).

(** ** The inward pass *)
Lemma marg_in mo res : exists msg acc mo',
  foldM MI (concat (map (ins_of edges par) (rev np))) (sv_vert s, mo, res) = Ok (msg, mo', res) /\
  in_run M (likeli ws s row) PSI (concat (map (ins_of edges par) (rev np))) (sv_vert s, 1) (msg, acc) /\ mpos V M msg.
Proof.
  pose proof (sv_V_eq ws V M edges s SF) as EV. pose proof (sv_M_eq ws V M edges s SF) as EM. pose proof (HM ws V M edges s SF) as HM.
  destruct (pass_all ws V M edges s SF r par np BL (fun x i y => MI x i = Ok y) (fun st msg acc => exists mo', st = (msg, mo', res)) (likeli ws s row))
    with (st0 := (sv_vert s, mo, res)) as (st & msg & acc & S1 & R1 & P1 & A1 & mo' & ->).
  - intros st msg acc v Hv MP AP (mo' & ->). destruct (observe_Ok ws V M edges s SF row v (msg v) Hv RL) as (msg' & E & H).
    exists (set1 msg v msg', set1 mo' v msg', res), (set1 msg v msg'). split; [|split; [|split; [|eauto]]].
    + unfold marginals_instr. rewrite EV. unfold index. rewrite (proj2 (Nat.ltb_lt v V)) by auto. cbn [bind]. rewrite E. reflexivity.
    + constructor; [intros; rewrite set1_same; auto|intros; now apply set1_other].
    + intros w m Hw Hm. unfold set1. destruct (Nat.eqb_spec w v); auto. rewrite H. apply Rmult_lt_0_compat; [auto|]. eapply likeli_pos; eauto.
  - intros st msg acc c Hc N MP AP (mo' & ->). pose proof (par_lt _ _ _ _ _ RT c Hc) as Hp.
    set (mm := fun m => msg (par c) m * dot M (oriented s (eidx edges par c) (c <? par c)%nat) (msg c) m).
    assert (EMm : forall m, mm m = msg (par c) m * up M PSI msg c m).
    { intros. unfold mm. f_equal. pose proof (dot_up ws V M edges s SF r par msg c (par c) m Hc N eq_refl) as D. rewrite EM in D. exact D. }
    assert (PM : forall m, (m < M)%nat -> 0 < mm m).
    { intros m Hm. rewrite EMm. apply Rmult_lt_0_compat; [auto|]. eapply up_pos_msg; eauto. }
    assert (PS : 0 < rmax (vec M mm)).
    { assert (I : In (rmax (vec M mm)) (vec M mm)) by (apply rmax_In; intros E; apply (f_equal (@length R)) in E; rewrite vec_length in E; simpl in E; lia).
      revert I. generalize (rmax (vec M mm)). intros t I. unfold vec in I. apply in_map_iff in I. destruct I as (m & <- & I). apply in_seq in I. apply PM. lia. }
    exists (set1 msg (par c) (fun m => mm m / rmax (vec M mm)), mo', res),
      (set1 msg (par c) (fun m => mm m / rmax (vec M mm))), (acc * rmax (vec M mm)).
    split; [|split; [|split; [|split]]].
    + unfold marginals_instr. rewrite EV, EM. unfold index. rewrite (proj2 (Nat.ltb_lt (par c) V)), (proj2 (Nat.ltb_lt c V)) by auto.
      rewrite (proj2 (Nat.ltb_lt _ (V - 1))) by (eapply eidx_lt; eauto). reflexivity.
    + constructor; auto; [intros; rewrite set1_same; now rewrite EMm|intros; now apply set1_other].
    + intros w m Hw Hm. unfold set1. destruct (Nat.eqb_spec w (par c)); auto. apply Rdiv_lt_0_compat; auto.
    + now apply Rmult_lt_0_compat.
    + eauto.
  - eauto.
  - exists msg, acc, mo'. split; [|split; auto]. apply steps_foldM. exact S1.
Qed.

Lemma foldM_app' {A S} (f : S -> A -> result S) l1 l2 x : foldM f (l1 ++ l2) x = bind (foldM f l1 x) (foldM f l2).
Proof. revert x. induction l1; intros x; [reflexivity|]. cbn [app foldM]. destruct (f x a); [apply IHl1|reflexivity]. Qed.

Lemma in_mout_kids v cs : forall mi mo res mi' mo' res',
  foldM MI (map (fun c => I OP_IN v c (eidx edges par c)) cs) (mi, mo, res) = Ok (mi', mo', res') ->
  mo' = mo /\ forall u, u <> v -> mi' u = mi u.
Proof.
  induction cs as [|c cs IH]; intros mi mo res mi' mo' res' E.
  - injection E as <- <- <-. auto.
  - cbn [map foldM] in E. unfold marginals_instr at 1 in E.
    destruct (index (v <? sv_V s)); [|discriminate]. cbn [bind] in E.
    destruct (index _); [|discriminate]. cbn [bind] in E. apply IH in E. destruct E as (-> & E). split; auto.
    intros u N. rewrite E by auto. apply set1_other. auto.
Qed.

(** During the inward pass messages_out becomes the node potentials. *)
Lemma in_mout l : (forall x, In x l -> (ev x < V)%nat) -> NoDup (map ev l) -> forall mi mo res mi' mo' res',
  (forall v, In v (map ev l) -> mi v = sv_vert s v) ->
  foldM MI (concat (map (ins_of edges par) l)) (mi, mo, res) = Ok (mi', mo', res') ->
  (forall v, In v (map ev l) -> forall m, mo' v m = nod v m) /\ (forall v, ~ In v (map ev l) -> mo' v = mo v).
Proof.
  induction l as [|[[v p] cs] l IH]; intros LT ND mi mo res mi' mo' res' H0 E.
  - injection E as <- <- <-. split; [intros v []|auto].
  - cbn [map] in ND. apply NoDup_cons_iff in ND. destruct ND as (NI & ND). change (ev (v, p, cs)) with v in *.
    assert (Hv : (v < V)%nat) by (apply (LT (v, p, cs)); now left).
    cbn [map concat] in E. unfold ins_of at 1 in E. cbn [app foldM] in E.
    unfold marginals_instr at 1 in E. unfold index in E. rewrite (sv_V_eq ws V M edges s SF) in E. rewrite (proj2 (Nat.ltb_lt v V)) in E by auto. cbn [bind] in E.
    destruct (observe_Ok ws V M edges s SF row v (mi v) Hv RL) as (msg' & EO & HO). rewrite EO in E. cbn [bind] in E.
    rewrite foldM_app' in E.
    destruct (foldM MI (map _ cs) _) as [[[mi1 mo1] res1]|] eqn:E1; [|discriminate]. cbn [bind] in E.
    apply in_mout_kids in E1. destruct E1 as (-> & K).
    apply IH in E; [|intros x Hx; apply LT; now right|auto|].
    + destruct E as (A & B). split.
      * cbn [map]. intros u [<-|I] m; [|now apply A]. change (ev (v, p, cs)) with v. rewrite (B v NI), set1_same, HO.
        rewrite H0 by (now left). reflexivity.
      * intros u NU. cbn [map] in NU. rewrite B by (intros I; apply NU; now right). apply set1_other. intros ->. apply NU. now left.
    + intros u Hu. assert (u <> v) by (intros ->; auto). rewrite K by auto. rewrite set1_other by auto. apply H0. now right.
Qed.

(** ** The outward pass *)
Variables (B : nat -> nat -> R) (a : nat -> R).
Hypothesis AP : forall v, (v < V)%nat -> 0 < a v.
Notation P v := (Pn par M PSI nod (dep v) v).

Definition mval (v q : nat) : R := sumf (seq 0 M) (fun m => sv_feat s q m * B v m * P v m).

Definition outinv (todo : list nat) (st : (nat -> nat -> R) * (nat -> nat -> R) * (nat -> R)) : Prop :=
  let '(mi, mo, res) := st in
  forall v, (v < V)%nat ->
    (In v todo -> forall m, (m < M)%nat -> mi v m = a v * B v m /\ mo v m = nod v m) /\
    (~ In v todo -> (forall m, (m < M)%nat -> mo v m = nod v m * P v m) /\
       forall q, In q (block ws v) -> res q = mval v q / sumf (block ws v) (mval v)).

Lemma block_once u v q : (u < V)%nat -> (v < V)%nat -> In q (block ws u) -> In q (block ws v) -> u = v.
Proof.
  intros Hu Hv I1 I2. pose proof (sf_ws _ _ _ _ _ SF) as W. unfold block in *. apply in_seq in I1, I2.
  apply (owns_unique ws u v q); split; lia.
Qed.

Lemma down_step v todo mi mo res : (v < V)%nat -> ~ In v todo ->
  (forall m, (m < M)%nat -> mi v m = a v * B v m * P v m) ->
  (forall m, (m < M)%nat -> mo v m = nod v m * P v m) ->
  (forall u, (u < V)%nat -> u <> v ->
    (In u todo -> forall m, (m < M)%nat -> mi u m = a u * B u m /\ mo u m = nod u m) /\
    (~ In u todo -> (forall m, (m < M)%nat -> mo u m = nod u m * P u m) /\
       forall q, In q (block ws u) -> res q = mval u q / sumf (block ws u) (mval u))) ->
  exists res', MI (mi, mo, res) (I OP_DOWN v 0 0) = Ok (mi, mo, res') /\ outinv todo (mi, mo, res').
Proof.
  intros Hv NI MIv MOv OTH. pose proof (AP v Hv) as Av.
  unfold marginals_instr. rewrite (sv_V_eq ws V M edges s SF), (sv_M_eq ws V M edges s SF). unfold index. rewrite (proj2 (Nat.ltb_lt v V)) by auto. cbn [bind].
  rewrite !(sri_get ws V M edges s SF) by lia. cbn [bind]. rewrite (block_width ws V M edges s SF) by auto.
  eexists. split; [reflexivity|].
  assert (INB : forall q, ((off v <=? q) && (q <? off (v + 1)) = true)%nat <-> In q (block ws v)).
  { intros q. pose proof (block_width ws V M edges s SF v Hv) as BW. rewrite <- BW, in_seq, andb_true_iff, Nat.leb_le, Nat.ltb_lt. lia. }
  assert (MV : forall q, rsum (vec M (fun m => sv_feat s q m * mi v m)) = a v * mval v q).
  { intros q. rewrite rsum_vec. unfold mval. rewrite <- sumf_scal. apply sumf_ext. intros m I. apply in_seq in I. rewrite MIv by lia. ring. }
  intros u Hu. destruct (Nat.eq_dec u v) as [->|NE].
  - split; [contradiction|]. intros _. split; [auto|]. intros q Hq. rewrite (proj2 (INB q) Hq). rewrite MV.
    unfold rsum at 1. rewrite sumf_map. rewrite (sumf_ext _ _ (fun q => a v * mval v q)) by (intros; apply MV). rewrite sumf_scal.
    unfold Rdiv. rewrite Rinv_mult. generalize (/ sumf (block ws v) (mval v)). intros t.
    transitivity (a v * / a v * (mval v q * t)); [ring|]. rewrite Rinv_r by lra. ring.
  - destruct (OTH u Hu NE) as (T & D). split; [exact T|]. intros NU. destruct (D NU) as (D1 & D2). split; [exact D1|].
    intros q Hq. destruct ((off v <=? q) && (q <? off (v + 1)))%nat eqn:EB; [|now apply D2].
    exfalso. apply NE. apply (block_once u v q); auto. now apply INB.
Qed.

Lemma P_root m : P r m = 1.
Proof. now rewrite (rt_dep _ _ _ _ _ RT). Qed.

Lemma from_parent v mo m : (v < V)%nat -> v <> r ->
  dot M (oriented s (eidx edges par v) (par v <? v)%nat) mo m = sumf (seq 0 M) (fun mp => PSI v mp m * mo mp).
Proof.
  intros Hv N. unfold dot. rewrite rsum_vec. apply sumf_ext. intros mp _. f_equal.
  pose proof (par_neq _ _ _ _ _ RT v Hv N). unfold oriented, opair.
  destruct (Nat.ltb_spec (par v) v), (Nat.ltb_spec v (par v)); try lia; reflexivity.
Qed.

Lemma out_steps l : (forall x, In x l -> (ev x < V)%nat) -> NoDup (map ev l) ->
  (forall pre v post, map ev l = pre ++ v :: post -> v <> r -> ~ In (par v) (v :: post)) ->
  forall st, outinv (map ev l) st -> exists st', foldM MI (concat (map (outs_of edges r par) l)) st = Ok st' /\ outinv [] st'.
Proof.
  induction l as [|[[v p] cs] l IH]; intros LT ND PF [[mi mo] res] OI.
  - eexists. split; [reflexivity|]. exact OI.
  - cbn [map] in ND, OI. apply NoDup_cons_iff in ND. destruct ND as (NI & ND).
    assert (PFv := PF [] v (map ev l) eq_refl).
    assert (Hv : (v < V)%nat) by (apply (LT (v, p, cs)); now left).
    assert (IH' : forall st, outinv (map ev l) st -> exists st', foldM MI (concat (map (outs_of edges r par) l)) st = Ok st' /\ outinv [] st').
    { apply IH; auto.
      - intros x Hx. apply LT. now right.
      - intros pre u post E. apply (PF (v :: pre) u post). cbn [map app]. change (ev (v, p, cs)) with v. now rewrite E. }
    change (ev (v, p, cs)) with v in *. destruct (OI v Hv) as (T & _). specialize (T (or_introl eq_refl)).
    assert (OTH : forall mi' mo', (forall u, u <> v -> mi' u = mi u /\ mo' u = mo u) -> forall u, (u < V)%nat -> u <> v ->
      (In u (map ev l) -> forall m, (m < M)%nat -> mi' u m = a u * B u m /\ mo' u m = nod u m) /\
      (~ In u (map ev l) -> (forall m, (m < M)%nat -> mo' u m = nod u m * P u m) /\
         forall q, In q (block ws u) -> res q = mval u q / sumf (block ws u) (mval u))).
    { intros mi' mo' E u Hu N. destruct (E u N) as (-> & ->). destruct (OI u Hu) as (A & C). split.
      - intros I. apply A. now right.
      - intros NU. apply C. intros [E1|I]; [congruence|auto]. }
    cbn [map concat]. unfold outs_of at 1. destruct (Nat.eqb_spec v r) as [->|NR].
    + cbn [app foldM].
      destruct (down_step r (map ev l) mi mo res Hv NI) as (res' & E & O).
      * intros m Hm. rewrite P_root, (proj1 (T m Hm)). ring.
      * intros m Hm. rewrite P_root, (proj2 (T m Hm)). ring.
      * apply (OTH mi mo). auto.
      * rewrite E. cbn [bind]. apply IH'. exact O.
    + pose proof (par_lt _ _ _ _ _ RT v Hv) as Hp.
      cbn [app foldM]. unfold marginals_instr at 1. unfold index. rewrite (sv_V_eq ws V M edges s SF), (sv_M_eq ws V M edges s SF).
      rewrite (proj2 (Nat.ltb_lt v V)), (proj2 (Nat.ltb_lt (par v) V)) by auto.
      rewrite (proj2 (Nat.ltb_lt _ (V - 1))) by (eapply eidx_lt; eauto). cbn [bind andb].
      assert (FP : forall m, dot M (oriented s (eidx edges par v) (par v <? v)%nat) (mo (par v)) m = P v m).
      { intros m. rewrite from_parent by auto. rewrite (par_dep _ _ _ _ _ RT v Hv NR). cbn [Pn]. apply sumf_ext. intros mp I. apply in_seq in I. f_equal.
        destruct (OI (par v) Hp) as (_ & D). destruct (D (PFv NR)) as (D1 & _). apply D1. lia. }
      match goal with |- context[MI (?x, ?y, res) (I OP_DOWN v 0 0)] => destruct (down_step v (map ev l) x y res Hv NI) as (res' & E & O) end.
      * intros m Hm. rewrite set1_same, FP, (proj1 (T m Hm)). ring.
      * intros m Hm. rewrite set1_same, FP, (proj2 (T m Hm)). ring.
      * apply OTH. intros u N. rewrite !set1_other by auto. auto.
      * rewrite E. cbn [bind]. apply IH'. exact O.
Qed.
End Marg.
