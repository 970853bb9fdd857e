(** TreeCatServer.sample. *)
From Coq Require Import List Arith Lia Bool ZArith Reals Lra Permutation FunctionalExtensionality.
From Verif Require Import Base L_Base Spec_Graph L_Graph Spec_Sum L_Sum M_Structure L_Pairing L_MakeTree L_Program L_ProgramValid Spec_Program L_Center L_Prop1 M_Rand L_Rand M_Util L_Quantize Spec_Ragged L_Ragged M_Array Spec_Trees Spec_MST M_Training Spec_Stats L_Stats L_Trainer Spec_Joint Spec_Conditional L_Asg L_BP L_BPVec L_AddRow M_Serving Spec_Serving L_Server L_Inward L_Logprob L_Draws.
Import ListNotations.
Open Scope R_scope.

Section Sample.
Variables (ws : list nat) (V M : nat) (edges : list (nat * nat)) (s : server).
Hypothesis SF : sfacts ws V M edges s.
Notation es := (grid_edges (make_tree edges)).
Variables (r : nat) (par dep : nat -> nat).
Hypothesis RT : rooted V es r par dep.
Variable np : list (nat * option nat * list nat).
Hypothesis BL : bfs_list V r par np.
Notation PSI := (opair edges par (sv_trans s)).
Variables (N : nat) (counts data : list Z).
Hypothesis CL : length counts = V.
Hypothesis DL : length data = list_sum ws.
Notation cnt v := (Z.to_nat (nth v counts 0%Z)).
Hypothesis CW : forall v, (v < V)%nat -> (0 < nth v counts 0%Z)%Z -> block ws v <> [].
Notation SAMP := (sample_instr s N counts data).
Notation off v := (list_sum (firstn v ws)).

Lemma samp_in mout vs fs : exists msg acc,
  rfold SAMP (concat (map (ins_of edges par) (rev np))) (sv_vert s, mout, vs, fs) = Ret (msg, mout, vs, fs) /\
  in_run M (likeli ws s data) PSI (concat (map (ins_of edges par) (rev np))) (sv_vert s, 1) (msg, acc) /\ mpos V M msg.
Proof.
  pose proof (sv_V_eq ws V M edges s SF) as EV. pose proof (sv_M_eq ws V M edges s SF) as EM. pose proof (HM ws V M edges s SF) as HM.
  destruct (pass_all ws V M edges s SF r par np BL (fun x i y => SAMP x i = Ret y) (fun st msg acc => st = (msg, mout, vs, fs)) (likeli ws s data))
    with (st0 := (sv_vert s, mout, vs, fs)) as (st & msg & acc & S1 & R1 & P1 & A1 & ->).
  - intros st msg acc v Hv MP AP ->. destruct (observe_nonzero_Ok ws V M edges s SF data v (msg v) Hv DL) as (msg' & E & H).
    exists (set1 msg v msg', mout, vs, fs), (set1 msg v msg'). split; [|split; [|split; [|reflexivity]]].
    + cbn [sample_instr]. rewrite EV. unfold index. rewrite (proj2 (Nat.ltb_lt v V)) by auto. cbn [lift rbind]. rewrite E. reflexivity.
    + constructor; [intros; rewrite set1_same; auto|intros; now apply set1_other].
    + intros w m Hw Hm. unfold set1. destruct (Nat.eqb_spec w v); auto. rewrite H. apply Rmult_lt_0_compat; [auto|]. eapply likeli_pos; eauto.
  - intros st msg acc c Hc NR MP AP ->. pose proof (par_lt _ _ _ _ _ RT c Hc) as Hp.
    set (mm := fun m => msg (par c) m * dot (sv_M s) (oriented s (eidx edges par c) (c <? par c)%nat) (msg c) m).
    assert (EMM : forall m, mm m = msg (par c) m * up M PSI msg c m) by (intros; unfold mm; now rewrite (dot_up ws V M edges s SF r par)).
    assert (PM : forall m, (m < M)%nat -> 0 < mm m).
    { intros m Hm. rewrite EMM. apply Rmult_lt_0_compat; [auto|]. eapply up_pos_msg; eauto. }
    assert (PS : 0 < rmax (vec (sv_M s) mm)).
    { rewrite EM. apply Rlt_le_trans with (mm 0%nat); [apply PM; lia|]. apply rmax_ge. unfold vec. apply in_map, in_seq. lia. }
    exists (set1 msg (par c) (fun m => mm m / rmax (vec (sv_M s) mm)), mout, vs, fs),
      (set1 msg (par c) (fun m => mm m / rmax (vec (sv_M s) mm))), (acc * rmax (vec (sv_M s) mm)).
    split; [|split; [|split; [|split; [|reflexivity]]]].
    + cbn [sample_instr]. rewrite EV. unfold index. rewrite (proj2 (Nat.ltb_lt (par c) V)), (proj2 (Nat.ltb_lt c V)) by auto.
      rewrite (proj2 (Nat.ltb_lt _ (V - 1))) by (eapply eidx_lt; eauto). reflexivity.
    + constructor; auto; [intros; rewrite set1_same; now rewrite EMM|intros; now apply set1_other].
    + intros w m Hw Hm. unfold set1. destruct (Nat.eqb_spec w (par c)); auto. apply Rdiv_lt_0_compat; auto.
    + now apply Rmult_lt_0_compat.
  - reflexivity.
  - exists msg, acc. split; [|auto]. now apply steps_rfold.
Qed.

(** ** The outward pass *)
Section Out.
Variable msg : nat -> nat -> R.
Hypothesis MP : mpos V M msg.

Definition outw (z : nat -> nat) (v m : nat) : R :=
  if (v =? r)%nat then msg r m else PSI v (z (par v)) m * msg v m.

Lemma outw_pos z v m : (forall u, (z u < M)%nat) -> (v < V)%nat -> (m < M)%nat -> 0 < outw z v m.
Proof.
  intros Hz Hv Hm. unfold outw. destruct (Nat.eqb_spec v r) as [->|]; [now apply MP|].
  apply Rmult_lt_0_compat; [eapply psi_pos; eauto|now apply MP].
Qed.

Definition classes_ok (vs : nat -> nat -> nat) : Prop := forall v n, (vs v n < M)%nat.

(** The value of what remains to be drawn for one row. *)
Fixpoint rv (fin : (nat -> Z) -> R) (l : list nat) (z : nat -> nat) (x : nat -> Z) : R :=
  match l with
  | [] => fin x
  | v :: t => sumf (seq 0 M) (fun m => outw z v m / sumf (seq 0 M) (outw z v) *
                cellstep (off v) (nth v ws 0%nat) (fun q => sv_feat s q m) (cnt v) (rv fin t (set1 z v m)) x)
  end.

(** *** One OP_DOWN *)
Lemma scaled_weights (f g : nat -> R) (G : nat -> R) a : 0 < a -> (forall m, (m < M)%nat -> f m = a * g m) -> (forall m, (m < M)%nat -> 0 < g m) ->
  sumf (seq 0 (length (vec M f))) (fun i => nth i (vec M f) 0 / rsum (vec M f) * G i) =
  sumf (seq 0 M) (fun m => g m / sumf (seq 0 M) g * G m).
Proof.
  intros Ha E P. pose proof (HM ws V M edges s SF) as HM. rewrite vec_length, rsum_vec.
  assert (ES : sumf (seq 0 M) f = a * sumf (seq 0 M) g).
  { rewrite <- sumf_scal. apply sumf_ext. intros m I. apply in_seq in I. apply E. lia. }
  assert (PS : 0 < sumf (seq 0 M) g).
  { apply sumf_pos'; [destruct M; [lia|discriminate]|]. intros m I. apply in_seq in I. apply P. lia. }
  apply sumf_ext. intros m I. apply in_seq in I. rewrite nth_vec by lia. rewrite E by lia. rewrite ES. f_equal. field. lra.
Qed.

Lemma classes_expect (W : nat -> nat -> R) v (mo : nat -> nat -> R) vs (g : nat -> (nat -> nat) -> R) G :
  (v < V)%nat -> classes_ok vs ->
  (forall n, (n < N)%nat -> exists a, 0 < a /\ forall m, (m < M)%nat -> mo n m = a * W n m) ->
  (forall n m, (n < N)%nat -> (m < M)%nat -> 0 < W n m) ->
  (forall vs', classes_ok vs' -> G (Ok vs') = prodf (seq 0 N) (fun n => g n (fun u => vs' u n))) ->
  expect (draw_classes M N mo v vs) G =
  prodf (seq 0 N) (fun n => sumf (seq 0 M) (fun m => W n m / sumf (seq 0 M) (W n) * g n (set1 (fun u => vs u n) v m))).
Proof.
  intros Hv CO HA HW HG. pose proof (HM ws V M edges s SF) as HM. unfold draw_classes.
  rewrite (prod_cat (fun n => vec M (mo n)) (fun vs n m => set2 vs v n m) (fun vs n u => vs u n) (fun n m z => set1 z v m) classes_ok)
    with (g := g) (done := []); auto.
  - unfold prodf at 1. cbn [fold_right map]. rewrite Rmult_1_l. apply prodf_ext. intros n I. apply in_seq in I.
    destruct (HA n ltac:(lia)) as (a & Ha & E). apply (scaled_weights (mo n) (W n) _ a); auto. intros. apply HW; auto; lia.
  - intros vs0 n m. apply functional_extensionality. intros u. unfold set2, set1. rewrite Nat.eqb_refl, andb_true_r. reflexivity.
  - intros vs0 n m n' Hn. apply functional_extensionality. intros u. unfold set2. apply Nat.eqb_neq in Hn. rewrite Hn, andb_false_r. reflexivity.
  - apply seq_NoDup.
  - intros n I. apply in_seq in I. split.
    + intros E. apply (f_equal (@length R)) in E. rewrite vec_length in E. simpl in E. lia.
    + rewrite rsum_vec. apply Rgt_not_eq. apply sumf_pos'; [destruct M; [lia|discriminate]|]. intros m I2. apply in_seq in I2.
      destruct (HA n ltac:(lia)) as (a & Ha & E). rewrite E by lia. apply Rmult_lt_0_compat; auto. apply HW; lia.
  - intros vs0 n m I Hm C0 u n'. rewrite vec_length in Hm. unfold set2. destruct ((u =? v)%nat && (n' =? n)%nat); auto.
  - intros vs' C'. rewrite HG by auto. unfold prodf at 2. simpl. lra.
Qed.

Lemma cells_expect v (cls : nat -> nat) (Hv : (v < V)%nat) : (forall n, (cls n < M)%nat) ->
  forall k, (0 < k)%nat \/ (k = 0)%nat -> ((0 < k)%nat -> block ws v <> []) -> forall fs (h : nat -> (nat -> Z) -> R) G b,
  (forall fs', G (Ok fs') = prodf (seq 0 N) (fun n => h n (fs' n))) ->
  expect (rfold (fun fs (_ : nat) => draw_cells s N (off v) (off (v + 1)) cls fs) (seq b k) fs) G =
  prodf (seq 0 N) (fun n => cellstep (off v) (nth v ws 0%nat) (fun q => sv_feat s q (cls n)) k (h n) (fs n)).
Proof.
  intros HC k _. induction k; intros NE fs h G b HG.
  - cbn [seq rfold expect cellstep]. apply HG.
  - cbn [seq rfold]. rewrite expect_bind. unfold draw_cells at 1.
    assert (BW : seq (off v) (off (v + 1) - off v) = block ws v) by (eapply block_width; eauto).
    assert (BN : block ws v <> []) by (apply NE; lia).
    rewrite (prod_cat (fun n => map (fun r => sv_feat s r (cls n)) (seq (off v) (off (v + 1) - off v)))
       (fun fs n i => set2 fs n (off v + i) (int8 (fs n (off v + i) + 1)))%nat (fun fs n => fs n)
       (fun n i x => set1 x (off v + i) (int8 (x (off v + i) + 1)))%nat (fun _ => True))
      with (g := fun n => cellstep (off v) (nth v ws 0%nat) (fun q => sv_feat s q (cls n)) k (h n)) (done := []); auto.
    + unfold prodf at 1. cbn [fold_right map]. rewrite Rmult_1_l. apply prodf_ext. intros n I. cbn [cellstep].
      rewrite BW, map_length. unfold rsum. rewrite sumf_map. unfold block at 1. rewrite seq_length.
      assert (SH : forall b n0 (f : nat -> R), sumf (seq b n0) f = sumf (seq 0 n0) (fun i => f (b + i)%nat)).
      { clear. intros b n0 f. revert b. induction n0; intros b; [reflexivity|]. cbn [seq]. rewrite !sumf_cons, Nat.add_0_r. f_equal.
        rewrite IHn0, <- (seq_shift n0 0), sumf_map. apply sumf_ext. intros. f_equal. lia. }
      rewrite (SH (off v)). apply sumf_ext. intros i Hi. apply in_seq in Hi. f_equal. f_equal.
      rewrite nth_indep with (d' := (fun r => sv_feat s r (cls n)) 0%nat) by (rewrite map_length; unfold block; rewrite seq_length; lia).
      rewrite (map_nth (fun r => sv_feat s r (cls n))). unfold block. rewrite seq_nth by lia. reflexivity.
    + intros st n i. apply functional_extensionality. intros q. unfold set2, set1. rewrite Nat.eqb_refl. reflexivity.
    + intros st n i n' Hn. apply functional_extensionality. intros q. unfold set2. apply Nat.eqb_neq in Hn. rewrite Hn. reflexivity.
    + apply seq_NoDup.
    + intros n I. rewrite BW. split; [destruct (block ws v); [congruence|discriminate]|].
      unfold rsum. rewrite sumf_map. apply Rgt_not_eq. apply sumf_pos'; auto. intros q Hq. eapply sf_feat; eauto.
    + intros fs' _. unfold prodf at 1. cbn [fold_right map]. rewrite Rmult_1_l. apply IHk; auto.
Qed.

Lemma down_expect v (Hv : (v < V)%nat) (W : nat -> nat -> R) mi mo vs fs (K : sstate -> rprog sstate) G (h : nat -> (nat -> nat) -> (nat -> Z) -> R) :
  classes_ok vs ->
  (forall n, (n < N)%nat -> exists a, 0 < a /\ forall m, (m < M)%nat -> mo v n m = a * W n m) ->
  (forall n m, (n < N)%nat -> (m < M)%nat -> 0 < W n m) ->
  (forall vs' fs', classes_ok vs' -> expect (K (mi, mo, vs', fs')) G = prodf (seq 0 N) (fun n => h n (fun u => vs' u n) (fs' n))) ->
  expect (rbind (SAMP (mi, mo, vs, fs) (I OP_DOWN v 0 0)) K) G =
  prodf (seq 0 N) (fun n => sumf (seq 0 M) (fun m => W n m / sumf (seq 0 M) (W n) *
    cellstep (off v) (nth v ws 0%nat) (fun q => sv_feat s q m) (cnt v) (h n (set1 (fun u => vs u n) v m)) (fs n))).
Proof.
  intros CO HA HW HK. cbn [sample_instr]. rewrite (sv_V_eq ws V M edges s SF), (sv_M_eq ws V M edges s SF).
  unfold index at 1. rewrite (proj2 (Nat.ltb_lt v V)) by auto. cbn [lift rbind]. rewrite rbind_assoc, expect_bind.
  rewrite (classes_expect W v (mo v) vs
    (fun n z => cellstep (off v) (nth v ws 0%nat) (fun q => sv_feat s q (z v)) (cnt v) (h n z) (fs n))); auto.
  - apply prodf_ext. intros n _. apply sumf_ext. intros m _. now rewrite set1_same.
  - intros vs' C'. rewrite !(sri_get ws V M edges s SF) by lia. cbn [lift rbind].
    rewrite (get_Ok _ IndexError counts v 0%Z) by lia. cbn [lift rbind]. unfold index.
    assert (FB : forallb (fun n => vs' v n <? M)%nat (seq 0 N) = true).
    { apply forallb_forall. intros n _. apply Nat.ltb_lt. apply C'. }
    rewrite FB. cbn [lift rbind]. rewrite rbind_assoc, expect_bind.
    rewrite (cells_expect v (vs' v) Hv) with (h := fun n => h n (fun u => vs' u n)); auto.
    + lia.
    + intros HC. apply CW; auto. lia.
    + intros fs'. cbn [rbind]. now apply HK.
Qed.

Lemma out_expect (fin : nat -> (nat -> Z) -> R) G : (forall mi mo vs fs, G (Ok (mi, mo, vs, fs)) = prodf (seq 0 N) (fun n => fin n (fs n))) ->
  forall l, (forall x, In x l -> good V r par x /\ ev x <> r) ->
  forall mo vs fs, classes_ok vs ->
  expect (rfold SAMP (concat (map (outs_of edges r par) l)) (msg, mo, vs, fs)) G =
  prodf (seq 0 N) (fun n => rv (fin n) (map ev l) (fun u => vs u n) (fs n)).
Proof.
  intros HG. pose proof (HM ws V M edges s SF) as HM. induction l as [|[[v p] cs] l IH]; intros GD mo vs fs CO.
  - cbn [map concat rfold expect rv]. apply HG.
  - destruct (GD _ (or_introl eq_refl)) as ((Hv & _) & NR). unfold ev in NR. cbn [fst] in NR.
    cbn [map concat]. unfold ev at 1. cbn [fst]. unfold outs_of at 1. rewrite (proj2 (Nat.eqb_neq v r)) by auto.
    pose proof (par_lt _ _ _ _ _ RT v Hv) as Hp.
    cbn [app rfold]. unfold sample_instr at 1. rewrite (sv_V_eq ws V M edges s SF), (sv_M_eq ws V M edges s SF).
    unfold index. rewrite (proj2 (Nat.ltb_lt v V)), (proj2 (Nat.ltb_lt (par v) V)) by auto.
    rewrite (proj2 (Nat.ltb_lt _ (V - 1))) by (eapply eidx_lt; eauto).
    assert (FB : forallb (fun n => vs (par v) n <? M)%nat (seq 0 N) = true).
    { apply forallb_forall. intros n _. apply Nat.ltb_lt. apply CO. }
    rewrite FB. cbn [lift rbind andb].
    set (mm := fun n m => msg v m * oriented s (eidx edges par v) (v <? par v)%nat (vs (par v) n) m).
    assert (EO : forall n m, mm n m = outw (fun u => vs u n) v m).
    { intros n m. unfold mm, outw. rewrite (proj2 (Nat.eqb_neq v r)) by auto. unfold oriented, opair. destruct (v <? par v)%nat; unfold transpose; ring. }
    assert (PO : forall n m, (m < M)%nat -> 0 < mm n m) by (intros; rewrite EO; apply outw_pos; auto).
    rewrite (down_expect v Hv (fun n m => outw (fun u => vs u n) v m) msg _ vs fs
      (fun st => rfold SAMP (concat (map (outs_of edges r par) l)) st) G (fun n z x => rv (fin n) (map ev l) z x)); auto.
    + intros n Hn. exists (/ rmax (vec M (mm n))). split.
      * apply Rinv_0_lt_compat. apply Rlt_le_trans with (mm n 0%nat); [apply PO; lia|]. apply rmax_ge. unfold vec. apply in_map, in_seq. lia.
      * intros m Hm. rewrite set1_same, <- EO. change (mm n m / rmax (vec M (mm n)) = / rmax (vec M (mm n)) * mm n m). unfold Rdiv. ring.
    + intros n m Hn Hm. apply outw_pos; auto.
    + intros vs' fs' C'. apply IH; auto. intros x Hx. apply GD. now right.
Qed.

Lemma root_out_expect (fin : nat -> (nat -> Z) -> R) G mo vs fs :
  (forall mi mo vs fs, G (Ok (mi, mo, vs, fs)) = prodf (seq 0 N) (fun n => fin n (fs n))) -> classes_ok vs ->
  expect (rfold SAMP ([I OP_ROOT r 0 0] ++ concat (map (outs_of edges r par) np)) (msg, mo, vs, fs)) G =
  prodf (seq 0 N) (fun n => rv (fin n) (order np) (fun u => vs u n) (fs n)).
Proof.
  intros HG CO. pose proof (rt_root _ _ _ _ _ RT) as Hr. pose proof (HM ws V M edges s SF) as HM.
  destruct (order_cons V edges r par dep RT np BL M HM) as ([[v p] cs] & np' & E & Er & NI). cbn [fst] in Er. subst v.
  pose proof (bl_good _ _ _ _ BL) as GD. rewrite Forall_forall in GD.
  unfold order in *. rewrite E in *. cbn [map fst concat] in *. unfold outs_of at 1. rewrite Nat.eqb_refl.
  cbn [app rfold]. unfold sample_instr at 1. rewrite (sv_V_eq ws V M edges s SF). unfold index. rewrite (proj2 (Nat.ltb_lt r V)) by auto. cbn [lift rbind].
  rewrite (down_expect r Hr (fun n m => outw (fun u => vs u n) r m) msg _ vs fs
      (fun st => rfold SAMP (concat (map (outs_of edges r par) np')) st) G (fun n z x => rv (fin n) (map ev np') z x)); auto.
  - intros n Hn. exists 1. split; [lra|]. intros m Hm. rewrite set1_same. unfold outw. rewrite Nat.eqb_refl. lra.
  - intros n m Hn Hm. apply outw_pos; auto.
  - intros vs' fs' C'. apply out_expect; auto. intros x Hx. split; [apply GD; now right|]. intros Ex. apply NI. rewrite <- Ex. apply in_map_iff. exists x. auto.
Qed.

Lemma outw_looks_back : looks_back outw (order np).
Proof.
  intros pre v post E z z' m H. unfold outw. destruct (Nat.eqb_spec v r); auto. rewrite H; auto.
  pose proof (order_first V r par np BL pre v post E n) as I.
  pose proof (order_nodup V r par np BL) as ND. rewrite E in ND. apply NoDup_app_inv in ND. destruct ND as (_ & _ & D). apply D, I.
Qed.

(** *** The value for a target row *)
Section Target.
Variable X : nat -> Z.
Hypothesis X0 : forall v q, (v < V)%nat -> In q (block ws v) -> (0 <= X q)%Z.
Hypothesis XS : forall v, (v < V)%nat -> total (block ws v) X = nth v counts 0%Z.
Hypothesis C127 : forall v, (v < V)%nat -> (nth v counts 0 <= 127)%Z.

Definition hits (x : nat -> Z) : R := prodf (seq 0 V) (fun v => hit (off v) (nth v ws 0%nat) X x).

Definition cellw (v m : nat) : R :=
  INR (fact (cnt v)) * multi (off v) (nth v ws 0%nat) (fun q => sv_feat s q m) X (fun _ => 0%Z).

Fixpoint val (l : list nat) (z : nat -> nat) : R :=
  match l with
  | [] => 1
  | v :: t => sumf (seq 0 M) (fun m => outw z v m / sumf (seq 0 M) (outw z v) * (cellw v m * val t (set1 z v m)))
  end.

Lemma block_disj u v q : (u < V)%nat -> (v < V)%nat -> u <> v -> In q (block ws u) -> ~ In q (block ws v).
Proof.
  intros Hu Hv NE I1 I2. pose proof (sf_ws _ _ _ _ _ SF) as W. unfold block in *. apply in_seq in I1, I2.
  apply NE. apply (owns_unique ws u v q); split; lia.
Qed.

Lemma hit_ext v x x' : (forall q, In q (block ws v) -> x q = x' q) -> hit (off v) (nth v ws 0%nat) X x = hit (off v) (nth v ws 0%nat) X x'.
Proof. intros H. unfold hit. apply prodf_ext. intros q Hq. rewrite H by auto. reflexivity. Qed.

Lemma rv_val l : forall done z x, Permutation (done ++ l) (seq 0 V) ->
  (forall v q, In v l -> In q (block ws v) -> x q = 0%Z) ->
  rv hits l z x = prodf done (fun v => hit (off v) (nth v ws 0%nat) X x) * val l z.
Proof.
  induction l as [|v t IH]; intros done z x PM Z0.
  - cbn [rv val]. rewrite app_nil_r in PM. unfold hits. rewrite <- (prodf_perm _ _ _ PM). lra.
  - assert (IN : forall u, In u (done ++ v :: t) -> (u < V)%nat).
    { intros u I. eapply Permutation_in in I; [|exact PM]. apply in_seq in I. lia. }
    assert (ND : NoDup (done ++ v :: t)) by (eapply Permutation_NoDup; [apply Permutation_sym, PM|apply seq_NoDup]).
    assert (Hv : (v < V)%nat) by (apply IN, in_or_app; right; now left).
    cbn [rv val]. rewrite <- sumf_scal. apply sumf_ext. intros m I.
    rewrite (cellstep_ext _ _ _ _ _ (fun x' => (prodf done (fun u => hit (off u) (nth u ws 0%nat) X x) * val t (set1 z v m)) * hit (off v) (nth v ws 0%nat) X x')).
    + rewrite cellstep_scal. rewrite cellstep_multi.
      * unfold cellw. assert (EM : multi (off v) (nth v ws 0%nat) (fun q => sv_feat s q m) X x = multi (off v) (nth v ws 0%nat) (fun q => sv_feat s q m) X (fun _ => 0%Z)).
        { unfold multi. apply prodf_ext. intros q Hq. rewrite (Z0 v q) by (auto; now left). reflexivity. }
        rewrite EM. ring.
      * intros q Hq. rewrite (Z0 v q) by (auto; now left). specialize (C127 v Hv). lia.
      * intros q Hq. rewrite (Z0 v q) by (auto; now left). apply (X0 v); auto.
      * change (seq (off v) (nth v ws 0%nat)) with (block ws v). rewrite (total_ext _ _ X).
        -- rewrite (XS v Hv). pose proof (total_nonneg (block ws v) X (fun q Hq => X0 v q Hv Hq)). rewrite (XS v Hv) in *. lia.
        -- intros q Hq. rewrite (Z0 v q) by (auto; now left). lia.
    + intros x' Hx. rewrite (IH (done ++ [v])).
      * rewrite prodf_app, prodf_cons. unfold prodf at 2. cbn [fold_right map].
        rewrite (prodf_ext done (fun u => hit (off u) (nth u ws 0%nat) X x') (fun u => hit (off u) (nth u ws 0%nat) X x)); [ring|].
        intros u Hu. apply hit_ext. intros q Hq. apply Hx. apply (block_disj u v); auto.
        -- apply IN, in_or_app. now left.
        -- intro; subst. apply NoDup_remove_2 in ND. apply ND, in_or_app. now left.
      * rewrite <- app_assoc. exact PM.
      * intros u q Hu Hq. rewrite Hx; [apply (Z0 u); auto; now right|]. apply (block_disj u v); auto.
        -- apply IN, in_or_app. right; now right.
        -- intro; subst. apply NoDup_remove_2 in ND. apply ND, in_or_app. now right.
Qed.

Lemma val_sumall l : NoDup l -> looks_back outw l -> (forall v, In v l -> (v < V)%nat) -> forall z, (forall u, (z u < M)%nat) ->
  val l z = sumall M l (fun z' => prodf l (fun v => outw z' v (z' v) / wtot M outw z' v) * prodf l (fun v => cellw v (z' v))) z.
Proof.
  clear X0 XS C127. pose proof (HM ws V M edges s SF) as HM. induction l as [|v t IH]; intros ND LB HL z Hz.
  - cbn [val sumall]. unfold prodf. simpl. lra.
  - inversion ND; subst. cbn [val sumall]. apply sumf_ext. intros m I. apply in_seq in I.
    assert (LBt : looks_back outw t).
    { intros pre u post E z1 z2 m' Hzz. apply (LB (v :: pre) u post); auto. now rewrite E. }
    rewrite IH; auto.
    2:{ intros; apply HL; now right. }
    2:{ intros u. unfold set1. destruct (Nat.eqb_spec u v); auto. lia. }
    rewrite <- Rmult_assoc, <- sumall_scal. apply sumall_ext; auto. intros z' F. rewrite !prodf_cons.
    assert (F' : fills M (v :: t) z z') by (apply (fills_cons M v t z m z'); auto; lia).
    assert (Ev : z' v = m). { destruct F as [_ F]. rewrite F by auto. apply set1_same. }
    assert (WZ : forall m', outw z v m' = outw z' v m').
    { intros m'. apply (LB [] v t eq_refl). intros u Hu. symmetry. destruct F' as (_ & F'). apply F'. exact Hu. }
    unfold wtot. rewrite Ev, WZ. rewrite (sumf_ext (seq 0 M) (outw z v) (outw z' v)) by (intros; apply WZ). ring.
Qed.
End Target.
End Out.

(** ** Equality of rows as a product of indicators *)
Lemma ind_prod {A} (l : list A) (b : A -> bool) : prodf l (fun x => if b x then 1 else 0) = if forallb b l then 1 else 0.
Proof. induction l; [reflexivity|]. rewrite prodf_cons, IHl. cbn [forallb]. destruct (b a); cbn [andb]; [lra|]. destruct (forallb b l); lra. Qed.

Lemma hits_eq X x : hits X x = if forallb (fun q => x q =? X q)%Z (seq 0 (list_sum ws)) then 1 else 0.
Proof.
  unfold hits, hit. rewrite (prodf_ext _ _ (fun v => if forallb (fun q => x q =? X q)%Z (block ws v) then 1 else 0)) by (intros; apply ind_prod).
  rewrite ind_prod. pose proof (sf_ws _ _ _ _ _ SF) as LW.
  destruct (forallb (fun q => (x q =? X q)%Z) (seq 0 (list_sum ws))) eqn:E.
  - rewrite forallb_forall in E. replace (forallb _ (seq 0 V)) with true; auto. symmetry. apply forallb_forall. intros v Hv. apply in_seq in Hv.
    apply forallb_forall. intros q Hq. apply E. apply in_seq. split; [lia|]. eapply in_block_lt; eauto. lia.
  - destruct (forallb _ (seq 0 V)) eqn:E2; auto. rewrite forallb_forall in E2. exfalso. apply not_true_iff_false in E. apply E.
    apply forallb_forall. intros q Hq. apply in_seq in Hq. destruct (proj1 (owns_exists ws q) ltac:(lia)) as (v & Hv & O).
    specialize (E2 v). rewrite forallb_forall in E2. apply E2; [apply in_seq; lia|]. unfold block. apply in_seq. lia.
Qed.

Lemma rows_eq (fs : nat -> nat -> Z) X : length X = N -> (forall x, In x X -> length x = list_sum ws) ->
  (if list_eq_dec (list_eq_dec Z.eq_dec) (map (fun n => map (fs n) (seq 0 (list_sum ws))) (seq 0 N)) X then 1 else 0) =
  prodf (seq 0 N) (fun n => hits (fun q => nth q (nth n X []) 0%Z) (fs n)).
Proof.
  intros LX LR. rewrite (prodf_ext _ _ (fun n => if forallb (fun q => fs n q =? nth q (nth n X []) 0)%Z (seq 0 (list_sum ws)) then 1 else 0)) by (intros; apply hits_eq).
  rewrite ind_prod.
  assert (IFF : map (fun n => map (fs n) (seq 0 (list_sum ws))) (seq 0 N) = X <->
    forallb (fun n => forallb (fun q => fs n q =? nth q (nth n X []) 0)%Z (seq 0 (list_sum ws))) (seq 0 N) = true).
  { rewrite forallb_forall. split.
    - intros <- n Hn. apply in_seq in Hn. apply forallb_forall. intros q Hq. apply in_seq in Hq. apply Z.eqb_eq.
      rewrite nth_indep with (d' := (fun n => map (fs n) (seq 0 (list_sum ws))) 0%nat) by (rewrite map_length, seq_length; lia).
      rewrite (map_nth (fun n => map (fs n) (seq 0 (list_sum ws)))), seq_nth by lia. cbn [Nat.add].
      rewrite nth_indep with (d' := fs n 0%nat) by (rewrite map_length, seq_length; lia). rewrite map_nth, seq_nth by lia. reflexivity.
    - intros H. apply (nth_ext _ _ [] []); [rewrite map_length, seq_length; auto|]. rewrite map_length, seq_length. intros n Hn.
      rewrite nth_indep with (d' := (fun n => map (fs n) (seq 0 (list_sum ws))) 0%nat) by (rewrite map_length, seq_length; lia).
      rewrite (map_nth (fun n => map (fs n) (seq 0 (list_sum ws)))), seq_nth by lia. cbn [Nat.add].
      assert (LN : length (nth n X []) = list_sum ws) by (apply LR, nth_In; lia).
      apply (nth_ext _ _ 0%Z 0%Z); [rewrite map_length, seq_length; auto|]. rewrite map_length, seq_length. intros q Hq.
      rewrite nth_indep with (d' := fs n 0%nat) by (rewrite map_length, seq_length; lia). rewrite map_nth, seq_nth by lia. cbn [Nat.add].
      specialize (H n ltac:(apply in_seq; lia)). rewrite forallb_forall in H. apply Z.eqb_eq. apply H. apply in_seq. lia. }
  destruct (list_eq_dec _ _ X) as [E|NE]; destruct (forallb _ (seq 0 N)) eqn:EF; auto.
  - apply IFF in E. congruence.
  - exfalso. apply NE, IFF. reflexivity.
Qed.

(** ** The law of sample *)
Lemma pow_powerRZ x n : (0 <= n)%Z -> x ^ Z.to_nat n = powerRZ x n.
Proof. intros. rewrite pow_powerRZ. f_equal. lia. Qed.

Lemma cellw_eq x v m : (v < V)%nat -> (m < M)%nat -> (forall q, In q (block ws v) -> (0 <= nth q x 0)%Z) ->
  cellw (fun q => nth q x 0%Z) v m =
  INR (fact (cnt v)) / prodf (block ws v) (fun q => INR (fact (Z.to_nat (nth q x 0%Z)))) * likeli ws s x v m.
Proof.
  intros Hv Hm P. unfold cellw, multi, likeli. change (seq (off v) (nth v ws 0%nat)) with (block ws v).
  assert (E : prodf (block ws v) (fun q => (sv_feat s q m / sumf (block ws v) (fun q => sv_feat s q m)) ^ Z.to_nat (nth q x 0 - 0)%Z / INR (fact (Z.to_nat (nth q x 0 - 0)%Z))) *
     prodf (block ws v) (fun q => INR (fact (Z.to_nat (nth q x 0%Z)))) = prodf (block ws v) (fun q => powerRZ (sv_feat s q m) (nth q x 0%Z))).
  { rewrite <- prodf_mult. apply prodf_ext. intros q Hq. rewrite Z.sub_0_r.
    assert (NE : block ws v <> []) by (intro E; rewrite E in Hq; destruct Hq).
    rewrite (sf_fsum _ _ _ _ _ SF) by auto. unfold Rdiv at 2. rewrite Rinv_1, Rmult_1_r. rewrite pow_powerRZ by auto.
    field. apply INR_fact_neq_0. }
  rewrite <- E. field. apply Rgt_not_eq. apply prodf_pos. intros. apply INR_fact_lt_0.
Qed.

Lemma merge_nth a b q : length a = length b -> nth q (merge a b) 0%Z = (nth q a 0 + nth q b 0)%Z.
Proof.
  unfold merge. revert b q. induction a as [|x a IH]; intros [|y b] q L; try discriminate; destruct q; auto.
  cbn [combine map nth]. apply IH. simpl in L. lia.
Qed.

Lemma likeli_merge x v m : length x = list_sum ws -> (v < V)%nat -> (m < M)%nat ->
  likeli ws s (merge data x) v m = likeli ws s data v m * likeli ws s x v m.
Proof.
  intros LX Hv Hm. unfold likeli. rewrite <- prodf_mult. apply prodf_ext. intros q Hq. rewrite merge_nth by congruence.
  apply powerRZ_add. apply Rgt_not_eq. apply (sf_feat _ _ _ _ _ SF v); auto.
Qed.

Lemma val_eq msg acc x : mpos V M msg -> legal_row ws counts x ->
  in_run M (likeli ws s data) PSI (concat (map (ins_of edges par) (rev np))) (sv_vert s, 1) (msg, acc) ->
  val msg (fun q => nth q x 0%Z) (order np) (fun _ => 0%nat) =
  arrangements ws counts x * (total_weight ws V M edges s (merge data x) / total_weight ws V M edges s data).
Proof.
  intros MP (LX & NX & SX) RUN. pose proof (HM ws V M edges s SF) as HM. pose proof (sf_ws _ _ _ _ _ SF) as LW.
  assert (OIN : forall v, In v (order np) -> (v < V)%nat).
  { intros v I. eapply Permutation_in in I; [|apply (order_perm V r par np BL)]. apply in_seq in I. lia. }
  rewrite val_sumall; auto; [|apply (order_nodup V r par np BL)|apply outw_looks_back].
  rewrite (sumall_ext M (order np) _ (fun z' => prodf (order np) (fun v => outw msg z' v (z' v) / wtot M (outw msg) z' v) *
     expect (Ret (prodf (order np) (fun v => cellw (fun q => nth q x 0%Z) v (z' v)))) (fun res => match res with Ok y => y | Raise _ => 0 end)))
    by (auto using (order_nodup V r par np BL)).
  assert (FP : forall z' v m, fills M (order np) (fun _ => 0%nat) z' -> In v (order np) -> (m < M)%nat -> 0 < outw msg z' v m).
  { intros z' v m F Hv Hm. apply outw_pos; auto. intros u. destruct (in_dec Nat.eq_dec u (order np)) as [Iu|Nu]; [now apply F|].
    destruct F as (_ & F). rewrite F by auto. lia. }
  rewrite <- (draw_all_expect M (outw msg) (order np) _ _ HM (order_nodup V r par np BL) (outw_looks_back msg) (fun _ => 0%nat) FP).
  rewrite (run_sample V edges r par dep RT np BL M HM (node ws s data) (sv_trans s) (node_pos ws V M edges s SF data) (trans_pos ws V M edges s SF r par dep RT)
    (likeli ws s data) (sv_vert s) (sv_vert s) msg acc ltac:(reflexivity) ltac:(auto) RUN (outw msg) _ _
    (fun zz => prodf (seq 0 V) (fun v => cellw (fun q => nth q x 0%Z) v (nth v zz 0%nat)))).
  - change (wsum V edges M (node ws s data) (sv_trans s)) with (total_weight ws V M edges s data).
    pose proof (total_weight_pos ws V M edges s SF r par dep RT data) as TP.
    assert (G : arrangements ws counts x * total_weight ws V M edges s (merge data x) =
      sumf (vectors V M) (fun zz => tree_weight V es (node ws s data) (sv_trans s) zz * prodf (seq 0 V) (fun v => cellw (fun q => nth q x 0%Z) v (nth v zz 0%nat)))).
    { unfold total_weight. rewrite <- sumf_scal. apply sumf_ext. intros z I. apply in_vectors in I. destruct I as (Lz & Bz).
      unfold tree_weight. rewrite (prodf_ext (seq 0 V) (fun v => node ws s (merge data x) v (nth v z 0%nat))
        (fun v => node ws s data v (nth v z 0%nat) * likeli ws s x v (nth v z 0%nat))).
      2:{ intros v Hv. apply in_seq in Hv. unfold node. rewrite likeli_merge; auto; [ring|lia|]. apply Bz, nth_In. lia. }
      rewrite (prodf_ext (seq 0 V) (fun v => cellw _ v (nth v z 0%nat))
        (fun v => INR (fact (cnt v)) / prodf (block ws v) (fun q => INR (fact (Z.to_nat (nth q x 0%Z)))) * likeli ws s x v (nth v z 0%nat))).
      2:{ intros v Hv. apply in_seq in Hv. apply cellw_eq; [lia|apply Bz, nth_In; lia|].
          intros q Hq. apply NX, nth_In. rewrite LX. eapply in_block_lt; eauto. lia. }
      rewrite !prodf_mult. unfold arrangements. rewrite LW. ring. }
    match goal with |- _ = ?a * (?b / ?c) => replace (a * (b / c)) with (a * b * / c) by (unfold Rdiv; ring) end. rewrite G. rewrite <- sumf_scal_r. apply sumf_ext. intros z I. unfold Rdiv. ring.
  - apply outw_looks_back.
  - intros z' v F Hv. exists 1. split; [lra|]. intros m Hm. unfold outw. lra.
  - intros z' F. cbn [expect]. rewrite (prodf_perm _ _ _ (order_perm V r par np BL)). apply prodf_ext. intros v Hv. apply in_seq in Hv.
    rewrite nth_indep with (d' := z' 0%nat) by (rewrite map_length, seq_length; lia). rewrite map_nth, seq_nth by lia. reflexivity.
Qed.

Lemma sample_law X : (forall v, (v < V)%nat -> (0 <= nth v counts 0 <= 127)%Z) -> sv_prog s = prog_of edges r par np ->
  length X = N -> (forall x, In x X -> legal_row ws counts x) ->
  prob_of (sample s N counts (Some data)) X =
  prodf X (fun x => arrangements ws counts x * (total_weight ws V M edges s (merge data x) / total_weight ws V M edges s data)).
Proof.
  intros C127 EP LX LR. unfold prob_of, prob, sample. pose proof (HM ws V M edges s SF) as HM. pose proof (sf_ws _ _ _ _ _ SF) as LW.
  rewrite (sf_R _ _ _ _ _ SF), (sv_V_eq ws V M edges s SF), DL, CL, !Nat.eqb_refl. cbn [assert_ lift rbind].
  rewrite EP. unfold prog_of. rewrite rfold_app.
  destruct (samp_in (fun v _ m => sv_vert s v m) (fun _ _ => 0%nat) (fun _ _ => 0%Z)) as (msg & acc & E & RUN & MP).
  rewrite E. cbn [rbind]. rewrite expect_bind.
  rewrite (root_out_expect msg MP (fun n => hits (fun q => nth q (nth n X []) 0%Z))).
  - assert (GN : forall (f : list Z -> R), prodf X f = prodf (seq 0 N) (fun n => f (nth n X []))).
    { intros f. rewrite <- LX. clear. induction X as [|x X IH]; [reflexivity|]. cbn [length seq]. rewrite !prodf_cons, IH, <- (seq_shift (length X) 0), prodf_map. reflexivity. }
    rewrite GN. apply prodf_ext. intros n Hn. apply in_seq in Hn.
    assert (LE : legal_row ws counts (nth n X [])) by (apply LR, nth_In; lia). pose proof LE as (L1 & L2 & L3).
    rewrite (rv_val msg (fun q => nth q (nth n X []) 0%Z)) with (done := []).
    + unfold prodf at 1. cbn [fold_right map]. rewrite Rmult_1_l. eapply val_eq; eauto.
    + intros v q Hv Hq. apply L2, nth_In. rewrite L1. eapply in_block_lt; eauto.
    + intros v Hv. apply L3. lia.
    + intros v Hv. apply C127. auto.
    + apply (order_perm V r par np BL).
    + auto.
  - intros mi mo vs fs. cbn [expect]. rewrite <- rows_eq; auto.
    + destruct (list_eq_dec _ _ X); reflexivity.
    + intros x Hx. apply LR, Hx.
  - intros v n. lia.
Qed.
End Sample.
